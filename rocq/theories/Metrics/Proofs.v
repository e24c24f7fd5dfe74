From Coq Require Import List ZArith Bool Arith Lia.
From Verif.Metrics Require Import Model.
Import ListNotations.

(** the metrics that were accepted, in order *)
Fixpoint accepted (acts : list action) (os : list out) : list metric :=
  match acts, os with
  | AEmit m :: acts', ODone :: os' => m :: accepted acts' os'
  | ACommit m :: acts', ODone :: os' => m :: accepted acts' os'
  | _ :: acts', _ :: os' => accepted acts' os'
  | _, _ => []
  end.
Lemma fifo acts : forall s os s', run s acts = Some (os, s') -> length (buf s) <= capacity ->
  handled s' ++ map handle (buf s') = handled s ++ map handle (buf s) ++ map handle (accepted acts os) /\ length (buf s') <= capacity.
Proof.
  induction acts as [|a acts IH]; intros s os s' R L; cbn [run] in R.
  - injection R as <- <-. cbn. rewrite app_nil_r. auto.
  - destruct (step s a) as [[o s1]|] eqn:E; [|discriminate]. destruct (run s1 acts) as [[os1 s2]|] eqn:R1; [|discriminate].
    injection R as <- <-. specialize (IH s1 os1 s2 R1). destruct a as [m|m| | |]; cbn [step] in E.
    + destruct (closed s); [injection E as <- <-; cbn [accepted]; auto|].
      destruct (Nat.ltb_spec (length (buf s)) capacity); injection E as <- <-; [|cbn [accepted]; auto].
      cbn [accepted]. destruct IH as (A & B); [cbn [buf]; rewrite app_length; cbn; lia|]. split; auto. rewrite A. cbn [handled buf].
      rewrite map_app, <- !app_assoc. reflexivity.
    + destruct (closed s); [injection E as <- <-; cbn [accepted]; auto|].
      destruct (Nat.ltb_spec (length (buf s)) capacity); injection E as <- <-; [|cbn [accepted]; auto].
      cbn [accepted]. destruct IH as (A & B); [cbn [buf]; rewrite app_length; cbn; lia|]. split; auto. rewrite A. cbn [handled buf].
      rewrite map_app, <- !app_assoc. reflexivity.
    + destruct (closed s); [discriminate|]. destruct (buf s) as [|m b] eqn:Eb; [discriminate|]. injection E as <- <-.
      cbn [accepted]. destruct IH as (A & B); [cbn in *; lia|]. split; auto. rewrite A. cbn [handled buf map]. rewrite <- !app_assoc. reflexivity.
    + injection E as <- <-. cbn [accepted]. apply IH. exact L.
    + destruct (halted s && negb (closed s)); [|discriminate]. injection E as <- <-. cbn [accepted]. apply IH. exact L.
Qed.

Lemma emit_free s m : closed s = false -> exists o s', step s (AEmit m) = Some (o, s') /\ (o = ODone \/ o = ODropped) /\
  (o = ODropped -> s' = s /\ length (buf s) >= capacity).
Proof.
  intros C. cbn [step]. rewrite C. destruct (Nat.ltb_spec (length (buf s)) capacity).
  - do 2 eexists. split; [reflexivity|]. split; auto. discriminate.
  - do 2 eexists. split; [reflexivity|]. auto.
Qed.
Lemma not_closed acts : forall s os s', ~ In AClose acts -> closed s = false -> run s acts = Some (os, s') -> closed s' = false.
Proof.
  induction acts as [|a acts IH]; intros s os s' N C R; cbn [run] in R; [injection R as <- <-; auto|].
  destruct (step s a) as [[o s1]|] eqn:E; [|discriminate]. destruct (run s1 acts) as [[os1 s2]|] eqn:R1; [|discriminate]. injection R as <- <-.
  apply (IH s1 os1 s2); auto; [cbn in N; tauto|]. cbn in N. destruct a as [m|m| | |]; cbn [step] in E.
  - rewrite C in E. destruct (length (buf s) <? capacity); injection E as <- <-; auto.
  - rewrite C in E. destruct (length (buf s) <? capacity); injection E as <- <-; auto.
  - rewrite C in E. destruct (buf s); [discriminate|]. injection E as <- <-. auto.
  - injection E as <- <-. auto.
  - tauto.
Qed.
