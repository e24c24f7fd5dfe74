From Coq Require Import List ZArith Arith Lia.
From Verif.ItemQueue Require Import Model.
Import ListNotations.
Open Scope nat_scope.

Section Q.
Context {T : Type}.
Implicit Types (q : queue T) (s : st T).

(** what is queued, oldest first *)
Definition contents q : list T := match head q with Some x => [x] | None => [] end ++ chan q.

Lemma backfill_contents q : head q = None -> contents (snd (backfill q)) = contents q /\ size (snd (backfill q)) = size q /\ chcap (snd (backfill q)) = chcap q /\
  (fst (backfill q) = true <-> exists x, head (snd (backfill q)) = Some x) /\ (fst (backfill q) = false <-> contents q = []).
Proof.
  unfold backfill, contents. intros ->. destruct (chan q) as [|x c] eqn:E; cbn; rewrite ?E; intuition; try congruence; eauto.
  destruct H as (? & ?); congruence.
Qed.
Lemma chanSend_contents q x q' : chanSend q x = Some q' ->
  contents q' = contents q ++ [x] /\ size q' = size q /\ head q' = head q /\ chcap q' = chcap q /\ length (chan q) < chcap q /\ length (chan q') <= chcap q.
Proof.
  unfold chanSend. destruct (Nat.ltb_spec (length (chan q)) (chcap q)); [|discriminate]. intros [= <-]. unfold contents. cbn.
  rewrite app_assoc, app_length. cbn. repeat split; auto; lia.
Qed.
Definition full_size q : nat := S (chcap q).
Lemma try_contents q x b q' : 0 < chcap q -> length (chan q) <= chcap q -> tryEnqueue q x = (b, q') ->
  contents q' = (if b then contents q ++ [x] else contents q) /\ size q' = (size q + 1)%Z /\ chcap q' = chcap q /\ length (chan q') <= chcap q /\
  (b = false <-> length (contents q) = full_size q) /\ (exists y, head q' = Some y).
Proof.
  intros Cp L. unfold tryEnqueue. cbn [head size chan chcap]. destruct (head q) as [h|] eqn:Eh.
  - unfold chanSend. cbn [chan chcap head size]. destruct (Nat.ltb_spec (length (chan q)) (chcap q)); intros [= <- <-];
      unfold contents, full_size; cbn [chan chcap head size]; rewrite Eh; cbn [app length]; rewrite ?app_length; cbn [length];
      repeat split; eauto; try discriminate; try lia.
  - unfold backfill. cbn [chan]. destruct (chan q) as [|y c] eqn:Ec.
    + intros [= <- <-]. unfold contents, full_size. cbn. rewrite Eh, Ec. cbn. repeat split; eauto; try discriminate; lia.
    + unfold chanSend. cbn [chan chcap head size]. cbn [length] in L. destruct (Nat.ltb_spec (length c) (chcap q)); [|lia].
      intros [= <- <-]. unfold contents, full_size. cbn. rewrite Eh, Ec. cbn. rewrite app_length. cbn. repeat split; eauto; try discriminate; lia.
Qed.
Lemma dequeue_contents q r q' : dequeue q = (r, q') ->
  match r with Some x => contents q = x :: contents q' /\ size q' = (size q - 1)%Z | None => contents q = [] /\ contents q' = [] /\ size q' = size q end /\
  chcap q' = chcap q /\ length (chan q') <= length (chan q) /\ (head q' = None -> chan q' = []).
Proof.
  unfold dequeue, backfill, contents. destruct (head q) as [h|] eqn:Eh.
  - cbn. destruct (chan q) as [|y c]; intros [= <- <-]; cbn; rewrite ?Eh; cbn; repeat split; auto; try lia; discriminate.
  - destruct (chan q) as [|y c] eqn:Ec; cbn.
    + intros [= <- <-]. cbn. repeat split; auto; lia.
    + destruct c; intros [= <- <-]; cbn; repeat split; auto; try lia; discriminate.
Qed.
Lemma peek_contents q x : peek q = Some x -> hd_error (contents q) = Some x.
Proof. unfold peek, contents. intros ->. reflexivity. Qed.

Record inv (m : nat) s : Prop := {
  i_cap : chcap (q s) = Nat.max 2 m - 1; i_len : length (chan (q s)) <= chcap (q s);
  i_order : entered s = left s ++ contents (q s); i_size : size (q s) = Z.of_nat (length (contents (q s)) + length (waiting s)) }.
Lemma start_inv m : inv m (start m).
Proof.
  unfold start, newQueue, minWorkItemQueueSize. split; cbn [q chcap chan entered left size waiting]; auto; [|cbn; lia].
  destruct (Nat.ltb_spec m 2); lia.
Qed.
Lemma remove_len (l : list T) : forall i x, nth_error l i = Some x -> S (length (remove i l)) = length l.
Proof.
  unfold remove. intros i x H. assert (i < length l) by (apply nth_error_Some; congruence).
  rewrite app_length, firstn_length, skipn_length. lia.
Qed.
Lemma step_inv m s o r s' : inv m s -> step s o = Some (r, s') -> inv m s'.
Proof.
  intros [C L O Z]. destruct o as [x|i| | |]; cbn [step].
  - destruct (tryEnqueue (q s) x) as [b q'] eqn:E. apply try_contents in E as (A & B & D & F & G & _); [|lia|auto]. intros [= <- <-].
    destruct b; split; cbn [q waiting entered left]; try congruence; try lia; rewrite ?A, ?B, ?O, ?app_assoc; auto; rewrite !app_length in *; cbn [length] in *; lia.
  - destruct (nth_error (waiting s) i) as [x|] eqn:N; [|discriminate]. destruct (chanSend (q s) x) as [q'|] eqn:E; [|discriminate]. intros [= <- <-].
    apply chanSend_contents in E as (A & B & D & F & G & H). pose proof (remove_len _ _ _ N).
    split; cbn [q waiting entered left]; try congruence; try lia; rewrite ?A, ?B, ?O, ?app_assoc; auto; rewrite !app_length in *; cbn [length] in *; lia.
  - destruct (dequeue (q s)) as [r1 q'] eqn:E. apply dequeue_contents in E as (A & B & D & _). intros [= <- <-]. destruct r1 as [x|].
    + destruct A as (A & A'). split; cbn [q waiting entered left]; try lia; [rewrite O, A, <- app_assoc; auto|]. rewrite A in *. cbn [length] in *. lia.
    + destruct A as (A & A' & A''). split; cbn [q waiting entered left]; try lia; [rewrite O, A, A', <- app_assoc; auto|]. rewrite A', A'', A in *. auto.
  - intros [= <- <-]. split; auto.
  - intros [= <- <-]. split; auto.
Qed.
Lemma run_inv m os : forall s rs s', inv m s -> run s os = Some (rs, s') -> inv m s'.
Proof.
  induction os as [|o os IH]; intros s rs s' I E; cbn [run] in E; [congruence|].
  destruct (step s o) as [[r s1]|] eqn:E1; [|discriminate]. destruct (run s1 os) as [[rs1 s2]|] eqn:E2; [|discriminate]. injection E as <- <-.
  eauto using step_inv.
Qed.

Lemma fifo m os rs s : run (start m) os = Some (rs, s) ->
  entered s = left s ++ contents (q s) /\ length (contents (q s)) <= Nat.max 2 m /\ (done (q s) = true <-> contents (q s) = [] /\ waiting s = []).
Proof.
  intros R. destruct (run_inv _ _ _ _ _ (start_inv m) R) as [C L O Z]. split; auto. split.
  - unfold contents. rewrite app_length. destruct (head (q s)); cbn [length]; lia.
  - unfold done. rewrite Z.leb_le, Z. split.
    + intros H. destruct (contents (q s)); [|cbn in H; lia]. destruct (waiting s); [auto|cbn in H; lia].
    + intros (A & B). rewrite A, B. cbn. lia.
Qed.
(** answers, in every reachable state *)
Lemma step_answers m os rs s o r s' : run (start m) os = Some (rs, s) -> step s o = Some (r, s') ->
  match o with
  | OEnqueue x => r = RBool (negb (Nat.eqb (length (contents (q s))) (Nat.max 2 m)))
  | ODequeue => r = RItem (hd_error (contents (q s)))
  | OPeek => exists p, r = RItem p /\ (p <> None -> p = hd_error (contents (q s)))
  | ODone => exists b, r = RBool b /\ (b = true <-> contents (q s) = [] /\ waiting s = [])
  | OSend i => exists x, nth_error (waiting s) i = Some x /\ entered s' = entered s ++ [x]
  end.
Proof.
  intros R. pose proof (run_inv _ _ _ _ _ (start_inv m) R) as [C L O Z]. destruct o as [x|i| | |]; cbn [step].
  - destruct (tryEnqueue (q s) x) as [b q'] eqn:E. apply try_contents in E as (A & B & D & F & G & _); [|lia|auto]. intros [= <- <-]. f_equal.
    unfold full_size in G. destruct b; destruct (Nat.eqb_spec (length (contents (q s))) (Nat.max 2 m)) as [Q|Q]; auto; exfalso.
    + destruct G as (_ & G). assert (true = false) by (apply G; lia). discriminate.
    + destruct G as (G & _). specialize (G eq_refl). lia.
  - destruct (nth_error (waiting s) i) as [x|] eqn:N; [|discriminate]. destruct (chanSend (q s) x) as [q'|] eqn:E; [|discriminate]. intros [= <- <-]. eauto.
  - destruct (dequeue (q s)) as [r1 q'] eqn:E. apply dequeue_contents in E as (A & _). intros [= <- <-]. f_equal. destruct r1; destruct A as (A & _); rewrite A; auto.
  - intros [= <- <-]. eexists. split; eauto. destruct (peek (q s)) eqn:P; [|congruence]. intros _. symmetry. apply peek_contents. auto.
  - intros [= <- <-]. eexists. split; eauto. exact (proj2 (proj2 (fifo _ _ _ _ R))).
Qed.
(** peek may miss an item only after a refused enqueue *)
Lemma peek_sees os : forall m rs s, run (start m) os = Some (rs, s) -> (forall i, ~ In (OSend i) os) -> peek (q s) = hd_error (contents (q s)).
Proof.
  intros m rs s R N. assert (G : forall os s0 rs s', run s0 os = Some (rs, s') -> inv m s0 -> (forall i, ~ In (OSend i) os) ->
    (head (q s0) = None -> chan (q s0) = []) -> head (q s') = None -> chan (q s') = []).
  { clear. induction os as [|o os IH]; intros s0 rs s' E I N H; cbn [run] in E; [injection E as <- <-; auto|].
    destruct (step s0 o) as [[r s1]|] eqn:E1; [|discriminate]. destruct (run s1 os) as [[rs1 s2]|] eqn:E2; [|discriminate]. injection E as <- <-.
    apply (IH s1 rs1 s2 E2); [eauto using step_inv|intros i Hi; apply (N i); cbn; auto|].
    destruct I as [C L O Z]. destruct o as [x|i| | |]; cbn [step] in E1.
    - destruct (tryEnqueue (q s0) x) as [b q'] eqn:E. apply try_contents in E as (_ & _ & _ & _ & _ & y & Y); [|lia|auto].
      injection E1 as <- <-. destruct b; cbn; congruence.
    - exfalso. apply (N i). cbn. auto.
    - destruct (dequeue (q s0)) as [r1 q'] eqn:E. apply dequeue_contents in E as (_ & _ & _ & A). injection E1 as <- <-. exact A.
    - injection E1 as <- <-. auto.
    - injection E1 as <- <-. auto. }
  unfold peek, contents. destruct (head (q s)) eqn:E; [reflexivity|].
  rewrite (G _ _ _ _ R (start_inv m) N (fun _ => eq_refl) E). reflexivity.
Qed.
End Q.
