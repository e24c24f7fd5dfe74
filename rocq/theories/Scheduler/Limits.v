(** Limits, and order per key and caller. *)
From stdpp Require Import prelude list.
From Coq Require Import ZArith.
From Verif.ItemQueue Require Model Proofs.
From Verif.Scheduler Require Import Model Base Inv Step Order Live Progress.
Import ItemQueue.Model(size, head, chan).

(** all key limits and queue depths ever set *)
Definition within (M D : nat) (a : action) : Prop := match a with ASetMax n => n <= M | ASetDepth n => n <= D | _ => True end.
Record lim (M D : nat) (s : st) : Prop := {
  m_keys : length (wmap s) <= M; m_max : maxk s <= M; m_dep : depth s <= D; m_w : forall w o, ws s !! w = Some o -> wcap o <= D }.
Lemma lim_ins M D s w o q k : lim M D s -> ws s !! w = Some o -> forall w' o', <[w := mkW k (wcap o) q]> (ws s) !! w' = Some o' -> wcap o' <= D.
Proof. intros L E w' o' H. apply list_lookup_insert_Some in H as [(_ & <- & _)|(_ & H)]; [apply (m_w _ _ s L w o E)|eapply m_w; eauto]. Qed.
Lemma lim_same M D s s' : lim M D s -> wmap s' = wmap s -> maxk s' = maxk s -> depth s' = depth s -> ws s' = ws s -> lim M D s'.
Proof. intros [A B C E] E1 E2 E3 E4. split; rewrite ?E1, ?E2, ?E3, ?E4; auto. Qed.
Lemma mdelete_le k m : length (mdelete k m) <= length m.
Proof. induction m as [|[k' w'] m IH]; cbn; auto. case_decide; cbn; lia. Qed.
Lemma step_lim M D s a s' : lim M D s -> within M D a -> step s a = Some s' -> lim M D s'.
Proof.
  intros L W H. destruct a as [c j|c src|c|c|c|c|c|g|g|g|g|g|g|g|g|g|g|n|n|]; cbn [step] in H;
    try (destruct (callers s !! c) as [[]|] eqn:E; try discriminate); try (destruct (gs s !! g) as [[]|] eqn:E; try discriminate).
  - destruct (jcaller j =? c); [|discriminate]. destruct (closed s); injection H as <-; apply (lim_same M D s); auto.
  - apply grab_cases in H as [(_ & _ & ->)|(w & b & s1 & P & H)]; [apply (lim_same M D s); auto|].
    assert (L1 : lim M D s1).
    { destruct P as [w E1|E1 L1|i w o E1 L1 Ep Ew Ed]; auto.
      - split; ss; try apply L; [cbn; pose proof (m_max M D s L); lia|]. intros w o Hw. apply lookup_app_Some in Hw as [Hw|(_ & Hw)]; [eapply m_w; eauto|].
        apply list_lookup_singleton_Some in Hw as (_ & <-). apply L.
      - split; ss; try apply L; [cbn; pose proof (m_max M D s L); lia|]. eapply lim_ins; eauto. }
    apply addTo_same in H as (o & added & q & Ew & _ & ->). split; ss; try apply L1. eapply lim_ins; eauto.
  - destruct (signal s); [|discriminate]. injection H as <-. apply (lim_same M D s); auto.
  - destruct (ws s !! w) as [o|] eqn:Ew; [|discriminate]. destruct (ItemQueue.Model.chanSend (wq o) j); [|discriminate]. injection H as <-. split; ss; try apply L. eapply lim_ins; eauto.
  - destruct (closed s); [|discriminate]. injection H as <-. apply (lim_same M D s); auto.
  - destruct (sendWorker w s) as [s1|] eqn:Es; [|discriminate]. injection H as <-. apply send_same in Es as (x & ->). apply (lim_same M D s); auto.
  - destruct (comps s c); [discriminate|]. injection H as <-. apply (lim_same M D s); auto.
  - injection H as <-. apply (lim_same M D s); auto.
  - destruct (chans s !! ch) as [[|w l]|]; try discriminate; [destruct (ch =? current s); [discriminate|]|]; injection H as <-; apply (lim_same M D s); auto.
  - destruct (closed s); [injection H as <-; apply (lim_same M D s); auto|]. destruct (ws s !! w) as [o|]; [|discriminate]. destruct (ItemQueue.Model.peek (wq o)); injection H as <-; apply (lim_same M D s); auto.
  - injection H as <-. apply (lim_same M D s); auto.
  - destruct (ws s !! w) as [o|] eqn:Ew; [|discriminate]. injection H as <-. split; ss; try apply L. eapply lim_ins; eauto.
  - destruct (_ <? _); [|discriminate]. injection H as <-. apply (lim_same M D s); auto.
  - destruct (ws s !! w) as [o|] eqn:Ew; [|discriminate]. destruct (ItemQueue.Model.done (wq o)); injection H as <-; [|apply (lim_same M D s); auto].
    split; ss; try apply L; [|eapply lim_ins; eauto]. pose proof (mdelete_le (wkey o) (wmap s)). pose proof (m_keys M D s L). lia.
  - injection H as <-. destruct (closed s); apply (lim_same M D s); auto.
  - destruct (sendWorker w s) as [s1|] eqn:Es; [|discriminate]. injection H as <-. apply send_same in Es as (x & ->). apply (lim_same M D s); auto.
  - destruct (closed s); [|discriminate]. injection H as <-. apply (lim_same M D s); auto.
  - injection H as <-. unfold setMax. destruct (maxk s <? n); [destruct (chans s !! current s)|]; split; ss; try apply L; exact W.
  - injection H as <-. split; ss; try apply L. exact W.
  - injection H as <-. apply (lim_same M D s); auto.
Qed.
Lemma run_lim M D acts : forall s s', lim M D s -> Forall (within M D) acts -> run s acts = Some s' -> lim M D s'.
Proof.
  induction acts as [|a acts IH]; intros s s' L W H; cbn in H; [congruence|]. inversion W; subst. destruct (step s a) as [s1|] eqn:E; [|discriminate].
  eauto using step_lim.
Qed.
Lemma limits cf n cc acts s M D : concurrentKeys cf <= M -> WorkerQueueDepth cf <= D -> Forall (within M D) acts -> run (start cf n cc) acts = Some s ->
  length (gs s) = Concurrency cf /\
  (forall ks, NoDup ks -> (forall k, k ∈ ks -> jof (keyis k) (inserted s) <> jof (keyis k) (delivered s)) -> length ks <= M) /\
  (forall k, jn (keyis k) (inserted s) <= jn (keyis k) (taken s) + Nat.max 2 D).
Proof.
  intros HM HD W R. pose proof (run_inv _ _ _ (start_inv cf n cc) R) as [A B C].
  assert (L : lim M D s) by (eapply (run_lim M D acts (start cf n cc)); eauto; split; unfold start; ss; auto; [cbn; lia|intros w o H; destruct w; discriminate]).
  split; [|split].
  - apply run_sizes in R as (-> & _). unfold start. ss. apply repeat_length.
  - intros ks ND K. assert (S : ks ⊆ (wmap s).*1).
    { intros k Hk. specialize (K k Hk). destruct (mlookup k (wmap s)) as [w|] eqn:E.
      - apply (mlookup_In _ _ _ (i_nd s A)) in E. apply elem_of_list_fmap. exists (k, w). auto.
      - exfalso. apply K. rewrite (i_fifo s C k), (i_deliv s C k). unfold queued. rewrite E, app_nil_r. rewrite fm_nil; [apply app_nil_r|].
        intros g x Eg. destruct x; cbn; auto. unfold keyis. destruct (Nat.eqb_spec (jkey j) k) as [Ek|]; auto. exfalso.
        pose proof (i_hold s C g _ w j Eg eq_refl) as M'. rewrite Ek in M'. apply (mlookup_In _ _ _ (i_nd s A)) in M'. congruence. }
    apply NoDup_submseteq in S; auto. apply submseteq_length in S. rewrite fmap_length in S. pose proof (m_keys M D s L). lia.
  - intros k. unfold jn. rewrite (i_fifo s C k), app_length. assert (length (queued s k) <= Nat.max 2 D); [|lia].
    unfold queued, wat. destruct (mlookup k (wmap s)) as [w|]; [|cbn; lia]. destruct (ws s !! w) as [o|] eqn:Ew; [|cbn; lia].
    destruct (i_w s B w o Ew) as (Q1 & Q2). pose proof (m_w M D s L w o Ew). unfold ItemQueue.Proofs.contents. rewrite app_length. destruct (head (wq o)); cbn [length]; lia.
Qed.

Lemma jof_comm P Q l : jof P (jof Q l) = jof Q (jof P l).
Proof. induction l as [|x l IH]; [reflexivity|]. cbn. destruct (P x) eqn:Px, (Q x) eqn:Qx; cbn; rewrite ?Px, ?Qx; auto. f_equal. auto. Qed.
(** per key and caller: collected, delivered, started, accepted *)
Lemma order cf n cc acts s c k : run (start cf n cc) acts = Some s ->
  exists r1 r2 r3, jof (keyis k) (jof (callis c) (accepted s)) = jof (keyis k) (jof (callis c) (started s)) ++ r1 /\
                   jof (keyis k) (jof (callis c) (started s)) = jof (keyis k) (jof (callis c) (delivered s)) ++ r2 /\ length r2 <= 1 /\
                   jof (keyis k) (jof (callis c) (delivered s)) = jof (keyis k) (jof (callis c) (collected s)) ++ r3.
Proof.
  intros R. destruct (key_order cf n cc acts s k R) as ((a & A) & (b & B & Lb)). destruct (caller_order cf n cc acts s c R) as ((d & D) & (e & E)).
  exists (jof (callis c) a ++ jof (keyis k) d), (jof (callis c) b), (jof (keyis k) e). split; [|split; [|split]].
  - rewrite D, jof_app, (jof_comm (keyis k) _ (inserted s)), A, jof_app, (jof_comm (callis c)), <- app_assoc. reflexivity.
  - rewrite (jof_comm (keyis k) _ (started s)), B, jof_app, (jof_comm (callis c)). reflexivity.
  - clear -Lb. destruct b as [|x [|y b]]; cbn in *; [lia|destruct (callis c x); cbn; lia|lia].
  - rewrite E, jof_app. reflexivity.
Qed.

Lemma at_once cf n cc acts s : run (start cf n cc) acts = Some s -> length (filter (fun x => is_Some (hold x)) (gs s)) <= Concurrency cf.
Proof. intros R. pose proof (run_sizes _ _ _ R) as (G & _ & _). cbn in G. rewrite repeat_length in G. rewrite <- G. apply filter_length. Qed.
Lemma configured cf n cc acts s ks : Concurrency cf <= MaxConcurrentKeys cf -> Forall (fun a => match a with ASetMax _ | ASetDepth _ => False | _ => True end) acts ->
  run (start cf n cc) acts = Some s -> NoDup ks -> (forall k, k ∈ ks -> jof (keyis k) (inserted s) <> jof (keyis k) (delivered s)) -> length ks <= MaxConcurrentKeys cf.
Proof.
  intros L F R. apply (limits cf n cc acts s (MaxConcurrentKeys cf) (WorkerQueueDepth cf)); auto.
  - unfold concurrentKeys. destruct (Nat.ltb_spec (MaxConcurrentKeys cf) (Concurrency cf)); lia.
  - eapply Forall_impl; [exact F|]. intros [] H; cbn in *; tauto.
Qed.
