(** The queue depth in force when a key becomes active; the key limit in force when few enough keys are active. *)
From stdpp Require Import prelude list.
From Coq Require Import ZArith.
From Verif.ItemQueue Require Model Proofs.
From Verif.Scheduler Require Import Model Base Inv Step Order Live Progress Limits.
Import ItemQueue.Model(size, head, chan).

Definition kd (k D : nat) (s : st) : Prop := depth s <= D /\ forall w o, (k, w) ∈ wmap s -> ws s !! w = Some o -> wcap o <= D.
Definition depthUpto (D : nat) (a : action) : Prop := match a with ASetDepth n => n <= D | _ => True end.
Definition keysUpto (M : nat) (a : action) : Prop := match a with ASetMax n => n <= M | _ => True end.
Lemma kd_same k D s s' : kd k D s -> wmap s' = wmap s -> depth s' = depth s -> ws s' = ws s -> kd k D s'.
Proof. intros [A B] E1 E2 E3. split; [lia|]. rewrite E1, E3. exact B. Qed.
Lemma kd_ins k D s s' w o q x : kd k D s -> (forall w, (k, w) ∈ wmap s' -> (k, w) ∈ wmap s) -> depth s' = depth s -> ws s !! w = Some o -> ws s' = <[w := mkW x (wcap o) q]> (ws s) -> kd k D s'.
Proof.
  intros [A B] E1 E2 Ew E3. split; [lia|]. intros w' o' M H. rewrite E3 in H. apply list_lookup_insert_Some in H as [(<- & <- & _)|(_ & H)]; [apply (B w o); auto|eauto].
Qed.
Lemma mdelete_sub k k' w m : (k, w) ∈ mdelete k' m -> (k, w) ∈ m.
Proof. induction m as [|[x y] m IH]; cbn; [done|]. case_decide; rewrite ?elem_of_cons; tauto. Qed.
Lemma step_kd k D s a s' : kd k D s -> depthUpto D a -> step s a = Some s' -> kd k D s'.
Proof.
  intros L W H. destruct a as [c j|c src|c|c|c|c|c|g|g|g|g|g|g|g|g|g|g|n|n|]; cbn [step] in H;
    try (destruct (callers s !! c) as [[]|] eqn:E; try discriminate); try (destruct (gs s !! g) as [[]|] eqn:E; try discriminate).
  - destruct (jcaller j =? c); [|discriminate]. destruct (closed s); injection H as <-; apply (kd_same k D s); auto.
  - apply grab_cases in H as [(_ & _ & ->)|(w & b & s1 & P & H)]; [apply (kd_same k D s); auto|].
    assert (L1 : kd k D s1).
    { destruct P as [w E1|E1 L1|i w o E1 L1 Ep Ew Ed]; auto; destruct L as [A B]; (split; ss; [exact A|]).
      - intros w o M Hw. apply lookup_app_Some in Hw as [Hw|(_ & Hw)].
        + apply elem_of_cons in M as [[= _ ->]|M]; [apply lookup_lt_Some in Hw; lia|by apply (B w o)].
        + apply list_lookup_singleton_Some in Hw as (_ & <-). exact A.
      - intros w' o' M Hw. apply list_lookup_insert_Some in Hw as [(<- & <- & _)|(N & Hw)]; [cbn; lia|]. apply elem_of_cons in M as [[= _ ->]|M]; [done|by apply (B w' o')]. }
    apply addTo_same in H as (o & added & q & Ew & _ & ->). eapply (kd_ins k D s1); [exact L1|ss; auto|ss; auto|exact Ew|ss; reflexivity].
  - destruct (signal s); [|discriminate]. injection H as <-. apply (kd_same k D s); auto.
  - destruct (ws s !! w) as [o|] eqn:Ew; [|discriminate]. destruct (ItemQueue.Model.chanSend (wq o) j); [|discriminate]. injection H as <-. eapply (kd_ins k D s); [exact L|ss; auto|ss; auto|exact Ew|ss; reflexivity].
  - destruct (closed s); [|discriminate]. injection H as <-. apply (kd_same k D s); auto.
  - destruct (sendWorker w s) as [s1|] eqn:Es; [|discriminate]. injection H as <-. apply send_same in Es as (x & ->). apply (kd_same k D s); auto.
  - destruct (comps s c); [discriminate|]. injection H as <-. apply (kd_same k D s); auto.
  - injection H as <-. apply (kd_same k D s); auto.
  - destruct (chans s !! ch) as [[|w l]|]; try discriminate; [destruct (ch =? current s); [discriminate|]|]; injection H as <-; apply (kd_same k D s); auto.
  - destruct (closed s); [injection H as <-; apply (kd_same k D s); auto|]. destruct (ws s !! w) as [o|]; [|discriminate]. destruct (ItemQueue.Model.peek (wq o)); injection H as <-; apply (kd_same k D s); auto.
  - injection H as <-. apply (kd_same k D s); auto.
  - destruct (ws s !! w) as [o|] eqn:Ew; [|discriminate]. injection H as <-. eapply (kd_ins k D s); [exact L|ss; auto|ss; auto|exact Ew|ss; reflexivity].
  - destruct (_ <? _); [|discriminate]. injection H as <-. apply (kd_same k D s); auto.
  - destruct (ws s !! w) as [o|] eqn:Ew; [|discriminate]. destruct (ItemQueue.Model.done (wq o)); injection H as <-; [|apply (kd_same k D s); auto].
    eapply (kd_ins k D s); [exact L|ss; intros w'; apply mdelete_sub|ss; auto|exact Ew|ss; reflexivity].
  - injection H as <-. destruct (closed s); apply (kd_same k D s); auto.
  - destruct (sendWorker w s) as [s1|] eqn:Es; [|discriminate]. injection H as <-. apply send_same in Es as (x & ->). apply (kd_same k D s); auto.
  - destruct (closed s); [|discriminate]. injection H as <-. apply (kd_same k D s); auto.
  - injection H as <-. unfold setMax. destruct (maxk s <? n); [destruct (chans s !! current s)|]; apply (kd_same k D s); auto.
  - injection H as <-. destruct L as [A B]. split; [exact W|exact B].
  - injection H as <-. apply (kd_same k D s); auto.
Qed.
Lemma run_kd k D acts : forall s s', kd k D s -> Forall (depthUpto D) acts -> run s acts = Some s' -> kd k D s'.
Proof.
  induction acts as [|a acts IH]; intros s s' L W H; cbn in H; [congruence|]. inversion W; subst. destruct (step s a) as [s1|] eqn:E; [|discriminate].
  eauto using step_kd.
Qed.
Lemma depth_later cf n cc acts s1 more s2 D k : run (start cf n cc) acts = Some s1 -> mlookup k (wmap s1) = None -> depth s1 <= D -> Forall (depthUpto D) more -> run s1 more = Some s2 ->
  jn (keyis k) (inserted s2) <= jn (keyis k) (taken s2) + Nat.max 2 D.
Proof.
  intros R1 Nk HD F R2. pose proof (run_inv _ _ _ (start_inv cf n cc) R1) as I1. pose proof (run_inv _ _ _ I1 R2) as [A B C].
  assert (L : kd k D s2). { eapply run_kd; [|exact F|exact R2]. split; [exact HD|]. intros w o M _. exfalso. apply (mlookup_In _ _ _ (i_nd s1 (iA s1 I1))) in M. congruence. }
  unfold jn. rewrite (i_fifo s2 C k), app_length. assert (length (queued s2 k) <= Nat.max 2 D); [|lia].
  unfold queued, wat. destruct (mlookup k (wmap s2)) as [w|] eqn:Ek; [|cbn; lia]. destruct (ws s2 !! w) as [o|] eqn:Ew; [|cbn; lia].
  apply (mlookup_In _ _ _ (i_nd s2 A)) in Ek. destruct (i_w s2 B w o Ew) as (Q1 & Q2). pose proof (proj2 L w o Ek Ew). unfold ItemQueue.Proofs.contents. rewrite app_length. destruct (head (wq o)); cbn [length]; lia.
Qed.

(** [lim] for some depth *)
Lemma some_depth (l : list action) s : exists D, depth s <= D /\ (forall w o, ws s !! w = Some o -> wcap o <= D) /\ Forall (depthUpto D) l.
Proof.
  exists (depth s + list_sum (map wcap (ws s)) + list_sum (map (fun a => match a with ASetDepth n => n | _ => 0 end) l)). split; [lia|]. split.
  - intros w o H. enough (wcap o <= list_sum (map wcap (ws s))) by lia. revert w H. induction (ws s) as [|x xs IH]; intros [|w] H; try discriminate; cbn; [injection H as ->; lia|]. specialize (IH w H). unfold list_sum in IH. lia.
  - assert (forall D0, D0 >= list_sum (map (fun a => match a with ASetDepth n => n | _ => 0 end) l) -> Forall (depthUpto D0) l) as X; [|apply X; lia].
    induction l as [|a l IH]; intros D0 H; [constructor|]. cbn in H. constructor; [destruct a; cbn in *; try done; lia|apply IH; unfold list_sum; destruct a; lia].
Qed.
Lemma keys_later cf n cc acts s1 more s2 M ks : run (start cf n cc) acts = Some s1 -> length (wmap s1) <= M -> maxk s1 <= M -> Forall (keysUpto M) more -> run s1 more = Some s2 ->
  NoDup ks -> (forall k, k ∈ ks -> jof (keyis k) (inserted s2) <> jof (keyis k) (delivered s2)) -> length ks <= M.
Proof.
  intros R1 L1 L2 F R2 ND K. pose proof (run_inv _ _ _ (start_inv cf n cc) R1) as I1. pose proof (run_inv _ _ _ I1 R2) as [A B C].
  destruct (some_depth more s1) as (D & D1 & D2 & D3).
  assert (L : lim M D s2). { eapply (run_lim M D more s1); [split; auto| |exact R2]. rewrite Forall_forall in *. intros a Ha. specialize (F a Ha). specialize (D3 a Ha). destruct a; cbn in *; auto. }
  assert (S : ks ⊆ (wmap s2).*1).
  { intros k Hk. specialize (K k Hk). destruct (mlookup k (wmap s2)) as [w|] eqn:E.
    - apply (mlookup_In _ _ _ (i_nd s2 A)) in E. apply elem_of_list_fmap. exists (k, w). auto.
    - exfalso. apply K. rewrite (i_fifo s2 C k), (i_deliv s2 C k). unfold queued. rewrite E, app_nil_r. rewrite fm_nil; [apply app_nil_r|].
      intros g x Eg. destruct x; cbn; auto. unfold keyis. destruct (Nat.eqb_spec (jkey j) k) as [Ek|]; auto. exfalso.
      pose proof (i_hold s2 C g _ w j Eg eq_refl) as M'. rewrite Ek in M'. apply (mlookup_In _ _ _ (i_nd s2 A)) in M'. congruence. }
  apply NoDup_submseteq in S; auto. apply submseteq_length in S. rewrite fmap_length in S. pose proof (m_keys M D s2 L). lia.
Qed.
