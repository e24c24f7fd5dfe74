(** The commits of a partition, in the order of its arrivals. *)
From stdpp Require Import prelude list.
From Verif.Flow Require Import Model Proofs Progress.
Open Scope nat_scope.

(** the events and interjections of the actions [l], numbered from [k] on *)
Fixpoint accepted (k : nat) (l : list action) : list ec :=
  match l with [] => [] | Arrive i b :: l' => mkEc k i b :: accepted (S k) l' | _ :: l' => accepted k l' end.
Lemma step_arrived c s a s' : step c s a = Some s' -> arrived s' = match a with Arrive i b => mkEc (length (arrived s)) i b :: arrived s | _ => arrived s end.
Proof. intros E. destruct a; cbn in E; repeat case_match; try discriminate; try (injection E as <-; reflexivity). Qed.
Lemma run_arrived c s l s' : run c s l = Some s' -> rev (arrived s') = rev (arrived s) ++ accepted (length (arrived s)) l.
Proof.
  revert s. induction l as [|a l IH]; intros s R; cbn in R; [injection R as <-; cbn; by rewrite app_nil_r|].
  destruct (step c s a) as [s1|] eqn:E; [|discriminate]. rewrite (IH _ R), (step_arrived _ _ _ _ E).
  destruct a; try reflexivity. cbn. by rewrite <- app_assoc.
Qed.

#[local] Arguments ofw : simpl never.
#[local] Arguments inpool : simpl never.
Record ord (s : st) : Prop := {
  o_w : forall i w, ws s !! i = Some w -> ofw i (inpool s ++ buffer s) ++ prepool (push w) = ofw i (rev (arrived s));
  o_own : forall i w e, ws s !! i = Some w -> e ∈ prepool (push w) ++ psend (push w) -> e_w e = i;
  o_lt : forall e, e ∈ inpool s ++ buffer s -> e_w e < length (ws s);
  o_kp : fp s = FPop -> deck s = [];
}.
Lemma ord_pool s s' : ord s -> ws s' = ws s -> arrived s' = arrived s -> inpool s' ++ buffer s' = inpool s ++ buffer s -> (fp s' = FPop -> deck s' = []) -> ord s'.
Proof. intros [A B C D] E1 E2 E3 E4. constructor; rewrite ?E1, ?E2, ?E3; auto. Qed.
Lemma ord_worker s s' i w0 w : ord s -> ws s !! i = Some w0 -> ws s' = <[i := w]> (ws s) -> arrived s' = arrived s -> inpool s' ++ buffer s' = inpool s ++ buffer s -> (fp s' = FPop -> deck s' = []) ->
  prepool (push w) = prepool (push w0) -> (forall e, e ∈ psend (push w) -> e ∈ psend (push w0)) -> ord s'.
Proof.
  intros [A B C D] L E1 E2 E3 E4 E5 E6. constructor; rewrite ?E2, ?E3; auto.
  - intros j x J. rewrite E1 in J. destruct (ws_upd _ _ _ _ _ _ L J) as [[-> ->]|[_ J']]; [rewrite E5|]; eauto.
  - intros j x e J. rewrite E1 in J. destruct (ws_upd _ _ _ _ _ _ L J) as [[-> ->]|[_ J']]; [|eauto]. rewrite E5. intros X. apply (B i w0 e L). apply elem_of_app. apply elem_of_app in X as [X|X]; auto.
  - rewrite E1, insert_length. done.
Qed.
Lemma ord_step c s a s' : ord s -> step c s a = Some s' -> ord s'.
Proof.
  intros O E. destruct a as [i ij|i|i|i|i|i|i|i|i|i e| |r| |r| | | |]; cbn [step] in E.
  - destruct (ws s !! i) as [[[] v j k n y]|] eqn:L; try discriminate. injection E as <-. destruct O as [A B C D]. pose proof (A i _ L) as AL. cbn in AL. rewrite app_nil_r in AL.
    match goal with |- ord ?x => assert (P : inpool x = inpool s) by reflexivity end. constructor; rewrite ?P; cbn; rewrite ?insert_length; auto.
    + intros q x J. destruct (ws_upd _ _ _ _ _ _ L J) as [[-> ->]|[N J']]; rewrite (ofw_app _ (rev _)); cbn.
      * rewrite ofw_own by done. rewrite <- AL. reflexivity.
      * rewrite ofw_other by (cbn; congruence). rewrite app_nil_r. exact (A q x J').
    + intros q x e J. destruct (ws_upd _ _ _ _ _ _ L J) as [[-> ->]|[N J']]; [|by apply B]. cbn. rewrite elem_of_list_singleton. by intros ->.
  - destruct (ws s !! i) as [[[] v j k n y]|] eqn:L; try discriminate. destruct (n <? maxPending c); [|discriminate]. injection E as <-. eapply ord_worker; [exact O|exact L|reflexivity..|apply O|reflexivity|done].
  - destruct (ws s !! i) as [[[] v j k n y]|] eqn:L; try discriminate. destruct (length (buffer s) <? bufCap c); [|discriminate]. injection E as <-.
    destruct O as [A B C D]. pose proof (A i _ L) as AL. cbn in AL. assert (W : e_w e = i) by (apply (B i _ e L); left).
    match goal with |- ord ?x => assert (P : inpool x = inpool s) by reflexivity end. constructor; rewrite ?P; cbn; rewrite ?insert_length; auto.
    + intros q x J. rewrite app_assoc, ofw_app. destruct (ws_upd _ _ _ _ _ _ L J) as [[-> ->]|[N J']].
      * rewrite ofw_own by done. cbn. rewrite app_nil_r. exact AL.
      * rewrite ofw_other by congruence. rewrite app_nil_r. exact (A q x J').
    + intros q x e0 J. destruct (ws_upd _ _ _ _ _ _ L J) as [[-> ->]|[N J']]; [|by apply B]. cbn. rewrite elem_of_list_singleton. by intros ->.
    + intros e0. rewrite app_assoc, elem_of_app, elem_of_list_singleton. intros [X| ->]; [auto|]. rewrite W. by apply lookup_lt_Some in L.
  - destruct (ws s !! i) as [[[] v j k n y]|] eqn:L; try discriminate.
    destruct (e_ij e); [destruct j; [|discriminate]|destruct (length v <? evCap c); [|discriminate]]; injection E as <-; (eapply ord_worker; [exact O|exact L|reflexivity..|apply O|reflexivity|]); cbn; intros x X; by apply elem_of_nil in X.
  - destruct (ws s !! i) as [[p [|e v] j [] n y]|] eqn:L; try discriminate. injection E as <-. eapply ord_worker; [exact O|exact L|reflexivity..|apply O|reflexivity|done].
  - destruct (ws s !! i) as [[p v [|e j] [] n y]|] eqn:L; try discriminate. injection E as <-. eapply ord_worker; [exact O|exact L|reflexivity..|apply O|reflexivity|done].
  - destruct (ws s !! i) as [[p v j [] n y]|] eqn:L; try discriminate. case_decide; [|discriminate]. injection E as <-. eapply ord_worker; [exact O|exact L|reflexivity..|apply O|reflexivity|done].
  - destruct (ws s !! i) as [[p v j [] n y]|] eqn:L; try discriminate. injection E as <-. eapply ord_worker; [exact O|exact L|reflexivity..|apply O|reflexivity|done].
  - destruct (ws s !! i) as [[p v j [] n y]|] eqn:L; try discriminate. injection E as <-. eapply ord_worker; [exact O|exact L|reflexivity..|apply O|reflexivity|done].
  - destruct (ws s !! i) as [[p v j [] n y]|] eqn:L; try discriminate; (case_decide; [|discriminate]); injection E as <-; (eapply ord_worker; [exact O|exact L|reflexivity..|apply O|reflexivity|done]).
  - destruct (fp s) eqn:F; try discriminate. destruct (buffer s) as [|e b] eqn:Bu; [discriminate|]. injection E as <-. eapply ord_pool; [exact O|reflexivity..| |discriminate].
    unfold inpool, kpl. cbn. rewrite Bu, <- !app_assoc. reflexivity.
  - destruct (fp s) eqn:F; try discriminate. injection E as <-. eapply ord_pool; [exact O|reflexivity..|]. cbn. destruct (target c <=? _); discriminate.
  - destruct (fp s) eqn:F; try discriminate. injection E as <-. eapply ord_pool; [exact O|reflexivity..|discriminate].
  - destruct (fp s) eqn:F; try discriminate. destruct (deck s) as [|e d] eqn:Dk.
    + destruct (r =? 0); [|discriminate]. injection E as <-. eapply ord_pool; [exact O|reflexivity..|discriminate].
    + destruct (_ =? maxBatch c); [injection E as <-; eapply ord_pool; [exact O|reflexivity..|discriminate]|].
      destruct (_ <? pendingTxn c); injection E as <-; (eapply ord_pool; [exact O|reflexivity..| |]); try discriminate; try reflexivity.
      unfold inpool, kpl. cbn. rewrite Dk, concat_app. cbn. rewrite !app_nil_r, <- !app_assoc. reflexivity.
  - destruct (fp s) eqn:F; try discriminate. destruct (_ <? pendingTxn c); [|discriminate]. injection E as <-. eapply ord_pool; [exact O|reflexivity..| |reflexivity].
    unfold inpool, kpl. cbn. rewrite concat_app. cbn. rewrite !app_nil_r, <- !app_assoc. reflexivity.
  - destruct (fp s) eqn:F; try discriminate. destruct (free s); [discriminate|]. injection E as <-. eapply ord_pool; [exact O|reflexivity..| |discriminate].
    unfold inpool, kpl. cbn. by rewrite (o_kp _ O F).
  - destruct (kp s) eqn:K; [discriminate|]. destruct (queue s) as [|d q] eqn:Qu; [discriminate|]. injection E as <-. eapply ord_pool; [exact O|reflexivity..| |apply O].
    unfold inpool, kpl. cbn. rewrite K, Qu. cbn. by rewrite <- !app_assoc.
  - destruct (kp s) as [d|] eqn:K; [|discriminate]. destruct (forallb _ d); [|discriminate]. injection E as <-. eapply ord_pool; [exact O|reflexivity..| |apply O].
    unfold inpool, kpl. cbn. rewrite K. by rewrite <- !app_assoc.
Qed.
Lemma ord_run c s l s' : ord s -> run c s l = Some s' -> ord s'.
Proof. revert s. induction l as [|a l IH]; intros s O R; cbn in R; [by injection R as <-|]. destruct (step c s a) as [s1|] eqn:E; [|discriminate]. eapply IH; [eapply ord_step; eassumption|exact R]. Qed.
Lemma ord_start c n : ord (start c n).
Proof.
  constructor; cbn.
  - intros i w L. apply lookup_replicate in L as [-> _] || (apply elem_of_list_lookup_2 in L; apply elem_of_list_In, repeat_spec in L as ->). reflexivity.
  - intros i w e L. apply elem_of_list_lookup_2 in L. apply elem_of_list_In, repeat_spec in L as ->. cbn. intros X. by apply elem_of_nil in X.
  - intros e X. by apply elem_of_nil in X.
  - done.
Qed.
Lemma step_len c s a s' : step c s a = Some s' -> length (ws s') = length (ws s).
Proof. intros E. destruct a; cbn in E; repeat case_match; try discriminate; injection E as <-; cbn; rewrite ?insert_length; reflexivity. Qed.
Lemma run_len c s l s' : run c s l = Some s' -> length (ws s') = length (ws s).
Proof. revert s. induction l as [|a l IH]; intros s R; cbn in R; [by injection R as <-|]. destruct (step c s a) as [s1|] eqn:E; [|discriminate]. rewrite (IH _ R). eapply step_len, E. Qed.

Lemma commits_in_order c n l s i : run c (start c n) l = Some s -> (forall e, e ∈ committed s -> e_w e < n) /\ exists rest, List.filter (fun e => e_w e =? i) (accepted 0 l) = List.filter (fun e => e_w e =? i) (committed s) ++ rest.
Proof.
  intros R. pose proof (ord_run _ _ _ _ (ord_start c n) R) as O. assert (Len : length (ws s) = n) by (rewrite (run_len _ _ _ _ R); cbn; apply repeat_length).
  assert (S : forall e, e ∈ committed s -> e ∈ inpool s ++ buffer s) by (intros e X; unfold inpool; rewrite !elem_of_app; auto).
  assert (F : forall l0, List.filter (fun e => e_w e =? i) l0 = ofw i l0).
  { intros l0. unfold ofw. induction l0 as [|e l0 IH]; cbn [List.filter]; [reflexivity|]. destruct (Nat.eqb_spec (e_w e) i); [rewrite filter_cons_True by done|rewrite filter_cons_False by done]; by rewrite IH. }
  split; [intros e X; rewrite <- Len; apply (o_lt _ O), S, X|]. rewrite !F.
  pose proof (run_arrived _ _ _ _ R) as A. cbn in A. rewrite <- A.
  destruct (decide (i < n)) as [I|I].
  - destruct (lookup_lt_is_Some_2 (ws s) i ltac:(lia)) as [w W]. rewrite <- (o_w _ O i w W). unfold inpool. rewrite !ofw_app, <- !app_assoc. eexists. reflexivity.
  - assert (N : ofw i (committed s) = []); [|rewrite N; eauto]. destruct (ofw i (committed s)) as [|e q] eqn:Q; [done|]. assert (X : e ∈ ofw i (committed s)) by (rewrite Q; left). apply ofw_in in X as [X1 X2]. apply S, (o_lt _ O) in X2. lia.
Qed.

Lemma accepted_none k l : Forall noArrive l -> accepted k l = [].
Proof. intros F. revert k. induction F as [|a l N F IH]; intros k; [reflexivity|]. destruct a; cbn; try apply IH. by destruct (N i ij). Qed.
Lemma in_accepted c n l s e : run c (start c n) l = Some s -> e ∈ accepted 0 l <-> e ∈ arrived s.
Proof. intros R. pose proof (run_arrived _ _ _ _ R) as A. cbn in A. rewrite <- A. rewrite !elem_of_list_In. symmetry. apply in_rev. Qed.
Lemma still_accepted c n l s l' s' e : run c (start c n) l = Some s -> Forall noArrive l' -> run c s l' = Some s' -> e ∈ accepted 0 l <-> e ∈ arrived s'.
Proof.
  intros R F R'. rewrite (in_accepted _ _ _ _ _ R). pose proof (run_arrived _ _ _ _ R') as A. rewrite (accepted_none _ _ F), app_nil_r in A.
  rewrite !elem_of_list_In, (in_rev (arrived s')), A, <- in_rev. done.
Qed.
Lemma committed_done c n l s : run c (start c n) l = Some s -> forall e, e ∈ committed s -> e ∈ done s.
Proof.
  assert (X : forall l s0 s1, (forall e, e ∈ committed s0 -> e ∈ done s0) -> run c s0 l = Some s1 -> forall e, e ∈ committed s1 -> e ∈ done s1).
  { clear. intros l. induction l as [|a l IH]; intros s0 s1 H R; cbn in R; [by injection R as <-|]. destruct (step c s0 a) as [y|] eqn:E; [|discriminate]. eapply IH; [|exact R]. clear R IH.
    destruct a; cbn [step] in E; repeat case_match; try discriminate; injection E as <-; cbn; auto; intros ee X; try (right; auto; fail).
    apply elem_of_app in X as [X|X]; [auto|]. match goal with F : forallb _ _ = true |- _ => rewrite forallb_forall in F; apply elem_of_list_In, F in X; by apply bool_decide_eq_true in X end. }
  apply X. cbn. intros e H. by apply elem_of_nil in H.
Qed.
