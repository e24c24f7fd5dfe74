(** Without interjections the workers and the pool never block each other. *)
From stdpp Require Import prelude list.
From Verif.Flow Require Import Model Proofs.
Open Scope nat_scope.

Definition wmu (w : worker) : nat :=
  (match push w with PIdle => 0 | PTok _ => 40 | PPool _ => 39 | PSend _ => 8 end) + 7 * length (evIn w) + 7 * length (ijIn w)
  + (match cur w with CIdle => 0 | CWait _ => 6 | CRun _ => 5 end) + 4 * length (async w).
Definition mu (s : st) : nat :=
  list_sum (map wmu (ws s)) + 30 * length (buffer s) + 20 * length (deck s) + 15 * length (concat (queue s)) + 2 * length (queue s)
  + (match kp s with Some d => 12 * length d + 1 | None => 0 end)
  + (match fp s with FIdle | FFlush => 1 | FTried => 3 | FPush => 0 | FPop => 2 end).
#[local] Arguments wmu : simpl never.
Lemma wsum_upd l i w0 w : l !! i = Some w0 -> list_sum (map wmu (<[i := w]> l)) + wmu w0 = list_sum (map wmu l) + wmu w.
Proof.
  revert i. induction l as [|a l IH]; intros [|i] H; try discriminate.
  - injection H as ->. cbn. lia.
  - specialize (IH i H). change (wmu a + list_sum (map wmu (<[i := w]> l)) + wmu w0 = wmu a + list_sum (map wmu l) + wmu w). lia.
Qed.
Lemma step_mu c s a s' : inv c s -> noArrive a -> step c s a = Some s' -> mu s' + (if useful a then 1 else 0) <= mu s.
Proof.
  intros I N E. destruct a as [i ij|i|i|i|i|i|i|i|i|i e| |r| |r| | | |]; cbn [step] in E; cbn [useful]; [by destruct (N i ij)|..].
  - destruct (ws s !! i) as [[[] v j k n y]|] eqn:L; try discriminate. destruct (n <? maxPending c); [|discriminate]. injection E as <-.
    unfold mu. cbn [set_w ws buffer deck queue kp fp]. pose proof (wsum_upd _ _ _ (mkW (PPool e) v j k (Datatypes.S n) y) L) as X. unfold wmu at 2 4 in X. cbn in *. change (fold_right Nat.add 0) with list_sum in *. lia.
  - destruct (ws s !! i) as [[[] v j k n y]|] eqn:L; try discriminate. destruct (length (buffer s) <? bufCap c); [|discriminate]. injection E as <-.
    unfold mu. cbn [set_w set_buffer ws buffer deck queue kp fp]. pose proof (wsum_upd _ _ _ (mkW (PSend e) v j k n y) L) as X. unfold wmu at 2 4 in X. cbn in *. rewrite app_length. cbn. lia.
  - destruct (ws s !! i) as [[[] v j k n y]|] eqn:L; try discriminate. destruct (e_ij e).
    + destruct j; [|discriminate]. injection E as <-. unfold mu. cbn [set_w ws buffer deck queue kp fp]. pose proof (wsum_upd _ _ _ (mkW PIdle v [e] k n y) L) as X. unfold wmu at 2 4 in X. cbn in *. change (fold_right Nat.add 0) with list_sum in *. lia.
    + destruct (length v <? evCap c); [|discriminate]. injection E as <-. unfold mu. cbn [set_w ws buffer deck queue kp fp]. pose proof (wsum_upd _ _ _ (mkW PIdle (v ++ [e]) j k n y) L) as X. unfold wmu at 2 4 in X. cbn in *. rewrite app_length in X. cbn in X. lia.
  - destruct (ws s !! i) as [[p [|e v] j [] n y]|] eqn:L; try discriminate. injection E as <-. unfold mu. cbn [set_w ws buffer deck queue kp fp]. pose proof (wsum_upd _ _ _ (mkW p v j (CWait e) n y) L) as X. unfold wmu at 2 4 in X. cbn in *. change (fold_right Nat.add 0) with list_sum in *. lia.
  - destruct (ws s !! i) as [[p v [|e j] [] n y]|] eqn:L; try discriminate. injection E as <-. unfold mu. cbn [set_w ws buffer deck queue kp fp]. pose proof (wsum_upd _ _ _ (mkW p v j (CWait e) n y) L) as X. unfold wmu at 2 4 in X. cbn in *. change (fold_right Nat.add 0) with list_sum in *. lia.
  - destruct (ws s !! i) as [[p v j [|e|] n y]|] eqn:L; try discriminate. destruct (decide (e ∈ given s)); [|discriminate]. injection E as <-. unfold mu. cbn [set_w ws buffer deck queue kp fp]. pose proof (wsum_upd _ _ _ (mkW p v j (CRun e) n y) L) as X. unfold wmu at 2 4 in X. cbn in *. change (fold_right Nat.add 0) with list_sum in *. lia.
  - destruct (ws s !! i) as [[p v j [| |e] n y]|] eqn:L; try discriminate. injection E as <-. unfold mu. cbn [set_w set_done ws buffer deck queue kp fp]. pose proof (wsum_upd _ _ _ (mkW p v j CIdle (pred n) y) L) as X. unfold wmu at 2 4 in X. cbn in *. change (fold_right Nat.add 0) with list_sum in *. lia.
  - destruct (ws s !! i) as [[p v j [| |e] n y]|] eqn:L; try discriminate. injection E as <-. unfold mu. cbn [set_w ws buffer deck queue kp fp]. pose proof (wsum_upd _ _ _ (mkW p v j CIdle n (e :: y)) L) as X. unfold wmu at 2 4 in X. cbn in *. change (fold_right Nat.add 0) with list_sum in *. lia.
  - destruct (ws s !! i) as [[p v j k n y]|] eqn:L; [|discriminate].
    assert (X : exists s1, (if decide (e ∈ y) then Some (set_w i (mkW p v j k (pred n) (filter (fun x => x <> e) y)) (set_done e s)) else None) = Some s1 /\ s1 = s') by (destruct k; try discriminate; eauto).
    destruct X as (s1 & X & ->). destruct (decide (e ∈ y)) as [Hy|]; [|discriminate]. injection X as <-.
    destruct (v_w _ _ I i _ L) as [h [_ _ _ _ _ _ K _]]. cbn in K. apply NoDup_app in K as (_ & _ & K). pose proof (filter_one e y K Hy) as Y.
    unfold mu. cbn [set_w set_done ws buffer deck queue kp fp]. pose proof (wsum_upd _ _ _ (mkW p v j k (pred n) (filter (fun x => x <> e) y)) L) as X. unfold wmu at 2 4 in X. cbn [push evIn ijIn cur async] in X. lia.
  - destruct (fp s) eqn:F; try discriminate. destruct (buffer s) as [|e b] eqn:Eb; [discriminate|]. injection E as <-. unfold mu. cbn [ws buffer deck queue kp fp]. rewrite Eb, F, app_length. cbn. lia.
  - destruct (fp s) eqn:F; try discriminate. injection E as <-. unfold mu. cbn [set_fp ws buffer deck queue kp fp]. rewrite F. destruct (target c <=? size r (deck s)); lia.
  - destruct (fp s) eqn:F; try discriminate. injection E as <-. unfold mu. cbn [set_fp ws buffer deck queue kp fp]. rewrite F. lia.
  - destruct (fp s) eqn:F; try discriminate. unfold mu. rewrite F. destruct (deck s) as [|d0 d] eqn:Ed.
    + destruct (r =? 0); [|discriminate]. injection E as <-. cbn [set_fp ws buffer deck queue kp fp]. rewrite Ed. lia.
    + destruct (size r (d0 :: d) =? maxBatch c); [injection E as <-; cbn [set_fp ws buffer deck queue kp fp]; rewrite Ed; lia|].
      destruct (length (queue s) <? pendingTxn c); injection E as <-; cbn [set_fp ws buffer deck queue kp fp]; [|rewrite Ed; lia]. rewrite concat_app, !app_length. cbn. rewrite app_nil_r. lia.
  - destruct (fp s) eqn:F; try discriminate. pose proof (v_fp _ _ I) as V. rewrite F in V. unfold mu. rewrite F. destruct (length (queue s) <? pendingTxn c); [|discriminate]. injection E as <-. cbn [set_fp ws buffer deck queue kp fp].
    rewrite concat_app, !app_length. cbn. rewrite app_nil_r. destruct (deck s); [done|]. cbn. lia.
  - destruct (fp s) eqn:F; try discriminate. destruct (free s) as [|n] eqn:Ef; [discriminate|]. injection E as <-. unfold mu. cbn [set_fp ws buffer deck queue kp fp]. rewrite F. cbn. lia.
  - destruct (kp s) eqn:Ek; [discriminate|]. destruct (queue s) as [|d q] eqn:Eq; [discriminate|]. injection E as <-. unfold mu. cbn [set_fp ws buffer deck queue kp fp]. rewrite Ek, Eq. cbn. rewrite app_length. lia.
  - destruct (kp s) as [d|] eqn:Ek; [|discriminate]. destruct (forallb _ d); [|discriminate]. injection E as <-. unfold mu. cbn [set_fp ws buffer deck queue kp fp]. rewrite Ek. lia.
Qed.
Lemma start_inv c n : 1 <= poolSize c -> inv c (start c n).
Proof.
  intros H. assert (W : forall i w, repeat (mkW PIdle [] [] CIdle 0 []) n !! i = Some w -> w = mkW PIdle [] [] CIdle 0 []) by (intros i w L; by apply elem_of_list_lookup_2, elem_of_list_In, repeat_spec in L).
  constructor; cbn.
  - intros i w L. apply W in L as ->. exists []. constructor; cbn; try done; try (intros e He; by apply elem_of_nil in He). constructor.
  - intros e He. by apply elem_of_nil in He.
  - intros e He. by apply elem_of_nil in He.
  - intros e He. by apply elem_of_nil in He.
  - constructor.
  - intros e [He|(i & w & L & X)]; [by apply elem_of_nil in He|]. apply W in L as ->. by apply elem_of_nil in X.
  - intros i w e L X. apply W in L as ->. by apply elem_of_nil in X.
  - done.
  - lia.
Qed.
Lemma run_inv c s l s' : inv c s -> Forall noij l -> run c s l = Some s' -> inv c s'.
Proof.
  revert s. induction l as [|a l IH]; intros s I N E; cbn in E; [by injection E as <-|]. inversion N; subst. destruct (step c s a) eqn:S1; [|discriminate]. eapply IH; [|done|exact E]. by eapply step_inv.
Qed.
Lemma noArrive_noij a : noArrive a -> noij a. Proof. intros H i. apply H. Qed.
Lemma run_mu c s l s' : inv c s -> Forall noArrive l -> run c s l = Some s' -> mu s' + length (List.filter useful l) <= mu s.
Proof.
  revert s. induction l as [|a l IH]; intros s I N E; cbn in E; [injection E as <-; cbn; lia|]. inversion N; subst. destruct (step c s a) eqn:S1; [|discriminate].
  assert (I' : inv c s0) by (eapply step_inv; [exact I|by apply noArrive_noij|exact S1]). specialize (IH _ I' H2 E). pose proof (step_mu _ _ _ _ I H1 S1). cbn. destruct (useful a); cbn; lia.
Qed.
Lemma run_app c s l1 l2 : run c s (l1 ++ l2) = match run c s l1 with Some s' => run c s' l2 | None => None end.
Proof. revert s. induction l1 as [|a l IH]; intros s; [done|]. cbn. destruct (step c s a); [apply IH|done]. Qed.

Definition go (c : cfg) (s : st) : Prop := exists l s', Forall noArrive l /\ length l <= 3 /\ existsb useful l = true /\ run c s l = Some s'.
Lemma go1 c s a s' : step c s a = Some s' -> noArrive a -> useful a = true -> go c s.
Proof. intros E N U. exists [a], s'. split; [by constructor|]. split; [cbn; lia|]. cbn. by rewrite U, E. Qed.
Ltac na := unfold noArrive; intros; discriminate.
Lemma stuck_kp c s d e : valid c -> inv c s -> kp s = Some d -> e ∈ d -> e ∉ done s -> go c s.
Proof.
  intros V I Ek He ND. assert (Hin : e ∈ inpool s) by (unfold inpool, kpl; rewrite Ek; set_solver).
  assert (W : e_w e < length (ws s)) by (apply (v_lt _ _ I), elem_of_app; by left).
  destruct (lookup_lt_is_Some_2 _ _ W) as [[p v j k n y] L]. destruct (v_w _ _ I _ _ L) as [h [A B C D G H K Q]]. cbn in *.
  assert (Ho : e ∈ ofw (e_w e) (inpool s)) by (apply ofw_in; done).
  destruct k as [|e2|e2]; [| |eapply (go1 _ _ (WSync (e_w e))); [cbn; rewrite L; reflexivity|na|done]].
  - destruct y as [|e3 y]; [|eapply (go1 _ _ (WJob (e_w e) e3)); [cbn [step]; rewrite L, decide_True by (by left); reflexivity|na|done]].
    destruct v as [|e3 v]; [|eapply (go1 _ _ (WEv (e_w e))); [cbn [step]; rewrite L; reflexivity|na|done]].
    assert (X : e ∈ h ++ psend p) by (cbn in A; rewrite <- A, ofw_app; apply elem_of_app; by left).
    apply elem_of_app in X as [X|X]; [destruct (B e X) as [Y|[Y|Y]]; [by apply elem_of_nil in Y|by apply elem_of_nil in Y|done]|].
    destruct p as [|?|?|e3]; try (by apply elem_of_nil in X). eapply (go1 _ _ (Send (e_w e))); [cbn [step]; rewrite L, G; cbn [length]; destruct (Nat.ltb_spec 0 (evCap c)); [reflexivity|destruct V as (_&_&_&_&V&_); lia]|na|done].
  - destruct y as [|e3 y]; [|eapply (go1 _ _ (WJob (e_w e) e3)); [cbn [step]; rewrite L, decide_True by (by left); reflexivity|na|done]].
    destruct (decide (e2 ∈ given s)) as [Hg|Hg]; [eapply (go1 _ _ (WGo (e_w e))); [cbn [step]; rewrite L, decide_True by done; reflexivity|na|done]|].
    exfalso. assert (N2 : e2 ∉ inpool s) by (intros X; by apply Hg, (v_given _ _ I)).
    assert (He2 : e <> e2) by (intros ->; done).
    assert (Hh : e ∉ h) by (intros X; destruct (B e X) as [Y|[Y|Y]]; [by apply elem_of_nil in Y|by apply elem_of_nil in Y|done]).
    rewrite ofw_app in A. cbn in A. change (h ++ e2 :: v ++ psend p) with (h ++ [e2] ++ (v ++ psend p)) in A. rewrite app_assoc in A.
    apply app_eq_inv in A as [(k & A1 & A2)|(k & A1 & A2)].
    + apply N2. apply (ofw_in (e_w e)). rewrite A1. set_solver.
    + assert (X : e ∈ h ++ [e2]) by (rewrite A1; apply elem_of_app; by left). apply elem_of_app in X as [X|X]; [done|by apply elem_of_list_singleton in X].
Qed.
Lemma quiet_pool c s : valid c -> inv c s -> kp s = None -> queue s = [] -> deck s = [] -> buffer s = [] -> go c s \/ forall e, e ∈ arrived s -> e ∈ committed s.
Proof.
  intros (V1 & V2 & V3 & V4 & V5 & V6) I Ek Eq Ed Eb. assert (P : inpool s ++ buffer s = committed s) by (unfold inpool, kpl; rewrite Ek, Eq, Ed, Eb; cbn; by rewrite !app_nil_r).
  destruct (decide (Forall (fun w => prepool (push w) = []) (ws s))) as [All|Nall].
  - right. intros e He. destruct (v_arr _ _ I e He) as [X|(i & w & L & X)]; [by rewrite P in X|]. eapply Forall_lookup_1 in All; [|exact L]. rewrite All in X. by apply elem_of_nil in X.
  - left. apply not_Forall_Exists in Nall; [|apply _]. apply Exists_exists in Nall as (w & Hw & Nw). apply elem_of_list_lookup_1 in Hw as [i L]. destruct w as [p v j k n y]. cbn in Nw.
    destruct (v_w _ _ I _ _ L) as [h [A B C D G H K Q]]. cbn in *. destruct p as [|e|e|e]; try (exfalso; by apply Nw).
    + destruct (Nat.ltb_spec n (maxPending c)) as [Hn|Hn]; [eapply (go1 _ _ (Tok i)); [cbn [step]; rewrite L; apply Nat.ltb_lt in Hn; rewrite Hn; reflexivity|na|done]|].
      destruct k as [|e2|e2]; [| |eapply (go1 _ _ (WSync i)); [cbn; rewrite L; reflexivity|na|done]].
      * destruct y as [|e3 y]; [|eapply (go1 _ _ (WJob i e3)); [cbn [step]; rewrite L, decide_True by (by left); reflexivity|na|done]].
        destruct v as [|e3 v]; [cbn in C; lia|eapply (go1 _ _ (WEv i)); [cbn [step]; rewrite L; reflexivity|na|done]].
      * eapply (go1 _ _ (WGo i)); [cbn [step]; rewrite L, decide_True; [reflexivity|]|na|done]. apply (v_given _ _ I). rewrite Eb, app_nil_r in A. apply (ofw_in i). rewrite A. set_solver.
    + eapply (go1 _ _ (Put i)); [cbn [step]; rewrite L, Eb; cbn [length]; destruct (Nat.ltb_spec 0 (bufCap c)); [reflexivity|lia]|na|done].
Qed.
Lemma progress c s : valid c -> inv c s -> go c s \/ forall e, e ∈ arrived s -> e ∈ committed s.
Proof.
  intros V I. assert (V' := V). destruct V' as (V1 & V2 & V3 & V4 & V5 & V6).
  destruct (kp s) as [d|] eqn:Ek.
  { left. destruct (forallb (fun e => bool_decide (e ∈ done s)) d) eqn:Fd; [eapply (go1 _ _ KEnd); [cbn [step]; rewrite Ek, Fd; reflexivity|na|done]|].
    assert (exists e, e ∈ d /\ e ∉ done s) as (e & He & Hn).
    { clear -Fd. induction d as [|a d IH]; [discriminate|]. cbn in Fd. destruct (bool_decide_reflect (a ∈ done s)); [destruct (IH Fd) as (z & ? & ?); exists z; split; [by right|done]|exists a; split; [by left|done]]. }
    by eapply stuck_kp. }
  destruct (queue s) as [|d q] eqn:Eq; [|left; eapply (go1 _ _ KStart); [cbn [step]; rewrite Ek, Eq; reflexivity|na|done]].
  pose proof (v_free _ _ I) as VF. rewrite Ek, Eq in VF. cbn in VF.
  assert (FL : deck s <> [] -> fp s = FFlush -> exists l s', Forall noArrive l /\ length l <= 2 /\ existsb useful l = true /\ run c s l = Some s').
  { intros Dk F. destruct (deck s) as [|d0 d] eqn:Ed; [done|]. destruct (size 0 (d0 :: d) =? maxBatch c) eqn:Em.
    - exists [FDo 0; FPushed]. eexists. split; [repeat constructor; na|]. split; [cbn; lia|]. split; [done|]. cbn [run step]. rewrite F, Ed, Em. cbn [set_fp fp queue]. rewrite Eq. cbn [length]. destruct (Nat.ltb_spec 0 (pendingTxn c)); [reflexivity|lia].
    - exists [FDo 0; KStart]. eexists. split; [repeat constructor; na|]. split; [cbn; lia|]. split; [done|]. cbn [run step]. rewrite F, Ed, Em, Eq. cbn [length]. destruct (Nat.ltb_spec 0 (pendingTxn c)); [|lia]. cbn [kp queue]. rewrite Ek. reflexivity. }
  assert (BF : buffer s <> [] -> fp s = FIdle -> go c s).
  { intros Hb F. destruct (buffer s) as [|e b] eqn:Eb; [done|]. eapply (go1 _ _ FTake); [cbn [step]; rewrite F, Eb; reflexivity|na|done]. }
  destruct (fp s) eqn:F.
  - destruct (decide (deck s = [])) as [Hd|Hd].
    2:{ left. assert (FI : exists l s', Forall noArrive l /\ length l <= 2 /\ existsb useful l = true /\ run c (set_fp FFlush s) l = Some s').
        { destruct (deck s) as [|d0 d] eqn:Ed; [done|]. destruct (size 0 (d0 :: d) =? maxBatch c) eqn:Em.
          - exists [FDo 0; FPushed]. eexists. split; [repeat constructor; na|]. split; [cbn; lia|]. split; [done|]. cbn [run step set_fp fp deck]. rewrite Ed, Em. cbn [set_fp fp queue]. rewrite Eq. cbn [length]. destruct (Nat.ltb_spec 0 (pendingTxn c)); [reflexivity|lia].
          - exists [FDo 0; KStart]. eexists. split; [repeat constructor; na|]. split; [cbn; lia|]. split; [done|]. cbn [run step set_fp fp deck queue]. rewrite Ed, Em, Eq. cbn [length]. destruct (Nat.ltb_spec 0 (pendingTxn c)); [|lia]. cbn [kp queue set_fp]. rewrite Ek. reflexivity. }
        destruct FI as (l & s' & L1 & L2 & L3 & L4). exists (FTick :: l), s'. split; [constructor; [na|done]|]. split; [cbn; lia|]. split; [done|]. cbn [run step]. by rewrite F. }
    destruct (decide (buffer s = [])) as [Hb|Hb]; [|left; by apply BF]. by apply quiet_pool.
  - left. eapply (go1 _ _ (FTry 0)); [cbn [step]; rewrite F; reflexivity|na|done].
  - destruct (decide (deck s = [])) as [Hd|Hd].
    2:{ left. destruct FL as (l & s' & L1 & L2 & L3 & L4); [done|done|]. exists l, s'. split; [done|]. split; [lia|]. done. }
    destruct (decide (buffer s = [])) as [Hb|Hb].
    2:{ left. destruct (buffer s) as [|e b] eqn:Eb; [done|]. exists [FDo 0; FTake]. eexists. split; [repeat constructor; na|]. split; [cbn; lia|]. split; [done|]. cbn [run step]. rewrite F, Hd. cbn [Nat.eqb set_fp fp buffer]. rewrite Eb. reflexivity. }
    by apply quiet_pool.
  - left. eapply (go1 _ _ FPushed); [cbn [step]; rewrite F, Eq; cbn [length]; destruct (Nat.ltb_spec 0 (pendingTxn c)); [reflexivity|lia]|na|done].
  - left. destruct (free s) eqn:Ef; [lia|]. eapply (go1 _ _ FSwap); [cbn [step]; rewrite F, Ef; reflexivity|na|done].
Qed.

Lemma inv_no_ij c s i w : inv c s -> ws s !! i = Some w -> ijIn w = [].
Proof. intros I L. destruct (v_w _ _ I i w L) as [h W]. apply W. Qed.
Lemma drain c s : valid c -> inv c s -> exists l s', Forall noArrive l /\ run c s l = Some s' /\ forall e, e ∈ arrived s' -> e ∈ committed s'.
Proof.
  intros V. remember (mu s) as m eqn:Em. revert s Em. induction m as [m IH] using lt_wf_ind. intros s -> I.
  destruct (progress c s V I) as [(l & s1 & L1 & L2 & L3 & L4)|H]; [|exists [], s; split; [constructor|]; split; [done|exact H]].
  pose proof (run_mu _ _ _ _ I L1 L4) as M. assert (1 <= length (List.filter useful l)).
  { clear -L3. induction l as [|a l IH]; [discriminate|]. cbn in *. destruct (useful a); cbn in *; [lia|by apply IH]. }
  assert (I1 : inv c s1) by (eapply run_inv; [exact I| |exact L4]; eapply Forall_impl; [exact L1|apply noArrive_noij]).
  destruct (IH (mu s1) ltac:(lia) s1 eq_refl I1) as (l2 & s2 & M1 & M2 & M3). exists (l ++ l2), s2. split; [by apply Forall_app|]. split; [|exact M3]. rewrite run_app, L4. exact M2.
Qed.
