(** Every step keeps the invariant and, if it changes something, makes the measure smaller; when nothing can change the group is balanced. *)
From stdpp Require Export prelude list gmap sorting.
From Verif.Balancer Require Export Measure.
From Coq Require Import Lia.
Open Scope nat_scope.

Definition Balanced (n : nat) (ps : list peer) : Prop :=
  (forall q, q < n -> Owned ps q) /\ Calm ps /\ (forall x, x ∈ ps -> pstat x = Inactive -> pown x = ∅) /\
  (forall x y, x ∈ ps -> y ∈ ps -> pstat x = Active -> pstat y = Active -> size (pown x) <= size (pown y) + 1).

Section calm.
  Context (o : orc) (n t : nat) (ps : list peer) (O : orc_ok o) (V : Sane n ps) (C : Calm ps) (AO : forall q, q < n -> Owned ps q).
  Notation cs := (claim_of t <$> ps).
  Notation g0 := (newGroupState n t cs).
  Notation CI := (cs_ids o n t ps O V).
  Notation CA := (cs_act o n t ps O V).
  Lemma calm_quiet : quiet n t cs.
  Proof using O V C AO. apply (cs_quiet o n t ps O V). split; [|done]. intros x X _. by apply C. Qed.
  Lemma peer_mem x : x ∈ ps -> exists m, mems g0 !! pid x = Some m /\ mdon m = pown x /\ load m = size (pown x) /\ mstat m = pstat x /\ mleft m = pleft x.
  Proof using O V C AO.
    intros X. destruct (from_claim o n t cs O CI CA (claim_of t x)) as (m & M & F); [by apply elem_of_list_fmap_1|]. exists m. simpl in M.
    assert (E : masg m = pown x). { apply set_eq. intros p. rewrite (own_asg o n t cs O CI CA _ _ _ M), (cs_first o n t ps O V). split; [|eauto]. intros (y & Y & EY & P). by rewrite (pid_eq ps x y (v_ids _ _ V) X Y (eq_sym EY)). }
    destruct (quiet_don o n t cs O CI CA _ _ calm_quiet M) as [D1 D2]. split_and!; [done|congruence| |apply (f_stat _ _ F)|apply (f_left _ _ F)]. unfold load. rewrite D1, D2, E, size_empty, (f_prep _ _ F), (f_rdy _ _ F). simpl.
    destruct (C x X) as [-> ->]. rewrite elements_empty. simpl. lia.
  Qed.
  Lemma mem_peer j m : mems g0 !! j = Some m -> exists x, x ∈ ps /\ pid x = j.
  Proof using O V C AO. intros M. apply (to_claim o n t cs O CI CA) in M as (c & Cc & <- & _). apply (cs_elem o n t ps O V) in Cc as (x & X & ->). by exists x. Qed.
  Lemma peer_of j m : mems g0 !! j = Some m -> exists x, x ∈ ps /\ pid x = j /\ mdon m = pown x /\ load m = size (pown x) /\ mstat m = pstat x.
  Proof using O V C AO. intros M. destruct (mem_peer j m M) as (x & X & <-). destruct (peer_mem x X) as (m' & M' & H1 & H2 & H3 & _). rewrite M in M'. injection M' as <-. by exists x. Qed.
  Lemma active_elem x : x ∈ ps -> pstat x = Active -> exists m, (pid x, m) ∈ actives g0 /\ mdon m = pown x /\ load m = size (pown x).
  Proof using O V C AO. intros X S1. destruct (peer_mem x X) as (m & M & H1 & H2 & H3 & _). exists m. split_and!; [|done|done]. apply elem_actives. split; [done|congruence]. Qed.
  Lemma inactive_elem x : x ∈ ps -> pstat x = Inactive -> exists m, (pid x, m) ∈ inactives g0 /\ mdon m = pown x.
  Proof using O V C AO. intros X S1. destruct (peer_mem x X) as (m & M & H1 & H2 & H3 & _). exists m. split_and!; [|done]. apply elem_inactives. split; [done|congruence]. Qed.
  Lemma active_len : length (actives g0) = length (filter (fun x => pstat x = Active) ps).
  Proof using O V C AO.
    assert (E : (actives g0).*1 ≡ₚ pid <$> filter (fun x => pstat x = Active) ps).
    { apply NoDup_Permutation; [apply NoDup_actives| |].
      - pose proof (v_ids _ _ V) as ND. clear -ND. induction ps as [|x l IH]; [constructor|]. rewrite fmap_cons, NoDup_cons in ND. destruct ND as [N1 N2]. rewrite filter_cons. case_decide; [|by apply IH]. rewrite fmap_cons. constructor; [|by apply IH].
        intros H'. apply N1. apply elem_of_list_fmap in H' as (y & -> & Y). apply elem_of_list_filter in Y as [_ Y]. by apply elem_of_list_fmap_1.
      - intros i. rewrite !elem_of_list_fmap. split.
        + intros ([j m] & -> & H). apply elem_actives in H as [M S1]. destruct (peer_of j m M) as (x & X & <- & _ & _ & S2). exists x. split; [done|]. apply elem_of_list_filter. split; [|done]. destruct (v_stat _ _ V x X); congruence.
        + intros (x & -> & X). apply elem_of_list_filter in X as [S1 X]. destruct (active_elem x X S1) as (m & M & _). by exists (pid x, m). }
    apply Permutation_length in E. by rewrite !fmap_length in E.
  Qed.
  Lemma act_total : (forall x, x ∈ ps -> pstat x = Inactive -> pown x = ∅) -> total (fun x => size (pown x)) (filter (fun x => pstat x = Active) ps) = n.
  Proof using O V C AO.
    intros Z. rewrite total_filter; [by apply own_total|]. intros x X NA. destruct (v_stat _ _ V x X) as [?|I]; [done|]. by rewrite (Z x X I).
  Qed.
  Lemma instr_move i x : (i, x) ∈ prepares o n t cs -> exists p d r, x = (t, p) /\ d ∈ ps /\ r ∈ ps /\ pid r = i /\ pstat r = Active /\ p ∈ pown d /\ r <> d /\ (pstat d = Inactive \/ size (pown r) + 2 <= size (pown d)).
  Proof using O V C AO.
    intros H. apply (prep_pick o n t cs O CI CA) in H as (_ & [di dm] & m & P & ->). apply (choose_some o n cs O CI CA) in P as (H1 & H2 & H3 & H4 & H5 & H6). simpl in *.
    pose proof H1 as H1'. apply elem_actives in H1' as [M1 S1]. destruct (peer_of _ _ M1) as (r & Hr & Er & Dr & Lr & Sr). destruct (peer_of _ _ H4) as (d & Hd & Ed & Dd & Ld & Sd).
    exists (randomPartition o 1 dm), d, r. split_and!; [done|done|done|done|destruct (v_stat _ _ V r Hr); congruence|rewrite <- Dd; by apply (random_in o cs O CI CA)|congruence|].
    destruct H6 as [[H6 _]|[Z I]]; [apply elem_inactives in H6 as [_ H6]; left; congruence|right].
    assert (Z' : forall x, x ∈ ps -> pstat x = Inactive -> pown x = ∅). { intros x X SX. destruct (inactive_elem x X SX) as (mx & Mx & Dx). rewrite <- Dx. by apply (Z (pid x, mx)). }
    unfold isImbalanced in I. case_decide as LN; [done|]. destruct (last (actives g0)) as [d'|] eqn:LA; [|done]. destruct (head (actives g0)) as [r'|] eqn:HE; [|done]. case_decide as D; [|done]. injection I as -> ->. simpl in D.
    rewrite Lr, Ld, Dd in D. destruct D as [_ D]. set (l := filter (fun x => pstat x = Active) ps) in *. assert (EL : length (actives g0) = length l) by apply active_len. rewrite EL in *.
    assert (MAX : forall x, x ∈ l -> size (pown x) <= size (pown d)).
    { intros x X. apply elem_of_list_filter in X as [SX X]. destruct (active_elem x X SX) as (mx & Mx & _ & Lx). destruct (last_le leA _ _ _ (actives_sorted g0) LA Mx) as [E|LE]; [injection E as E1 E2; subst; lia|]. apply leA_load in LE. simpl in LE. lia. }
    assert (MIN : forall x, x ∈ l -> size (pown r) <= size (pown x)).
    { intros x X. apply elem_of_list_filter in X as [SX X]. destruct (active_elem x X SX) as (mx & Mx & _ & Lx). pose proof (H5 _ Mx) as LE. simpl in LE. lia. }
    assert (RL : r ∈ l) by (apply elem_of_list_filter; split; [destruct (v_stat _ _ V r Hr); congruence|done]). pose proof (act_total Z') as T. fold l in T.
    destruct (take_out l r RL) as [l' PL']. assert (T1 : length l * size (pown r) <= n). { rewrite <- T, <- (total_const (size (pown r)) l). by apply total_le. }
    assert (T2 : n <= size (pown r) + length l' * size (pown d)). { rewrite <- T, (total_perm _ _ _ PL'), total_cons, <- (total_const (size (pown d)) l'). apply Nat.add_le_mono_l. apply total_le. intros x X. apply MAX. rewrite PL'. by right. }
    assert (T3 : length l = S (length l')) by (by rewrite PL'). set (k := length l) in *. assert (K0 : k <> 0) by lia. pose proof (Nat.mul_div_le n k K0) as Q1. pose proof (Nat.mul_succ_div_gt n k K0) as Q2.
    set (tg := n / k) in *. clearbody tg k. clear -D T1 T2 T3 Q1 Q2. set (a := size (pown r)) in *. set (b := size (pown d)) in *. clearbody a b. destruct (decide (a + 2 <= b)) as [?|NB]; [done|exfalso]. assert (B : b <= a + 1) by lia. destruct D as [D|D].
    - assert (length l' * b <= length l' * (a + 1)) by (by apply Nat.mul_le_mono_l). assert (k * (a + 1) <= k * tg) by (apply Nat.mul_le_mono_l; lia). nia.
    - assert (k * S tg <= k * a) by (apply Nat.mul_le_mono_l; lia). lia.
  Qed.
  Lemma no_instr : prepares o n t cs = [] -> Balanced n ps.
  Proof using O V C AO.
    intros P. rewrite (prepares_quiet o n t cs O CI CA calm_quiet) in P. destruct (pickMove n g0) as [[d r]|] eqn:E; [done|]. unfold pickMove in E.
    pose proof (some_active o n t cs O CI CA) as NE. destruct (head (actives g0)) as [r|] eqn:HE; [|by destruct (actives g0)].
    destruct (list_find _ (inactives g0)) as [[k d]|] eqn:F; [done|]. apply list_find_None in F. rewrite Forall_forall in F. split_and!; [done|done| |].
    - intros x X S1. destruct (inactive_elem x X S1) as (m & M & D). rewrite <- D. destruct (decide (mdon m = ∅)) as [?|ND]; [done|]. by destruct (F _ M).
    - intros x y X Y SX SY. destruct (active_elem x X SX) as (mx & Mx & _ & Lx). destruct (active_elem y Y SY) as (my & My & _ & Ly). rewrite <- Lx, <- Ly. unfold isImbalanced in E. case_decide as LN.
      + destruct (actives g0) as [|z [|z' l]]; [done| |simpl in LN; lia]. apply elem_of_list_singleton in Mx, My. rewrite <- My in Mx. injection Mx as _ ->. lia.
      + destruct (last (actives g0)) as [d|] eqn:LA; [|by apply last_None in LA]. rewrite HE in E. case_decide as D; [done|].
        assert (MX : load mx <= load d.2). { destruct (last_le leA _ _ _ (actives_sorted g0) LA Mx) as [EE|LE]; [by rewrite <- EE|by apply leA_load in LE]. }
        assert (MY : load r.2 <= load my). { destruct (head_le leA _ _ _ (actives_sorted g0) HE My) as [EE|LE]; [by rewrite <- EE|by apply leA_load in LE]. }
        apply last_Some in LA as [l' EL]. assert (d ∈ actives g0) as DD by (rewrite EL; set_solver). destruct d as [di dm]. apply elem_actives in DD as [DD _]. destruct (peer_of _ _ DD) as (pd & _ & _ & Dd & Ld & _). simpl in *. rewrite Dd, <- Ld in D.
        destruct (decide (load dm <= 1)); [lia|]. assert (~ (load r.2 < n / length (actives g0) \/ n / length (actives g0) + 1 < load dm)) by (intros Q; apply D; split; [lia|done]). lia.
  Qed.
  Lemma reb_instr i p : prepares o n t cs = [(i, (t, p))] -> rebalance o n t ps = (fun x => if decide (pid x = i) then mkPeer (pid x) (pstat x) (pleft x) (pown x) {[p]} ∅ else x) <$> ps.
  Proof using O V C AO.
    intros P. unfold rebalance. apply Forall_fmap_ext. rewrite Forall_forall. intros x X. pose proof (reb_own_same o n t ps O V (fun y Y => proj2 (C y Y)) AO x X) as EO. unfold receive in *. simpl in *. rewrite EO, P.
    destruct (C x X) as [K1 K2]. rewrite filter_cons, filter_nil. simpl. destruct (decide (pid x = i)) as [->|NE].
    - rewrite (decide_True (P := i = i /\ t = t)) by done. f_equal; rewrite ?K1, ?K2; case_decide; set_solver.
    - rewrite (decide_False (P := i = pid x /\ t = t)) by (intros [? _]; congruence). etrans; [|symmetry; apply peer_eta]. f_equal; rewrite ?K1, ?K2; case_decide; set_solver.
  Qed.
End calm.

Lemma weight_eq n x y s s' : pstat x = pstat y -> s = s' -> weight n x s = weight n y s'.
Proof. unfold weight. by intros -> ->. Qed.

Theorem Inv_reb o n t ps : orc_ok o -> Inv n ps -> Inv n (rebalance o n t ps) /\
  (rebalance o n t ps = ps \/ forall k, Meas n ps k -> exists k', Meas n (rebalance o n t ps) k' /\ k' < k).
Proof.
  intros O [V I]. pose proof (R_sane' o n t ps O V) as V'. destruct I as [C|(r & p & F)].
  - destruct (allowned_dec n ps) as [AO|NO].
    + pose proof (prep_one o n t (claim_of t <$> ps) O (cs_ids o n t ps O V) (cs_act o n t ps O V)) as L1. destruct (prepares o n t (claim_of t <$> ps)) as [|[i x] [|? ?]] eqn:P; simpl in L1; [| |lia].
      * rewrite (reb_same o n t ps O V) by (try done; intros y Y; destruct (C y Y); auto). split; [split; [done|by left]|by left].
      * assert (H : (i, x) ∈ prepares o n t (claim_of t <$> ps)) by (rewrite P; left). apply (instr_move o n t ps O V C AO) in H as (p & d & r & -> & Hd & Hr & <- & Sr & Pd & NE & Q).
        rewrite (reb_instr o n t ps O V C AO (pid r) p P) in *. set (f := fun x => if decide (pid x = pid r) then mkPeer (pid x) (pstat x) (pleft x) (pown x) {[p]} ∅ else x) in *.
        assert (FO : forall x, pown (f x) = pown x /\ pid (f x) = pid x /\ pstat (f x) = pstat x) by (intros x; unfold f; by case_decide).
        assert (OW : forall q, Owned ps q -> Owned (f <$> ps) q). { intros q (x & X & K). exists (f x). split; [by apply elem_of_list_fmap_1|]. by rewrite (proj1 (FO x)). }
        assert (FL : Flight n (f <$> ps) (f r) p).
        { split; [by apply elem_of_list_fmap_1|by rewrite (proj2 (proj2 (FO r)))|by apply (v_lt _ _ V d)| |left| |].
          - rewrite (proj1 (FO r)). intros K. apply NE. by apply (v_one _ _ V r d p).
          - unfold f at 1 2. rewrite decide_True by done. split_and!; [done|done|]. apply OW. by exists d.
          - intros y Y NR. apply elem_of_list_fmap in Y as (x & -> & X). destruct (decide (pid x = pid r)) as [D|D]; [destruct NR; f_equal; by apply (pid_eq ps x r (v_ids _ _ V) X Hr)|]. unfold f. rewrite decide_False by done. by apply C.
          - intros q K _. by apply OW, AO. }
        split; [split; [done|right; eauto]|]. right. intros k K. pose proof (Meas_fun _ _ _ _ K (MCalm n ps C AO)) as ->. eexists. split; [apply (MPrep n _ (f r) p FL); unfold f; by rewrite decide_True|].
        rewrite (proj1 (proj2 (FO r))). unfold heavy, heavyF. rewrite total_map. destruct (take_two ps d r Hd Hr) as [l PL]; [congruence|]. rewrite !(total_perm _ _ _ PL), !total_cons.
        assert (E : total (fun x => weight n (f x) (fv (pid r) p (f x))) l = total (fun x => weight n x (pown x)) l).
        { apply total_ext. intros x X. apply weight_eq; [apply FO|]. unfold fv. destruct (FO x) as (-> & -> & _). assert (XP : x ∈ ps) by (rewrite PL; by right; right).
          assert (ND : NoDup (d :: r :: l)) by (rewrite <- PL; by apply (Sane_nodup n)). apply NoDup_cons in ND as [N1 ND]. apply NoDup_cons in ND as [N2 ND]. rewrite decide_False.
          - assert (p ∉ pown x); [|set_solver]. intros K'. pose proof (v_one _ _ V x d p XP Hd K' Pd) as ->. apply N1. by right.
          - intros EQ. apply (pid_eq ps x r (v_ids _ _ V) XP Hr) in EQ as ->. done. }
        rewrite E. assert (ED : weight n (f d) (fv (pid r) p (f d)) = weight n d (pown d ∖ {[p]})).
        { apply weight_eq; [apply FO|]. unfold fv. destruct (FO d) as (-> & -> & _). rewrite decide_False; [set_solver|]. intros EQ. apply NE. symmetry. by apply (pid_eq ps d r (v_ids _ _ V) Hd Hr). }
        assert (NP : p ∉ pown r) by (intros K'; apply NE; by apply (v_one _ _ V r d p)).
        assert (ER : weight n (f r) (fv (pid r) p (f r)) = weight n r ({[p]} ∪ pown r)).
        { apply weight_eq; [apply FO|]. unfold fv. destruct (FO r) as (-> & -> & _). rewrite decide_True by done. set_solver. }
        rewrite ED, ER. unfold weight. rewrite Sr. rewrite !(decide_False (P := Active = Inactive)) by done. rewrite (size_union {[p]} (pown r)), size_singleton by set_solver.
        assert (SD : size (pown d) = S (size (pown d ∖ {[p]}))).
        { rewrite size_difference by set_solver. rewrite size_singleton. assert (size (pown d) <> 0); [|lia]. intros Z. apply size_empty_inv in Z. set_solver. }
        pose proof (own_size n ps r V Hr) as BR. set (a := size (pown r)) in *. set (b := size (pown d ∖ {[p]})) in *. rewrite SD. clear -Q BR SD. generalize (total (fun x => if decide (pstat x = Inactive) then size (pown x) * (2 * n + 2) else size (pown x) * size (pown x)) l). intros u. case_decide as D; [nia|]. destruct Q as [?|Q]; [done|]. rewrite SD in Q. nia.
    + destruct (reb_orphans o n t ps O V C NO) as [C' AO']. split; [split; [done|by left]|]. right. intros k K. pose proof (Meas_fun _ _ _ _ K (MOrphans n ps C NO)) as ->. eexists. split; [by apply MCalm|]. by apply heavy_top.
  - destruct (fl_kind _ _ _ _ F) as [(KP & KR & OW)|[KP KR]].
    + rewrite (fl_same o n t ps O V r p F KP). split; [split; [done|right; eauto]|by left].
    + destruct (owned_dec ps p) as [OW|NO].
      * rewrite (fl_revoke o n t ps O V r p F KR OW) in *. set (f := fun x => mkPeer (pid x) (pstat x) (pleft x) (pown x ∖ {[p]}) (pprep x) (prdy x)) in *.
        assert (NO' : ~ Owned (f <$> ps) p) by (intros (y & Y & K); apply elem_of_list_fmap in Y as (x & -> & X); simpl in K; set_solver).
        assert (FL : Flight n (f <$> ps) (f r) p).
        { destruct F as [F1 F2 F3 F4 F5 F6 F7]. split; simpl; [by apply elem_of_list_fmap_1|done|done|set_solver|by right| |].
          - intros y Y NR. apply elem_of_list_fmap in Y as (x & -> & X). simpl. apply F6; [done|]. by intros ->.
          - intros q K NE. destruct (F7 q K NE) as (x & X & KX). exists (f x). split; [by apply elem_of_list_fmap_1|]. simpl. set_solver. }
        split; [split; [done|right; eauto]|]. right. intros k K. pose proof (Meas_fun _ _ _ _ K (MReady n ps r p F KR OW)) as ->. eexists. split; [by apply (MFree n _ (f r) p FL)|].
        assert (E : heavyF n (pid (f r)) p (f <$> ps) = heavyF n (pid r) p ps); [|lia]. unfold heavyF. rewrite total_map. apply total_ext. intros x X. apply weight_eq; [done|]. unfold fv. simpl. set_solver.
      * rewrite (fl_deliver o n t ps O V r p F KR NO) in *. set (f := fun x => if decide (x = r) then mkPeer (pid x) (pstat x) (pleft x) ({[p]} ∪ pown x) ∅ ∅ else x) in *.
        assert (C' : Calm (f <$> ps)). { intros y Y. apply elem_of_list_fmap in Y as (x & -> & X). unfold f. case_decide; [done|]. by apply F. }
        assert (AO' : forall q, q < n -> Owned (f <$> ps) q).
        { intros q K. destruct (decide (q = p)) as [->|NE].
          - exists (f r). split; [apply elem_of_list_fmap_1, F|]. unfold f. rewrite decide_True by done. simpl. set_solver.
          - destruct (fl_owned _ _ _ _ F q K NE) as (x & X & KX). exists (f x). split; [by apply elem_of_list_fmap_1|]. unfold f. case_decide; simpl; set_solver. }
        split; [split; [done|by left]|]. right. intros k K. pose proof (Meas_fun _ _ _ _ K (MFree n ps r p F KR NO)) as ->. eexists. split; [by apply MCalm|].
        assert (E : heavy n (f <$> ps) = heavyF n (pid r) p ps); [|lia]. unfold heavy, heavyF. rewrite total_map. apply total_ext. intros x X. unfold fv. assert (NX : p ∉ pown x) by (intros KX; apply NO; by exists x).
        unfold f. destruct (decide (x = r)) as [->|NE]; (apply weight_eq; [done|]); simpl.
        -- rewrite decide_True by done. set_solver.
        -- rewrite decide_False; [set_solver|]. intros EQ. apply NE. by apply (pid_eq ps x r (v_ids _ _ V) X (fl_in _ _ _ _ F)).
Qed.
Theorem Inv_prep n ps i q : Inv n ps -> Inv n (prepared i q ps) /\ (prepared i q ps = ps \/ forall k, Meas n ps k -> exists k', Meas n (prepared i q ps) k' /\ k' < k).
Proof.
  intros [V I]. destruct (decide (Exists (fun x => pid x = i /\ q ∈ pprep x) ps)) as [E|E].
  - apply Exists_exists in E as (x & X & <- & Q). destruct I as [C|(r & p & F)]; [destruct (C x X); set_solver|]. destruct (decide (x = r)) as [->|NE]; [|destruct (fl_others _ _ _ _ F x X NE); set_solver].
    destruct (fl_kind _ _ _ _ F) as [(KP & KR & OW)|[KP KR]]; [|set_solver]. assert (q = p) as -> by set_solver.
    unfold prepared. set (f := fun x => if decide (pid x = pid r /\ p ∈ pprep x) then _ else x).
    assert (FO : forall x, pown (f x) = pown x /\ pid (f x) = pid x /\ pstat (f x) = pstat x) by (intros x; unfold f; by case_decide).
    assert (FR : pprep (f r) = ∅ /\ prdy (f r) = {[p]}) by (unfold f; rewrite decide_True by done; simpl; rewrite KP, KR; split; set_solver).
    assert (OWN : forall q, Owned ps q -> Owned (f <$> ps) q). { intros q (x & XX & K). exists (f x). split; [by apply elem_of_list_fmap_1|]. by rewrite (proj1 (FO x)). }
    assert (V' : Sane n (f <$> ps)).
    { destruct V as [V1 V2 (x0 & X0 & A0) V4 V5]. split.
      - rewrite <- list_fmap_compose. erewrite list_fmap_ext; [exact V1|]. intros ? y _. simpl. apply FO.
      - intros y Y. apply elem_of_list_fmap in Y as (x & -> & XX). rewrite (proj2 (proj2 (FO x))). by apply V2.
      - exists (f x0). split; [by apply elem_of_list_fmap_1|]. by rewrite (proj2 (proj2 (FO x0))).
      - intros y y' u Y Y' P P'. apply elem_of_list_fmap in Y as (x & -> & XX). apply elem_of_list_fmap in Y' as (x' & -> & XX'). rewrite (proj1 (FO x)) in P. rewrite (proj1 (FO x')) in P'. by rewrite (V4 x x' u XX XX' P P').
      - intros y u Y P. apply elem_of_list_fmap in Y as (x & -> & XX). rewrite (proj1 (FO x)) in P. by apply (V5 x u). }
    assert (FL : Flight n (f <$> ps) (f r) p).
    { destruct F as [F1 F2 F3 F4 F5 F6 F7]. split; [by apply elem_of_list_fmap_1|by rewrite (proj2 (proj2 (FO r)))|done|by rewrite (proj1 (FO r))|by right| |].
      - intros y Y NR. apply elem_of_list_fmap in Y as (x & -> & XX). assert (NX : x <> r) by (by intros ->). destruct (F6 x XX NX) as [H1 H2]. unfold f. rewrite decide_False by set_solver. done.
      - intros u K NE. by apply OWN, F7. }
    split; [split; [done|right; eauto]|]. right. intros k K. pose proof (Meas_fun _ _ _ _ K (MPrep n ps r p F KP)) as ->. eexists. split; [apply (MReady n _ (f r) p FL); [apply FR|by apply OWN]|].
    assert (E : heavyF n (pid (f r)) p (f <$> ps) = heavyF n (pid r) p ps); [|lia]. unfold heavyF. rewrite total_map. apply total_ext. intros x XX. apply weight_eq; [apply FO|]. unfold fv. destruct (FO x) as (-> & -> & _). by rewrite (proj1 (proj2 (FO r))).
  - assert (EQ : prepared i q ps = ps). { apply map_same. intros x X. rewrite decide_False; [done|]. intros H. apply E, Exists_exists. by exists x. } rewrite EQ. split; [by split|by left].
Qed.
Theorem Inv_step n t ps a : act_ok a -> Inv n ps -> Inv n (gstep n t ps a) /\ (gstep n t ps a = ps \/ forall k, Meas n ps k -> exists k', Meas n (gstep n t ps a) k' /\ k' < k).
Proof. destruct a as [o|i p]; simpl; [intros OK; by apply Inv_reb|intros _; apply Inv_prep]. Qed.
Theorem Inv_run n t ps l : Forall act_ok l -> Inv n ps -> Inv n (grun n t ps l).
Proof. revert ps. induction l as [|a l IH]; [done|]. intros ps H I. apply Forall_cons in H as [H1 H2]. simpl. apply IH; [done|]. by apply Inv_step. Qed.
(** finitely many changes *)
Theorem changes_bound n t ps k : Inv n ps -> Meas n ps k -> forall l, Forall act_ok l -> changes n t ps l <= k.
Proof.
  intros I K l. revert ps k I K. induction l as [|a l IH]; [simpl; lia|]. intros ps k I K H. apply Forall_cons in H as [H1 H2]. destruct (Inv_step n t ps a H1 I) as [I' D]. simpl. case_decide as E.
  - rewrite E. simpl. by apply IH.
  - destruct D as [D|D]; [done|]. destruct (D k K) as (k' & K' & LT). pose proof (IH _ _ I' K' H2). lia.
Qed.
(** nothing gets stuck before the group is balanced *)
Theorem progress n t ps : Inv n ps -> (exists x p, x ∈ ps /\ p ∈ pprep x /\ prepared (pid x) p ps <> ps) \/ (forall o, orc_ok o -> rebalance o n t ps <> ps) \/
  (Balanced n ps /\ forall o, orc_ok o -> rebalance o n t ps = ps).
Proof.
  intros [V [C|(r & p & F)]].
  - destruct (allowned_dec n ps) as [AO|NO].
    + (** whether something is scheduled does not depend on the oracle *)
      assert (CH : forall o, orc_ok o -> prepares o n t (claim_of t <$> ps) = match pickMove n (newGroupState n t (claim_of t <$> ps)) with Some (d, r) => [(r.1, (t, randomPartition o 1 d.2))] | None => [] end).
      { intros o O. apply (prepares_quiet o n t _ O (cs_ids o n t ps O V) (cs_act o n t ps O V)). by apply (calm_quiet o n t ps O V C AO). }
      destruct (pickMove n (newGroupState n t (claim_of t <$> ps))) as [[d r]|].
      * right. left. intros o O E. pose proof (CH o O) as P. rewrite (reb_instr o n t ps O V C AO _ _ P) in E.
        assert (H : (r.1, (t, randomPartition o 1 d.2)) ∈ prepares o n t (claim_of t <$> ps)) by (rewrite P; left). apply (instr_move o n t ps O V C AO) in H as (p & d' & r' & _ & _ & Hr & Er & _).
        rewrite <- E in Hr. apply elem_of_list_fmap in Hr as (x & -> & X). assert (Y : (if decide (pid x = r.1) then mkPeer (pid x) (pstat x) (pleft x) (pown x) {[randomPartition o 1 d.2]} ∅ else x) ∈ ps).
        { rewrite <- E. apply elem_of_list_fmap. by exists x. }
        destruct (decide (pid x = r.1)) as [D|D]; [|done]. destruct (C _ Y) as [Z _]. simpl in Z. set_solver.
      * right. right. assert (A : forall o, orc_ok o -> rebalance o n t ps = ps).
        { intros o O. apply (reb_same o n t ps O V); [|done|by apply CH]. intros y Y. destruct (C y Y). auto. }
        split; [|done]. assert (O : orc_ok (mkOrc id id id id)) by done. by apply (no_instr _ n t ps O V C AO), CH.
    + right. left. intros o O E. destruct (reb_orphans o n t ps O V C NO) as [_ AO']. by rewrite E in AO'.
  - destruct (fl_kind _ _ _ _ F) as [(KP & KR & OW)|[KP KR]].
    + left. exists r, p. split_and!; [apply F|set_solver|]. intros E. pose proof (fl_in _ _ _ _ F) as Hr.
      assert (Y : mkPeer (pid r) (pstat r) (pleft r) (pown r) (pprep r ∖ {[p]}) ({[p]} ∪ prdy r) ∈ ps).
      { rewrite <- E. unfold prepared. apply elem_of_list_fmap. exists r. rewrite decide_True by set_solver. done. }
      pose proof (pid_eq ps _ r (v_ids _ _ V) Y Hr eq_refl) as EQ. apply (f_equal prdy) in EQ. simpl in EQ. set_solver.
    + right. left. intros o O E. destruct (owned_dec ps p) as [OW|NO].
      * rewrite (fl_revoke o n t ps O V r p F KR OW) in E. destruct OW as (d & D & P). rewrite <- E in D. apply elem_of_list_fmap in D as (x & -> & X). simpl in P. set_solver.
      * rewrite (fl_deliver o n t ps O V r p F KR NO) in E. apply NO. rewrite <- E. eexists. split; [apply elem_of_list_fmap; exists r; split; [done|apply F]|]. rewrite decide_True by done. simpl. set_solver.
Qed.
(** every partition has an owner or a designated receiver *)
Definition Cared (n : nat) (ps : list peer) : Prop := forall q, q < n -> Owned ps q \/ exists x, x ∈ ps /\ pstat x = Active /\ q ∈ prdy x.
Lemma Inv_cared n ps : Inv n ps -> ~ Calm ps \/ (forall q, q < n -> Owned ps q) -> Cared n ps.
Proof.
  intros [V [C|(r & p & F)]] H; [destruct H as [H|H]; [done|intros q Q; left; by apply H]|]. intros q Q. destruct (decide (q = p)) as [->|NE]; [|left; by apply F].
  destruct (fl_kind _ _ _ _ F) as [(_ & _ & K)|[_ K]]; [by left|right]. exists r. split_and!; [apply F|apply F|set_solver].
Qed.
Lemma Cared_reb o n t ps : orc_ok o -> Inv n ps -> Cared n (rebalance o n t ps).
Proof.
  intros O I. pose proof I as [V I2]. destruct (Inv_reb o n t ps O I) as [I' _]. apply Inv_cared; [done|]. destruct I2 as [C|(r & p & F)].
  - right. destruct (allowned_dec n ps) as [AO|NO]; [|by apply (reb_orphans o n t ps O V C NO)]. intros q Q. destruct (AO q Q) as (x & X & K). apply (Owned_R o n t ps O V). exists x. split; [done|].
    by rewrite (reb_own_same o n t ps O V (fun y Y => proj2 (C y Y)) AO x X).
  - destruct (fl_kind _ _ _ _ F) as [(KP & KR & OW)|[KP KR]].
    + left. rewrite (fl_same o n t ps O V r p F KP). by apply (Flight_calm n ps r p).
    + destruct (owned_dec ps p) as [OW|NO].
      * left. rewrite (fl_revoke o n t ps O V r p F KR OW). intros C. destruct (C (mkPeer (pid r) (pstat r) (pleft r) (pown r ∖ {[p]}) (pprep r) (prdy r))) as [_ K]; [apply elem_of_list_fmap; exists r; split; [done|apply F]|]. simpl in K. set_solver.
      * right. rewrite (fl_deliver o n t ps O V r p F KR NO). intros q Q. destruct (decide (q = p)) as [->|NE].
        -- eexists. split; [apply elem_of_list_fmap; exists r; split; [done|apply F]|]. rewrite decide_True by done. simpl. set_solver.
        -- destruct (fl_owned _ _ _ _ F q Q NE) as (x & X & KX). eexists. split; [apply elem_of_list_fmap; exists x; split; [done|done]|]. case_decide; simpl; set_solver.
Qed.
Lemma Cared_prep n ps i q : Cared n ps -> Cared n (prepared i q ps).
Proof.
  intros H u U. destruct (H u U) as [(x & X & K)|(x & X & S1 & K)]; [left|right]; (eexists; split; [apply elem_of_list_fmap; exists x; split; [done|done]|]); case_decide; simpl; set_solver.
Qed.
Theorem Cared_run n t ps l : Forall act_ok l -> Inv n ps -> Cared n ps \/ (exists o l', l = Reb o :: l') -> Cared n (grun n t ps l).
Proof.
  intros H I [C|(o & l' & ->)].
  - revert ps I C. induction l as [|a l IH]; [done|]. intros ps I C. apply Forall_cons in H as [H1 H2]. simpl. apply IH; [done|by apply Inv_step|]. destruct a; simpl; [by apply Cared_reb|by apply Cared_prep].
  - apply Forall_cons in H as [H1 H2]. simpl. assert (C : Cared n (rebalance o n t ps)) by (by apply Cared_reb). assert (I' : Inv n (rebalance o n t ps)) by (by apply Inv_reb). clear I. revert C I'. generalize (rebalance o n t ps). clear ps.
    induction l' as [|a l IH]; [done|]. intros ps C I. apply Forall_cons in H2 as [H3 H4]. simpl. apply IH; [done| |by apply Inv_step]. destruct a; simpl; [by apply Cared_reb|by apply Cared_prep].
Qed.
