(** C77: a sync call of a worker whose marker has been written is released. *)
From stdpp Require Import prelude list.
From Verif.StateStore Require Import Model Inv Step Step2 Step3 Proofs.
Open Scope nat_scope.

(** the steps of the consume goroutine and of the populators *)
Definition internal (a : action) : Prop := match a with CPoll _ | CCheck | CEval | CPut | PTake _ | PHandle _ => True | _ => False end.

(** a bootstrap that was not forgotten ended because all its sync calls were released *)
Definition comp (s : st) : Prop := preps s = 1 -> buf s = None -> kinds s <> [KPrep] -> length (kinds s) <= length (released (trace s)).

Lemma step_comp s a s' c0 ch P : base s -> one s c0 ch P -> comp s -> step s a = Some s' -> comp s'.
Proof.
  intros Bs O C H. destruct a as [n| | | | | |i|i|i|i|n| | | |j|j]; cbn [step] in H.
  - injection H as <-. exact C.
  - injection H as <-. exact C.
  - destruct (prepping s) eqn:Pr; [injection H as <-; exact C|]. destruct (assignStore s) as [x s1] eqn:A. injection H as <-. intros Q. exfalso. cbn in Q.
    pose proof (o_preps _ _ _ _ O) as E. unfold assignStore in A. destruct (store s); injection A as <- <-; cbn in Q; lia.
  - injection H as <-. destruct (prepping s) eqn:Pr; [|exact C]. destruct (o_prepping _ _ _ _ O Pr) as [K B]. intros _ _ Q. exfalso. apply Q. unfold kinds in *. cbn. rewrite (proj2 (proj2 (cancel_frame s))). exact K.
  - destruct (assignStore s) as [x s1] eqn:A. assert (E : buf s1 = buf s /\ trace s1 = trace s /\ syncs s1 = syncs s /\ preps s1 = preps s /\ prepping s1 = prepping s) by (unfold assignStore in A; destruct (store s); injection A as <- <-; auto).
    destruct E as (E1 & E2 & E3 & E4 & E5). destruct (prepping s1) eqn:Pr; [|destruct (worker s1)]; injection H as <-.
    + intros _ Q. exfalso. cbn in Q. destruct (o_prepping _ _ _ _ O (eq_sym E5)) as [_ B]. congruence.
    + unfold comp, kinds. rewrite E1, E2, E3, E4. exact C.
    + intros Q. exfalso. cbn in Q. pose proof (o_preps _ _ _ _ O). lia.
  - injection H as <-. exact C.
  - destruct (syncs s !! i) as [[k x [|m|m|m]]|] eqn:E; try discriminate. injection H as <-. unfold comp. change (kinds (set_nextMark (S (nextMark s)) (set_waiters (waiters s ++ [nextMark s]) (setSync i k x (SReg (nextMark s)) s)))) with (kinds (setSync i k x (SReg (nextMark s)) s)). rewrite (kinds_set s i k x SNew _ E). exact C.
  - destruct (syncs s !! i) as [[k x [|m|m|m]]|] eqn:E; try discriminate. injection H as <-. unfold comp. change (kinds (set_log (log s ++ [Mark m]) (setSync i k x (SSent m) s))) with (kinds (setSync i k x (SSent m) s)). rewrite (kinds_set s i k x _ _ E). exact C.
  - destruct (syncs s !! i) as [[k x [|m|m|m]]|] eqn:E; try discriminate. injection H as <-. unfold comp. rewrite (kinds_set s i k x _ _ E). exact C.
  - destruct (syncs s !! i) as [[k x [|m|m|m]]|] eqn:E; try discriminate. destruct (decide _); [|discriminate]. injection H as <-. unfold comp. rewrite (kinds_set s i k x _ _ E). exact C.
  - destruct (con s); try discriminate. destruct (fpaused s); [discriminate|]. destruct (decide _); [|discriminate]. injection H as <-. exact C.
  - destruct (con s); try discriminate. injection H as <-. destruct (state s); exact C.
  - destruct (con s); try discriminate. injection H as <-. exact C.
  - destruct (con s) as [| | |b [c|]|]; try discriminate. destruct (chans s !! c) as [k|]; [|discriminate]. destruct (c_closed k); [injection H as <-; exact C|]. destruct (_ <? _); [|discriminate]. injection H as <-. exact C.
  - destruct (pops s !! j) as [[c x [|r b] [|] dn]|]; try discriminate. destruct (chans s !! c) as [[[|b q] [|]]|]; try discriminate; injection H as <-; exact C.
  - destruct (pops s !! j) as [[c x [|r b] [|] dn]|] eqn:Pj; try discriminate. pose proof (handle_frame x r s) as (_ & _ & Q3).
    assert (Pl : P = mkPop c x (r :: b) true dn) by (rewrite (o_pops _ _ _ _ O) in Pj; destruct j as [|j]; [injection Pj as ->; reflexivity|discriminate]).
    destruct (buf s) as [k|] eqn:B.
    2:{ pose proof (o_shutlive _ _ _ _ O B) as K. rewrite Pl in K. specialize (K eq_refl). destruct (handleRecord x r s) as [cp s1]. cbn [snd] in *. injection H as <-. intros _ _ Q. exfalso. apply Q. unfold kinds in *. cbn. rewrite Q3. exact K. }
    destruct (o_open _ _ _ _ O ltac:(congruence)) as (Q1 & Q2 & _ & _ & _ & Q6).
    destruct r as [q|m]; cbn in H; [injection H as <-; intros _ Q; cbn in Q; congruence|]. unfold isCompletionMarker in H. destruct (decide (m ∈ waiters s)) as [W|]; cbn in H; [|injection H as <-; intros _ Q; cbn in Q; congruence].
    destruct (state s) eqn:St; cbn in H.
    1,2: injection H as <-; intros _ Q; cbn in Q; congruence.
    injection H as <-. intros _ _ Q.
    assert (Et : trace (cancel (set_waiters (filter (fun w => w <> m) (waiters s)) s)) = trace s) by (unfold cancel, pause, closeCh; cbn; destruct (buf s) as [c'|]; cbn; [destruct (chans s !! c')|]; reflexivity).
    unfold kinds in *. cbn [set_pops emit syncs trace] in *. rewrite (proj2 (proj2 (cancel_frame _))) in *. cbn [set_waiters syncs] in *. rewrite Et, released_app, app_length. cbn.
    destruct (o_kinds _ _ _ _ O) as [K|[K|K]]; unfold kinds in K; rewrite K in *; cbn in *; destruct (length (released (trace s))) as [|[|?]]; try discriminate; try lia; congruence.
Qed.

Lemma none_buf s a s' : none s -> step s a = Some s' -> preps s' = 1 -> buf s' <> None.
Proof.
  intros [N1 N2 N3 N4 N5 N6 N7 N8 N9 N10 N11] E. destruct a as [n| | | | | |i|i|i|i|n| | | |j|j]; cbn [step] in E; rewrite ?N3, ?N4, ?N5, ?N8 in E; try discriminate.
  - injection E as <-. cbn. congruence.
  - injection E as <-. cbn. congruence.
  - destruct (assignStore s). injection E as <-. discriminate.
  - injection E as <-. cbn. congruence.
  - unfold assignStore in E. destruct (store s); cbn in E; rewrite N8, N9 in E; injection E as <-; discriminate.
  - injection E as <-. cbn. congruence.
  - rewrite N2 in E. discriminate.
Qed.

Definition inv1 (s : st) : Prop := (none s \/ (exists c0 ch P, one s c0 ch P /\ comp s) \/ 2 <= preps s).
Lemma run_comp acts : forall s s', inv s -> inv1 s -> run s acts = Some s' -> inv1 s'.
Proof.
  induction acts as [|a acts IH]; intros s s' I J H; cbn in H; [injection H as <-; exact J|]. destruct (step s a) as [s1|] eqn:E; [|discriminate]. apply (IH s1 s'); [exact (step_inv s a s1 I E)| |exact H].
  destruct I as [Bs I]. pose proof (preps_mono s a s1 E) as M. destruct J as [N|[(c0 & ch & P & O & C)|L]].
  - destruct (step_none s a s1 N E) as [N1|(c0 & ch & P & O)]; [left; exact N1|right; left]. exists c0, ch, P. split; [exact O|]. intros _ B.
    exfalso. exact (none_buf s a s1 N E (o_preps _ _ _ _ O) B).
  - destruct (step_one s a s1 c0 ch P Bs O E) as [(ch' & P' & O')|L]; [|right; right; exact L]. right. left. exists c0, ch', P'. split; [exact O'|]. exact (step_comp s a s1 c0 ch P Bs O C E).
  - right. right. lia.
Qed.

(** what is left to do *)
Definition wcon (c : cons) : nat := match c with CIdle => 0 | CHold b => 4 + 4 * length b | CAdd b => 3 + 4 * length b | CSend b _ => 2 + 4 * length b | CPanic => 0 end.
Definition wq (q : list (list record)) : nat := foldr (fun b n => 1 + 2 * length b + n) 0 q.
Definition W (s : st) (ch : chan) (P : pop) : nat := 9 * (length (log s) - pos s) + wcon (con s) + wq (c_q ch) + 2 * length (p_rest P) + (if p_live P then 1 else 0).

Lemma wq_app a b : wq (a ++ b) = wq a + wq b.
Proof. induction a as [|x a IH]; [reflexivity|]. change (1 + 2 * length x + wq (a ++ b) = 1 + 2 * length x + wq a + wq b). lia. Qed.

Lemma internal_down s a s' c0 ch P : base s -> one s c0 ch P -> internal a -> step s a = Some s' -> exists ch' P', one s' c0 ch' P' /\ W s' ch' P' < W s ch P.
Proof.
  intros Bs O I H. pose proof (preps_mono s a s' H) as Mo.
  assert (O' : exists ch' P', one s' c0 ch' P').
  { destruct (step_one s a s' c0 ch P Bs O H) as [?|L]; [assumption|]. exfalso. pose proof (o_preps _ _ _ _ O). destruct a; try destruct I; cbn [step] in H.
    - destruct (con s); try discriminate. destruct (fpaused s); [discriminate|]. destruct (decide _); [|discriminate]. injection H as <-. cbn in L. lia.
    - destruct (con s); try discriminate. injection H as <-. destruct (state s); cbn in L; lia.
    - destruct (con s); try discriminate. injection H as <-. cbn in L. lia.
    - destruct (con s) as [| | |b [c|]|]; try discriminate. destruct (chans s !! c) as [k|]; [|discriminate]. destruct (c_closed k); [injection H as <-; cbn in L; lia|]. destruct (_ <? _); [|discriminate]. injection H as <-. cbn in L; lia.
    - destruct (pops s !! j) as [[c x [|r b] [|] dn]|]; try discriminate. destruct (chans s !! c) as [[[|b q] [|]]|]; try discriminate; injection H as <-; cbn in L; lia.
    - destruct (pops s !! j) as [[c x [|r b] [|] dn]|]; try discriminate. destruct r as [q|m]; cbn in H; [injection H as <-; cbn in L; lia|]. unfold isCompletionMarker in H. destruct (decide (m ∈ waiters s)); cbn in H; [|injection H as <-; cbn in L; lia].
      destruct (state s); cbn in H; injection H as <-; cbn in L; try lia. unfold cancel, pause, closeCh in L; cbn in L. destruct (buf s) as [c'|]; cbn in L; [destruct (chans s !! c')|]; cbn in L; lia. }
  destruct O' as (ch' & P' & O'). exists ch', P'. split; [exact O'|].
  pose proof (o_chans _ _ _ _ O) as Ec. pose proof (o_chans _ _ _ _ O') as Ec'. pose proof (o_pops _ _ _ _ O) as Ep. pose proof (o_pops _ _ _ _ O') as Ep'.
  unfold W. destruct a; try destruct I; cbn [step] in H.
  - destruct (con s); try discriminate. destruct (fpaused s); [discriminate|]. destruct (decide (0 < n /\ pos s + n <= length (log s))) as [L|]; [|discriminate]. injection H as <-. cbn in Ec', Ep'. cbn [set_con set_pos log pos con wcon].
    rewrite Ec in Ec'. injection Ec' as <-. rewrite Ep in Ep'. injection Ep' as <-. rewrite take_length, drop_length. lia.
  - destruct (con s) eqn:C; try discriminate. injection H as <-. destruct (state s); cbn in Ec', Ep'; rewrite Ec in Ec'; injection Ec' as <-; rewrite Ep in Ep'; injection Ep' as <-; cbn [set_con pause set_fpaused set_state log pos con wcon]; lia.
  - destruct (con s) eqn:C; try discriminate. injection H as <-. cbn in Ec', Ep'; rewrite Ec in Ec'; injection Ec' as <-; rewrite Ep in Ep'; injection Ep' as <-; cbn [set_con log pos con wcon]; lia.
  - destruct (con s) as [| | |b [c|]|] eqn:C; try discriminate. pose proof (o_send _ _ _ _ O b c C) as ->. rewrite Ec in H. cbn in H. destruct (c_closed ch).
    + injection H as <-. cbn in Ec', Ep'; rewrite Ec in Ec'; injection Ec' as <-; rewrite Ep in Ep'; injection Ep' as <-; cbn [set_con log pos con wcon]; lia.
    + match type of H with context [if ?x then _ else _] => destruct x end; [|discriminate]. injection H as <-. cbn in Ec', Ep'. injection Ec' as <-. rewrite Ep in Ep'. injection Ep' as <-. cbn [set_con set_chans log pos con wcon c_q]. rewrite wq_app. cbn [wq foldr]. lia.
  - destruct (pops s !! j) as [[c x [|r b] [|] dn]|] eqn:Pj; try discriminate. rewrite Ep in Pj. destruct j as [|j]; [|discriminate]. injection Pj as ->. pose proof (o_pchan _ _ _ _ O) as Q. cbn in Q. subst c. rewrite Ec in H. cbn in H.
    destruct ch as [[|b q] cl]; [destruct cl; [|discriminate]|]; injection H as <-; cbn in Ec', Ep'; rewrite Ep in Ep'; injection Ep' as <-; [rewrite Ec in Ec'|]; injection Ec' as <-; cbn [set_pops set_chans log pos con c_q p_rest p_live wq foldr length]; lia.
  - destruct (pops s !! j) as [[c x [|r b] [|] dn]|] eqn:Pj; try discriminate. rewrite Ep in Pj. destruct j as [|j]; [|discriminate]. injection Pj as ->.
    assert (Fr : forall z, log (snd z) = log s -> pos (snd z) = pos s -> con (snd z) = con s -> (exists cl, chans (snd z) = [c0; mkCh (c_q ch) cl]) -> Some (set_pops (<[0:=mkPop c x b (negb (fst z)) (dn ++ [r])]> (pops s)) (snd z)) = Some s' ->
      9 * (length (log s') - pos s') + wcon (con s') + wq (c_q ch') + 2 * length (p_rest P') + (if p_live P' then 1 else 0) < 9 * (length (log s) - pos s) + wcon (con s) + wq (c_q ch) + 2 * S (length b) + 1).
    { intros z E1 E2 E3 [cl E4] [= <-]. cbn in Ec', Ep'. rewrite Ep in Ep'. injection Ep' as <-. rewrite E4 in Ec'. injection Ec' as <-. cbn [set_pops log pos con c_q p_rest p_live]. rewrite E1, E2, E3. destruct (negb (fst z)); lia. }
    cbn [p_rest p_live length]. specialize (Fr (handleRecord x r s)). destruct (handleRecord x r s) as [cp s1] eqn:Hh. cbn [fst snd] in Fr. apply Fr; [| | | |exact H].
    all: assert (Es : s1 = snd (handleRecord x r s)) by (rewrite Hh; reflexivity); rewrite Es; clear Fr Hh Es Ec' Ep' O'.
    1: apply handle_frame.
    1,2: destruct r as [q|m]; cbn; [reflexivity|]; unfold isCompletionMarker; destruct (decide (m ∈ waiters s)); cbn; [|reflexivity]; destruct (state s); cbn; try reflexivity; unfold cancel, pause, closeCh; cbn; destruct (buf s) as [c'|]; cbn; [destruct (chans s !! c')|]; reflexivity.
    assert (E0 : chans s = [c0; mkCh (c_q ch) (c_closed ch)]) by (rewrite Ec; destruct ch; reflexivity).
    destruct r as [q|m]; cbn; [eauto|]; unfold isCompletionMarker; destruct (decide (m ∈ waiters s)); cbn; [|eauto]. destruct (state s); cbn; eauto. unfold cancel, pause, closeCh; cbn. destruct (buf s) as [c'|] eqn:B; cbn; [|eauto].
    destruct (o_open _ _ _ _ O ltac:(congruence)) as (Q1 & _). rewrite B in Q1. injection Q1 as ->. rewrite Ec. cbn. eauto.
Qed.

(** when no internal step is possible, every written marker of a worker has been handled *)
Lemma quiet_released s c0 ch P m : base s -> one s c0 ch P -> comp s -> kinds s <> [KPrep] -> m ∈ own s -> Mark m ∈ log s -> (forall a s', internal a -> step s a <> Some s') -> EvRelease m ∈ trace s.
Proof.
  intros Bs O C K Ho Hl St. apply elem_released.
  pose proof (o_chans _ _ _ _ O) as Ec. pose proof (o_pops _ _ _ _ O) as Ep. pose proof (o_pchan _ _ _ _ O) as Pc.
  destruct (buf s) as [k|] eqn:B.
  - destruct (o_open _ _ _ _ O ltac:(congruence)) as (Q1 & Q2 & Q3 & Q4 & Q5 & Q6).
    destruct P as [c x rest lv dn]. cbn in *. subst c lv.
    destruct rest as [|r rest].
    2:{ exfalso. destruct (step s (PHandle 0)) as [s1|] eqn:E; [exact (St (PHandle 0) s1 I E)|]. cbn [step] in E. rewrite Ep in E. cbn in E. destruct (handleRecord x r s); discriminate. }
    destruct ch as [[|b q] cl].
    2:{ exfalso. destruct (step s (PTake 0)) as [s1|] eqn:E; [exact (St (PTake 0) s1 I E)|]. cbn [step] in E. rewrite Ep in E. cbn in E. rewrite Ec in E. discriminate. }
    cbn in Q2. subst cl.
    assert (Ic : con s = CIdle).
    { destruct (con s) as [|b|b|b [c|]|] eqn:Cn; [reflexivity|exfalso..].
      - destruct (step s CCheck) as [s1|] eqn:E; [exact (St CCheck s1 I E)|]. cbn [step] in E. rewrite Cn in E. discriminate.
      - destruct (step s CEval) as [s1|] eqn:E; [exact (St CEval s1 I E)|]. cbn [step] in E. rewrite Cn in E. discriminate.
      - pose proof (o_send _ _ _ _ O b c Cn) as ->. destruct (step s CPut) as [s1|] eqn:E; [exact (St CPut s1 I E)|]. cbn [step] in E. rewrite Cn, Ec in E. cbn in E. discriminate.
      - pose proof (o_send2 _ _ _ _ O b Cn). congruence.
      - pose proof (o_panic _ _ _ _ O Cn). congruence. }
    assert (Ep2 : pos s = length (log s)).
    { pose proof (o_pos _ _ _ _ O) as L. destruct (decide (pos s = length (log s))) as [?|Ne]; [assumption|exfalso]. destruct (step s (CPoll 1)) as [s1|] eqn:E; [exact (St (CPoll 1) s1 I E)|]. cbn [step] in E. rewrite Ic, Q3 in E.
      rewrite decide_True in E by lia. discriminate. }
    rewrite Ic in Q5. cbn in Q5. rewrite app_nil_r, Ep2, take_ge in Q5 by lia. pose proof (o_rel _ _ _ _ O) as R. cbn in R. rewrite R. unfold ownIn. apply elem_of_list_filter. split; [exact Ho|]. apply elem_of_marks. rewrite Q5. exact Hl.
  - specialize (C (o_preps _ _ _ _ O) B K). pose proof (own_length s) as L. pose proof (o_rel _ _ _ _ O) as R.
    assert (Nr : NoDup (released (trace s))).
    { rewrite R. unfold ownIn. apply NoDup_filter. destruct (o_prefix _ _ _ _ O) as [t Et]. pose proof (b_nodup _ Bs) as N. rewrite Et in N. rewrite !marks_app in N. apply NoDup_app in N as (N & _ & _). apply NoDup_app in N as (N & _ & _). exact N. }
    assert (Sub : released (trace s) ⊆+ own s).
    { apply NoDup_submseteq; [exact Nr|]. intros z Hz. rewrite R in Hz. unfold ownIn in Hz. apply elem_of_list_filter in Hz. apply Hz. }
    assert (Pm : released (trace s) ≡ₚ own s) by (apply submseteq_Permutation_length_le; [lia|exact Sub]). rewrite Pm. exact Ho.
Qed.

Lemma internal_stable s a s' : internal a -> step s a = Some s' -> log s' = log s /\ syncs s' = syncs s.
Proof.
  intros I H. destruct a; try destruct I; cbn [step] in H.
  - destruct (con s); try discriminate. destruct (fpaused s); [discriminate|]. destruct (decide _); [|discriminate]. injection H as <-. auto.
  - destruct (con s); try discriminate. injection H as <-. destruct (state s); auto.
  - destruct (con s); try discriminate. injection H as <-. auto.
  - destruct (con s) as [| | |b [c|]|]; try discriminate. destruct (chans s !! c) as [k|]; [|discriminate]. destruct (c_closed k); [injection H as <-; auto|]. destruct (_ <? _); [|discriminate]. injection H as <-. auto.
  - destruct (pops s !! j) as [[c x [|r b] [|] dn]|]; try discriminate. destruct (chans s !! c) as [[[|b q] [|]]|]; try discriminate; injection H as <-; auto.
  - destruct (pops s !! j) as [[c x [|r b] [|] dn]|]; try discriminate. pose proof (handle_frame x r s) as (Q1 & _ & Q3). destruct (handleRecord x r s) as [cp s1]. cbn [snd] in *. injection H as <-. auto.
Qed.

Lemma internal_run acts : forall s s' c0 ch P, base s -> one s c0 ch P -> comp s -> Forall internal acts -> run s acts = Some s' ->
  base s' /\ comp s' /\ log s' = log s /\ syncs s' = syncs s /\ exists ch' P', one s' c0 ch' P' /\ length acts + W s' ch' P' <= W s ch P.
Proof.
  induction acts as [|a acts IH]; intros s s' c0 ch P Bs O C F H; cbn in H.
  - injection H as <-. split; [exact Bs|]. split; [exact C|]. split; [reflexivity|]. split; [reflexivity|]. exists ch, P. split; [exact O|]. cbn. lia.
  - destruct (step s a) as [s1|] eqn:E; [|discriminate]. inversion F as [|? ? Fa Fr]; subst. destruct (internal_stable s a s1 Fa E) as [E1 E2]. destruct (internal_down s a s1 c0 ch P Bs O Fa E) as (ch1 & P1 & O1 & L1).
    destruct (IH s1 s' c0 ch1 P1 (step_base s a s1 Bs E) O1 (step_comp s a s1 c0 ch P Bs O C E) Fr H) as (B2 & C2 & D2 & E3 & ch2 & P2 & O2 & L2).
    split; [exact B2|]. split; [exact C2|]. split; [congruence|]. split; [congruence|]. exists ch2, P2. split; [exact O2|]. cbn [length]. lia.
Qed.

Lemma returns t0 acts s i x g m : base t0 -> none t0 -> run t0 acts = Some s -> preps s <= 1 ->
  syncs s !! i = Some (mkSync KWork x g) -> mark_of g = Some m -> Mark m ∈ log s ->
  exists N, forall acts' s', Forall internal acts' -> run s acts' = Some s' -> length acts' <= N /\ ((forall a s'', internal a -> step s' a <> Some s'') -> EvRelease m ∈ trace s').
Proof.
  intros A B R Pr Y G M. assert (I0 : inv t0) by (split; [exact A|left; exact B]). pose proof (run_inv acts _ _ I0 R) as [Bs _].
  assert (J : inv1 s) by (apply (run_comp acts t0 s I0); [|exact R]; left; exact B).
  destruct J as [N|[(c0 & ch & P & O & C)|L]]; [rewrite (n_syncs _ N) in Y; discriminate| |lia].
  exists (W s ch P). intros acts' s' F H. destruct (internal_run acts' s s' c0 ch P Bs O C F H) as (B2 & C2 & D2 & E2 & ch2 & P2 & O2 & L2). split; [lia|]. intros St.
  apply (quiet_released s' c0 ch2 P2 m B2 O2 C2).
  - intros K. unfold kinds in K. rewrite E2 in K. assert (In : KWork ∈ map sy_kind (syncs s)) by (apply elem_of_list_In, in_map_iff; exists (mkSync KWork x g); split; [reflexivity|apply elem_of_list_In; eapply elem_of_list_lookup_2, Y]). rewrite K in In. apply elem_of_list_singleton in In. discriminate.
  - unfold own. rewrite E2. apply elem_of_list_omap. eexists. split; [eapply elem_of_list_lookup_2, Y|exact G].
  - rewrite D2. exact M.
  - exact St.
Qed.
