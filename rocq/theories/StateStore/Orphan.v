(** C93, C94: the end of populators, and stores that have been revoked. *)
From stdpp Require Import prelude list.
From Verif.StateStore Require Import Model Inv Step Step2 Step3 Proofs Live Again Later.
Open Scope nat_scope.
#[local] Arguments Nat.ltb : simpl never.
#[local] Arguments bufferSize : simpl never.

(** the machine has no step of the consume goroutine and the populators left *)
Definition quiet (s : st) : Prop := forall a s', internal a -> step s a <> Some s'.

Lemma one_ends s c0 ch P : one s c0 ch P -> buf s = None -> quiet s -> p_live P = false.
Proof.
  intros O B Q. destruct (p_live P) eqn:L; [exfalso|reflexivity]. pose proof (o_chans _ _ _ _ O) as Ec. pose proof (o_pops _ _ _ _ O) as Ep. pose proof (o_pchan _ _ _ _ O) as Pc. destruct (o_shut _ _ _ _ O B) as (Cl & _).
  destruct P as [c x rest l d]. cbn in L, Pc. subst c l. destruct rest as [|r rest].
  - apply (Q (PTake 0) (match c_q ch with b :: q => set_pops (<[0 := mkPop 1 x b true d]> (pops s)) (set_chans (<[1 := mkCh q true]> (chans s)) s) | [] => set_pops (<[0 := mkPop 1 x [] false d]> (pops s)) s end) Logic.I).
    cbn [step]. rewrite Ep, Ec. cbn. destruct ch as [[|b q] cl]; cbn in Cl; subst cl; reflexivity.
  - destruct (handleRecord x r s) as [cp s1] eqn:H. apply (Q (PHandle 0) (set_pops (<[0 := mkPop 1 x rest (negb cp) (d ++ [r])]> (pops s)) s1) Logic.I). cbn [step]. rewrite Ep. cbn [lookup list_lookup]. rewrite H, <- Ep. reflexivity.
Qed.

Lemma buf_none_stays s a s' : buf s = None -> internal a -> step s a = Some s' -> buf s' = None.
Proof.
  intros B I E. destruct a as [k| | | | | |i|i|i|i|k| | | |j|j]; try destruct I; cbn [step] in E.
  - destruct (con s); try discriminate. destruct (fpaused s); [discriminate|]. destruct (decide _); [|discriminate]. injection E as <-. exact B.
  - destruct (con s); try discriminate. injection E as <-. destruct (state s); exact B.
  - destruct (con s); try discriminate. injection E as <-. exact B.
  - destruct (con s) as [| | |b [c|]|]; try discriminate. destruct (chans s !! c) as [ch|]; [|discriminate]. destruct (c_closed ch); [injection E as <-; exact B|]. destruct (_ <? _); [|discriminate]. injection E as <-. exact B.
  - destruct (pops s !! j) as [[c x [|r b] [|] dn]|]; try discriminate. destruct (chans s !! c) as [[[|b q] [|]]|]; try discriminate; injection E as <-; exact B.
  - destruct (pops s !! j) as [[c x [|r b] [|] dn]|]; try discriminate. assert (N : buf (snd (handleRecord x r s)) = None).
    { destruct r as [k|m]; cbn; [exact B|]. unfold isCompletionMarker. destruct (decide (m ∈ waiters s)); cbn; [|exact B]. destruct (state s); cbn; [exact B|exact B|]. unfold cancel, pause; cbn. rewrite B. exact B. }
    destruct (handleRecord x r s) as [cp s1]. injection E as <-. exact N.
Qed.

Lemma one_run acts : forall s s' c0 ch P, base s -> one s c0 ch P -> buf s = None -> Forall internal acts -> run s acts = Some s' ->
  buf s' = None /\ exists ch' P', one s' c0 ch' P' /\ W s' ch' P' + length acts <= W s ch P.
Proof.
  induction acts as [|a acts IH]; intros s s' c0 ch P Bs O B F H; cbn in H.
  - injection H as <-. split; [exact B|]. exists ch, P. split; [exact O|cbn; lia].
  - destruct (step s a) as [s1|] eqn:E; [|discriminate]. inversion F as [|? ? Fa Fr]; subst. destruct (internal_down s a s1 c0 ch P Bs O Fa E) as (ch1 & P1 & O1 & L1).
    destruct (IH s1 s' c0 ch1 P1 (step_base s a s1 Bs E) O1 (buf_none_stays s a s1 B Fa E) Fr H) as (B2 & ch2 & P2 & O2 & L2). split; [exact B2|]. exists ch2, P2. split; [exact O2|]. cbn [length]. lia.
Qed.

Lemma ends t0 acts s : base t0 -> none t0 -> run t0 acts = Some s -> preps s = 1 -> buf s = None ->
  exists N, forall acts' s', Forall internal acts' -> run s acts' = Some s' -> length acts' <= N /\ (quiet s' -> forall j P, pops s' !! j = Some P -> p_live P = false).
Proof.
  intros A B R Pr Bn. pose proof (run_inv acts t0 s (conj A (or_introl B)) R) as [Bs [N|[(c0 & ch & P & O)|L]]]; [rewrite (n_preps _ N) in Pr; discriminate| |lia].
  exists (W s ch P). intros acts' s' F H. destruct (one_run acts' s s' c0 ch P Bs O Bn F H) as (B2 & ch2 & P2 & O2 & L2). split; [lia|]. intros Q j P' Hj. rewrite (o_pops _ _ _ _ O2) in Hj.
  destruct j; [injection Hj as <-; exact (one_ends s' c0 ch2 P2 O2 B2 Q)|discriminate].
Qed.

Lemma quiet_lift o t : still o -> (forall m, m ∈ own t -> m ∉ released (otr o)) -> quiet (lift o t) -> quiet t.
Proof.
  intros S F Q a t' I E. apply (Q (liftA o a) (lift o t')); [destruct a; exact I|]. rewrite lift_step, E by exact F. reflexivity.
Qed.

(** C93 *)
Lemma later_ends s0 acts s : base s0 -> fromLog s0 -> newest s0 -> settled s0 -> run s0 acts = Some s -> preps s = S (preps s0) -> buf s = None ->
  exists N, forall acts' s', Forall internal acts' -> run s acts' = Some s' -> length acts' <= N /\ (quiet s' -> forall j P, pops s' !! j = Some P -> p_live P = false).
Proof.
  intros B0 F0 N0 T0 R Pr Bn. destruct (later s0 acts s B0 F0 N0 T0 R) as (acts0 & t & _ & R' & -> & H). cbn in Pr, Bn.
  assert (Bt : buf t = None) by (destruct (buf t); [discriminate|reflexivity]).
  destruct (ends (fresh s0) acts0 t (fresh_base _ B0) (fresh_none _ N0) R' ltac:(lia) Bt) as [N HN].
  assert (St : still (offs s0)) by (split; apply T0). assert (Rl : forall m, m ∈ released (otr (offs s0)) -> m < nextMark s0) by (intros m' Hm; cbn in Hm; apply (b_log _ B0), elem_of_marks, (f_rel _ F0), elem_released, Hm).
  exists N. intros acts' s' F Rs. destruct (lift_run (offs s0) (nextMark s0) acts' St Rl t s' H Rs) as (at' & t' & -> & Rt & -> & H').
  assert (Ft : Forall internal at') by (apply Forall_forall; intros a Ha; eapply Forall_forall in F; [|apply elem_of_list_In, in_map, elem_of_list_In, Ha]; destruct a; exact F).
  destruct (HN at' t' Ft Rt) as [Q1 Q2]. split; [rewrite map_length; exact Q1|]. intros Qu j P Hj. cbn in Hj. destruct (decide (j < length (pops s0))) as [Lj|Lj].
  - rewrite lookup_app_l in Hj by exact Lj. exact (t_pops _ T0 j P Hj).
  - rewrite lookup_app_r in Hj by lia. rewrite list_lookup_fmap in Hj. apply fmap_Some in Hj as (P' & Hj & ->). cbn. apply (Q2 (quiet_lift (offs s0) t' St ltac:(intros m' Hm Hr; apply Rl in Hr; apply H' in Hm; lia) Qu) _ P' Hj).
Qed.

(** a populator nobody sends to any more, on a channel nobody closes any more *)
Record orphan (s : st) (j c x : nat) (d : list record) : Prop := mkOrphan {
  h_pop : pops s !! j = Some (mkPop c x [] true d);
  h_chan : chans s !! c = Some (mkCh [] false);
  h_buf : buf s <> Some c;
  h_con : forall b, con s <> CSend b (Some c) }.
Lemma orphan_frame s s' j c x d : orphan s j c x d -> pops s' !! j = pops s !! j -> chans s' !! c = chans s !! c -> buf s' = buf s \/ buf s' = None -> con s' = con s -> orphan s' j c x d.
Proof. intros [A B C D] E1 E2 E3 E4. split; rewrite ?E1, ?E2, ?E4; try assumption. destruct E3 as [->| ->]; [exact C|discriminate]. Qed.
Lemma orphan_cancel s j c x d : orphan s j c x d -> orphan (cancel s) j c x d.
Proof.
  intros O. pose proof (h_buf _ _ _ _ _ O) as Hb. apply (orphan_frame s); [exact O|..]; unfold cancel, pause, closeCh; cbn; destruct (buf s) as [c'|] eqn:B; cbn; try destruct (chans s !! c'); cbn; auto.
  apply list_lookup_insert_ne. congruence.
Qed.
Lemma orphan_prep s j c x d i y : orphan s j c x d -> orphan (prep i y s) j c x d.
Proof.
  intros [A B C D]. split; cbn.
  - apply lookup_app_l_Some, A.
  - apply lookup_app_l_Some, B.
  - intros [= E]. apply lookup_lt_Some in B. lia.
  - exact D.
Qed.
Lemma orphan_step s a s' j c x d : orphan s j c x d -> step s a = Some s' -> orphan s' j c x d.
Proof.
  intros O E. pose proof O as [A B C D]. destruct a as [k| | | | | |i|i|i|i|k| | | |i|i]; cbn [step] in E.
  - injection E as <-. apply (orphan_frame s); auto.
  - injection E as <-. apply (orphan_frame s); auto.
  - destruct (prepping s); [injection E as <-; exact O|]. destruct (assignStore s) as [y s1] eqn:Y. injection E as <-. assert (O1 : orphan s1 j c x d) by (unfold assignStore in Y; destruct (store s); injection Y as <- <-; apply (orphan_frame s); auto).
    apply (orphan_frame (prep Prepping y s1)); auto using orphan_prep.
  - injection E as <-. destruct (prepping s); [|exact O]. apply (orphan_frame (cancel s)); auto using orphan_cancel.
  - destruct (assignStore s) as [y s1] eqn:Y. injection E as <-. assert (O1 : orphan s1 j c x d) by (unfold assignStore in Y; destruct (store s); injection Y as <- <-; apply (orphan_frame s); auto).
    destruct (prepping s1); [apply (orphan_frame s1); auto|]. destruct (worker s1); [exact O1|]. apply (orphan_frame (prep Ready y s1)); auto using orphan_prep.
  - injection E as <-. apply (orphan_frame s); auto.
  - destruct (syncs s !! i) as [[q y [|m|m|m]]|]; try discriminate. injection E as <-. apply (orphan_frame s); auto.
  - destruct (syncs s !! i) as [[q y [|m|m|m]]|]; try discriminate. injection E as <-. apply (orphan_frame s); auto.
  - destruct (syncs s !! i) as [[q y [|m|m|m]]|]; try discriminate. injection E as <-. apply (orphan_frame s); auto.
  - destruct (syncs s !! i) as [[q y [|m|m|m]]|]; try discriminate. destruct (decide _); [|discriminate]. injection E as <-. apply (orphan_frame s); auto.
  - destruct (con s); try discriminate. destruct (fpaused s); [discriminate|]. destruct (decide _); [|discriminate]. injection E as <-. split; try assumption. discriminate.
  - destruct (con s); try discriminate. injection E as <-. destruct (state s); split; try assumption; discriminate.
  - destruct (con s); try discriminate. injection E as <-. split; try assumption. intros b0 [= _ E]. exact (C E).
  - destruct (con s) as [| | |b [c'|]|]; try discriminate. assert (Ne : c' <> c) by (intros ->; exact (D b eq_refl)). destruct (chans s !! c') as [ch|]; [|discriminate]. destruct (c_closed ch); [injection E as <-; split; try assumption; discriminate|].
    destruct (_ <? _); [|discriminate]. injection E as <-. split; try assumption; [|discriminate]. cbn. rewrite list_lookup_insert_ne by exact Ne. exact B.
  - destruct (decide (i = j)) as [->|Ne]; [rewrite A in E; cbn in E; rewrite B in E; discriminate|]. destruct (pops s !! i) as [[c' y [|r b] [|] dn]|]; try discriminate.
    destruct (decide (c' = c)) as [->|Nc]; [rewrite B in E; discriminate|]. destruct (chans s !! c') as [[[|b q] [|]]|]; try discriminate; injection E as <-; (apply (orphan_frame s); auto; cbn; apply list_lookup_insert_ne; assumption).
  - destruct (decide (i = j)) as [->|Ne]; [rewrite A in E; discriminate|]. destruct (pops s !! i) as [[c' y [|r b] [|] dn]|]; try discriminate.
    assert (O1 : orphan (snd (handleRecord y r s)) j c x d).
    { destruct r as [k|m]; cbn; [apply (orphan_frame s); auto|]. unfold isCompletionMarker. destruct (decide (m ∈ waiters s)); cbn; [|exact O]. assert (Ow : orphan (set_waiters (filter (fun w => w <> m) (waiters s)) s) j c x d) by (apply (orphan_frame s); auto).
      destruct (state s); cbn; [apply (orphan_frame s); auto|apply (orphan_frame s); auto|]. apply (orphan_frame (cancel (set_waiters (filter (fun w => w <> m) (waiters s)) s))); auto using orphan_cancel. }
    pose proof (handle_frame2 y r s) as (_ & _ & Ep). destruct (handleRecord y r s) as [cp s1]. cbn [snd] in *. injection E as <-. apply (orphan_frame s1); auto. cbn. rewrite list_lookup_insert_ne by exact Ne. rewrite Ep. reflexivity.
Qed.
Lemma orphan_run acts : forall s s' j c x d, orphan s j c x d -> run s acts = Some s' -> orphan s' j c x d.
Proof. induction acts as [|a acts IH]; intros s s' j c x d O H; cbn in H; [injection H as <-; exact O|]. destruct (step s a) as [s1|] eqn:E; [|discriminate]. exact (IH s1 s' j c x d (orphan_step s a s1 j c x d O E) H). Qed.

(** the trace only grows *)
Lemma step_trace s a s' : step s a = Some s' -> exists w, trace s' = trace s ++ w.
Proof.
  intros E. assert (Z : trace s' = trace s -> exists w, trace s' = trace s ++ w) by (intros ->; exists []; symmetry; apply app_nil_r).
  destruct a as [k| | | | | |i|i|i|i|k| | | |j|j]; cbn [step] in E.
  - apply Z. injection E as <-. reflexivity.
  - apply Z. injection E as <-. reflexivity.
  - apply Z. destruct (prepping s); [injection E as <-; reflexivity|]. unfold assignStore in E. destruct (store s); injection E as <-; reflexivity.
  - apply Z. injection E as <-. destruct (prepping s); [apply cancel_trace|reflexivity].
  - apply Z. unfold assignStore in E. destruct (store s); injection E as <-; cbn; destruct (prepping s); try destruct (worker s); reflexivity.
  - apply Z. injection E as <-. reflexivity.
  - apply Z. destruct (syncs s !! i) as [[q x [|m|m|m]]|]; try discriminate. injection E as <-. reflexivity.
  - apply Z. destruct (syncs s !! i) as [[q x [|m|m|m]]|]; try discriminate. injection E as <-. reflexivity.
  - apply Z. destruct (syncs s !! i) as [[q x [|m|m|m]]|]; try discriminate. injection E as <-. reflexivity.
  - apply Z. destruct (syncs s !! i) as [[q x [|m|m|m]]|]; try discriminate. destruct (decide _); [|discriminate]. injection E as <-. reflexivity.
  - apply Z. destruct (con s); try discriminate. destruct (fpaused s); [discriminate|]. destruct (decide _); [|discriminate]. injection E as <-. reflexivity.
  - apply Z. destruct (con s); try discriminate. injection E as <-. destruct (state s); reflexivity.
  - apply Z. destruct (con s); try discriminate. injection E as <-. reflexivity.
  - apply Z. destruct (con s) as [| | |b [c|]|]; try discriminate. destruct (chans s !! c) as [ch|]; [|discriminate]. destruct (c_closed ch); [injection E as <-; reflexivity|]. destruct (_ <? _); [|discriminate]. injection E as <-. reflexivity.
  - apply Z. destruct (pops s !! j) as [[c x [|r b] [|] dn]|]; try discriminate. destruct (chans s !! c) as [[[|b q] [|]]|]; try discriminate; injection E as <-; reflexivity.
  - destruct (pops s !! j) as [[c x [|r b] [|] dn]|]; try discriminate. assert (T : exists w, trace (snd (handleRecord x r s)) = trace s ++ w).
    { destruct r as [k|m]; cbn; [eauto|]. unfold isCompletionMarker. destruct (decide (m ∈ waiters s)); cbn; [|exists []; symmetry; apply app_nil_r]. destruct (state s); cbn; rewrite ?cancel_trace; cbn; eauto. }
    destruct (handleRecord x r s) as [cp s1]. injection E as <-. exact T.
Qed.
Lemma run_trace acts : forall s s', run s acts = Some s' -> exists w, trace s' = trace s ++ w.
Proof.
  induction acts as [|a acts IH]; intros s s' H; cbn in H; [injection H as <-; exists []; symmetry; apply app_nil_r|]. destruct (step s a) as [s1|] eqn:E; [|discriminate].
  destruct (step_trace s a s1 E) as [w1 E1]. destruct (IH s1 s' H) as [w2 E2]. exists (w1 ++ w2). rewrite E2, E1, app_assoc. reflexivity.
Qed.
