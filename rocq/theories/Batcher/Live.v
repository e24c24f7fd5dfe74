(** The batcher finishes by itself. *)
From stdpp Require Import prelude list gmap.
From Coq Require Import ZArith.
From Verif.Batcher Require Import Model Base Inv Step Step2 Step3 Proofs Order.
Open Scope nat_scope.

(** everything but a new Add call *)
Definition internal (a : action) : bool := match a with AStart _ _ => false | _ => true end.

Definition exw (x : ex) : nat :=
  match e_go x with
  | [] => length (e_items x) + length (e_noops x)
  | PStart :: _ => 5 + length (e_items x) + length (e_noops x)
  | PExec _ :: _ => 4 + length (e_items x) + length (e_noops x)
  | PComp i :: _ => 3 + (length (e_items x) - i) + length (e_noops x)
  | PNoops i :: _ => 2 + (length (e_noops x) - i)
  end.
Definition tw (t : timer) : nat := match t_st t with TArmed => 8 | TFired => 7 | TOver => 0 end.
Definition bwt (b : nat) (x : batch) : nat := length (itemsOf b x) - b_next x.
Fixpoint bsum (i : nat) (l : list batch) : nat := match l with [] => 0 | x :: l' => bwt i x + bsum (S i) l' end.
Definition W (s : st) : nat := lsum exw (execs s) + lsum tw (timers s).
Definition mu (s : st) : nat := 11 * bsum 0 (batches s) + 10 * length (pending s) + W s.

Lemma bsum_insert l : forall i n x y, l !! n = Some x -> bsum i (<[n := y]> l) + bwt (i + n) x = bsum i l + bwt (i + n) y.
Proof.
  induction l as [|z l IH]; intros i [|n] x y H; simpl in *; try discriminate.
  - injection H as ->. rewrite Nat.add_0_r. lia.
  - specialize (IH (S i) n x y H). replace (S i + n) with (i + S n) in IH by lia. lia.
Qed.
Lemma stop_w t l : lsum tw (stop t l) <= lsum tw l.
Proof. unfold stop. destruct (l !! t) as [[e [| |]]|] eqn:E; try lia. pose proof (lsum_insert tw l t _ (mkT e TOver) E) as Q. cbn in Q. lia. Qed.
Lemma condExec_w s pd e : base s pd -> W (condExec e s) <= W s + 5.
Proof.
  intros B. unfold condExec. destruct (execs s !! e) as [x|] eqn:E; [|lia]. destruct (e_busy x) eqn:Bx; [lia|].
  pose proof (x_go _ _ (a_ex s pd B e x E)) as G. rewrite Bx in G. unfold W. ss. pose proof (lsum_insert exw _ _ _ (mkE (e_items x) (e_noops x) true None (e_go x ++ [PStart]) (e_all x)) E) as Q.
  unfold exw in Q at 2 4. ss. rewrite G in Q. cbn [app] in Q. rewrite G. cbn [app]. destruct (e_timer x) as [t|]; [pose proof (stop_w t (timers s))|]; lia.
Qed.
Lemma addTo_w s l1 l2 it e x : base s (l1 ++ it :: l2) -> ready s -> execs s !! e = Some x -> e_busy x = false -> (assign s !! i_k it = Some e \/ assign s !! i_k it = None) ->
  (forall i, i ∈ l1 -> i_k i <> i_k it) -> W (addToExecutor it e s) <= W s + 9.
Proof.
  intros B R E Bx A N1. pose proof (put_base s l1 l2 it e x B E Bx A ltac:(intros Q; apply (R e x E Bx); exact Q) N1) as P.
  unfold addToExecutor. rewrite E. set (s1 := set_execs _ _) in *. pose proof (x_go _ _ (a_ex s _ B e x E)) as G. rewrite Bx in G.
  assert (W1 : W s1 = W s + 1).
  { unfold W, s1. ss. pose proof (lsum_insert exw _ _ _ (exAdd it x) E) as Q. unfold exw in Q at 2 4. destruct (exAdd_all it x) as (_ & _ & _ & Y4). rewrite Y4, G in Q.
    unfold exAdd in Q |- *. destruct (i_n it); ss; rewrite app_length in Q; cbn [length] in Q; lia. }
  destruct (_ =? _).
  - pose proof (condExec_w s1 _ e P). lia.
  - destruct (e_timer (exAdd it x)); [lia|]. unfold W in *. unfold s1 in *. ss. rewrite lsum_app. cbn [lsum tw t_st].
    match goal with |- context [<[e := ?y]> (execs s)] => pose proof (lsum_insert exw _ _ _ y E) as Q; pose proof (lsum_insert exw _ _ _ (exAdd it x) E) as Q2; assert (exw y = exw (exAdd it x)) by reflexivity end. lia.
Qed.
Lemma flush_w todo : forall kept s, base s (kept ++ todo) -> ready s -> ~ full s -> (forall it, it ∈ kept -> blocked s (i_k it)) ->
  10 * length (flushLoop todo s).1 + W (flushLoop todo s).2 <= 10 * length todo + W s.
Proof.
  induction todo as [|it todo IH]; intros kept s B R NF Bl; cbn [flushLoop]; [cbn; lia|].
  destruct (executorFor it s) as [e|] eqn:X.
  - destruct (executorFor_Some s _ it e B X) as (x & E & Bx & A). pose proof (for_not_blocked s it e X) as NB.
    assert (Nk : forall i, i ∈ kept -> i_k i <> i_k it) by (intros i Hi Q; apply NB; rewrite <- Q; auto).
    destruct (addTo_ok s kept todo it e x B R E Bx A Nk) as (B1 & R1). pose proof (addTo_w s kept todo it e x B R E Bx A Nk) as Wt.
    destruct (Z.eqb_spec (count (addToExecutor it e s)) (Z.of_nat (length (execs (addToExecutor it e s))))) as [C|C]; [cbn; lia|].
    specialize (IH kept (addToExecutor it e s) B1 R1 C). cbn [length]. cut (10 * length (flushLoop todo (addToExecutor it e s)).1 + W (flushLoop todo (addToExecutor it e s)).2 <= 10 * length todo + W (addToExecutor it e s)); [lia|].
    apply IH. intros i Hi. eapply addTo_blocked; eauto.
  - destruct (executorFor_None s _ it B X) as [Bk|F]; [|contradiction].
    assert (Q : 10 * length (flushLoop todo s).1 + W (flushLoop todo s).2 <= 10 * length todo + W s).
    { apply (IH (kept ++ [it])); auto; [rewrite <- app_assoc; exact B|]. intros i Hi. apply elem_of_app in Hi as [Hi|Hi]; [auto|]. apply elem_of_list_singleton in Hi as ->. exact Bk. }
    destruct (flushLoop todo s) as [l s1]. cbn in *. lia.
Qed.
Lemma step_mu s a s' : inv s -> internal a = true -> step s a = Some s' -> mu s' < mu s.
Proof.
  intros Iv Ia H. pose proof (i_base s Iv) as B. destruct a as [k ks|b|t|t|e j]; [discriminate| | | |]; cbn [step] in H.
  - destruct (batches s !! b) as [x|] eqn:E; [|discriminate]. destruct (itemsOf b x !! b_next x) as [it|] eqn:Ei; [|discriminate]. injection H as <-.
    pose proof (logAdd_base s _ b x it B E Ei) as B1. unfold addItem. set (s1 := log _ _) in *.
    assert (Bs : bsum 0 (batches s1) + 1 = bsum 0 (batches s)).
    { unfold s1. ss. pose proof (bsum_insert (batches s) 0 b x (mkB (b_key x) (b_items x) (b_done x) (S (b_next x))) E) as Q. unfold bwt in Q. ss.
      change (itemsOf (0 + b) (mkB _ _ _ _)) with (itemsOf (0 + b) x) in Q. cbn [Nat.add] in Q. apply lookup_lt_Some in Ei. lia. }
    assert (R1 : ready s1) by apply Iv. assert (W1 : forall i, i ∈ pending s1 -> blocked s1 (i_k i) \/ full s1) by apply Iv.
    assert (P1 : pending s1 = pending s) by reflexivity. assert (Ws : W s1 = W s) by reflexivity. clearbody s1. rewrite <- P1 in B1. unfold mu. rewrite <- P1, <- Ws, <- Bs.
    destruct (executorFor it s1) as [e|] eqn:X.
    + destruct (executorFor_Some s1 _ it e B1 X) as (y & Ee & By & A). pose proof (for_not_blocked s1 it e X) as NB.
      assert (NF : ~ full s1). { intros F. pose proof (full_busy s1 _ B1 F e y Ee). congruence. }
      assert (Nk : forall i, i ∈ pending s1 -> i_k i <> i_k it). { intros i Hi Q. apply NB. rewrite <- Q. destruct (W1 i Hi); [auto|contradiction]. }
      pose proof (addTo_w s1 (pending s1) [] it e y B1 R1 Ee By A Nk). destruct (addTo_frame s1 it e y Ee By) as (F1 & F2 & F3 & F4 & F5 & F6 & F7). rewrite F2, F4. lia.
    + ss. rewrite app_length. cbn [length]. unfold W. ss. lia.
  - destruct (timers s !! t) as [[e [| |]]|] eqn:E; try discriminate. injection H as <-. unfold mu, W. ss. pose proof (lsum_insert tw _ _ _ (mkT e TFired) E) as Q. cbn in Q. lia.
  - destruct (timers s !! t) as [[e [| |]]|] eqn:E; try discriminate. injection H as <-. pose proof (lsum_insert tw _ _ _ (mkT e TOver) E) as Q. cbn [tw t_st] in Q.
    match goal with |- mu (condExec e ?s0) < _ => set (s1 := s0); destruct (condExec_frame s1 e) as (F1 & F2 & F3 & F4 & F5 & F6 & F7) end. unfold mu. rewrite F2, F4.
    assert (Q2 : W (condExec e s1) <= W s1 + 5).
    { unfold condExec. destruct (execs s1 !! e) as [x|] eqn:Ee; [|lia]. destruct (e_busy x) eqn:Bx; [lia|]. unfold s1 in *. ss.
      pose proof (x_go _ _ (a_ex s _ B e x Ee)) as G. rewrite Bx in G. unfold W. ss. pose proof (lsum_insert exw _ _ _ (mkE (e_items x) (e_noops x) true None (e_go x ++ [PStart]) (e_all x)) Ee) as Q3.
      unfold exw in Q3 at 2 4. ss. rewrite G in Q3. cbn [app] in Q3. rewrite G. cbn [app]. destruct (e_timer x) as [t'|]; [pose proof (stop_w t' (<[t := mkT e TOver]> (timers s)))|]; lia. }
    unfold W in *. unfold s1 in *. ss. lia.
  - unfold goStep in H. destruct (execs s !! e) as [x|] eqn:E; [|discriminate]. destruct (e_go x !! j) as [p|] eqn:Ep; [|discriminate].
    destruct (busy_go _ x j p (a_ex _ _ B e x E) Ep) as (Bx & T & G & -> & Pc).
    assert (Sg : forall q s0, execs s0 = execs s -> timers s0 = timers s -> pending s0 = pending s -> bsum 0 (batches s0) = bsum 0 (batches s) -> exw (withGo x [q]) < exw x -> mu (setGo e 0 q s0) < mu s).
    { intros q s0 Q1 Q2 Q3 Q4 Q5. erewrite (setGo_eq s0 e x 0); [|rewrite Q1; exact E|exact G|exact Ep]. unfold mu, W. ss. rewrite Q1, Q2, Q3, Q4. pose proof (lsum_insert exw _ _ _ (withGo x [q]) E). lia. }
    unfold exw in Sg at 2. rewrite G in Sg. destruct p as [|c|i|i]; injection H as <-.
    + destruct (Nat.ltb_spec 0 (length (e_items x))); apply Sg; try reflexivity; unfold exw, withGo; ss; lia.
    + apply Sg; try reflexivity; unfold exw, withGo; ss; lia.
    + destruct (e_items x !! i) as [it|] eqn:Ei.
      * unfold completeItem. destruct (batches s !! i_b it) as [z|] eqn:Ez.
        -- assert (Bz : bsum 0 (<[i_b it := mkB (b_key z) (b_items z) (S (b_done z)) (b_next z)]> (batches s)) = bsum 0 (batches s)).
           { pose proof (bsum_insert (batches s) 0 _ _ (mkB (b_key z) (b_items z) (S (b_done z)) (b_next z)) Ez) as Q. change (bwt (0 + i_b it) (mkB _ _ _ _)) with (bwt (0 + i_b it) z) in Q. lia. }
           apply lookup_lt_Some in Ei. ss. destruct (_ =? _); apply Sg; try reflexivity; try exact Bz; unfold exw, withGo; ss; lia.
        -- apply lookup_lt_Some in Ei. apply Sg; try reflexivity; unfold exw, withGo; ss; lia.
      * apply Sg; try reflexivity. unfold exw, withGo. ss. lia.
    + destruct (e_noops x !! i) as [it|] eqn:Ei.
      * apply lookup_lt_Some in Ei. apply Sg; try reflexivity. unfold exw, withGo. ss. lia.
      * destruct (go_end s e x Iv E i G Bx T Ei) as (-> & _). destruct (given_base s e x Iv E i G Bx Ei) as (B1 & R1 & F1). unfold flushPending.
        assert (Wg : W (given s e x) + 2 <= W s).
        { unfold W, given. ss. pose proof (lsum_insert exw _ _ _ idleE E) as Q. unfold exw in Q at 2 4. rewrite G in Q. cbn [idleE e_go e_items e_noops length] in Q. lia. }
        destruct (Z.eqb_spec (count (given s e x)) (Z.of_nat (length (execs (given s e x))))) as [Q|Q]; [contradiction|].
        pose proof (flush_w (pending (given s e x)) [] (given s e x) B1 R1 F1 ltac:(intros i' Hi; inversion Hi)) as Fw.
        destruct (flush_ok (pending (given s e x)) [] (given s e x) B1 R1 F1) as (_ & _ & _ & I4 & _); [intros i' Hi; inversion Hi|].
        destruct (flushLoop (pending (given s e x)) (given s e x)) as [l s1]. cbn in Fw, I4. unfold mu. ss. rewrite I4. unfold W in *. ss. cbn. unfold given in *. ss. lia.
Qed.
Lemma finite s more : forall s', inv s -> forallb internal more = true -> run s more = Some s' -> length more + mu s' <= mu s.
Proof.
  revert s. induction more as [|a more IH]; intros s s' I F H; cbn [run length forallb] in *; [injection H as <-; lia|]. apply andb_prop in F as (F1 & F2). destruct (step s a) as [s1|] eqn:E; [|discriminate].
  pose proof (step_mu s a s1 I F1 E). specialize (IH s1 s' (step_inv s a s1 I E) F2 H). lia.
Qed.
(** nothing left to do means everything is done *)
Definition done (s : st) : Prop := forall b x, batches s !! b = Some x -> EvCb b ∈ trace s /\ forall it, it ∈ itemsOf b x -> i_n it <> None -> it ∈ handed (trace s).
Lemma stuck_done s : inv s -> 1 <= length (execs s) -> (forall a, internal a = true -> step s a = None) -> done s.
Proof.
  intros [B R Wt] C St.
  assert (Go : forall e x, execs s !! e = Some x -> e_busy x = false).
  { intros e x E. destruct (e_busy x) eqn:Bx; [|reflexivity]. pose proof (x_go _ _ (a_ex _ _ B e x E)) as G. rewrite Bx in G. destruct G as (_ & p & G & _).
    specialize (St (AGo e 0) eq_refl). cbn [step] in St. unfold goStep in St. rewrite E, G in St. simpl in St. destruct p; discriminate. }
  assert (Em : forall e x, execs s !! e = Some x -> e_all x = []).
  { intros e x E. destruct (e_all x) as [|it l] eqn:Q; [reflexivity|]. exfalso. destruct (R e x E (Go e x E)) as (_ & T). rewrite Q in T. specialize (T ltac:(discriminate)).
    destruct (e_timer x) as [t|] eqn:Et; [|congruence]. destruct (a_timer _ _ B e x t E Et) as (ts & T1 & T2). destruct ts; [| |congruence].
    - specialize (St (AFire t) eq_refl). cbn [step] in St. rewrite T1 in St. discriminate.
    - specialize (St (ATimer t) eq_refl). cbn [step] in St. rewrite T1 in St. discriminate. }
  assert (Pe : pending s = []).
  { destruct (pending s) as [|it l] eqn:Q; [reflexivity|]. exfalso. destruct (Wt it) as [(e & x & A & E & Bx)|F]; [left|rewrite (Go e x E) in Bx; discriminate|].
    destruct (lookup_lt_is_Some_2 (execs s) 0 ltac:(lia)) as (x & E). pose proof (full_busy s _ B F 0 x E) as Q2. rewrite (Go 0 x E) in Q2. discriminate. }
  assert (Nx : forall b x, batches s !! b = Some x -> forall it, it ∈ itemsOf b x -> it ∈ added (trace s)).
  { intros b x E it Hi. specialize (St (AItem b) eq_refl). cbn [step] in St. rewrite E in St. destruct (itemsOf b x !! b_next x) eqn:Q; [discriminate|]. apply lookup_ge_None in Q.
    pose proof (a_added _ _ B b) as Q2. rewrite E, take_ge in Q2 by lia. rewrite <- Q2 in Hi. apply elem_fb in Hi. tauto. }
  assert (Cm : forall it, it ∈ added (trace s) -> it ∈ comp (trace s) /\ (i_n it <> None -> it ∈ handed (trace s))).
  { intros it Ha. destruct (a_key _ _ B (i_k it)) as (f & K1 & K2 & K3 & K4).
    assert (Ec : e_all (cur s (i_k it)) = []) by (unfold cur; destruct (assign s !! i_k it) as [e|]; [|reflexivity]; destruct (execs s !! e) as [x|] eqn:E; cbn; [eauto|reflexivity]).
    assert (Hf : it ∈ f). { assert (Q : it ∈ fk (i_k it) (added (trace s))) by (apply elem_fk; auto). rewrite K1, Ec, Pe in Q. cbn [fk] in Q. rewrite !app_nil_r in Q. exact Q. }
    split.
    - destruct (i_n it) eqn:N.
      + assert (Q : it ∈ fk (i_k it) (nm (comp (trace s)))) by (rewrite K3; apply elem_of_app; left; apply elem_nm; split; [congruence|auto]). apply elem_fk in Q as (_ & Q). apply elem_nm in Q. tauto.
      + assert (Q : it ∈ fk (i_k it) (ph (comp (trace s)))) by (rewrite K4; apply elem_of_app; left; apply elem_ph; auto). apply elem_fk in Q as (_ & Q). apply elem_ph in Q. tauto.
    - intros N. assert (Q : it ∈ fk (i_k it) (handed (trace s))) by (rewrite K2; apply elem_of_app; left; apply elem_nm; auto). apply elem_fk in Q. tauto. }
  intros b x E. split.
  - apply (comp_cb s _ b x B E). intros it Hi. apply Cm. eauto.
  - intros it Hi N. apply Cm; eauto.
Qed.
Lemma nothing_stuck size conc acts s : 1 <= conc -> run (start size conc) acts = Some s ->
  (exists n, forall more s', forallb internal more = true -> run s more = Some s' -> length more <= n) /\
  (forall more s', forallb internal more = true -> run s more = Some s' -> (forall a, internal a = true -> step s' a = None) -> done s').
Proof.
  intros C H. pose proof (run_inv _ _ _ (start_inv size conc) H) as I. split.
  - exists (mu s). intros more s' F R. pose proof (finite s more s' I F R). lia.
  - intros more s' F R St. apply stuck_done; [eapply run_inv; eauto| |exact St]. destruct (run_frame _ _ _ H) as (_ & L). destruct (run_frame _ _ _ R) as (_ & L'). unfold start in L. ss. rewrite repeat_length in L. lia.
Qed.
