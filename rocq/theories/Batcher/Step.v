(** Every step keeps the invariant. *)
From stdpp Require Import prelude list gmap.
From Coq Require Import ZArith.
From Verif.Batcher Require Import Model Base Inv.
Open Scope nat_scope.

Lemma cur_upd s s' e x x' k : assign s' = assign s -> execs s' = <[e := x']> (execs s) -> execs s !! e = Some x ->
  cur s' k = if decide (assign s !! k = Some e) then x' else cur s k.
Proof.
  intros A E H. unfold cur. rewrite A, E. destruct (assign s !! k) as [e'|] eqn:Q.
  - destruct (decide (e' = e)) as [->|D].
    + rewrite decide_True by auto. rewrite list_lookup_insert by (eapply lookup_lt_Some; eauto). reflexivity.
    + rewrite decide_False by congruence. rewrite list_lookup_insert_ne by auto. reflexivity.
  - rewrite decide_False by congruence. reflexivity.
Qed.
Lemma kOK_ext t c c' pd k : kOK t c pd k -> e_all c' = e_all c -> e_items c' = e_items c -> e_noops c' = e_noops c ->
  called (e_go c') = called (e_go c) -> ncomp c' = ncomp c -> nnoop c' = nnoop c -> kOK t c' pd k.
Proof. intros (f & K) E1 E2 E3 E4 E5 E6. exists f. rewrite E1, E2, E3, E4, E5, E6. exact K. Qed.
Lemma insert_cases {A} (l : list A) i y j z : <[i := y]> l !! j = Some z -> (j = i /\ z = y /\ i < length l) \/ (j <> i /\ l !! j = Some z).
Proof. intros H. apply list_lookup_insert_Some in H as [(-> & <- & L)|(N & H)]; auto. Qed.
Ltac ins H := apply insert_cases in H as [(-> & -> & ?L)|(?N & H)].

Lemma condExec_base s pd e x : base s pd -> execs s !! e = Some x -> e_busy x = false -> base (condExec e s) pd.
Proof.
  intros B E Bx. unfold condExec. rewrite E, Bx. pose proof (a_ex s pd B e x E) as X. pose proof (x_go _ _ X) as G. rewrite Bx in G.
  split; ss; try apply B.
  - intros e' y H. ins H; [|eapply a_ex; eauto]. split; ss; try apply X. split; [reflexivity|]. exists PStart. rewrite G. split; [reflexivity|exact I].
  - intros e' y it H Hit. ins H; ss; eapply a_asg; eauto.
  - intros k e' H. rewrite insert_length. eapply a_len; eauto.
  - rewrite (a_count s pd B). pose proof (lsum_insert busy1 _ _ _ (mkE (e_items x) (e_noops x) true None (e_go x ++ [PStart]) (e_all x)) E) as Q.
    unfold busy1 in Q at 2 4. ss. rewrite Bx in Q. lia.
  - intros e' y t H Ht. ins H; ss; [discriminate|]. destruct (a_timer s pd B e' y t H Ht) as (ts & T1 & T2). exists ts. split; [|auto].
    destruct (e_timer x) as [t0|] eqn:T0; [|auto]. destruct (a_timer s pd B e x t0 E T0) as (ts0 & T3 & T4). unfold stop. rewrite T3.
    destruct ts0; auto. rewrite list_lookup_insert_ne; [auto|]. intros ->. congruence.
  - intros k. set (x' := mkE (e_items x) (e_noops x) true None (e_go x ++ [PStart]) (e_all x)).
    match goal with |- kOK _ (cur ?s' k) _ _ => rewrite (cur_upd s s' e x x' k eq_refl eq_refl E) end.
    destruct (decide _) as [D|D]; [|apply B]. pose proof (a_key s pd B k) as K. rewrite (cur_at s k e x D E) in K.
    apply (kOK_ext _ _ _ _ _ K); unfold x', ncomp, nnoop; ss; auto; rewrite G; reflexivity.
  - intros c l H. destruct (a_open s pd B c l H) as [R|(e' & y & H1 & H2 & H3)]; [auto|]. right.
    destruct (decide (e' = e)) as [->|N]; [replace y with x in * by congruence; congruence|]. exists e', y. rewrite list_lookup_insert_ne by auto. auto.
  - intros e' y c H Hg. ins H; ss; [rewrite G in Hg; discriminate|]. eapply a_pexec; eauto.
Qed.
Lemma executorFor_Some s pd it e : base s pd -> executorFor it s = Some e -> exists x, execs s !! e = Some x /\ e_busy x = false /\
  (assign s !! i_k it = Some e \/ assign s !! i_k it = None).
Proof.
  intros B H. unfold executorFor in H. destruct (assign s !! i_k it) as [e'|] eqn:A.
  - destruct (execs s !! e') as [x|] eqn:E; [|discriminate]. destruct (e_busy x) eqn:Bx; [discriminate|]. injection H as <-. eauto.
  - apply firstReady_Some in H as (x & _ & H & Bx). rewrite Nat.sub_0_r in H. eauto.
Qed.
Lemma executorFor_None s pd it : base s pd -> executorFor it s = None -> blocked s (i_k it) \/ full s.
Proof.
  intros B H. unfold executorFor in H. destruct (assign s !! i_k it) as [e'|] eqn:A.
  - pose proof (a_len s pd B _ _ A) as L. apply lookup_lt_is_Some in L as (x & E). rewrite E in H. destruct (e_busy x) eqn:Bx; [|discriminate]. left. exists e', x. auto.
  - right. eapply busy_full; eauto. intros e x E. eapply firstReady_None; eauto.
Qed.
(** the executor of a key that is not waiting *)
Lemma cur_for s pd it e x : base s pd -> execs s !! e = Some x -> e_busy x = false -> (assign s !! i_k it = Some e \/ assign s !! i_k it = None) ->
  kOK (trace s) x pd (i_k it).
Proof.
  intros B E Bx [A|A]; pose proof (a_key s pd B (i_k it)) as K.
  - rewrite (cur_at s _ e x A E) in K. exact K.
  - unfold cur in K. rewrite A in K. destruct K as (f & K). pose proof (a_ex s pd B e x E) as X. pose proof (x_go _ _ X) as G. rewrite Bx in G.
    assert (N : fk (i_k it) (e_all x) = []).
    { apply fk_none. intros it' H Q. apply (a_asg s pd B e x it' E) in H. congruence. }
    exists f. unfold ncomp, nnoop in *. rewrite G, N. exact K.
Qed.
Definition midOK (m : nat) (x : ex) : Prop := e_busy x = false -> 1 <= m -> length (e_all x) < m.
Lemma exAdd_all it x : e_all (exAdd it x) = e_all x ++ [it] /\ e_busy (exAdd it x) = e_busy x /\ e_timer (exAdd it x) = e_timer x /\ e_go (exAdd it x) = e_go x.
Proof. unfold exAdd. destruct (i_n it); ss; auto. Qed.
Lemma exAdd_items it x : e_items (exAdd it x) = e_items x ++ nm [it] /\ e_noops (exAdd it x) = e_noops x ++ ph [it].
Proof. unfold exAdd. rewrite nm_one, ph_one. destruct (i_n it); ss; rewrite ?app_nil_r; auto. Qed.
(** putting an item into an executor, before the size is looked at *)
Lemma put_base s l1 l2 it e x : base s (l1 ++ it :: l2) -> execs s !! e = Some x -> e_busy x = false -> (assign s !! i_k it = Some e \/ assign s !! i_k it = None) ->
  (1 <= maxb s -> length (e_all x) < maxb s) -> (forall i, i ∈ l1 -> i_k i <> i_k it) ->
  base (set_execs (<[e := exAdd it x]> (execs s)) (set_assign (<[i_k it := e]> (assign s)) s)) (l1 ++ l2).
Proof.
  intros B E Bx A M N1. destruct (exAdd_all it x) as (Y1 & Y2 & Y3 & Y4). destruct (exAdd_items it x) as (Y5 & Y6). set (y := exAdd it x) in *.
  pose proof (a_ex _ _ B e x E) as X. pose proof (x_go _ _ X) as G. rewrite Bx in G.
  split; ss; try apply B.
  - intros e' z H. ins H; [|eapply a_ex; eauto]. split.
    + rewrite Y5, Y1, nm_app, (x_items _ _ X). reflexivity.
    + rewrite Y6, Y1, ph_app, (x_noops _ _ X). reflexivity.
    + intros Q. rewrite Y1, app_length. cbn. specialize (M Q). lia.
    + rewrite Y2, Bx, Y4. exact G.
  - intros e' z i H Hi. destruct (decide (i_k i = i_k it)) as [D|D].
    + rewrite D, lookup_insert. f_equal. ins H; [reflexivity|]. pose proof (a_asg _ _ B e' z i H Hi) as Q. rewrite D in Q. destruct A as [A|A]; congruence.
    + rewrite lookup_insert_ne by auto. ins H; [|eapply a_asg; eauto]. rewrite Y1 in Hi. apply elem_of_app in Hi as [Hi|Hi]; [eapply a_asg; eauto|].
      apply elem_of_list_singleton in Hi as ->. congruence.
  - intros k e' H. rewrite insert_length. apply lookup_insert_Some in H as [(_ & <-)|(_ & H)]; [eapply lookup_lt_Some; eauto|eapply a_len; eauto].
  - rewrite (a_count _ _ B). pose proof (lsum_insert busy1 _ _ _ y E) as Q. unfold busy1 in Q at 2 4. rewrite Y2, Bx in Q. lia.
  - intros e' z t H Ht. ins H; [rewrite Y3 in Ht|]; eapply a_timer; eauto.
  - intros k. destruct (decide (k = i_k it)) as [->|D].
    + pose proof (cur_for s _ it e x B E Bx A) as (f & K1 & K2 & K3 & K4).
      match goal with |- kOK _ (cur ?s' _) _ _ => replace (cur s' (i_k it)) with y end.
      2:{ unfold cur. ss. rewrite lookup_insert, list_lookup_insert by (eapply lookup_lt_Some; eauto). reflexivity. }
      exists f. unfold ncomp, nnoop in *. rewrite Y4, Y1, G in *. cbn [called take fk] in *. rewrite !app_nil_r in *.
      split; [|auto]. rewrite K1, !fk_app. change (it :: l2) with ([it] ++ l2). rewrite fk_app, (fk_none _ l1) by auto. cbn [app]. rewrite <- !app_assoc. reflexivity.
    + assert (Q : kOK (trace s) (cur s k) (l1 ++ l2) k).
      { destruct (a_key _ _ B k) as (f & K1 & K2 & K3 & K4). exists f. split; [|auto]. rewrite K1. change (it :: l2) with ([it] ++ l2). rewrite !fk_app, (fk_one k it), decide_False by auto. reflexivity. }
      match goal with |- kOK _ (cur ?s' _) _ _ => assert (Q2 : cur s' k = if decide (assign s !! k = Some e) then y else cur s k) end.
      { unfold cur. ss. rewrite lookup_insert_ne by auto. destruct (assign s !! k) as [e'|] eqn:Ak; [|rewrite decide_False by congruence; reflexivity].
        destruct (decide (e' = e)) as [->|D2].
        - rewrite decide_True by auto. rewrite list_lookup_insert by (eapply lookup_lt_Some; eauto). reflexivity.
        - rewrite decide_False by congruence. rewrite list_lookup_insert_ne by auto. reflexivity. }
      rewrite Q2. destruct (decide _) as [D2|D2]; [|exact Q]. rewrite (cur_at s k e x D2 E) in Q. destruct Q as (f & K1 & K2 & K3 & K4).
      exists f. unfold ncomp, nnoop in *. rewrite Y4, Y1, G in *. cbn [called take fk] in *. rewrite fk_app, (fk_one k it), decide_False, app_nil_r by auto. auto.
  - intros c l H. destruct (a_open _ _ B c l H) as [R|(e' & z & H1 & H2 & H3)]; [auto|]. right.
    destruct (decide (e' = e)) as [->|N]; [replace z with x in * by congruence; congruence|]. exists e', z. rewrite list_lookup_insert_ne by auto. auto.
  - intros e' z c H Hg. ins H; [rewrite Y4, G in Hg; discriminate|]. eapply a_pexec; eauto.
Qed.

(** what addToExecutor does apart from that *)
Lemma addTo_ok s l1 l2 it e x : base s (l1 ++ it :: l2) -> ready s -> execs s !! e = Some x -> e_busy x = false -> (assign s !! i_k it = Some e \/ assign s !! i_k it = None) ->
  (forall i, i ∈ l1 -> i_k i <> i_k it) ->
  base (addToExecutor it e s) (l1 ++ l2) /\ ready (addToExecutor it e s).
Proof.
  intros B R E Bx A N1. pose proof (put_base s l1 l2 it e x B E Bx A ltac:(intros Q; apply (R e x E Bx); exact Q) N1) as P.
  unfold addToExecutor. rewrite E. set (s1 := set_execs _ _) in *. assert (L : e < length (execs s)) by (eapply lookup_lt_Some; eauto).
  destruct (exAdd_all it x) as (Y1 & Y2 & Y3 & Y4). destruct (exAdd_items it x) as (Y5 & Y6).
  assert (E1 : execs s1 !! e = Some (exAdd it x)) by (unfold s1; ss; apply list_lookup_insert; auto).
  pose proof (a_ex _ _ P e _ E1) as X1.
  assert (Len : length (e_items (exAdd it x)) + length (e_noops (exAdd it x)) = length (e_all (exAdd it x))).
  { rewrite (x_items _ _ X1), (x_noops _ _ X1). apply nm_ph_length. }
  rewrite Len. destruct (Nat.eqb_spec (length (e_all (exAdd it x))) (maxb s)) as [Fu|Fu].
  - split; [eapply condExec_base; eauto; congruence|]. unfold condExec. rewrite E1, Y2, Bx. intros e' z H. unfold s1 in H. ss. rewrite list_insert_insert in H. ins H.
    + intros Q. ss. discriminate.
    + apply R in H. exact H.
  - assert (M : 1 <= maxb s -> length (e_all (exAdd it x)) < maxb s).
    { intros Q. pose proof (x_size _ _ X1 Q). unfold s1 in *. ss. lia. }
    destruct (e_timer (exAdd it x)) as [t|] eqn:T.
    + split; [exact P|]. intros e' z H. unfold s1 in H. ss. ins H; [|apply R in H; exact H]. intros _. unfold s1. ss. split; [exact M|congruence].
    + split.
      * set (y := mkE _ _ _ _ _ _). destruct P as [P1 P2 P3 P4 P5 P6 P7 P8 P9 P10 P11 P11' P11'' P12 P13 P14]. unfold s1 in *. ss. split; ss; auto.
        -- intros e' z H. ins H; [|apply (P1 e'); rewrite list_lookup_insert_ne by auto; exact H]. unfold y. split; ss; try apply X1. rewrite Y2, Bx. pose proof (x_go _ _ X1) as G. rewrite Y2, Bx in G. exact G.
        -- intros e' z i H Hi. ins H; [|apply (P2 e' z i); [rewrite list_lookup_insert_ne by auto; exact H|exact Hi]]. apply (P2 e _ i E1). exact Hi.
        -- intros k e' H. rewrite insert_length. apply P3 in H. rewrite insert_length in H. exact H.
        -- rewrite P4. pose proof (lsum_insert busy1 _ _ _ y E) as Q1. pose proof (lsum_insert busy1 _ _ _ (exAdd it x) E) as Q2.
           unfold busy1 in Q1 at 4. unfold busy1 in Q2 at 4. unfold y in Q1 at 2. ss. lia.
        -- intros e' z t H Ht. ins H.
           ++ unfold y in Ht. ss. injection Ht as <-. exists TArmed. split; [|discriminate]. rewrite lookup_app_r, Nat.sub_diag by lia. reflexivity.
           ++ destruct (P5 e' z t) as (ts & T1 & T2); [rewrite list_lookup_insert_ne by auto; exact H|exact Ht|]. exists ts. split; [|auto]. apply lookup_app_l_Some. exact T1.
        -- intros k. specialize (P6 k). match type of P6 with kOK _ (cur ?s0 k) _ _ => match goal with |- kOK _ (cur ?s' k) _ _ =>
             assert (Q : cur s' k = if decide (assign s0 !! k = Some e) then y else cur s0 k) end; set (s2 := s0) in * end.
           { apply (cur_upd s2 _ e (exAdd it x)); [reflexivity| |exact E1]. unfold s2. ss. rewrite list_insert_insert. reflexivity. }
           rewrite Q. destruct (decide _) as [D|D]; [|exact P6]. rewrite (cur_at s2 k e _ D E1) in P6. apply (kOK_ext _ _ _ _ _ P6); reflexivity.
        -- intros c l H. destruct (P12 c l H) as [Rr|(e' & z & H1 & H2 & H3)]; [auto|]. right. ins H1; [exists e, y|exists e', z; rewrite list_lookup_insert_ne by auto; auto].
           rewrite list_lookup_insert by auto. auto.
        -- intros e' z c H Hg. ins H; [apply (P13 e _ c E1 Hg)|apply (P13 e'); [rewrite list_lookup_insert_ne by auto; exact H|exact Hg]].
      * intros e' z H. ss. ins H; [|unfold s1 in *; ss; apply R in H; exact H]. intros _. ss. split; [exact M|discriminate].
Qed.

Lemma condExec_frame s e : assign (condExec e s) = assign s /\ batches (condExec e s) = batches s /\ trace (condExec e s) = trace s /\ pending (condExec e s) = pending s /\
  length (execs (condExec e s)) = length (execs s) /\ maxb (condExec e s) = maxb s /\ (forall e' x, execs s !! e' = Some x -> e_busy x = true -> execs (condExec e s) !! e' = Some x).
Proof.
  unfold condExec. destruct (execs s !! e) as [x|] eqn:E; [|auto 10]. destruct (e_busy x) eqn:Bx; [auto 10|]. ss. rewrite insert_length. repeat split; auto.
  intros e' y H By. rewrite list_lookup_insert_ne; [auto|]. intros ->. congruence.
Qed.
Lemma addTo_frame s it e x : execs s !! e = Some x -> e_busy x = false ->
  assign (addToExecutor it e s) = <[i_k it := e]> (assign s) /\ batches (addToExecutor it e s) = batches s /\ trace (addToExecutor it e s) = trace s /\
  pending (addToExecutor it e s) = pending s /\ length (execs (addToExecutor it e s)) = length (execs s) /\ maxb (addToExecutor it e s) = maxb s /\
  (forall e' x, execs s !! e' = Some x -> e_busy x = true -> execs (addToExecutor it e s) !! e' = Some x).
Proof.
  intros E Bx. unfold addToExecutor. rewrite E. set (s1 := set_execs _ _) in *.
  assert (Fr : forall e' y z, execs s !! e' = Some y -> e_busy y = true -> <[e := z]> (execs s) !! e' = Some y).
  { intros e' y z H By. rewrite list_lookup_insert_ne; [auto|]. intros ->. congruence. }
  destruct (_ =? _).
  - destruct (condExec_frame s1 e) as (F1 & F2 & F3 & F4 & F5 & F6 & F7). rewrite F1, F2, F3, F4, F5, F6. unfold s1 in *. ss. rewrite insert_length. repeat split; auto.
  - destruct (e_timer _); unfold s1; ss; rewrite insert_length; repeat split; auto.
Qed.
Lemma addTo_blocked s it e x k : execs s !! e = Some x -> e_busy x = false -> i_k it <> k \/ ~ blocked s (i_k it) -> blocked s k -> blocked (addToExecutor it e s) k.
Proof.
  intros E Bx D (e' & y & H1 & H2 & H3). destruct (addTo_frame s it e x E Bx) as (F1 & _ & _ & _ & _ & _ & F7). exists e', y. rewrite F1. split; [|auto].
  destruct (decide (i_k it = k)) as [Q|N]; [|rewrite lookup_insert_ne; auto]. destruct D as [D|D]; [congruence|]. exfalso. apply D. exists e', y. rewrite Q. auto.
Qed.
Lemma for_not_blocked s it e : executorFor it s = Some e -> ~ blocked s (i_k it).
Proof. unfold executorFor. intros H (e' & x & A & E & Bx). rewrite A, E, Bx in H. discriminate. Qed.

Lemma flush_ok todo : forall kept s, base s (kept ++ todo) -> ready s -> ~ full s -> (forall it, it ∈ kept -> blocked s (i_k it)) ->
  let r := flushLoop todo s in
  base r.2 (kept ++ r.1) /\ ready r.2 /\ (forall it, it ∈ kept ++ r.1 -> blocked r.2 (i_k it) \/ full r.2) /\
  batches r.2 = batches s /\ trace r.2 = trace s /\ maxb r.2 = maxb s /\ length (execs r.2) = length (execs s).
Proof.
  induction todo as [|it todo IH]; intros kept s B R NF Bl; cbn [flushLoop].
  - cbn. split; [exact B|]. split; [exact R|]. split; [|auto]. intros it H. rewrite app_nil_r in H. auto.
  - destruct (executorFor it s) as [e|] eqn:X.
    + destruct (executorFor_Some s _ it e B X) as (x & E & Bx & A). pose proof (for_not_blocked s it e X) as NB.
      destruct (addTo_ok s kept todo it e x B R E Bx A) as (B1 & R1).
      { intros i Hi Q. apply NB. rewrite <- Q. auto. }
      destruct (addTo_frame s it e x E Bx) as (F1 & F2 & F3 & F4 & F5 & F6 & F7).
      destruct (Z.eqb_spec (count (addToExecutor it e s)) (Z.of_nat (length (execs (addToExecutor it e s))))) as [C|C].
      * cbn. split; [exact B1|]. split; [exact R1|]. split; [|auto]. intros i _. right. exact C.
      * destruct (IH kept (addToExecutor it e s) B1 R1 C) as (I1 & I2 & I3 & I4 & I5 & I6 & I7).
        { intros i Hi. eapply addTo_blocked; eauto. }
        cbn zeta in *. destruct (flushLoop todo (addToExecutor it e s)) as [l s1]. cbn in *. rewrite I4, I5, I6, I7. auto 10.
    + destruct (executorFor_None s _ it B X) as [Bk|F]; [|contradiction].
      destruct (IH (kept ++ [it]) s) as (I1 & I2 & I3 & I4 & I5 & I6 & I7); auto.
      { rewrite <- app_assoc. exact B. }
      { intros i Hi. apply elem_of_app in Hi as [Hi|Hi]; [auto|]. apply elem_of_list_singleton in Hi as ->. exact Bk. }
      destruct (flushLoop todo s) as [l s1]. cbn in *. rewrite <- app_assoc in I1, I3. auto 10.
Qed.
