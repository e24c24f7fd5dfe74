(** The dead-locked states of Refute.v are reachable for every configuration and every capacity of the completion channel. *)
From stdpp Require Import prelude list.
From Coq Require Import ZArith.
From Verif.ItemQueue Require Model Proofs.
From Verif.Scheduler Require Import Model Base Inv Step Order Live Progress Refute.
Import ItemQueue.Model(size, head, chan).

#[local] Opaque ItemQueue.Model.newQueue.
Ltac us := cbv beta iota delta [setc setg setq set_callers set_gs set_ws set_wmap set_chans set_chcap set_signal set_maxk set_depth set_pool set_closed set_comps set_ccap set_accepted
  set_completed set_inserted set_started set_taken set_delivered set_collected callers gs ws wmap chans chcap signal maxk depth pool closed comps ccap accepted completed
  inserted started taken delivered collected].

Record rest (m : nat) (s : st) : Prop := {
  r_call : callers s !! 0 = Some CIdle; r_g : gs s !! 0 = Some GLoop; r_map : wmap s = []; r_ch : chans s = [[]]; r_cap : 1 <= chcap s; r_max : 1 <= maxk s;
  r_open : closed s = false; r_comp : length (comps s 0) = m }.
(** the first goroutine has processed the only queued job and is about to deliver *)
Record mid (m w : nat) (s : st) : Prop := {
  d_call : callers s !! 0 = Some CIdle; d_g : gs s !! 0 = Some (GDeliver w (mkJ 0 0 0)); d_map : wmap s = [(0, w)]; d_ch : chans s = [[]]; d_cap : 1 <= chcap s; d_max : 1 <= maxk s;
  d_open : closed s = false; d_comp : length (comps s 0) = m; d_w : exists o, ws s !! w = Some o /\ wkey o = 0 /\ head (wq o) = None /\ chan (wq o) = [] /\ size (wq o) = 0%Z /\ 1 <= qcap (wq o) }.

Lemma run_cons s a s1 acts s2 : step s a = Some s1 -> run s1 acts = Some s2 -> run s (a :: acts) = Some s2.
Proof. intros H. cbn. rewrite H. auto. Qed.
Lemma rest_mid m s : rest m s -> exists acts s' w, run s acts = Some s' /\ mid m w s' /\ ccap s' = ccap s /\ Forall (fun a => a <> AClose) acts.
Proof.
  intros [A B C D E F G H]. set (j := mkJ 0 0 0). destruct s as [cl gl wl mp ch cp sg mx dp po clo co cc ac cm ins sta tk dv cd]. ss. subst.
  destruct cl as [|c0 cl]; [discriminate|]. cbn in A. injection A as ->. destruct gl as [|g0 gl]; [discriminate|]. cbn in B. injection B as ->.
  destruct (newq_facts dp) as (N1 & N2 & N3 & N4 & N5).
  assert (Lw : forall l x, (wl ++ x :: l) !! length wl = Some x) by (intros; apply list_lookup_middle; auto).
  assert (Iw : forall x y, <[length wl := y]> (wl ++ [x]) = wl ++ [y]) by (intros; rewrite insert_app_r_alt, Nat.sub_diag by lia; reflexivity).
  destruct (ItemQueue.Model.tryEnqueue (newQueue dp) j) as [b q] eqn:Et. unfold ItemQueue.Model.tryEnqueue in Et. cbn [head] in Et. rewrite N5 in Et.
  unfold ItemQueue.Model.backfill in Et. cbn [chan] in Et. rewrite N4 in Et. cbn [size chan ItemQueue.Model.chcap head] in Et. injection Et as <- <-.
  set (q := ItemQueue.Model.mkQ (size (newQueue (T:=job) dp) + 1) (Some j) [] (qcap (newQueue (T:=job) dp))).
  exists [ASchedule 0 j; AGrab 0 None; AEnq 0; GRead 0; GTake 0; GPeek 0; GReturn 0; GAdvance 0]. eexists _, (length wl). split.
  - eapply run_cons; [cbn [step]; ss; cbn; reflexivity|].
    eapply run_cons; [cbn [step]; ss; change (<[0:=CGrab j]> (CIdle :: cl) !! 0) with (Some (CGrab j)); cbv iota beta; unfold grab; ss; cbn [mlookup jkey]; cbn [length]; destruct (Nat.leb_spec mx 0); [lia|]|].
    { unfold addTo. ss. rewrite Lw. cbn [wq]. unfold ItemQueue.Model.tryEnqueue. cbn [head]. rewrite N5. unfold ItemQueue.Model.backfill. cbn [chan]. rewrite N4. cbn [size chan ItemQueue.Model.chcap head].
      fold q. reflexivity. }
    us. rewrite Iw. eapply run_cons; [cbn [step]; ss; simpl; unfold sendWorker, current; ss; simpl; destruct (Nat.ltb_spec 0 cp); [reflexivity|lia]|].
    eapply run_cons; [cbn [step]; ss; simpl; reflexivity|].
    eapply run_cons; [cbn [step]; ss; simpl; reflexivity|].
    eapply run_cons; [cbn [step]; ss; simpl; rewrite Lw; cbn [wq]; unfold ItemQueue.Model.peek, q; cbn [head]; reflexivity|].
    eapply run_cons; [cbn [step]; ss; simpl; reflexivity|].
    us. eapply run_cons; [cbn [step]; ss; simpl; rewrite Lw; cbn [wq wkey wcap]; unfold ItemQueue.Model.dequeue, q, ItemQueue.Model.backfill; cbn [head fst snd size chan ItemQueue.Model.chcap]; us; rewrite Iw; reflexivity|].
    reflexivity.
  - split; [|split; [reflexivity|repeat constructor; discriminate]].
    split; ss; auto. eexists. rewrite Lw. split; [reflexivity|]. cbn [wkey wq head chan size ItemQueue.Model.chcap]. rewrite N2, N3. repeat split; auto; lia.
Qed.
Lemma mid_rest m w s : mid m w s -> m < ccap s -> exists acts s', run s acts = Some s' /\ rest (S m) s' /\ ccap s' = ccap s /\ Forall (fun a => a <> AClose) acts.
Proof.
  intros [A B C D E F G H (o & I1 & I2 & I3 & I4 & I5 & I6)] Lt. destruct s as [cl gl wl mp ch cp sg mx dp po clo co cc ac cm ins sta tk dv cd]. ss. subst.
  destruct cl as [|c0 cl]; [discriminate|]. cbn in A. injection A as ->. destruct gl as [|g0 gl]; [discriminate|]. cbn in B. injection B as ->.
  exists [GComplete 0; GRelease 0; GSignal 0]. eexists. split.
  - eapply run_cons; [cbn [step]; ss; simpl; destruct (Nat.ltb_spec (length (co 0)) cc); [reflexivity|lia]|].
    eapply run_cons; [cbn [step]; ss; simpl; rewrite I1; unfold ItemQueue.Model.done; rewrite I5; simpl; reflexivity|].
    eapply run_cons; [cbn [step]; ss; simpl; reflexivity|]. reflexivity.
  - split; [|split; [reflexivity|repeat constructor; discriminate]]. split; ss; auto; [rewrite I2; reflexivity|]. cbn. rewrite app_length. cbn. lia.
Qed.
Lemma start_rest cf n cc : 1 <= Concurrency cf -> 1 <= n -> rest 0 (start cf n cc).
Proof.
  intros H Hn. unfold start. split; ss; auto.
  - destruct n; [lia|]. reflexivity.
  - destruct (Concurrency cf); [lia|]. reflexivity.
  - lia.
  - unfold concurrentKeys. destruct (Nat.ltb_spec (MaxConcurrentKeys cf) (Concurrency cf)); lia.
Qed.
Lemma reach_rest cf n cc m : 1 <= Concurrency cf -> 1 <= n -> m <= cc -> exists acts s, run (start cf n cc) acts = Some s /\ rest m s /\ ccap s = cc /\ Forall (fun a => a <> AClose) acts.
Proof.
  intros H Hn. induction m as [|m IH]; intros Lm.
  - exists [], (start cf n cc). split; [reflexivity|]. split; [apply start_rest; auto|]. split; [reflexivity|constructor].
  - destruct IH as (a1 & s1 & R1 & P1 & C1 & F1); [lia|]. destruct (rest_mid m s1 P1) as (a2 & s2 & w & R2 & P2 & C2 & F2).
    destruct (mid_rest m w s2 P2 ltac:(lia)) as (a3 & s3 & R3 & P3 & C3 & F3). exists (a1 ++ a2 ++ a3), s3. rewrite run_app, R1, run_app, R2. split; auto. split; auto. split; [congruence|].
    apply Forall_app; split; auto. apply Forall_app; auto.
Qed.
(** filling the queue of the worker *)
Record fill (i m w : nat) (s : st) : Prop := {
  f_call : callers s !! 0 = Some CIdle; f_g : gs s !! 0 = Some (GDeliver w (mkJ 0 0 0)); f_map : wmap s = [(0, w)];
  f_open : closed s = false; f_comp : length (comps s 0) = m; f_w : exists o h, ws s !! w = Some o /\ head (wq o) = Some h /\ length (chan (wq o)) = i /\ i <= qcap (wq o) }.
Definition qc (w : nat) (s : st) : nat := match ws s !! w with Some o => qcap (wq o) | None => 0 end.
Lemma mid_fill m w s : mid m w s -> exists acts s', run s acts = Some s' /\ fill 0 m w s' /\ ccap s' = ccap s /\ qc w s' = qc w s /\ Forall (fun a => a <> AClose) acts.
Proof.
  intros [A B C D E F G H (o & I1 & I2 & I3 & I4 & I5 & I6)]. destruct s as [cl gl wl mp ch cp sg mx dp po clo co cc ac cm ins sta tk dv cd]. ss. subst.
  destruct cl as [|c0 cl]; [discriminate|]. cbn in A. injection A as ->. set (j := mkJ 0 0 0). exists [ASchedule 0 j; AGrab 0 None]. eexists. split.
  - eapply run_cons; [cbn [step]; ss; cbn; reflexivity|].
    eapply run_cons; [cbn [step]; ss; simpl; unfold grab; ss; simpl; unfold addTo; ss; rewrite I1; unfold ItemQueue.Model.tryEnqueue; cbn [head]; rewrite I3;
      unfold ItemQueue.Model.backfill; cbn [chan]; rewrite I4; cbn; reflexivity|]. reflexivity.
  - assert (Lw : w < length wl) by (eapply lookup_lt_Some; eauto). split; [|split; [reflexivity|split; [|repeat constructor; discriminate]]].
    + split; ss; auto. eexists _, _. split; [apply list_lookup_insert; auto|]. cbn. repeat split; auto. lia.
    + unfold qc. ss. rewrite list_lookup_insert by auto. rewrite I1. reflexivity.
Qed.
Lemma fill_more i m w s : fill i m w s -> i < qc w s -> exists acts s', run s acts = Some s' /\ fill (S i) m w s' /\ ccap s' = ccap s /\ qc w s' = qc w s /\ Forall (fun a => a <> AClose) acts.
Proof.
  intros [A B C G H (o & h & I1 & I2 & I3 & I4)] Li. destruct s as [cl gl wl mp ch cp sg mx dp po clo co cc ac cm ins sta tk dv cd]. unfold qc in Li. ss. subst. rewrite I1 in Li.
  destruct cl as [|c0 cl]; [discriminate|]. cbn in A. injection A as ->. set (j := mkJ 0 0 0). exists [ASchedule 0 j; AGrab 0 None]. eexists. split.
  - eapply run_cons; [cbn [step]; ss; cbn; reflexivity|].
    eapply run_cons; [cbn [step]; ss; simpl; unfold grab; ss; simpl; unfold addTo; ss; rewrite I1; unfold ItemQueue.Model.tryEnqueue; cbn [head]; rewrite I2;
      unfold ItemQueue.Model.chanSend; cbn [chan ItemQueue.Model.chcap]; destruct (Nat.ltb_spec (length (chan (wq o))) (qcap (wq o))); [cbn; reflexivity|lia]|]. reflexivity.
  - assert (Lw : w < length wl) by (eapply lookup_lt_Some; eauto). split; [|split; [reflexivity|split; [|repeat constructor; discriminate]]].
    + split; ss; auto. eexists _, _. split; [apply list_lookup_insert; auto|]. cbn. rewrite app_length. cbn. repeat split; auto; lia.
    + unfold qc. ss. rewrite list_lookup_insert by auto. rewrite I1. reflexivity.
Qed.
Lemma fill_up m w : forall d i s, fill i m w s -> i + d = qc w s -> exists acts s', run s acts = Some s' /\ fill (qc w s) m w s' /\ ccap s' = ccap s /\ qc w s' = qc w s /\ Forall (fun a => a <> AClose) acts.
Proof.
  induction d as [|d IH]; intros i s Fi Ei.
  - exists [], s. rewrite <- Ei. replace (i + 0) with i in * by lia. repeat split; auto; apply Fi.
  - destruct (fill_more i m w s Fi ltac:(lia)) as (a1 & s1 & R1 & P1 & C1 & Q1 & F1). destruct (IH (S i) s1 P1 ltac:(lia)) as (a2 & s2 & R2 & P2 & C2 & Q2 & F2).
    rewrite Q1 in *. exists (a1 ++ a2), s2. rewrite run_app, R1. split; auto. split; auto. split; [congruence|]. split; auto. apply Forall_app; auto.
Qed.
Lemma fill_dead m w s : fill (qc w s) m w s -> ccap s <= m -> exists acts s', run s acts = Some s' /\ dead 0 w s' /\ Forall (fun a => a <> AClose) acts.
Proof.
  intros [A B C G H (o & h & I1 & I2 & I3 & I4)] Lm. unfold qc in *. rewrite I1 in *. destruct s as [cl gl wl mp ch cp sg mx dp po clo co cc ac cm ins sta tk dv cd]. ss. subst.
  destruct cl as [|c0 cl]; [discriminate|]. cbn in A. injection A as ->. set (j := mkJ 0 0 0). exists [ASchedule 0 j; AGrab 0 None]. eexists. split.
  - eapply run_cons; [cbn [step]; ss; cbn; reflexivity|].
    eapply run_cons; [cbn [step]; ss; simpl; unfold grab; ss; simpl; unfold addTo; ss; rewrite I1; unfold ItemQueue.Model.tryEnqueue; cbn [head]; rewrite I2;
      unfold ItemQueue.Model.chanSend; cbn [chan ItemQueue.Model.chcap]; destruct (Nat.ltb_spec (length (chan (wq o))) (qcap (wq o))); [lia|cbn; reflexivity]|]. reflexivity.
  - assert (Lw : w < length wl) by (eapply lookup_lt_Some; eauto). split; [|repeat constructor; discriminate]. split; ss; auto.
    + cbn. eauto.
    + eexists _, _. split; [apply list_lookup_insert; auto|]. cbn. split; auto. lia.
    + exists 0, j. auto.
Qed.
Lemma deadlock cf n cc : 1 <= Concurrency cf -> 1 <= n -> exists acts s w, run (start cf n cc) acts = Some s /\ Forall (fun a => a <> AClose) acts /\ dead 0 w s.
Proof.
  intros H Hn. destruct (reach_rest cf n cc cc H Hn ltac:(lia)) as (a1 & s1 & R1 & P1 & C1 & F1). destruct (rest_mid cc s1 P1) as (a2 & s2 & w & R2 & P2 & C2 & F2).
  destruct (mid_fill cc w s2 P2) as (a3 & s3 & R3 & P3 & C3 & Q3 & F3). destruct (fill_up cc w (qc w s3) 0 s3 P3 ltac:(lia)) as (a4 & s4 & R4 & P4 & C4 & Q4 & F4).
  rewrite <- Q4 in P4. destruct (fill_dead cc w s4 P4 ltac:(lia)) as (a5 & s5 & R5 & P5 & F5).
  exists (a1 ++ a2 ++ a3 ++ a4 ++ a5), s5, w. rewrite run_app, R1, run_app, R2, run_app, R3, run_app, R4. split; auto. split; auto. rewrite !Forall_app. auto 10.
Qed.
(** and nothing but the end of the run status gets the caller out *)
Lemma deadlock_for_good cf n cc : 1 <= Concurrency cf -> 1 <= n -> exists acts s, run (start cf n cc) acts = Some s /\ Forall (fun a => a <> AClose) acts /\
  forall more s', Forall (fun a => a <> AClose) more -> run s more = Some s' ->
    exists w j g j', callers s' !! 0 = Some (CBlock w j) /\ gs s' !! g = Some (GDeliver w j') /\ jcaller j' = 0.
Proof.
  intros H Hn. destruct (deadlock cf n cc H Hn) as (acts & s & w & R & F & D). exists acts, s. split; auto. split; auto. intros more s' Fm Rm.
  pose proof (run_dead 0 w more s s' (run_inv _ _ _ (start_inv cf n cc) R) D Fm Rm) as [_ (j & A) _ (g & j' & B & C) _]. eauto 10.
Qed.
