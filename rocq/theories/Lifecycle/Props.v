(** Properties C85-C88. [run start acts = Some s]: the calls, group events and steps [acts], in this order, are possible. *)
From stdpp Require Import prelude list.
From Verif.Lifecycle Require Import Model Proofs.
Open Scope nat_scope.

(** Nothing is left to do that would happen by itself; whatever else happens needs a call, an event of the group, a timer or an error. *)
Definition settled (s : st) : Prop := forall a, internal a = true -> step s a = None.
(** A call of Interject holds workerMux while it sends to the worker of [p], whose buffer is full and has no reader any more. *)
Definition interjectHangs (s : st) (p : nat) : Prop := mux s = Some p /\ find p (workers s) = Some (mkW true true false).
Definition number (e : ev) (t : list ev) : nat := length (List.filter (fun x => bool_decide (x = e)) t).
Lemma number_count e f t : (forall x, f x = bool_decide (x = e)) -> number e t = count f t.
Proof. intros H. unfold number, count. f_equal. apply List.filter_ext. intros x. by rewrite H. Qed.
Lemma calls t : number EvCall t = count isCall t. Proof. apply number_count. by intros []. Qed.
Lemma returns t : number EvReturn t = count isReturn t. Proof. apply number_count. by intros []. Qed.
Lemma fails t : number EvFail t = count isFail t. Proof. apply number_count. by intros []. Qed.
Lemma alive acts s : run start acts = Some s -> EvExit ∉ trace s -> dead s = false.
Proof. intros R N. destruct (dead s) eqn:D; [|done]. destruct N. by apply (exited _ _ R). Qed.
Lemma count_pos f e (t : list ev) : f e = true -> e ∈ t -> 0 < count f t.
Proof. intros F I. apply elem_of_list_split in I as (u & v & ->). rewrite count_app. unfold count at 2. cbn [List.filter]. rewrite F. cbn [length]. lia. Qed.
Lemma pos_in f e (t : list ev) : (forall x, f x = true -> x = e) -> 0 < count f t -> e ∈ t.
Proof.
  intros F L. unfold count in L. destruct (List.filter f t) as [|x l] eqn:Fi; cbn in L; [lia|].
  assert (J : In x (List.filter f t)) by (rewrite Fi; left; reflexivity). apply filter_In in J as [J1 J2]. apply F in J2 as ->. by apply elem_of_list_In.
Qed.
Lemma stopnow_call acts s : run start acts = Some s -> UStopNow ∈ acts -> EvCall ∈ trace s.
Proof.
  intros R I. apply (pos_in isCall); [by intros []|]. rewrite (called _ _ R). apply elem_of_list_split in I as (u & v & ->).
  rewrite List.filter_app, app_length. cbn. lia.
Qed.
Lemma fail_call acts s : run start acts = Some s -> EvFail ∈ trace s -> EvCall ∈ trace s.
Proof. intros R I. apply (pos_in isCall); [by intros []|]. rewrite (called _ _ R). pose proof (count_pos isFail EvFail _ eq_refl I). lia. Qed.
Lemma releases t : number EvReleased t = count isReleased t. Proof. apply number_count. by intros []. Qed.

(** C85: when a reader of Done() gets its value, everything has been stopped, the client is closed, every partition that was assigned has
    been given up, and none is assigned afterwards. *)
Theorem c85_done_means_stopped : forall acts s u v, run start acts = Some s -> trace s = u ++ EvReleased :: v ->
  EvHalt ∈ u /\ EvClosed ∈ u /\ (forall p u1 u2, u = u1 ++ EvAssign p :: u2 -> EvRevoke p ∈ u2) /\ (forall p, EvAssign p ∉ v).
Proof. intros acts s u v R T. exact (g_released _ (good_run _ _ R) u v T). Qed.
Print Assumptions c85_done_means_stopped.
Example c85_case : option_map trace (run start [GAssign 3; WReady 3; GAssign 4; UWait; UStop false; SStep; SStep; SStep; DRecv]) =
  Some [EvAssign 3; EvAssign 4; EvRevoke 4; EvRevoke 3; EvClosed; EvHalt; EvSignal; EvReleased].
Proof. reflexivity. Qed.

(** C86. Steps that happen by themselves come to an end, and there they can always arrive. *)
Theorem c86_settles : forall s, exists n, forall l s', forallb internal l = true -> run s l = Some s' -> length l <= n.
Proof. intros s. exists (measure s). intros l s' I R. pose proof (internal_bounded _ _ _ I R). lia. Qed.
Print Assumptions c86_settles.
Theorem c86_settled : forall s, exists l s', forallb internal l = true /\ run s l = Some s' /\ settled s'.
Proof. exact quiet_reached. Qed.
Print Assumptions c86_settled.
(** Missing for C86: it is one of those who wait, not all of them. *)
Theorem c86_one_partial : forall acts s, run start acts = Some s -> settled s -> EvExit ∉ trace s -> EvSignal ∈ trace s -> UWait ∈ acts -> EvReleased ∈ trace s.
Proof. intros acts s R Q D. exact (quiet_waiters _ _ R Q (alive _ _ R D)). Qed.
Print Assumptions c86_one_partial.
(** In terms of the calls alone; with a second condition: nobody calls Interject (C87). A graceful leave must have come to its end (C48). *)
Theorem c86_one_after_stop_partial : forall acts s, run start acts = Some s -> settled s -> EvExit ∉ trace s -> (forall p, UInterject p ∉ acts) ->
  UStopNow ∈ acts \/ (exists b, UStop b ∈ acts) /\ (UStop true ∉ acts \/ SGrace ∈ acts) -> UWait ∈ acts -> EvReleased ∈ trace s.
Proof.
  intros acts s R Q D N C W. pose proof (alive _ _ R D) as A. apply (quiet_waiters _ _ R Q A); [|exact W].
  destruct C as [C|[C1 C2]]; [|apply (quiet_stopped _ _ R Q A N C1 C2)].
  apply quiet_returned; [eapply good_run, R|exact A|exact Q|intros p (M & _); rewrite (no_interject _ _ R N) in M; discriminate|exact (stopnow_call _ _ R C)].
Qed.
Print Assumptions c86_one_after_stop_partial.
Example c86_after_stop_case : exists s, run start [GAssign 3; UWait; UStop true; UStop false; GRevoke 3; SGrace; SStep; SStep; SStep; DRecv] = Some s /\ settled s /\ EvExit ∉ trace s.
Proof.
  eexists. split; [vm_compute; reflexivity|]. split; [|apply (bool_decide_unpack _); exact I].
  intros [] X; try discriminate X; reflexivity.
Qed.
Example c86_case : exists s, run start [UWait; UStop false; SStep; SStep; SStep; DRecv] = Some s /\ settled s /\ EvExit ∉ trace s /\ EvSignal ∈ trace s.
Proof.
  eexists. split; [vm_compute; reflexivity|]. split; [|split; apply (bool_decide_unpack _); exact I].
  intros [] X; try discriminate X; reflexivity.
Qed.
(** Two wait, Stop has done everything, and the second one waits for ever unless somebody calls StopNow too or the commit loop fails. *)
Theorem c86_refuted : exists acts s, run start acts = Some s /\ length (List.filter isWait acts) = 2 /\ EvClosed ∈ trace s /\ EvSignal ∈ trace s /\
  forall l s', run s l = Some s' -> UStopNow ∉ l -> (forall r, KError r ∉ l) -> number EvReleased (trace s') = 1.
Proof.
  eexists [UWait; UWait; UStop false; SStep; SStep; SStep; DRecv]. eexists. split; [vm_compute; reflexivity|]. split; [reflexivity|].
  split; [apply (bool_decide_unpack _); exact I|]. split; [apply (bool_decide_unpack _); exact I|].
  intros l s' R U V. rewrite releases. eapply eq_trans; [eapply second_waiter; [|exact R|exact U|exact V]; repeat split; reflexivity|reflexivity].
Qed.
Print Assumptions c86_refuted.

(** C87. Without calls of Interject every StopNow returns, after everything was halted and the client closed, and Done() gets its value. *)
Theorem c87_returns_partial : forall acts s, run start acts = Some s -> settled s -> EvExit ∉ trace s -> (forall p, UInterject p ∉ acts) ->
  number EvReturn (trace s) = length (List.filter isStopNow acts) + number EvFail (trace s) /\
  (UStopNow ∈ acts \/ EvFail ∈ trace s -> EvHalt ∈ trace s /\ EvClosed ∈ trace s /\ EvSignal ∈ trace s).
Proof.
  intros acts s R Q D N. rewrite fails, returns. pose proof (called _ _ R) as C.
  assert (Y : count isCall (trace s) = count isReturn (trace s) /\ (EvCall ∈ trace s -> EvHalt ∈ trace s /\ EvClosed ∈ trace s /\ EvSignal ∈ trace s)).
  { apply quiet_returned; [eapply good_run, R|exact (alive _ _ R D)|exact Q|]. intros p (M & _). rewrite (no_interject _ _ R N) in M. discriminate. }
  destruct Y as [Y1 Y2]. split; [lia|]. intros [H|H]; apply Y2; [exact (stopnow_call _ _ R H)|exact (fail_call _ _ R H)].
Qed.
Print Assumptions c87_returns_partial.
Example c87_case : exists s, run start [GAssign 3; WReady 3; WTimer 3; UStopNow; NStep 0; WExit 3; NStep 0; NStep 0] = Some s /\ settled s /\ EvExit ∉ trace s /\ number EvReturn (trace s) = 1.
Proof.
  eexists. split; [vm_compute; reflexivity|]. split; [|split; [apply (bool_decide_unpack _); exact I|reflexivity]]. intros [] X; try discriminate X; try reflexivity.
  destruct i as [|[|i]]; reflexivity.
Qed.
(** With them there is one other way to end. *)
Theorem c87_or_interject_hangs : forall acts s, run start acts = Some s -> settled s -> EvExit ∉ trace s ->
  (number EvReturn (trace s) = length (List.filter isStopNow acts) + number EvFail (trace s) /\
   (UStopNow ∈ acts \/ EvFail ∈ trace s -> EvHalt ∈ trace s /\ EvClosed ∈ trace s /\ EvSignal ∈ trace s)) \/
  (exists p, interjectHangs s p /\ EvHalt ∈ trace s).
Proof.
  intros acts s R Q D. rewrite fails, returns. pose proof (called _ _ R) as C. pose proof (alive _ _ R D) as A. pose proof (good_run _ _ R) as G. destruct (mux s) as [p|] eqn:M.
  - right. destruct (quiet_shape s G A Q) as [[q (M1 & F & H & _)]|(X & _)]; [|congruence]. exists q. split; [split; assumption|].
    destruct (g_traced _ G) as [T _]. by apply T.
  - left. destruct (quiet_returned s) as [Y1 Y2]; [assumption..|intros p (M' & _); congruence|].
    split; [lia|]. intros [H|H]; apply Y2; [exact (stopnow_call _ _ R H)|exact (fail_call _ _ R H)].
Qed.
Print Assumptions c87_or_interject_hangs.
Definition hang : list action := [NStep 0; WExit 3; UInterject 3; ISend; UInterject 3].
Definition hanging (acts : list action) : st := match run start (acts ++ hang) with Some s => s | None => start end.
Definition hung1 : st := Eval vm_compute in hanging [GAssign 3; WReady 3; UStopNow].
Definition hung2 : st := Eval vm_compute in hanging [GAssign 3; WReady 3; KError FailConsumer; KFail].
Lemma hung1_run : run start ([GAssign 3; WReady 3; UStopNow] ++ hang) = Some hung1. Proof. vm_compute. reflexivity. Qed.
Lemma hung2_run : run start ([GAssign 3; WReady 3; KError FailConsumer; KFail] ++ hang) = Some hung2. Proof. vm_compute. reflexivity. Qed.
(** StopNow has halted the workers; two calls of Interject, the second of which has to wait: StopNow never gets workerMux. *)
Theorem c87_refuted : exists acts s, run start acts = Some s /\ UStopNow ∈ acts /\
  forall l s', run s l = Some s' -> EvReturn ∉ trace s' /\ EvClosed ∉ trace s' /\ EvSignal ∉ trace s'.
Proof.
  exists ([GAssign 3; WReady 3; UStopNow] ++ hang), hung1. split; [exact hung1_run|].
  split; [apply elem_of_list_In; cbn; tauto|]. intros l s' L.
  assert (S : stuck hung1 3) by (repeat split; reflexivity). pose proof (stuck_run _ _ _ _ S L) as S'.
  assert (G : good s') by (eapply (good_run (_ ++ l)); rewrite run_app, hung1_run; exact L). destruct (stuck_good _ _ G S') as (A & B & C & _). auto.
Qed.
Print Assumptions c87_refuted.

(** C88. From the moment the handler does not answer Continue, State() says Unhealthy. *)
Theorem c88_unhealthy : forall acts s r, run start acts = Some s -> KError r ∈ acts -> r <> Continue -> healthy s = false.
Proof. intros acts s r R E N. rewrite <- (answered _ _ _ R) in E. exact (proj1 (e_fail _ (g_errors _ (good_run _ _ R)) r E N)). Qed.
Print Assumptions c88_unhealthy.
Theorem c88_healthy : forall acts s, run start acts = Some s -> (forall r, KError r ∈ acts -> r = Continue) -> healthy s = true.
Proof.
  assert (X : forall acts s, run start acts = Some s -> healthy s = true \/ exists r, r <> Continue /\ EvError r ∈ trace s).
  { intros acts s. apply (run_inv (fun s => healthy s = true \/ exists r, r <> Continue /\ EvError r ∈ trace s)); [left; reflexivity|]. clear.
    intros s a s' H E. destruct (step_trace _ _ _ E) as (l & T & _). destruct H as [H|(r & N & I)]; [|right; exists r; split; [exact N|]; rewrite T, elem_of_app; auto].
    destruct (healthy s') eqn:F; [left; reflexivity|right]. clear T l.
    cases E; closing; revert F; picks; signalling; flat; intros F; try congruence.
    all: match goal with |- context [EvError ?r0] => exists r0; split; [discriminate|apply in_snoc; auto] end. }
  intros acts s R N. destruct (X _ _ R) as [H|(r & A & B)]; [exact H|]. rewrite (answered _ _ _ R) in B. destruct (A (N r B)).
Qed.
Print Assumptions c88_healthy.
(** Without such an answer and without a stop call the consumer goes on. *)
Definition on (s : st) : Prop := nows s = [] /\ stop1 s = SNone /\ kl s = FRun /\ full s = false /\ EvHalt ∉ trace s /\ EvClosed ∉ trace s /\ EvSignal ∉ trace s /\ EvExit ∉ trace s.
Lemma on_step s a s' : step s a = Some s' -> (forall r, a = KError r -> r = Continue) -> (forall b, a <> UStop b) -> a <> UStopNow -> on s -> on s'.
Proof.
  intros E K S N (A1 & A2 & A3 & A4 & A5 & A6 & A7 & A8). apply step_alive in E as [_ E]. unfold on.
  destruct a as [p|p|p|p|p|p|p| |inc| | | | | |i|r| |]; cbn [step1] in E; rewrite ?A1, ?A2, ?A3, ?A4 in E; try (rewrite lookup_nil in E; discriminate E);
    try (destruct (S inc); reflexivity); try (destruct N; reflexivity); try (specialize (K r eq_refl); subst r);
    repeat (match type of E with context [match ?x with _ => _ end] => destruct x; try discriminate E end); try discriminate E; injection E as <-; flat;
    rewrite ?A1, ?A2, ?A3, ?A4, ?elem_of_app, ?elem_of_list_singleton; split_and!; try assumption; try reflexivity; intros [H|H]; try discriminate H; contradiction.
Qed.
Theorem c88_goes_on : forall acts s, run start acts = Some s -> (forall r, KError r ∈ acts -> r = Continue) -> (forall b, UStop b ∉ acts) -> UStopNow ∉ acts ->
  EvHalt ∉ trace s /\ EvClosed ∉ trace s /\ EvSignal ∉ trace s /\ EvExit ∉ trace s.
Proof.
  assert (X : forall acts s s', run s acts = Some s' -> (forall r, KError r ∈ acts -> r = Continue) -> (forall b, UStop b ∉ acts) -> UStopNow ∉ acts -> on s -> on s').
  { induction acts as [|a l IH]; intros s s' R K S N O; cbn in R; [by injection R as <-|]. destruct (step s a) as [s1|] eqn:E; [|discriminate].
    apply (IH s1 s' R); [intros r I; apply K; by right|intros b I; apply (S b); by right|intros I; apply N; by right|].
    eapply on_step; [exact E|intros r ->; apply K; by left|intros b ->; apply (S b); by left|intros ->; apply N; by left|exact O]. }
  intros acts s R K S N. assert (O : on start) by (unfold on; cbn; split_and!; try reflexivity; apply not_elem_of_nil).
  destruct (X acts start s R K S N O) as (_ & _ & _ & _ & H). exact H.
Qed.
Print Assumptions c88_goes_on.
Example c88_goes_on_case : exists s, run start [GAssign 3; WReady 3; KError Continue; UInterject 3; ISend; KError Continue; GRevoke 3] = Some s /\ trace s = [EvAssign 3; EvError Continue; EvError Continue; EvRevoke 3].
Proof. eexists. split; vm_compute; reflexivity. Qed.
(** The client is closed, all partitions given up; missing: calls of Interject. *)
Theorem c88_stops_partial : forall acts s r, run start acts = Some s -> settled s -> EvExit ∉ trace s -> (forall p, UInterject p ∉ acts) ->
  KError r ∈ acts -> r <> Continue -> EvHalt ∈ trace s /\ EvClosed ∈ trace s /\ EvSignal ∈ trace s.
Proof.
  intros acts s r R Q D N E Nr. rewrite <- (answered _ _ _ R) in E. pose proof (good_run _ _ R) as G. pose proof (alive _ _ R D) as A.
  destruct (quiet_failed _ _ G Q A E Nr) as [_ C]. apply (c87_returns_partial _ _ R Q D N). right. exact (proj1 (e_cof _ (g_errors _ G) C)).
Qed.
Print Assumptions c88_stops_partial.
Example c88_case : exists s, run start [GAssign 3; WReady 3; KError FailConsumer; KFail; NStep 0; WExit 3; NStep 0; NStep 0] = Some s /\ settled s /\ EvExit ∉ trace s /\
  trace s = [EvAssign 3; EvError FailConsumer; EvFail; EvCall; EvHalt; EvRevoke 3; EvClosed; EvSignal; EvReturn].
Proof.
  eexists. split; [vm_compute; reflexivity|]. split; [|split; [apply (bool_decide_unpack _); exact I|reflexivity]]. intros [] X; try discriminate X; try reflexivity.
  destruct i as [|[|i]]; reflexivity.
Qed.
Theorem c88_stops_refuted : exists acts s, run start acts = Some s /\ EvError FailConsumer ∈ trace s /\ forall l s', run s l = Some s' -> EvRevoke 3 ∉ trace s' /\ EvClosed ∉ trace s'.
Proof.
  exists ([GAssign 3; WReady 3; KError FailConsumer; KFail] ++ hang), hung2. split; [exact hung2_run|].
  assert (T : trace hung2 = [EvAssign 3; EvError FailConsumer; EvFail; EvCall; EvHalt]) by reflexivity.
  split; [rewrite T; apply (bool_decide_unpack _); exact I|]. intros l s' L.
  assert (S : stuck hung2 3) by (repeat split; reflexivity). pose proof (stuck_run _ _ _ _ S L) as S'.
  assert (G : good s') by (eapply (good_run (_ ++ l)); rewrite run_app, hung2_run; exact L). destruct (stuck_good _ _ G S') as (A & B & C & _). split; [|exact A].
  assert (X : stuck s' 3 /\ EvRevoke 3 ∉ trace s'); [|tauto]. revert L. apply (run_inv (fun x => stuck x 3 /\ EvRevoke 3 ∉ trace x)).
  - split; [exact S|]. rewrite T. apply (bool_decide_unpack _); exact I.
  - clear. intros s a s' [(M & F & H & C) N] E. split; [eapply stuck_step; [repeat split; eassumption|exact E]|].
    cases E; try congruence; closing; picks; signalling; flat; rewrite ?elem_of_app, ?elem_of_cons, ?elem_of_nil; try assumption; intuition congruence.
Qed.
Print Assumptions c88_stops_refuted.
(** FatallyExit ends the process, if the handler has not answered with some other number before. *)
Theorem c88_exit_partial : forall acts s, run start acts = Some s -> settled s -> KError FatallyExit ∈ acts -> KError Other ∉ acts -> EvExit ∈ trace s.
Proof. intros acts s R Q. rewrite <- !(answered _ _ _ R). exact (quiet_exit s (good_run _ _ R) Q). Qed.
Print Assumptions c88_exit_partial.
Example c88_exit_case : exists s, run start [GAssign 3; KError Continue; KError FatallyExit; KFail; NStep 0; KExit] = Some s /\ settled s /\ EvError FatallyExit ∈ trace s.
Proof. eexists. split; [vm_compute; reflexivity|]. split; [intros [] X; reflexivity|apply (bool_decide_unpack _); exact I]. Qed.
(** The process ends for no other reason. *)
Theorem c88_exits_only_then : forall acts s, run start acts = Some s -> EvExit ∈ trace s -> KError FatallyExit ∈ acts.
Proof. intros acts s R. exact (proj2 (exited _ _ R)). Qed.
Print Assumptions c88_exits_only_then.
Theorem c88_exit_refuted : exists acts s, run start acts = Some s /\ EvError FatallyExit ∈ trace s /\ forall l s', run s l = Some s' -> EvExit ∉ trace s'.
Proof.
  eexists [KError Other; KFail; KError FatallyExit]. eexists. split; [vm_compute; reflexivity|]. split; [apply (bool_decide_unpack _); exact I|].
  intros l s'. apply never_exits. split; [reflexivity|]. split; [reflexivity|]. apply (bool_decide_unpack _); exact I.
Qed.
Print Assumptions c88_exit_refuted.
