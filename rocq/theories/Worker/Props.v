(** C22, C24, C79, C80: a partition worker. Executions: any interleaving of the poll loop, pushRecords, work, the handlers with synchronous and asynchronous completions,
    the answers of the pool and the revocation; any batches, interjections, capacities and watermark. Nothing is assumed of handlers: they queue any number of completion jobs, in any
    order, also after the event is complete; a second completion is a panic in complete() and ends the process. *)
From stdpp Require Import prelude list sorting.
From Verif.Worker Require Import Model Base Main More.
Open Scope nat_scope.
Local Ltac member := apply (bool_decide_unpack _); vm_compute; exact I.
Local Ltac absent := let H := fresh in intros H; repeat (apply elem_of_cons in H as [H|H]; [discriminate H|]); destruct (not_elem_of_nil _ H).

(** C22: contexts with a slot that are neither complete nor rejected are at most cap = MaxBatchSize*PoolSize; *)
Theorem c22_bound : forall c acts s l, run c (start c) acts = Some s -> NoDup l ->
  (forall e, e ∈ l -> EvAcq e ∈ trace s /\ EvDone e ∉ trace s /\ EvRej e ∉ trace s) -> length l <= cap c.
Proof. intros c acts s l R. exact (bound R l). Qed.
Print Assumptions c22_bound.
(** a slot is given back once, and only for a context that is complete or rejected; *)
Theorem c22_once : forall c acts s u e v, run c (start c) acts = Some s -> trace s = u ++ EvRel e :: v -> (EvDone e ∈ u \/ EvRej e ∈ u) /\ EvRel e ∉ u.
Proof. intros c acts s u e v R. exact (release_after R u e v). Qed.
Print Assumptions c22_once.
(** and a context that is complete or rejected has given its slot back, or the worker is at that very point and is not blocked there *)
Theorem c22_given_back : forall c acts s e, run c (start c) acts = Some s -> EvDone e ∈ trace s \/ EvRej e ∈ trace s ->
  EvRel e ∈ trace s \/ exists b, wp s = WRel e b /\ is_Some (step c s WRelease).
Proof. intros c acts s e R. exact (release_follows R e). Qed.
Print Assumptions c22_given_back.
(** and a slot that was given back can be taken again: the worker waits for a slot only when cap contexts have taken one and not given it back *)
Theorem c22_reused : forall c acts s e l, run c (start c) acts = Some s -> pp s = PTok e l -> step c s PAcq = None ->
  exists k, NoDup k /\ length k = cap c /\ forall x, x ∈ k -> EvAcq x ∈ trace s /\ EvRel x ∉ trace s.
Proof. exact blocked. Qed.
Print Assumptions c22_reused.

(** two slots. 5 is asynchronous; 6 is taken by the worker before the pool has answered, and 5 completes in that time; 7 waits for a slot *)
Definition c2 : cfg := mkCfg 2 100 5.
Definition C (i o : nat) : ctx := mkCtx i (Some o).
Definition push : list action := [PNext; PAcq; PGive; PPut].
Definition t1 : list action :=
  [RAdd [4; 5; 6; 7]; RSend; PTake; PNext] ++ push ++ [GAnswer true; WTake; WGet; WReturn false] ++ push ++ [WTake; PNext; AJob (C 0 5); WJob true].
Definition tr1 : list ev := [EvSkip 4; EvKeep 5; EvAcq (C 0 5); EvHand (C 0 5); EvKeep 6; EvAcq (C 1 6); EvKeep 7; EvDone (C 0 5)].
Definition t1' : list action := t1 ++ [WRelease; PAcq; PGive; PPut; PNext; ARevoke; GAnswer true; WGet; WReturn true; WRelease; GAnswer false; WTake; WGet; WRelease].
Definition tr1' : list ev := tr1 ++ [EvRel (C 0 5); EvAcq (C 2 7); EvRevoke; EvHand (C 1 6); EvDone (C 1 6); EvRel (C 1 6); EvRej (C 2 7); EvRel (C 2 7)].
Example example_run : option_map trace (run c2 (start c2) t1) = Some tr1 /\ run c2 (start c2) (t1 ++ [PAcq]) = None /\ option_map trace (run c2 (start c2) t1') = Some tr1'.
Proof. vm_compute. done. Qed.
Example c22_example : NoDup [C 1 6] /\ (forall e, e ∈ [C 1 6] -> EvAcq e ∈ tr1 /\ EvDone e ∉ tr1 /\ EvRej e ∉ tr1) /\
  tr1' = take 15 tr1' ++ EvRel (C 2 7) :: [] /\ EvDone (C 0 5) ∈ tr1 /\ option_map (fun s => wp s) (run c2 (start c2) t1) = Some (WRel (C 0 5) (Some (C 1 6))).
Proof.
  split; [apply NoDup_singleton|]. split; [intros e ->%elem_of_list_singleton; split; [member|split; absent]|]. split; [reflexivity|]. split; [member|]. vm_compute. reflexivity.
Qed.

Example c22_reused_example : option_map (fun s => (pp s, tokens s, match step c2 s PAcq with None => true | Some _ => false end)) (run c2 (start c2) t1) = Some (PTok (C 2 7) [], 2, true).
Proof. vm_compute. reflexivity. Qed.
(** several jobs for one event: two are queued while the handler runs, it returns Incomplete, and the last one completes the event; a third, late one that returns Complete too ends the process
    without giving a slot back again *)
Example c22_jobs_example : option_map (fun s => (trace s, tokens s, wp s))
  (run c2 (start c2) ([RAdd [5]; RSend; PTake] ++ push ++ [GAnswer true; WTake; WGet; AJob (C 0 5); AJob (C 0 5); WReturn false; WJob false; WJob true; WRelease; AJob (C 0 5); WJob true])) =
  Some ([EvKeep 5; EvAcq (C 0 5); EvHand (C 0 5); EvDone (C 0 5); EvRel (C 0 5); EvTwice (C 0 5)], 0, WDead None).
Proof. vm_compute. reflexivity. Qed.

(** C24: no record below the watermark reaches a handler, whatever is delivered; *)
Theorem c24_never_below : forall c acts s e o, run c (start c) acts = Some s -> EvHand e ∈ trace s -> c_off e = Some o -> wm c <= o.
Proof. intros c acts s e o R. exact (hand_wm R e o). Qed.
Print Assumptions c24_never_below.
(** when offsets are delivered in order, repetitions allowed, a record at or above the watermark that is filtered out has been handed over before; *)
Theorem c24_filtered_partial : forall c acts s u o v, run c (start c) acts = Some s -> trace s = u ++ EvSkip o :: v -> StronglySorted le (sees (trace s)) -> wm c <= o ->
  exists e, EvHand e ∈ u /\ c_off e = Some o.
Proof. intros c acts s u o v. exact (skip_sorted c acts s u o v). Qed.
Print Assumptions c24_filtered_partial.
(** without repetitions, only what is below the watermark is filtered out; *)
Theorem c24_strict_partial : forall c acts s u o v, run c (start c) acts = Some s -> trace s = u ++ EvSkip o :: v -> StronglySorted lt (sees (trace s)) -> o < wm c.
Proof. intros c acts s u o v. exact (skip_strict c acts s u o v). Qed.
Print Assumptions c24_strict_partial.
(** in any order, a record that is filtered out is below the watermark or not above one that was handed over before; *)
Theorem c24_any_order : forall c acts s u o v, run c (start c) acts = Some s -> trace s = u ++ EvSkip o :: v ->
  o < wm c \/ exists e o', EvHand e ∈ u /\ c_off e = Some o' /\ o <= o'.
Proof. intros c acts s u o v R. exact (skip_any R u o v). Qed.
Print Assumptions c24_any_order.
(** and what is not filtered out is handed over, unless the worker is revoked: it is when the queue to the handlers has been emptied *)
Theorem c24_handed : forall c acts s o, run c (start c) acts = Some s -> quiet s -> EvKeep o ∈ trace s ->
  exists e, c_off e = Some o /\ (EvHand e ∈ trace s \/ EvRej e ∈ trace s /\ EvRevoke ∈ trace s).
Proof. intros c acts s o R. exact (kept_all R o). Qed.
Print Assumptions c24_handed.
(** everything given to add comes to the test, unless the worker is revoked *)
Theorem c24_all_tested : forall c acts s, run c (start c) acts = Some s -> EvRevoke ∉ trace s -> pp s = PIdle -> input s = [] -> rcv s = None -> sees (trace s) = delivered acts.
Proof. exact seen_all. Qed.
Print Assumptions c24_all_tested.
Example c24_tested_example : option_map (fun s => (trace s, pp s, input s, rcv s)) (run c2 (start c2) ([RAdd [5; 6]; RSend; RAdd [3]; PTake; RSend] ++ push ++ [PInject; PAcq; PGive; PPut; GAnswer true; WTake; WGet; WReturn true; WRelease] ++ push ++ [PNext; PTake; PNext; PNext])) =
  Some ([EvKeep 5; EvAcq (C 0 5); EvAcq (mkCtx 1 None); EvHand (C 0 5); EvDone (C 0 5); EvRel (C 0 5); EvKeep 6; EvAcq (C 2 6); EvSkip 3], PIdle, [], None).
Proof. vm_compute. reflexivity. Qed.
Example c24_example : StronglySorted le (sees tr1') /\ StronglySorted lt (sees tr1') /\ tr1' = [] ++ EvSkip 4 :: drop 1 tr1' /\ wm c2 = 5 /\
  option_map (fun s => (pp s, evq s, wp s)) (run c2 (start c2) t1') = Some (PIdle, [], WIdle) /\
  option_map trace (run c2 (start c2) ([RAdd [5]; RSend; PTake] ++ push ++ [GAnswer true; WTake; WGet; WReturn true; WRelease; PNext; RAdd [5]; RSend; PTake; PNext])) =
    Some ([EvKeep 5; EvAcq (C 0 5); EvHand (C 0 5); EvDone (C 0 5); EvRel (C 0 5)] ++ EvSkip 5 :: []).
Proof. split; [repeat constructor|]. split; [repeat constructor|]. vm_compute. done. Qed.
(** C24 is false for deliveries out of order: 7 is handed over, then 6, which never was, is filtered out *)
Definition t2 : list action := [RAdd [7]; RSend; PTake] ++ push ++ [GAnswer true; WTake; WGet; WReturn true; WRelease; PNext; RAdd [6]; RSend; PTake; PNext].
Theorem c24_refuted : exists acts s u v o, run c2 (start c2) acts = Some s /\ trace s = u ++ EvSkip o :: v /\ wm c2 <= o /\ forall e, EvHand e ∈ trace s -> c_off e <> Some o.
Proof.
  destruct (run c2 (start c2) t2) as [s|] eqn:R; [|vm_compute in R; discriminate].
  assert (H : option_map trace (run c2 (start c2) t2) = Some ([EvKeep 7; EvAcq (C 0 7); EvHand (C 0 7); EvDone (C 0 7); EvRel (C 0 7)] ++ EvSkip 6 :: [])) by (vm_compute; reflexivity).
  rewrite R in H. cbn [option_map] in H. injection H as H.
  exists t2, s, [EvKeep 7; EvAcq (C 0 7); EvHand (C 0 7); EvDone (C 0 7); EvRel (C 0 7)], [], 6. split; [exact R|]. split; [exact H|]. split; [cbn; lia|].
  intros e He. rewrite H in He. clear R H. cbn [app] in He. repeat (apply elem_of_cons in He as [He|He]; [first [discriminate He | (injection He as ->; discriminate)]|]). destruct (not_elem_of_nil _ He).
Qed.
Print Assumptions c24_refuted.

(** C79: no context is handed over twice, and each offset once and in order if the consumer delivers each once and in order; *)
Theorem c79_context_once : forall c acts s u e v, run c (start c) acts = Some s -> trace s = u ++ EvHand e :: v -> EvHand e ∉ u /\ EvHand e ∉ v.
Proof. intros c acts s u e v R. exact (hand_once R u e v). Qed.
Print Assumptions c79_context_once.
Theorem c79_increasing_partial : forall c acts s, run c (start c) acts = Some s -> StronglySorted lt (sees (trace s)) -> StronglySorted lt (offs (hands (trace s))).
Proof. intros c acts s R. exact (handed_sorted R). Qed.
Print Assumptions c79_increasing_partial.
(** in any case records leave the queue, handed over or rejected, in the order in which they passed the filter *)
Theorem c79_order : forall c acts s, run c (start c) acts = Some s -> offs (answered (trace s)) `prefix_of` keeps (trace s).
Proof. intros c acts s R. exact (kept_prefix R). Qed.
Print Assumptions c79_order.
(** and come to the filter in the order in which they were given to add; *)
Theorem c79_delivery_order : forall c acts s, run c (start c) acts = Some s -> sees (trace s) `prefix_of` delivered acts.
Proof. exact seen_prefix. Qed.
Print Assumptions c79_delivery_order.
(** a record that comes to the filter after it was handed over does not pass, when offsets are delivered in order, repetitions allowed *)
Theorem c79_again_partial : forall c acts s u o v e o', run c (start c) acts = Some s -> StronglySorted le (sees (trace s)) ->
  trace s = u ++ EvKeep o :: v -> EvHand e ∈ u -> c_off e = Some o' -> o' < o.
Proof. exact keep_above. Qed.
Print Assumptions c79_again_partial.
Example c79_example : tr1' = take 11 tr1' ++ EvHand (C 1 6) :: drop 12 tr1' /\ StronglySorted lt (sees tr1') /\ offs (hands tr1') = [5; 6] /\ offs (answered tr1') = [5; 6; 7] /\ keeps tr1' = [5; 6; 7].
Proof. split; [reflexivity|]. split; [repeat constructor|]. vm_compute. done. Qed.
Example c79_again_example : let tr := [EvKeep 5; EvAcq (C 0 5); EvHand (C 0 5); EvDone (C 0 5); EvRel (C 0 5); EvSkip 5] ++ EvKeep 6 :: [] in
  option_map trace (run c2 (start c2) ([RAdd [5]; RSend; PTake] ++ push ++ [GAnswer true; WTake; WGet; WReturn true; WRelease; PNext; RAdd [5; 6]; RSend; PTake; PNext; PNext])) = Some tr /\ StronglySorted le (sees tr).
Proof. split; [vm_compute; reflexivity|]. repeat constructor. Qed.
(** C79 is false: highestOffset is only raised when a record is handed over (partition_worker.go:311), so a record delivered again before that passes the filter again *)
Definition t3 : list action := [RAdd [5]; RSend; RAdd [5]; RSend; PTake] ++ push ++ [PNext; PTake] ++ push ++ [GAnswer true; GAnswer true; WTake; WGet; WReturn true; WRelease; WTake; WGet].
Theorem c79_refuted : exists acts s, run c2 (start c2) acts = Some s /\ offs (hands (trace s)) = [5; 5].
Proof.
  destruct (run c2 (start c2) t3) as [s|] eqn:R; [|vm_compute in R; discriminate].
  assert (H : option_map (fun s => offs (hands (trace s))) (run c2 (start c2) t3) = Some [5; 5]) by (vm_compute; reflexivity).
  rewrite R in H. cbn [option_map] in H. injection H as H. exists t3, s. split; [exact R|exact H].
Qed.
Print Assumptions c79_refuted.
(** and out of order it passes again even after it was handed over: highestOffset is set to one above the last record handed over, so it can go down. Here 7 is handed over, and its slot given
    back, then 5, then 7 again *)
Definition t7 : list action := [RAdd [7; 5]; RSend; PTake] ++ push ++ push ++ [PNext; GAnswer true; GAnswer true; WTake; WGet; WReturn true; WRelease; WTake; WGet; WReturn true; WRelease; RAdd [7]; RSend; PTake] ++ push ++ [GAnswer true; WTake; WGet].
Theorem c79_goes_down_refuted : exists acts s u v e, run c2 (start c2) acts = Some s /\ trace s = u ++ EvKeep 7 :: v /\ EvHand e ∈ u /\ c_off e = Some 7 /\ offs (hands (trace s)) = [7; 5; 7].
Proof.
  destruct (run c2 (start c2) t7) as [s|] eqn:R; [|vm_compute in R; discriminate].
  assert (H : option_map trace (run c2 (start c2) t7) = Some ([EvKeep 7; EvAcq (C 0 7); EvKeep 5; EvAcq (C 1 5); EvHand (C 0 7); EvDone (C 0 7); EvRel (C 0 7); EvHand (C 1 5); EvDone (C 1 5); EvRel (C 1 5)] ++
    EvKeep 7 :: [EvAcq (C 2 7); EvHand (C 2 7)])) by (vm_compute; reflexivity).
  rewrite R in H. cbn [option_map] in H. injection H as H. exists t7, s, [EvKeep 7; EvAcq (C 0 7); EvKeep 5; EvAcq (C 1 5); EvHand (C 0 7); EvDone (C 0 7); EvRel (C 0 7); EvHand (C 1 5); EvDone (C 1 5); EvRel (C 1 5)], [EvAcq (C 2 7); EvHand (C 2 7)], (C 0 7).
  split; [exact R|]. split; [exact H|]. split; [member|]. split; [reflexivity|]. rewrite H. vm_compute. reflexivity.
Qed.
Print Assumptions c79_goes_down_refuted.

(** C80, asynchronous completions: asyncJobs is never closed while an event that has been handed over is not complete; *)
Theorem c80_jobs_partial : forall c acts s e s', run c (start c) acts = Some s -> step c s (AJob e) = Some s' -> EvDone e ∉ trace s -> pp s <> PClosed.
Proof. intros c acts s e s' R. exact (job_open R e s'). Qed.
Print Assumptions c80_jobs_partial.
(** C80: a send on a closed channel needs a call of add that has found the worker not revoked and has not sent yet when it is revoked, or a completion job for an event that is complete already *)
Theorem c80_add_partial : forall c acts s, run c (start c) acts = Some s -> EvPanic ∈ trace s ->
  (exists a1 a2 s1 l, acts = a1 ++ ARevoke :: a2 /\ run c (start c) a1 = Some s1 /\ rcv s1 = Some l) \/
  (exists a1 a2 s1 e, acts = a1 ++ AJob e :: a2 /\ run c (start c) a1 = Some s1 /\ EvDone e ∈ trace s1).
Proof. exact panic_why. Qed.
Print Assumptions c80_add_partial.
Definition t4 : list action := [RAdd [5]; RSend; PTake] ++ push ++ [PNext; GAnswer true; WTake; WGet; WReturn false; RAdd [6]; ARevoke; PDone; PSignal].
Example c80_example : option_map (fun s => (pp s, option_map jobs (step c2 s (AJob (C 0 5))))) (run c2 (start c2) t4) = Some (PStopped, Some [C 0 5]) /\
  option_map trace (run c2 (start c2) (t4 ++ [AJob (C 0 5); WJob true; WRelease; GSettle (C 0 5); WStop; PClose; RSend])) =
    Some [EvKeep 5; EvAcq (C 0 5); EvHand (C 0 5); EvRevoke; EvDone (C 0 5); EvRel (C 0 5); EvClose; EvPanic].
Proof. vm_compute. done. Qed.
(** C80 is false: such a call *)
Definition t5 : list action := [RAdd [5]; ARevoke; PDone; PSignal; WStop; PClose; RSend].
Theorem c80_refuted : exists acts s, run c2 (start c2) acts = Some s /\ EvPanic ∈ trace s.
Proof.
  destruct (run c2 (start c2) t5) as [s|] eqn:R; [|vm_compute in R; discriminate].
  assert (H : option_map trace (run c2 (start c2) t5) = Some [EvRevoke; EvClose; EvPanic]) by (vm_compute; reflexivity).
  rewrite R in H. cbn [option_map] in H. injection H as H. exists t5, s. split; [exact R|]. rewrite H. right. right. left.
Qed.
Print Assumptions c80_refuted.
(** and the other way: a completion job for an event that is complete, sent after the worker has closed its channels *)
Definition t6 : list action := [RAdd [5]; RSend; PTake] ++ push ++ [PNext; GAnswer true; WTake; WGet; WReturn true; WRelease; GSettle (C 0 5); ARevoke; PDone; PSignal; WStop; PClose].
Theorem c80_late_job_refuted : exists acts s e s', run c2 (start c2) acts = Some s /\ EvPanic ∉ trace s /\ step c2 s (AJob e) = Some s' /\ EvPanic ∈ trace s'.
Proof.
  destruct (run c2 (start c2) t6) as [s|] eqn:R; [|vm_compute in R; discriminate]. destruct (step c2 s (AJob (C 0 5))) as [s'|] eqn:E.
  - assert (H : option_map (fun s => (bool_decide (EvPanic ∈ trace s), option_map (fun s' => bool_decide (EvPanic ∈ trace s')) (step c2 s (AJob (C 0 5))))) (run c2 (start c2) t6) = Some (false, Some true)) by (vm_compute; reflexivity).
    rewrite R in H. cbn [option_map] in H. rewrite E in H. cbn [option_map] in H. injection H as H1 H2. exists t6, s, (C 0 5), s'.
    split; [exact R|]. split; [by apply bool_decide_eq_false in H1|]. split; [exact E|]. by apply bool_decide_eq_true in H2.
  - assert (H : option_map (fun s => step c2 s (AJob (C 0 5))) (run c2 (start c2) t6) <> Some None) by (vm_compute; discriminate). rewrite R in H. cbn [option_map] in H. rewrite E in H. done.
Qed.
Print Assumptions c80_late_job_refuted.
