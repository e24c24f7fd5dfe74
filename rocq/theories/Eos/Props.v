(** C15-C19, C21, C23: the pool of transactional producers. Executions: any interleaving of the workers, the handlers (asynchronous completions
    included), the forwarding goroutine with its timer, and the commit loop; any crash of the commit loop; any number of partitions, workers,
    producers and transactions. [valid] is what EosConfig validation leaves; [noSkip] excludes the answer Continue of the error handler to a failed
    commit (for that answer see C78). *)
From stdpp Require Import prelude list sorting.
From Coq Require Import ZArith.
From Verif.Eos Require Import Model Base Step1 Spec Main Main2 Stop Stop2 Limit Limit2.
Open Scope nat_scope.

(** the example: three producers, two partitions' worth of ownership hand-over: the events 5 and 6 of partition 7 in one transaction, 7 in the next,
    whose output is produced and buffered before those of the first *)
Lemma oneWorker_all p tr w : Forall (fun e => e_w e = w) (arrived p tr) -> oneWorker p tr.
Proof. intros H e e' H1 H2. rewrite Forall_forall in H. by rewrite (H e), (H e'). Qed.
Local Ltac member := apply (bool_decide_unpack _); vm_compute; exact I.
Local Ltac absent := let H := fresh in intros H; repeat (apply elem_of_cons in H as [H|H]; [discriminate H|]); destruct (not_elem_of_nil _ H).
Definition c3 : cfg := mkCfg 3 1 2 4.
Definition E (i o : nat) : ec := mkEc i 0 7 (Some o).
Definition t1 : list action :=
  [AArrive 0 7 (Some 5); FTake; FAdd; FOwn; FSend; FTry; HProduce 0 (E 0 5) 100; AArrive 0 7 (Some 6); FTake; FAdd; FOwn; FSend; FTry; FDo; FSwap;
   AArrive 0 7 (Some 7); FTake; FAdd; FOwn; FSend; FTry; HProduce 1 (E 2 7) 102; HProduce 0 (E 1 6) 101; KStart; KPick 7;
   HDone 0 (E 1 6); HDone 1 (E 2 7); KWait; HDone 0 (E 0 5); KWait; KEnd; KLock; KRelinq 7; KFree;
   FTick; FDo; FSwap; KStart; KPick 7; KWait; KEnd; KLock; KRelinq 7; KFree].
Definition tr1 : list ev :=
  [EvArr (E 0 5); EvTake (E 0 5); EvAdd 0 (E 0 5); EvCall 0 (E 0 5) (Out 100); EvSend 0 (E 0 5) (Out 100);
   EvArr (E 1 6); EvTake (E 1 6); EvAdd 0 (E 1 6); EvArr (E 2 7); EvTake (E 2 7); EvAdd 1 (E 2 7);
   EvCall 1 (E 2 7) (Out 102); EvCall 0 (E 1 6) (Out 101); EvSend 0 (E 1 6) (Out 101); EvDone (E 1 6); EvDone (E 2 7);
   EvCall 0 (E 1 6) (Mark 7); EvSend 0 (E 1 6) (Mark 7); EvDone (E 0 5); EvEnd 0 true;
   EvSend 1 (E 2 7) (Out 102); EvCall 1 (E 2 7) (Mark 8); EvSend 1 (E 2 7) (Mark 8); EvEnd 1 true].
Example example_run : valid c3 /\ noSkip t1 /\ option_map trace (run c3 (start c3) t1) = Some tr1.
Proof. split; [cbv; lia|]. split; [repeat constructor; done|]. vm_compute. reflexivity. Qed.

(** C15: a commit record in a committed transaction. Every event of the partition that was accepted and is below its resume offset is complete, and is in
    this transaction or an earlier one that is committed, before this one is. The offsets accepted from a partition increase: Kafka delivers them so and
    the worker filters what does not (C24). *)
Theorem c15_commit_after_completion_partial :
  forall c acts s p t u v x w e o, valid c -> noSkip acts -> run c (start c) acts = Some s ->
  StronglySorted lt (offs (accepted p (trace s))) ->
  trace s = u ++ EvEnd t true :: v -> EvSend t x (Mark w) ∈ u -> e_p x = p ->
  EvTake e ∈ trace s -> e_p e = p -> e_off e = Some o -> o < w ->
  EvDone e ∈ u /\ exists t', t' <= t /\ EvAdd t' e ∈ u /\ EvEnd t' true ∈ u ++ [EvEnd t true].
Proof. intros c acts s p t u v x w e o V N R. exact (commit_after_completion V N R p t u v x w e o). Qed.
Print Assumptions c15_commit_after_completion_partial.
(** the same for every event given to the pool, when one worker handles the partition: none of those below the resume offset was rejected *)
Theorem c15_commit_after_completion_arrived_partial :
  forall c acts s p t u v x w e o, valid c -> noSkip acts -> run c (start c) acts = Some s ->
  StronglySorted lt (offs (arrived p (trace s))) -> oneWorker p (trace s) ->
  trace s = u ++ EvEnd t true :: v -> EvSend t x (Mark w) ∈ u -> e_p x = p ->
  EvArr e ∈ trace s -> e_p e = p -> e_off e = Some o -> o < w ->
  EvDone e ∈ u /\ exists t', t' <= t /\ EvAdd t' e ∈ u /\ EvEnd t' true ∈ u ++ [EvEnd t true].
Proof. intros c acts s p t u v x w e o V N R. exact (commit_after_completion_arrived V N R p t u v x w e o). Qed.
Print Assumptions c15_commit_after_completion_arrived_partial.
Example c15_example : StronglySorted lt (offs (accepted 7 tr1)) /\ StronglySorted lt (offs (arrived 7 tr1)) /\ oneWorker 7 tr1 /\
  exists u, tr1 = u ++ EvEnd 1 true :: [] /\ EvSend 1 (E 2 7) (Mark 8) ∈ u /\ EvTake (E 0 5) ∈ tr1 /\ EvArr (E 0 5) ∈ tr1 /\ 5 < 8.
Proof.
  assert (H : StronglySorted lt [5; 6; 7]) by (repeat constructor). split; [exact H|]. split; [exact H|]. split.
  { apply (oneWorker_all 7 tr1 0). vm_compute. repeat constructor. }
  exists (take 23 tr1). split; [reflexivity|]. split; [member|]. split; [member|]. split; [member|lia].
Qed.

(** C16: the committed resume offsets of a partition increase; *)
Theorem c16_increase_partial : forall c acts s p, valid c -> noSkip acts -> run c (start c) acts = Some s ->
  StronglySorted lt (offs (accepted p (trace s))) -> StronglySorted lt (committedMarks p (trace s)).
Proof. intros c acts s p V N R. exact (marks_increase V N R p). Qed.
Print Assumptions c16_increase_partial.
(** a committed transaction has for each partition exactly one commit record, with one plus the highest offset in it, and none without offsets; *)
Theorem c16_one_above_highest_partial : forall c acts s p t, valid c -> noSkip acts -> run c (start c) acts = Some s ->
  StronglySorted lt (offs (accepted p (trace s))) -> EvEnd t true ∈ trace s ->
  (offs (evsOf t p (trace s)) = [] /\ resume t p (trace s) = []) \/
  (exists o, o ∈ offs (evsOf t p (trace s)) /\ (forall o', o' ∈ offs (evsOf t p (trace s)) -> o' <= o) /\ resume t p (trace s) = [S o]).
Proof. intros c acts s p t V N R. exact (mark_is_highest V N R p t). Qed.
Print Assumptions c16_one_above_highest_partial.
(** the offsets in committed transactions, in the order of the transactions, are what arrived first, without a gap *)
Theorem c16_no_gap_partial : forall c acts s p, valid c -> noSkip acts -> run c (start c) acts = Some s ->
  oneWorker p (trace s) -> committedOffs p (trace s) `prefix_of` offs (arrived p (trace s)).
Proof. intros c acts s p V N R. exact (committed_no_gap V N R p). Qed.
Print Assumptions c16_no_gap_partial.
Example c16_example : committedMarks 7 tr1 = [7; 8] /\ committedOffs 7 tr1 = [5; 6; 7] /\ offs (evsOf 0 7 tr1) = [5; 6] /\ resume 0 7 tr1 = [7].
Proof. vm_compute. done. Qed.

(** C17: within a transaction the records of a source partition reach Kafka in the order in which they were produced; *)
Theorem c17_call_order_partial : forall c acts s t p, valid c -> noSkip acts -> run c (start c) acts = Some s ->
  sendsIn t p (trace s) `prefix_of` callsIn t p (trace s).
Proof. intros c acts s t p V N R. exact (sends_in_call_order V N R t p). Qed.
Print Assumptions c17_call_order_partial.
(** and a record of an event reaches Kafka only after the transactions of all events of its partition that arrived earlier have ended, its own apart *)
Theorem c17_after_earlier_ended_partial : forall c acts s a b u v e e' t t' r, valid c -> noSkip acts -> run c (start c) acts = Some s ->
  trace s = a ++ EvArr e' :: b -> EvArr e ∈ b -> e_p e' = e_p e -> EvAdd t' e' ∈ trace s ->
  trace s = u ++ EvSend t e r :: v -> t' <> t -> exists ok, EvEnd t' ok ∈ u.
Proof. intros c acts s a b u v e e' t t' r V N R. exact (output_after_earlier_ended V N R a b u v e e' t t' r). Qed.
Print Assumptions c17_after_earlier_ended_partial.
Example c17_example : tr1 = [] ++ EvArr (E 0 5) :: drop 1 tr1 /\ tr1 = take 20 tr1 ++ EvSend 1 (E 2 7) (Out 102) :: drop 21 tr1 /\
  sendsIn 0 7 tr1 = [(E 0 5, Out 100); (E 1 6, Out 101); (E 1 6, Mark 7)] /\
  tr1 = take 11 tr1 ++ EvCall 1 (E 2 7) (Out 102) :: drop 12 tr1.
Proof. vm_compute. done. Qed.

(** C18: when a transaction is committed, what was handed to Kafka in it for an event of it is what was produced for this event, ever, in that order;
    and nothing is handed to Kafka for this event at another time *)
Theorem c18_exactly_once_partial : forall c acts s u v t e, valid c -> noSkip acts -> run c (start c) acts = Some s ->
  trace s = u ++ EvEnd t true :: v -> EvAdd t e ∈ trace s ->
  sentIn t e u = callsFor e (trace s) /\ sentFor e (trace s) = callsFor e (trace s).
Proof. intros c acts s u v t e V N R. exact (outputs_exactly_once V N R u v t e). Qed.
Print Assumptions c18_exactly_once_partial.
Example c18_example : tr1 = take 23 tr1 ++ EvEnd 1 true :: [] /\ EvAdd 1 (E 2 7) ∈ tr1 /\ sentIn 1 (E 2 7) (take 23 tr1) = [Out 102; Mark 8] /\ callsFor (E 2 7) tr1 = [Out 102; Mark 8].
Proof. split; [reflexivity|]. split; [member|]. vm_compute. done. Qed.

(** C19: processes handle a partition one after the other, each ends at any point (KFail covers commits whose success is not known), the next one gets
    the input from the last committed resume offset on. Then the offsets in committed transactions of all processes together are the input between
    the first and the last resume offset, each once and in order. That the outputs of each are in the same transaction is C18. *)
Theorem c19_exactly_once_partial : forall p input wm trs wm', StronglySorted lt input -> restarts p input wm trs wm' ->
  wm <= wm' /\ flat_map (committedOffs p) trs = filter (fun o => wm <= o < wm') input.
Proof. exact restarts_exactly_once. Qed.
Print Assumptions c19_exactly_once_partial.
(** the first process ends when the second transaction is open, with its output buffered; the second process gets 7 again, and its commit fails in a
    way that leaves the transaction committed; the third gets nothing *)
Definition t2 : list action := [AArrive 0 7 (Some 7); FTake; FAdd; FOwn; FSend; FTry; HDone 0 (E 0 7); FTick; FDo; FSwap; KStart; KPick 7; KWait; KFail true].
Example c19_example : exists trs, restarts 7 [5; 6; 7; 9] 5 trs 8 /\ flat_map (committedOffs 7) trs = [5; 6; 7] /\ length trs = 3.
Proof.
  destruct (run c3 (start c3) (take 31 t1)) as [s1|] eqn:R1; [|vm_compute in R1; discriminate].
  destruct (run c3 (start c3) t2) as [s2|] eqn:R2; [|vm_compute in R2; discriminate].
  assert (H1 : trace s1 = take 20 tr1). { pose proof (f_equal (option_map trace) R1) as H. vm_compute in H. injection H as H. vm_compute. congruence. }
  assert (H2 : trace s2 = [EvArr (E 0 7); EvTake (E 0 7); EvAdd 0 (E 0 7); EvDone (E 0 7); EvCall 0 (E 0 7) (Mark 8); EvSend 0 (E 0 7) (Mark 8); EvEnd 0 true]).
  { pose proof (f_equal (option_map trace) R2) as H. vm_compute in H. injection H as H. vm_compute. congruence. }
  assert (V : valid c3) by (cbv; lia).
  exists [trace s1; trace s2; trace (start c3)]. split; [|rewrite H1, H2; split; [vm_compute; reflexivity|done]].
  apply (restart 7 _ 5 c3 (take 31 t1) s1); [exact V|repeat constructor; done|exact R1| | |].
  - rewrite H1. apply (oneWorker_all 7 _ 0). vm_compute. repeat constructor.
  - rewrite H1. exists [9]. vm_compute. reflexivity.
  - rewrite H1. change (match last (committedMarks 7 (take 20 tr1)) with Some w => w | None => 5 end) with 7.
    apply (restart 7 _ 7 c3 t2 s2); [exact V|repeat constructor; done|exact R2| | |].
    + rewrite H2. apply (oneWorker_all 7 _ 0). vm_compute. repeat constructor.
    + rewrite H2. exists [9]. vm_compute. reflexivity.
    + rewrite H2. match goal with |- restarts _ _ ?w _ _ => change w with 8 end.
      apply (restart 7 _ 8 c3 [] (start c3)); [exact V|constructor|reflexivity| | |constructor].
      * apply (oneWorker_all 7 _ 0). constructor.
      * exists [9]. vm_compute. reflexivity.
Qed.

(** C21, when no event produces more than one record (by Forward or RecordChange): when an event is made part of a transaction, this has less than MaxBatchSize
    events and records. Missing: events with several records, see the refutation. *)
Theorem c21_limit_partial : forall c acts s u t e v, valid c -> noSkip acts -> run c (start c) acts = Some s ->
  (forall e, length (outs e (trace s)) <= 1) -> trace s = u ++ EvAdd t e :: v ->
  length (eventsIn t u) < maxBatch c /\ length (recordsIn t u) < maxBatch c.
Proof. exact batch_limit. Qed.
Print Assumptions c21_limit_partial.
(** a full transaction with the commit queue full: the forwarding goroutine blocks *)
Definition take1 (i o : nat) : list action := [AArrive 0 7 (Some o); FTake; FAdd; FOwn; FSend; FTry].
Definition busy2 : list action := take1 0 0 ++ [FTick; FDo; FSwap; KStart] ++ take1 1 1 ++ [FTick; FDo; FSwap].
Example c21_example : option_map (fun s => (fp s, eventsIn 2 (trace s), forallb (fun e => length (outs e (trace s)) <=? 1) (arrived 7 (trace s))))
  (run c3 (start c3) (busy2 ++ take1 2 2 ++ [HProduce 2 (E 2 2) 1] ++ take1 3 3 ++ [FDo] ++ take1 4 4 ++ [FDo] ++ take1 5 5 ++ [FDo])) = Some (FPush, [E 2 2; E 3 3; E 4 4; E 5 5], true).
Proof. vm_compute. reflexivity. Qed.
(** C21 is false: the check for MaxBatchSize is an equality, so it never holds again once the number of records has jumped over the limit, and as long
    as the commit queue is full events are added; here a transaction of 7 events and 5 records with a limit of 4 *)
Definition t5 : list action := busy2 ++ take1 2 2 ++ map (HProduce 2 (E 2 2)) [1; 2; 3; 4; 5] ++ concat (map (fun i => take1 i i ++ [FDo]) [3; 4; 5; 6; 7; 8]).
Definition tr5 : list ev := Eval vm_compute in match run c3 (start c3) t5 with Some s => trace s | None => [] end.
Theorem c21_refuted : exists c acts s u t e v, valid c /\ noSkip acts /\ run c (start c) acts = Some s /\ trace s = u ++ EvAdd t e :: v /\
  maxBatch c = 4 /\ length (eventsIn t u) = 6 /\ length (recordsIn t u) = 5.
Proof.
  destruct (run c3 (start c3) t5) as [s|] eqn:R; [|vm_compute in R; discriminate].
  assert (H : option_map trace (run c3 (start c3) t5) = Some (take 31 tr5 ++ EvAdd 2 (E 8 8) :: [])) by (vm_compute; reflexivity).
  rewrite R in H. cbn [option_map] in H. injection H as H. exists c3, t5, s, (take 31 tr5), 2, (E 8 8), []. split; [cbv; lia|]. split; [vm_compute; repeat constructor; discriminate|].
  split; [exact R|]. split; [exact H|]. split; [reflexivity|]. split; reflexivity.
Qed.
Print Assumptions c21_refuted.
(** what is left of C21 when events produce any number of records: between two events that are made part of a transaction one after the other there is a moment
    at which the transaction has not exactly MaxBatchSize events or records. So it takes no event while its size stays at the limit; it does when the size has
    jumped over the limit. *)
Theorem c21_checked_partial : forall c acts s u t e m e' v, valid c -> noSkip acts -> run c (start c) acts = Some s ->
  trace s = u ++ EvAdd t e :: m ++ EvAdd t e' :: v -> eventsIn t m = [] ->
  exists m1 m2, m = m1 ++ m2 /\ length (eventsIn t (u ++ EvAdd t e :: m1)) `max` length (recordsIn t (u ++ EvAdd t e :: m1)) <> maxBatch c.
Proof. exact batch_checked. Qed.
Print Assumptions c21_checked_partial.
(** an event with four records: one more event, then the forwarding goroutine waits *)
Example c21_checked_example : option_map (fun s => (fp s, eventsIn 2 (trace s), length (recordsIn 2 (trace s))))
  (run c3 (start c3) (busy2 ++ take1 2 2 ++ map (HProduce 2 (E 2 2)) [1; 2; 3; 4] ++ take1 3 3 ++ [FDo])) = Some (FPush, [E 2 2; E 3 3], 4).
Proof. vm_compute. reflexivity. Qed.

(** C23, first part, with one worker per partition: when a worker stops, each event it has given to the pool, ever, has been rejected, or is in a transaction that
    has ended. Missing: partitions with two workers in one process, see the refutation. *)
Theorem c23_stop_partial : forall c acts s w u v, valid c -> noSkip acts -> run c (start c) acts = Some s -> (forall p, oneWorker p u) -> trace s = u ++ EvStop w :: v ->
  forall e, EvArr e ∈ trace s -> e_w e = w -> EvRej e ∈ u \/ exists t ok, EvAdd t e ∈ u /\ EvEnd t ok ∈ u.
Proof. exact stop_resolved. Qed.
Print Assumptions c23_stop_partial.
(** and it does stop then: while no commit has failed, a worker that has left its loop and whose events have all been rejected or are in transactions that have
    ended does not wait any more *)
Theorem c23_does_stop_partial : forall c acts s w, valid c -> Forall (fun a => a <> KSkip /\ forall ok, a <> KFail ok) acts -> run c (start c) acts = Some s ->
  AClose w ∈ acts -> EvStop w ∉ trace s ->
  (forall e, EvArr e ∈ trace s -> e_w e = w -> EvRej e ∈ trace s \/ exists t ok, EvAdd t e ∈ trace s /\ EvEnd t ok ∈ trace s) ->
  exists s', step c s (AStop w) = Some s'.
Proof. exact resolved_stops. Qed.
Print Assumptions c23_does_stop_partial.
(** the wait group of a worker is never decremented below zero *)
Theorem c23_waiter : forall c acts s w, valid c -> noSkip acts -> run c (start c) acts = Some s -> (0 <= waits s w)%Z.
Proof. exact waiter_not_negative. Qed.
Print Assumptions c23_waiter.
(** C23, second part: an event made part of a transaction after its worker was revoked was received by the forwarding goroutine before; there is at most one *)
Theorem c23_after_revoke_partial : forall c acts s w u v t e, valid c -> noSkip acts -> run c (start c) acts = Some s ->
  trace s = u ++ EvRevoke w :: v -> EvAdd t e ∈ v -> e_w e = w ->
  EvTake e ∈ u /\ forall t' e', EvAdd t' e' ∈ v -> e_w e' = w -> e' = e /\ t' = t.
Proof. exact after_revoke_taken_before. Qed.
Print Assumptions c23_after_revoke_partial.
Definition t3 : list action :=
  [AArrive 0 7 (Some 5); FTake; ARevoke 0; AArrive 0 7 (Some 6); FAdd; FOwn; FSend; FTry; AClose 0; FTake; FTick; FDo; FSwap; HDone 0 (E 0 5); KStart; KPick 7; KWait; KEnd; AStop 0].
Example c23_example : option_map trace (run c3 (start c3) t3) =
  Some ([EvArr (E 0 5); EvTake (E 0 5)] ++ EvRevoke 0 :: [EvArr (E 1 6); EvAdd 0 (E 0 5); EvRej (E 1 6); EvDone (E 0 5); EvCall 0 (E 0 5) (Mark 6); EvSend 0 (E 0 5) (Mark 6); EvEnd 0 true; EvStop 0]).
Proof. vm_compute. reflexivity. Qed.
Example c23_does_stop_example : option_map (fun s => (trace s, bool_decide (step c3 s (AStop 0) = None))) (run c3 (start c3) (take 18 t3)) =
  Some ([EvArr (E 0 5); EvTake (E 0 5)] ++ EvRevoke 0 :: [EvArr (E 1 6); EvAdd 0 (E 0 5); EvRej (E 1 6); EvDone (E 0 5); EvCall 0 (E 0 5) (Mark 6); EvSend 0 (E 0 5) (Mark 6); EvEnd 0 true], false)
  /\ take 18 t3 ++ [AStop 0] = t3.
Proof. vm_compute. done. Qed.
(** C23 is false: between the check of line 145 and line 151 the revocation is not seen: an event in no transaction when its worker is revoked gets into one, *)
Theorem c23_refuted : exists acts s u v t e, noSkip acts /\ run c3 (start c3) acts = Some s /\ trace s = u ++ EvRevoke (e_w e) :: v /\ (forall t', EvAdd t' e ∉ u) /\ EvAdd t e ∈ v /\ EvEnd t true ∈ v.
Proof.
  exists t3. destruct (run c3 (start c3) t3) as [s|] eqn:R; [|vm_compute in R; discriminate]. pose proof c23_example as H. rewrite R in H. cbn [option_map] in H. injection H as H.
  exists s, [EvArr (E 0 5); EvTake (E 0 5)], [EvArr (E 1 6); EvAdd 0 (E 0 5); EvRej (E 1 6); EvDone (E 0 5); EvCall 0 (E 0 5) (Mark 6); EvSend 0 (E 0 5) (Mark 6); EvEnd 0 true; EvStop 0], 0, (E 0 5). split; [repeat constructor; discriminate|]. split; [reflexivity|]. split; [exact H|]. split; [intros t'; absent|]. split; member.
Qed.
Print Assumptions c23_refuted.
(** and a worker of a partition that another worker of the same process had before may stop with its event in an open transaction: only the waiter of the
    first event's worker counts for the transaction as a whole. Here the transaction is aborted after the worker has stopped. *)
Definition F (i w o : nat) : ec := mkEc i w 7 (Some o).
Definition t4 : list action :=
  [AArrive 0 7 (Some 5); FTake; FAdd; FOwn; FSend; FTry; ARevoke 0; AClose 0; AArrive 1 7 (Some 6); FTake; FAdd; FOwn; FSend; FTry; FDo; FSwap; ARevoke 1; AClose 1;
   HDone 0 (F 0 0 5); HDone 0 (F 1 1 6); KStart; KPick 7; KWait; AStop 1; KFail false].
Theorem c23_stop_refuted : exists acts s u v w e, noSkip acts /\ run c3 (start c3) acts = Some s /\ trace s = u ++ EvStop w :: v /\ e_w e = w /\
  EvAdd 0 e ∈ u /\ (forall ok, EvEnd 0 ok ∉ u) /\ (forall t, EvAdd t e ∈ trace s -> t = 0) /\ EvEnd 0 false ∈ v.
Proof.
  exists t4. destruct (run c3 (start c3) t4) as [s|] eqn:R; [|vm_compute in R; discriminate].
  assert (H : option_map trace (run c3 (start c3) t4) = Some ([EvArr (F 0 0 5); EvTake (F 0 0 5); EvAdd 0 (F 0 0 5); EvRevoke 0; EvArr (F 1 1 6); EvTake (F 1 1 6); EvAdd 0 (F 1 1 6); EvRevoke 1; EvDone (F 0 0 5); EvDone (F 1 1 6);
    EvCall 0 (F 1 1 6) (Mark 7); EvSend 0 (F 1 1 6) (Mark 7)] ++ EvStop 1 :: [EvEnd 0 false])) by (vm_compute; reflexivity).
  rewrite R in H. cbn [option_map] in H. injection H as H.
  eexists s, (_ :: _ :: _ :: _ :: _ :: _ :: _ :: _ :: _ :: _ :: _ :: [_]), [EvEnd 0 false], 1, (F 1 1 6). split; [repeat constructor; discriminate|]. split; [reflexivity|]. split; [exact H|]. split; [reflexivity|]. split; [member|]. split; [intros ok; absent|].
  split; [|member]. intros t Ht. rewrite H in Ht. cbn [app] in Ht. repeat (apply elem_of_cons in Ht as [Ht|Ht]; [first [discriminate Ht|injection Ht as ->; reflexivity]|]). destruct (not_elem_of_nil _ Ht).
Qed.
Print Assumptions c23_stop_refuted.
