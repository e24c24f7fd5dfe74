(** C78: a commit that fails, and what the error handler (eos_producer.go:213-236) answers. *)
From stdpp Require Import prelude list sorting.
From Verif.Eos Require Import Model Base Step1 Spec Fin3 Ends Main Props.
Open Scope nat_scope.
Local Ltac member := apply (bool_decide_unpack _); vm_compute; exact I.
Local Ltac absent := let H := fresh in intros H; repeat (apply elem_of_cons in H as [H|H]; [discriminate H|]); destruct (not_elem_of_nil _ H).

(** C78, where it holds: as long as the answer is not Continue, a failed transaction with an event is the last that ends: none is committed past it *)
Theorem c78_stops_partial : forall c acts s u v t e o, valid c -> noSkip acts -> run c (start c) acts = Some s ->
  trace s = u ++ EvEnd t false :: v -> EvAdd t e ∈ trace s -> e_off e = Some o -> forall t' ok, EvEnd t' ok ∉ v.
Proof.
  intros c acts s u v t e o V N R T A O t' ok H. pose proof (aborted_no_real (Fin3.Inv_run c acts s V N R) u t v e ok t' T H A) as Hn. congruence.
Qed.
Print Assumptions c78_stops_partial.
Definition fail5 : list action := [AArrive 0 7 (Some 5); FTake; FAdd; FOwn; FSend; FTry; HDone 0 (E 0 5); FTick; FDo; FSwap; KStart; KPick 7; KWait; KFail false; AArrive 0 7 (Some 6); FTake].
Example c78_example : option_map trace (run c3 (start c3) fail5) =
  Some ([EvArr (E 0 5); EvTake (E 0 5); EvAdd 0 (E 0 5); EvDone (E 0 5); EvCall 0 (E 0 5) (Mark 6); EvSend 0 (E 0 5) (Mark 6)] ++ EvEnd 0 false :: [EvArr (E 1 6); EvTake (E 1 6)]).
Proof. vm_compute. reflexivity. Qed.

(** C78 is false for the answer Continue: the transaction with 5 is aborted, the next one is committed with resume offset 7, and 5 is in no committed transaction *)
Definition skip5 : list action :=
  [AArrive 0 7 (Some 5); FTake; FAdd; FOwn; FSend; FTry; HDone 0 (E 0 5); FTick; FDo; FSwap; KStart; KPick 7; KWait; KSkip;
   AArrive 0 7 (Some 6); FTake; FAdd; FOwn; FSend; FTry; HDone 1 (E 1 6); FTick; FDo; FSwap; KStart; KPick 7; KWait; KEnd].
Definition tr78 : list ev :=
  [EvArr (E 0 5); EvTake (E 0 5); EvAdd 0 (E 0 5); EvDone (E 0 5); EvCall 0 (E 0 5) (Mark 6); EvSend 0 (E 0 5) (Mark 6); EvEnd 0 false;
   EvArr (E 1 6); EvTake (E 1 6); EvAdd 1 (E 1 6); EvDone (E 1 6); EvCall 1 (E 1 6) (Mark 7); EvSend 1 (E 1 6) (Mark 7); EvEnd 1 true].
Theorem c78_refuted : exists acts s e o t x w, run c3 (start c3) acts = Some s /\ EvTake e ∈ trace s /\ e_off e = Some o /\ e_p x = e_p e /\
  EvSend t x (Mark w) ∈ trace s /\ EvEnd t true ∈ trace s /\ o < w /\ forall t', EvAdd t' e ∈ trace s -> EvEnd t' true ∉ trace s.
Proof.
  destruct (run c3 (start c3) skip5) as [s|] eqn:R; [|vm_compute in R; discriminate].
  assert (H : option_map trace (run c3 (start c3) skip5) = Some tr78) by (vm_compute; reflexivity).
  rewrite R in H. cbn [option_map] in H. injection H as H.
  exists skip5, s, (E 0 5), 5, 1, (E 1 6), 7. rewrite H. clear H. split; [exact R|]. clear R s. split; [member|]. split; [reflexivity|]. split; [reflexivity|]. split; [member|]. split; [member|]. split; [lia|].
  intros t' Ht. assert (Hz : t' = 0).
  { unfold tr78 in Ht. repeat (apply elem_of_cons in Ht as [Ht|Ht]; [first [discriminate Ht | (injection Ht as Ht; exact Ht)]|]). destruct (not_elem_of_nil _ Ht). }
  subst t'. unfold tr78. absent.
Qed.
Print Assumptions c78_refuted.

(** the same schedule refutes C15 and C16 (and, as a single process, C19) as they are stated, with no condition on the error handler: 6 is committed with resume
    offset 7 though 5, accepted before it, is in no committed transaction *)
Theorem c15_skipped_event_refuted : exists acts s u v t x w e o, run c3 (start c3) acts = Some s /\ StronglySorted lt (offs (accepted (e_p e) (trace s))) /\
  trace s = u ++ EvEnd t true :: v /\ EvSend t x (Mark w) ∈ u /\ e_p x = e_p e /\ EvTake e ∈ trace s /\ e_off e = Some o /\ o < w /\
  forall t', EvAdd t' e ∈ trace s -> EvEnd t' true ∉ trace s.
Proof.
  destruct (run c3 (start c3) skip5) as [s|] eqn:R; [|vm_compute in R; discriminate].
  assert (H : option_map trace (run c3 (start c3) skip5) = Some tr78) by (vm_compute; reflexivity).
  rewrite R in H. cbn [option_map] in H. injection H as H.
  exists skip5, s, (take 13 tr78), [], 1, (E 1 6), 7, (E 0 5), 5. rewrite H. clear H. split; [exact R|]. clear R s.
  split; [apply (bool_decide_unpack _); vm_compute; exact I|]. split; [reflexivity|]. split; [member|]. split; [reflexivity|]. split; [member|]. split; [reflexivity|]. split; [lia|].
  intros t' Ht. assert (Hz : t' = 0).
  { unfold tr78 in Ht. repeat (apply elem_of_cons in Ht as [Ht|Ht]; [first [discriminate Ht | (injection Ht as Ht; exact Ht)]|]). destruct (not_elem_of_nil _ Ht). }
  subst t'. unfold tr78. absent.
Qed.
Print Assumptions c15_skipped_event_refuted.
Theorem c16_skipped_event_refuted : exists acts s p, run c3 (start c3) acts = Some s /\ offs (arrived p (trace s)) = [5; 6] /\ committedOffs p (trace s) = [6].
Proof.
  destruct (run c3 (start c3) skip5) as [s|] eqn:R; [|vm_compute in R; discriminate].
  assert (H : option_map trace (run c3 (start c3) skip5) = Some tr78) by (vm_compute; reflexivity).
  rewrite R in H. cbn [option_map] in H. injection H as H. exists skip5, s, 7. rewrite H. split; [exact R|]. split; vm_compute; reflexivity.
Qed.
Print Assumptions c16_skipped_event_refuted.

(** and the node of the failed transaction is not given back (line 236 is reached only without an error): after as many failures as there are nodes, no event is ever accepted
    again, though every answer was Continue *)
Definition starved (s : st) : Prop := fp s = FPop /\ freeq s = [] /\ queue s = [] /\ kp s = KIdle.
Lemma starved_step c s a s' : starved s -> step c s a = Some s' -> starved s' /\ (forall e, EvTake e ∈ trace s' -> EvTake e ∈ trace s).
Proof.
  intros (F & Q & U & K) E. assert (Hn : forall (tr : list ev) x, (forall e, x <> EvTake e) -> forall e, EvTake e ∈ tr ++ [x] -> EvTake e ∈ tr).
  { intros tr x Hx e [?|Hy%elem_of_list_singleton]%elem_of_app; [done|]. by destruct (Hx e). }
  destruct a; cbn [step] in E; rewrite ?F, ?Q, ?U, ?K in E; try discriminate E; repeat (case_decide; try discriminate E); injection E as <-; try (split; [by repeat split|]); try done; try (by apply Hn).
  unfold produceRecord. case_decide; cbn; (split; [by repeat split|]); [|by apply Hn].
  intros x Hx. apply Hn in Hx; [|done]. by apply Hn in Hx.
Qed.
Definition one (i : nat) : list action := [AArrive 0 7 (Some i); FTake; FAdd; FOwn; FSend; FTry; HDone i (E i i); FTick; FDo; FSwap; KStart; KPick 7; KWait; KSkip].
Definition three : list action := one 0 ++ one 1 ++ [AArrive 0 7 (Some 2); FTake; FAdd; FOwn; FSend; FTry; HDone 2 (E 2 2); FTick; FDo; KStart; KPick 7; KWait; KSkip].
Theorem c78_starved_refuted : exists acts s, run c3 (start c3) acts = Some s /\ forall more s', run c3 s more = Some s' -> forall e, EvTake e ∈ trace s' -> EvTake e ∈ trace s.
Proof.
  destruct (run c3 (start c3) three) as [s|] eqn:R; [|vm_compute in R; discriminate].
  assert (H : option_map (fun s => (fp s, freeq s, queue s, kp s)) (run c3 (start c3) three) = Some (FPop, [], [], KIdle)) by (vm_compute; reflexivity).
  rewrite R in H. cbn [option_map] in H. injection H as H1 H2 H3 H4. exists three, s. split; [exact R|]. clear R.
  assert (HS : starved s) by (exact (conj H1 (conj H2 (conj H3 H4)))). clear H1 H2 H3 H4.
  intros more. revert s HS. induction more as [|a more IH]; intros s HS s' R e He.
  - injection R as <-. exact He.
  - cbn [run] in R. destruct (step c3 s a) as [s1|] eqn:E; [|discriminate R]. destruct (starved_step _ _ _ _ HS E) as (HS1 & Ht). apply Ht. exact (IH s1 HS1 s' R e He).
Qed.
Print Assumptions c78_starved_refuted.

(** The answer Continue also refutes C17 and C18 as they are stated. flushRemaining (eos_producer.go:482-492) sends what is buffered without emptying the buffer, which only clearState does; a
    node whose commit failed keeps its buffer and its partitions, and relinquishOwnership of a later commit finds it on the ring and flushes it again. Here the transactions of 5 and 7 fail; the
    output of 7 is handed to Kafka when its commit starts, and once more after the transactions of 8 and 9 have been committed *)
Definition c4 : cfg := mkCfg 4 1 2 4.
Definition take1 (o : nat) : list action := [AArrive 0 7 (Some o); FTake; FAdd; FOwn; FSend; FTry].
Definition finish (n : nat) (e : ec) : list action := [HDone n e; FTick; FDo; FSwap; KStart; KPick 7; KWait].
Definition commit1 : list action := [KEnd; KLock; KRelinq 7; KFree].
Definition twice : list action :=
  take1 5 ++ finish 0 (E 0 5) ++ [KSkip] ++ take1 6 ++ finish 1 (E 1 6) ++ commit1 ++
  take1 7 ++ [HProduce 2 (E 2 7) 100] ++ finish 2 (E 2 7) ++ [KSkip] ++ take1 8 ++ finish 3 (E 3 8) ++ commit1 ++ take1 9 ++ finish 1 (E 4 9) ++ commit1.
Definition one17 (t i : nat) (ok : bool) : list ev :=
  [EvArr (E i (i + 5)); EvTake (E i (i + 5)); EvAdd t (E i (i + 5)); EvDone (E i (i + 5)); EvCall t (E i (i + 5)) (Mark (i + 6)); EvSend t (E i (i + 5)) (Mark (i + 6)); EvEnd t ok].
Definition tr17 : list ev :=
  one17 0 0 false ++ one17 1 1 true ++
  [EvArr (E 2 7); EvTake (E 2 7); EvAdd 2 (E 2 7); EvCall 2 (E 2 7) (Out 100); EvDone (E 2 7); EvSend 2 (E 2 7) (Out 100); EvCall 2 (E 2 7) (Mark 8); EvSend 2 (E 2 7) (Mark 8); EvEnd 2 false] ++
  one17 3 3 true ++ one17 4 4 true ++ [EvSend 2 (E 2 7) (Out 100)].
Lemma twice_run : exists s, run c4 (start c4) twice = Some s /\ trace s = tr17.
Proof.
  assert (H : option_map trace (run c4 (start c4) twice) = Some tr17) by (vm_compute; reflexivity).
  destruct (run c4 (start c4) twice) as [s|]; [|discriminate H]. exists s. split; [reflexivity|]. cbn [option_map] in H. congruence.
Qed.
Theorem c17_call_order_refuted : exists acts s t p, run c4 (start c4) acts = Some s /\ ~ sendsIn t p (trace s) `prefix_of` callsIn t p (trace s).
Proof. destruct twice_run as (s & R & H). exists twice, s, 2, 7. split; [exact R|]. rewrite H. apply (bool_decide_unpack _). vm_compute. exact I. Qed.
Print Assumptions c17_call_order_refuted.
(** the record of the event that arrived earlier is handed to Kafka after the transaction of one that arrived later has been committed *)
Theorem c17_event_order_refuted : exists acts s u v t t' e e' r, run c4 (start c4) acts = Some s /\ e_p e = e_p e' /\ e_id e < e_id e' /\
  trace s = u ++ EvSend t e r :: v /\ EvAdd t' e' ∈ u /\ EvEnd t' true ∈ u.
Proof.
  destruct twice_run as (s & R & H). exists twice, s, (removelast tr17), [], 2, 4, (E 2 7), (E 4 9), (Out 100). rewrite H.
  split; [exact R|]. split; [reflexivity|]. split; [cbn; lia|]. split; [vm_compute; reflexivity|]. split; member.
Qed.
Print Assumptions c17_event_order_refuted.
Theorem c18_sent_twice_refuted : exists acts s e r, run c4 (start c4) acts = Some s /\ length (filter (fun x => x = r) (callsFor e (trace s))) = 1 /\ length (filter (fun x => x = r) (sentFor e (trace s))) = 2.
Proof. destruct twice_run as (s & R & H). exists twice, s, (E 2 7), (Out 100). split; [exact R|]. rewrite H. split; vm_compute; reflexivity. Qed.
Print Assumptions c18_sent_twice_refuted.
