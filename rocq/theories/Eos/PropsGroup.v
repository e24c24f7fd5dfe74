(** C119: the offsets marked for the consumer group (SourceConfig.CommitOffsets). Executions as for C15-C19, in Props.v; [on] is CommitOffsets; the second
    result of [grun] is the list of the calls of MarkCommitRecords so far, [groupOffset p] what they make the group's offset of partition p. *)
From stdpp Require Import prelude list sorting.
From Coq Require Import ZArith.
From Verif.Eos Require Import Model Base Step1 Spec Main Group GroupProofs Props Props3.
Open Scope nat_scope.

(** at any moment only offsets of events are marked whose transaction has been committed, and none without CommitOffsets; *)
Theorem c119_only_committed_partial : forall c on acts s k p o, valid c -> noSkip acts -> grun c on (start c) [] acts = Some (s, k) -> (p, o) ∈ k ->
  on = true /\ exists t e, EvEnd t true ∈ trace s /\ EvAdd t e ∈ trace s /\ e_p e = p /\ e_off e = Some o.
Proof. exact marked_committed. Qed.
Print Assumptions c119_only_committed_partial.
Theorem c119_off : forall c acts s k, grun c false (start c) [] acts = Some (s, k) -> k = [].
Proof. exact off_marks_nothing. Qed.
Print Assumptions c119_off.
(** all of them are marked as long as no commit fails; *)
Theorem c119_all_committed_partial : forall c acts s k t e o, valid c -> noSkip acts -> noFail acts -> grun c true (start c) [] acts = Some (s, k) ->
  EvEnd t true ∈ trace s -> EvAdd t e ∈ trace s -> e_off e = Some o -> (e_p e, o) ∈ k.
Proof. exact committed_marked. Qed.
Print Assumptions c119_all_committed_partial.
(** every accepted event of the partition at or below a marked offset is complete and in a committed transaction; *)
Theorem c119_nothing_below_partial : forall c on acts s k p o e o', valid c -> noSkip acts -> grun c on (start c) [] acts = Some (s, k) -> (p, o) ∈ k ->
  StronglySorted lt (offs (accepted p (trace s))) -> EvTake e ∈ trace s -> e_p e = p -> e_off e = Some o' -> o' <= o ->
  EvDone e ∈ trace s /\ exists t, EvAdd t e ∈ trace s /\ EvEnd t true ∈ trace s.
Proof. exact marked_safe. Qed.
Print Assumptions c119_nothing_below_partial.
(** the offset of the group is never ahead of the last committed resume offset of the commit log, and equal to it as long as no commit fails *)
Theorem c119_not_ahead_of_log_partial : forall c on acts s k p w, valid c -> noSkip acts -> grun c on (start c) [] acts = Some (s, k) ->
  StronglySorted lt (offs (accepted p (trace s))) -> groupOffset p k = Some w -> exists w', last (committedMarks p (trace s)) = Some w' /\ w <= w'.
Proof. exact group_not_ahead. Qed.
Print Assumptions c119_not_ahead_of_log_partial.
Theorem c119_same_as_log_partial : forall c acts s k p, valid c -> noSkip acts -> noFail acts -> grun c true (start c) [] acts = Some (s, k) ->
  StronglySorted lt (offs (accepted p (trace s))) -> groupOffset p k = last (committedMarks p (trace s)).
Proof. exact group_is_log. Qed.
Print Assumptions c119_same_as_log_partial.
(** the offset of the group is one plus the highest marked offset *)
Theorem c119_group_offset : forall p k, match groupOffset p k with
  | None => forall o, (p, o) ∉ k
  | Some w => exists o, w = S o /\ (p, o) ∈ k /\ forall o', (p, o') ∈ k -> o' <= o
  end.
Proof. exact groupOffset_spec. Qed.
Print Assumptions c119_group_offset.

(** the execution of Props.v: nothing is marked before the first transaction is committed; then 6 and 5, then 7 *)
Example c119_example : option_map snd (grun c3 true (start c3) [] (take 30 t1)) = Some [] /\ option_map snd (grun c3 true (start c3) [] (take 31 t1)) = Some [(7, 6); (7, 5)] /\
  option_map snd (grun c3 true (start c3) [] t1) = Some [(7, 6); (7, 5); (7, 7)] /\ option_map snd (grun c3 false (start c3) [] t1) = Some [] /\
  groupOffset 7 [(7, 6); (7, 5); (7, 7)] = Some 8 /\ noFail t1.
Proof. split; [vm_compute; reflexivity|]. split; [vm_compute; reflexivity|]. split; [vm_compute; reflexivity|]. split; [vm_compute; reflexivity|]. split; [done|]. repeat constructor; done. Qed.
(** an interjection is not marked *)
Example c119_interjection : option_map snd (grun c3 true (start c3) []
  [AArrive 0 7 (Some 5); FTake; FAdd; FOwn; FSend; FTry; AArrive 0 7 None; FTake; FAdd; FOwn; FSend; FTry; FDo; FSwap; HDone 0 (E 0 5); HDone 0 (mkEc 1 0 7 None); KStart; KPick 7; KWait; KWait; KEnd])
  = Some [(7, 5)].
Proof. vm_compute. reflexivity. Qed.

(** false if the error handler answers Continue to a failed commit: 6 is marked, the group resumes at 7, and 5 is in no committed transaction *)
Theorem c119_skipped_event_refuted : exists acts s k e o p w, grun c3 true (start c3) [] acts = Some (s, k) /\ StronglySorted lt (offs (accepted p (trace s))) /\
  EvTake e ∈ trace s /\ e_p e = p /\ e_off e = Some o /\ groupOffset p k = Some w /\ o < w /\ forall t, EvAdd t e ∈ trace s -> EvEnd t true ∉ trace s.
Proof.
  destruct (grun c3 true (start c3) [] skip5) as [[s k]|] eqn:R; [|vm_compute in R; discriminate].
  assert (H : option_map (fun x => (trace (fst x), snd x)) (grun c3 true (start c3) [] skip5) = Some (tr78, [(7, 6)])) by (vm_compute; reflexivity).
  rewrite R in H. cbn [option_map fst snd] in H. injection H as H ->. exists skip5, s, [(7, 6)], (E 0 5), 5, 7, 7. rewrite H. split; [exact R|]. clear R H s.
  split; [change (offs (accepted 7 tr78)) with [5; 6]; repeat constructor|]. split; [apply (bool_decide_unpack _); vm_compute; exact I|]. split; [done|]. split; [done|]. split; [done|]. split; [lia|].
  intros t Ht. assert (t = 0) as ->.
  { unfold tr78 in Ht. repeat (apply elem_of_cons in Ht as [Ht|Ht]; [first [discriminate Ht | injection Ht; congruence]|]). by apply elem_of_nil in Ht. }
  apply (bool_decide_unpack _). vm_compute. exact I.
Qed.
Print Assumptions c119_skipped_event_refuted.
