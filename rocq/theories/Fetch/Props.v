(** Properties C89 and C90. *)
From stdpp Require Import prelude list sorting.
From Verif.Fetch Require Import Model Proofs.
Open Scope nat_scope.

(** The resume points of the commit records in a log *)
Definition commits (l : list item) : list nat := flat_map (fun x => match x with Commit w => [w] | Marker => [] end) l.

(** C89. In a group of event sources whose commits do not go back (C16), however far behind the consumer's view of the commit log is when the partition
    is assigned: once lastProcessed has returned, there is a resume point r, not below any commit made before the marker was written, such that what is
    handed over is, without a gap and in order, the input from r on; and fetching and handing over can go on until all of it has been handed over. *)
Theorem c89_no_gap : forall input acts s, run input init acts = Some s -> (forall b, GLegacy b ∉ acts) -> StronglySorted le (commits (log s)) -> ASync ∈ acts ->
  exists r l1 l2, log s = l1 ++ Marker :: l2 /\ Marker ∉ l1 /\ (forall w, w ∈ commits l1 -> w <= r) /\ (r = 0 \/ r ∈ commits (log s)) /\
    (exists n, handed s = take n (filter (fun o => r <= o) input)) /\
    exists acts' s', Forall (fun a => a = FFetch \/ a = FHand) acts' /\ run input s acts' = Some s' /\ handed s' = filter (fun o => r <= o) input.
Proof. exact no_gap. Qed.
Print Assumptions c89_no_gap.
(** before that nothing is handed over *)
Theorem c89_nothing_before_the_sync : forall input acts s, run input init acts = Some s -> ASync ∉ acts -> handed s = [].
Proof. exact nothing_before. Qed.
Print Assumptions c89_nothing_before_the_sync.
(** the view is one commit behind at the assignment, and another transaction ends while the marker is on its way *)
Definition behind : list action :=
  [LCommit 3; LConsume; LCommit 5; AAssign; FFetch; AMark; FFetch; LCommit 6; LConsume; LConsume; ASync; FFetch; LConsume; FFetch; FHand; FHand; FHand; FHand].
Example c89_case : option_map (fun s => (log s, start s, high s, fetched s, handed s)) (run [1; 3; 4; 5; 8; 9] init behind) =
  Some ([Commit 3; Commit 5; Marker; Commit 6], Some 3, Some (Some 5), [3; 4; 5; 8], [5; 8]).
Proof. vm_compute. reflexivity. Qed.

(** C90. When the partition has no commit in the event sources' log, as in the first migration, the worker gets nothing that the group's committed offset says is done. *)
Theorem c90_first_partial : forall input acts s l r, run input init acts = Some s -> acts = l ++ AAssign :: r -> forall s0, run input init l = Some s0 -> commits (log s0) = [] ->
  forall o, o ∈ handed s -> group s0 <= o.
Proof.
  intros input acts s l r R -> s0 R0 C o Ho.
  assert (X : forall l2 x, run input x (l ++ l2) = match run input x l with Some y => run input y l2 | None => None end).
  { clear. induction l as [|a l IH]; intros l2 x; cbn; [done|]. destruct (step input x a); [apply IH|done]. }
  pose proof (flow_run _ _ _ R) as F. rewrite X, R0 in R. cbn [run] in R. destruct (step input s0 AAssign) as [s1|] eqn:E; [|discriminate].
  assert (S1 : start s1 = Some (group s0)).
  { cbn in E. destruct (start s0); [discriminate|]. injection E as <-. cbn. f_equal. unfold adjust. destruct (watermark s0) as [[|w]|] eqn:W; try done.
    exfalso. apply last_in in W as [[=]|W]. apply elem_of_take in W as (i & W & _). apply elem_of_list_lookup_2, offsets_in in W. unfold commits in C. unfold offsets in W. rewrite C in W. by apply elem_of_nil in W. }
  assert (S2 : start s = Some (group s0)).
  { revert R. apply (run_inv (fun x => start x = Some (group s0))); [exact S1|]. clear. intros s a s' _ H E. destruct a; cbn in E; repeat case_match; simplify_eq; cbn; congruence. }
  destruct (high s) as [h|] eqn:Hh; [|destruct (f_new _ _ F Hh) as [_ Z]; rewrite Z in Ho; by apply elem_of_nil in Ho].
  rewrite (f_handed _ _ F h Hh) in Ho. apply elem_of_list_In, filter_In in Ho as [Ho _]. apply elem_of_list_In in Ho.
  rewrite (f_fetched _ _ F _ S2) in Ho. rewrite take_take in Ho. apply elem_of_take in Ho as (i & Ho & _). apply elem_of_list_lookup_2, elem_of_list_filter in Ho as [Ho _]. exact Ho.
Qed.
Print Assumptions c90_first_partial.
Example c90_case : option_map (fun s => (fetched s, handed s)) (run [0; 1; 2; 3; 4; 5] init [GLegacy 3; AAssign; FFetch; AMark; LConsume; FFetch; ASync; FHand; FHand]) = Some ([3; 4], [3; 4]).
Proof. vm_compute. reflexivity. Qed.
(** The partition was with the event sources before (up to 1), then with the other consumers (up to 3), and comes back: 1 and 2 are processed a second time. *)
Theorem c90_refuted : exists input acts s o, run input init acts = Some s /\ StronglySorted le (commits (log s)) /\ group s = 3 /\ o < 3 /\ o ∈ handed s.
Proof.
  exists [0; 1; 2; 3; 4], [LCommit 1; LConsume; GMark 1; GLegacy 3; AAssign; AMark; LConsume; ASync; FFetch; FHand; FFetch; FHand; FFetch; FHand]. eexists _, 2.
  split; [vm_compute; reflexivity|]. split; [cbn; repeat constructor|]. split; [reflexivity|]. split; [lia|]. cbn. right. left.
Qed.
Print Assumptions c90_refuted.
