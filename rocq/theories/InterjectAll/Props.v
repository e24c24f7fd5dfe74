(** * InterjectAll and InterjectAllSync (C109-C111) *)
From stdpp Require Import prelude list.
From Coq Require Import Lia.
From Verif.InterjectAll Require Import Model Proofs Main Main2.
Open Scope nat_scope.

(** two partitions, the second worker is still reading its state; then both are ready *)
Definition ex_ready : list action := [Assign 7; Assign 4; Ready 0; Ready 1].
Definition ex_sync : list action := ex_ready ++ [Call [4; 7]; Next; Send; Other 0; Pull 1; Take 1 true; End 1; Await; Pull 0; Next; Take 0 true; Send; End 0; Pull 0; Take 0 true; End 0; Await; Return].
Definition ex_notready : list action := [Assign 7; Assign 4; Ready 0; Call [4; 7]; Next; Await; Next; Send; Pull 0; Ready 1; Take 0 true; End 0; Await; Return].
Definition ex_async : list action := ex_ready ++ [Call [4; 7]; Next; Send; Next; Send; Pull 0; Pull 1; Take 0 true; Take 1 true; End 1; End 0; Await; Await; Return].

(** the partitions of the call are those that are assigned when it is made, each once *)
Theorem c109_the_assigned_partitions : forall sync l1 ps l2 s, run sync init (l1 ++ Call ps :: l2) = Some s ->
  NoDup ps /\ (forall p, p ∈ ps <-> owner p l1 <> None) /\ EvCall ps ∈ trace s.
Proof. exact snapshot. Qed.
Print Assumptions c109_the_assigned_partitions.

(** the interjector runs at most once for a partition, and not for one for which an error is reported *)
Theorem c109_at_most_once : forall sync acts s t1 p t2, run sync init acts = Some s -> trace s = t1 ++ EvBegin p :: t2 -> EvBegin p ∉ t1 /\ EvBegin p ∉ t2 /\ EvErr p ∉ trace s.
Proof. exact once. Qed.
Print Assumptions c109_at_most_once.

(** when the call returns the interjector has ended for every partition, or an error has been reported for it *)
Theorem c109_all_done_at_the_return : forall sync acts s ps t1 t2 p, run sync init acts = Some s -> EvCall ps ∈ trace s -> trace s = t1 ++ EvReturn :: t2 -> p ∈ ps -> EvEnd p ∈ t1 \/ EvErr p ∈ t1.
Proof. exact complete. Qed.
Print Assumptions c109_all_done_at_the_return.

(** what has ended has begun, and ends once *)
Theorem c109_ended_has_begun : forall sync acts s t1 p t2, run sync init acts = Some s -> trace s = t1 ++ EvEnd p :: t2 -> EvBegin p ∈ t1 /\ EvEnd p ∉ t1 /\ EvEnd p ∉ t2.
Proof. exact begun_before_ended. Qed.
Print Assumptions c109_ended_has_begun.

(** an error is reported only for a partition that, when its turn came during the call, was not assigned or whose worker was not ready *)
Theorem c109_errors_have_a_reason : forall sync acts s p, run sync init acts = Some s -> EvErr p ∈ trace s ->
  exists l1 l2, acts = l1 ++ Next :: l2 /\ (exists ps, Call ps ∈ l1) /\ match owner p l1 with None => True | Some w => Ready w ∉ l1 end.
Proof. exact err_reason. Qed.
Print Assumptions c109_errors_have_a_reason.

(** the interjector is run for a partition by a worker made for that partition, after its state has been read *)
Theorem c109_run_by_the_worker_of_the_partition : forall sync acts s t1 p t2, run sync init acts = Some s -> trace s = t1 ++ EvBegin p :: t2 ->
  exists l1 w l2, acts = l1 ++ Take w true :: l2 /\ (exists s1, run sync init l1 = Some s1 /\ trace s1 = t1) /\ made l1 !! w = Some p /\ Ready w ∈ l1.
Proof. exact own_worker. Qed.
Print Assumptions c109_run_by_the_worker_of_the_partition.

(** nothing happens for other partitions *)
Theorem c109_only_the_partitions_of_the_call : forall sync acts s p, run sync init acts = Some s -> EvBegin p ∈ trace s \/ EvErr p ∈ trace s -> exists ps, EvCall ps ∈ trace s /\ p ∈ ps.
Proof. exact only_snapshot. Qed.
Print Assumptions c109_only_the_partitions_of_the_call.

Example c109_ex : (trace <$> run true init ex_sync) = Some [EvCall [4; 7]; EvBegin 4; EvEnd 4; EvBegin 7; EvEnd 7; EvReturn]
  /\ (trace <$> run false init ex_notready) = None
  /\ (trace <$> run true init ex_notready) = Some [EvCall [4; 7]; EvErr 4; EvBegin 7; EvEnd 7; EvReturn]
  /\ owner 4 ex_ready = Some 1 /\ owner 7 ex_ready = Some 0 /\ owner 5 ex_ready = None /\ made ex_ready = [7; 4].
Proof. vm_compute. auto 10. Qed.

(** InterjectAllSync: when an interjection begins all those begun before have ended *)
Theorem c110_one_at_a_time : forall acts s t1 p t2, run true init acts = Some s -> trace s = t1 ++ EvBegin p :: t2 -> begun t1 = ended_n t1.
Proof. exact one_at_a_time. Qed.
Print Assumptions c110_one_at_a_time.
Example c110_ex : exists t1 t2, (trace <$> run true init ex_sync) = Some (t1 ++ EvBegin 7 :: t2) /\ begun t1 = 1 /\ ended_n t1 = 1.
Proof. exists [EvCall [4; 7]; EvBegin 4; EvEnd 4], [EvEnd 7; EvReturn]. vm_compute. auto. Qed.
(** InterjectAll does not give this: both interjections are at work at the same time *)
Example c110_not_without_sync : exists t1 t2, (trace <$> run false init ex_async) = Some (t1 ++ EvBegin 4 :: t2) /\ begun t1 = 1 /\ ended_n t1 = 0.
Proof. exists [EvCall [4; 7]; EvBegin 7], [EvEnd 4; EvEnd 7; EvReturn]. vm_compute. auto. Qed.

(** The call need not return: an interjection that a worker has accepted is dropped when the partition is revoked, its channel is never closed *)
Definition ex_lost : list action := [Assign 0; Ready 0; Call [0]; Next; Send; Revoke 0; Pull 0].
Theorem c111_returns_refuted : forall sync, exists acts s, run sync init acts = Some s /\ Call [0] ∈ acts /\ forall l s', run sync s l = Some s' -> EvReturn ∉ trace s'.
Proof.
  intros sync. exists ex_lost. destruct (run sync init ex_lost) as [s|] eqn:R; [|destruct sync; discriminate R]. exists s. split_and!; [reflexivity|unfold ex_lost; set_solver|].
  intros l s' R'. assert (H : started s = true /\ lost 0 s). { destruct sync; vm_compute in R; injection R as <-; repeat split; left. }
  eapply lost_run; [exact R'|exact (inv_at _ _ _ R)|apply H|apply H].
Qed.
Print Assumptions c111_returns_refuted.
(** Without a revocation during the call (Missing: calls during which a partition is revoked) the workers and the call itself can make only a bounded number of steps, and where none of them can make a step the call has returned *)
Theorem c111_returns_partial : forall sync l1 ps l2 s, run sync init (l1 ++ Call ps :: l2) = Some s -> (forall q, Revoke q ∉ l2) ->
  (exists n, forall l3 s', Forall (fun a => inner a = true) l3 -> run sync s l3 = Some s' -> length l3 <= n) /\
  (forall l3 s', Forall (fun a => inner a = true) l3 -> run sync s l3 = Some s' -> (forall a, inner a = true -> step sync s' a = None) -> EvReturn ∈ trace s').
Proof. exact returns. Qed.
Print Assumptions c111_returns_partial.
Example c111_ex : exists s s', run true init (ex_ready ++ [Call [4; 7]; Next]) = Some s /\ run true s [Send; Pull 1; Take 1 true; End 1; Await; Next; Send; Pull 0; Take 0 true; End 0; Await; Return] = Some s'
  /\ Forall (fun a => inner a = true) [Send; Pull 1; Take 1 true; End 1; Await; Next; Send; Pull 0; Take 0 true; End 0; Await; Return]
  /\ EvReturn ∈ trace s' /\ forall q, Revoke q ∉ [Next].
Proof.
  eexists _, _. split; [vm_compute; reflexivity|]. split; [vm_compute; reflexivity|]. split_and!; [repeat constructor|vm_compute; set_solver|intros q; set_solver].
Qed.
