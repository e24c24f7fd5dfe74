(** Model of a consumer group that uses the incremental balancer: the members' rebalancers between and during rebalances, for one topic [t] with [n] partitions.
    A rebalance is one step: every member joins (JoinGroupMetadata, incr_rebalancer.go:437-465), the leader balances (148-176), every member gets its assignment
    (ParseSyncAssignment, 365-426) and is told what was added (PartitionsAssigned, 320-335, called from assignPartitions, source_consumer.go:192-223, with the partitions that
    are new). Members do not crash or join, and a leaving member does not go away. *)
From Verif.Balancer Require Export Model.
From stdpp Require Export prelude list gmap sorting.
Open Scope nat_scope.

(** incrementalRebalancer, incr_rebalancer.go:238-248, and what the member currently owns; preparing and ready are sets of partitions of the topic *)
Record peer := mkPeer { pid : nat; pstat : status; pleft : Z; pown : gset nat; pprep : gset nat; prdy : gset nat }.
Global Instance peer_dec : EqDecision peer.
Proof. solve_decision. Defined.

(** JoinGroupMetadata and userData, incr_rebalancer.go:437-465 *)
Definition claim_of (t : nat) (x : peer) : claim :=
  mkClaim (pid x) [(t, elements (pown x))] true (pstat x) (pleft x) (pair t <$> elements (pprep x)) (pair t <$> elements (prdy x)).
Definition plan_of (pl : list (nat * list nat)) (i : nat) : gset nat := match list_find (fun x => fst x = i) pl with Some (_, x) => list_to_set (snd x) | None => ∅ end.
(** plan.AdjustCooperative, incr_rebalancer.go:170-174 (library): a partition that is taken from one member and added to another is taken from the plan *)
Definition moved (pl : list (nat * list nat)) (ps : list peer) : gset nat := list_to_set (y ← ps; elements (pown y ∖ plan_of pl (pid y))).
Definition receive (t : nat) (pl : list (nat * list nat)) (ins : list (nat * tp)) (ps : list peer) (x : peer) : peer :=
  let own := plan_of pl (pid x) ∖ (moved pl ps ∖ pown x) in
  let added := own ∖ pown x in
  let new := list_to_set (filter (fun y => fst y = pid x /\ fst (snd y) = t) ins).*2.*2 in
  (** Forget, incr_rebalancer.go:404-420, is sent to members that are not active for all they prepare or have prepared: group_state.go:182-185 *)
  let keep (s : gset nat) := if decide (pstat x = Active) then s else ∅ in
  mkPeer (pid x) (pstat x) (pleft x) own ((keep (pprep x) ∪ new) ∖ added) (keep (prdy x) ∖ added).
Definition rebalance (o : orc) (n t : nat) (ps : list peer) : list peer :=
  let cs := claim_of t <$> ps in receive t (plan o n t cs) (prepares o n t cs) ps <$> ps.
(** the same rebalance at a moment when only the members that [sel] picks have received their assignment: the members get it one by one, in any order *)
Definition midway (sel : peer -> bool) (o : orc) (n t : nat) (ps : list peer) : list peer :=
  let cs := claim_of t <$> ps in (fun x => if sel x then receive t (plan o n t cs) (prepares o n t cs) ps x else x) <$> ps.
(** PartitionPrepared, incr_rebalancer.go:295-301, for a partition that is being prepared *)
Definition prepared (i p : nat) (ps : list peer) : list peer :=
  (fun x => if decide (pid x = i /\ p ∈ pprep x) then mkPeer (pid x) (pstat x) (pleft x) (pown x) (pprep x ∖ {[p]}) ({[p]} ∪ prdy x) else x) <$> ps.
Inductive act := Reb (o : orc) | Prep (i p : nat).
Definition act_ok (a : act) : Prop := match a with Reb o => orc_ok o | Prep _ _ => True end.
Definition gstep (n t : nat) (ps : list peer) (a : act) : list peer := match a with Reb o => rebalance o n t ps | Prep i p => prepared i p ps end.
Definition grun (n t : nat) (ps : list peer) (l : list act) : list peer := foldl (gstep n t) ps l.
(** the number of steps that change something *)
Fixpoint changes (n t : nat) (ps : list peer) (l : list act) : nat :=
  match l with [] => 0 | a :: l => (if decide (gstep n t ps a = ps) then 0 else 1) + changes n t (gstep n t ps a) l end.
