(** Model of the incremental balancer: streams/group_state.go and incrementalBalanceController of streams/incr_rebalancer.go.

    Simplifications, for the whole file: member ids are numbers (strings that are only compared), they are unique in a group as Kafka guarantees; topics and partitions are
    numbers; LeftAt is unbounded (the Go difference of two int64 milliseconds does not overflow for dates); the metadata is given decoded, [cok] telling whether json.Unmarshal
    succeeded (absent user data: true, Active, empty lists). A btree of members is the list of the members sorted by the current sort keys: Go changes a member that is in a tree
    only in unassignFromDonor, where the sort key is not changed (Core.unassign_key). Map iteration orders and random numbers come from an oracle. *)
From stdpp Require Export prelude list gmap sorting.
From Coq Require Export ZArith.
Open Scope nat_scope.

(** incr_rebalancer.go:44-51; other integers that JSON could carry behave like Defunct here *)
Inductive status := Active | Inactive | Defunct.
Global Instance status_dec : EqDecision status.
Proof. solve_decision. Defined.
(** TopicPartition: topic, partition *)
Notation tp := (nat * nat)%type.

(** What a member sends when it joins: kmsg.JoinGroupResponseMember, ConsumerMemberMetadata.OwnedPartitions and the decoded IncrGroupMemberMeta (incr_rebalancer.go:63-68). *)
Record claim := mkClaim { cid : nat; cowned : list (nat * list nat); cok : bool; cstat : status; cleft : Z; cprep : list tp; crdy : list tp }.

(** incrGroupMember, incr_rebalancer.go:97-105; masg, mdon, mdng: assignments, donatable, donating; mto, mforget: instructions.Prepare, instructions.Forget *)
Record mem := mkMem { mstat : status; mleft : Z; mprep : list tp; mrdy : list tp; masg : gset nat; mdon : gset nat; mdng : gset nat; mto : list tp; mforget : list tp }.

(** groupState, group_state.go:64-76. The field preparing is only written in Go and is left out; partitionCount and topic are arguments of the functions that read them. *)
Record gs := mkGs { mems : gmap nat mem; unas : gset nat; asgd : gmap nat nat; rdym : gmap tp nat; recv : gset nat; trans : gset nat }.
Definition set_mems (f : gmap nat mem -> gmap nat mem) (g : gs) : gs := mkGs (f (mems g)) (unas g) (asgd g) (rdym g) (recv g) (trans g).

(** Map iteration orders (of unassigned, ready and fullyReady) and the results of rand.Intn (before the modulo), indexed by the remaining budget. *)
Record orc := mkOrc { oU : list nat -> list nat; oR : list (tp * nat) -> list (tp * nat); oF : list (nat * nat) -> list (nat * nat); oRnd : nat -> nat }.
Record orc_ok (o : orc) : Prop := mkOrcOk { okU : forall l, oU o l ≡ₚ l; okR : forall l, oR o l ≡ₚ l; okF : forall l, oF o l ≡ₚ l }.

(** incr_rebalancer.go:74-90 and 70-72 *)
Definition readyFor (t p : nat) (m : mem) : bool := bool_decide ((t, p) ∈ mrdy m).
Definition prepOrReadyFor (t p : nat) (m : mem) : bool := readyFor t p m || bool_decide ((t, p) ∈ mprep m).
(** group_state.go:54-62 *)
Definition without (l : list tp) (p : nat) : list tp := filter (fun x => snd x <> p) l.
(** incr_rebalancer.go:125-129 *)
Definition load (m : mem) : nat := size (mdon m) + size (mdng m) + length (mprep m) + length (mrdy m).

(** incrGroupActiveLess, group_state.go:36-49 *)
Definition lessA (a b : nat * mem) : bool :=
  if decide (load (snd a) = load (snd b)) then
    if decide (size (mdon (snd a)) + size (mdng (snd a)) = size (mdon (snd b)) + size (mdng (snd b))) then bool_decide (fst a < fst b)
    else bool_decide (size (mdon (snd a)) + size (mdng (snd a)) < size (mdon (snd b)) + size (mdng (snd b)))
  else bool_decide (load (snd a) < load (snd b)).
(** incrGroupInactiveLess, group_state.go:27-33 *)
Definition lessI (a b : nat * mem) : bool :=
  if decide (mleft (snd a) = mleft (snd b)) then bool_decide (fst a < fst b) else bool_decide (mleft (snd a) < mleft (snd b))%Z.

(** The trees: insertion sort of the members by the less functions. *)
Fixpoint ins (less : nat * mem -> nat * mem -> bool) (x : nat * mem) (l : list (nat * mem)) : list (nat * mem) :=
  match l with [] => [x] | y :: l => if less x y then x :: y :: l else y :: ins less x l end.
Definition isort (less : nat * mem -> nat * mem -> bool) (l : list (nat * mem)) : list (nat * mem) := foldr (ins less) [] l.
(** Which tree: group_state.go:122-128. *)
Definition actives (g : gs) : list (nat * mem) := isort lessA (filter (fun x => mstat (snd x) <> Inactive) (map_to_list (mems g))).
Definition inactives (g : gs) : list (nat * mem) := isort lessI (filter (fun x => mstat (snd x) = Inactive) (map_to_list (mems g))).

(** initAssignments, the loop body, group_state.go:136-153: unassigned, assigned, and assignments (= donatable) of the member *)
Definition claim1 (i : nat) (x : gset nat * gmap nat nat * gset nat) (p : nat) : gset nat * gmap nat nat * gset nat :=
  let '(u, a, s) := x in
  (u ∖ {[p]}, match a !! p with Some _ => a | None => <[p := i]> a end, match a !! p with Some _ => s | None => {[p]} ∪ s end).
(** the partitions of the first entry of the topic, group_state.go:134-135, 157 *)
Definition owned (t : nat) (c : claim) : list nat := match list_find (fun x => fst x = t) (cowned c) with Some (_, x) => snd x | None => [] end.
(** initReceivership, group_state.go:161-188, and the EachMember body, 96-110 *)
Definition addClaim (t : nat) (g : gs) (c : claim) : gs :=
  let '(r, v, f) :=
    if cok c then
      if decide (cstat c = Active) then (foldl (fun r x => <[x := cid c]> r) (rdym g) (crdy c), recv g ∪ list_to_set (snd <$> cprep c ++ crdy c), [])
      else (rdym g, recv g, cprep c ++ crdy c)
    else (rdym g, recv g, []) in
  let '(u, a, s) := foldl (claim1 (cid c)) (unas g, asgd g, ∅) (owned t c) in
  mkGs (<[cid c := mkMem (cstat c) (cleft c) (cprep c) (crdy c) s s ∅ [] f]> (mems g)) u a r v (trans g).
(** group_state.go:113-119, the loop body *)
Definition toDonating (g : gs) (p : nat) : gs :=
  match asgd g !! p with
  | Some i => set_mems (alter (fun m => mkMem (mstat m) (mleft m) (mprep m) (mrdy m) (masg m) (mdon m ∖ {[p]}) ({[p]} ∪ mdng m) (mto m) (mforget m)) i) g
  | None => g
  end.
(** newGroupState, group_state.go:78-131 *)
Definition newGroupState (n t : nat) (cs : list claim) : gs :=
  let g := foldl (addClaim t) (mkGs ∅ (list_to_set (seq 0 n)) ∅ ∅ ∅ ∅) cs in
  foldl toDonating g (elements (recv g)).

(** assignToActiveMember, group_state.go:226-241 *)
Definition assignTo (t p i : nat) (g : gs) : gs :=
  mkGs (alter (fun m => mkMem (mstat m) (mleft m) (without (mprep m) p) (without (mrdy m) p) ({[p]} ∪ masg m) ({[p]} ∪ mdon m) (mdng m) (without (mto m) p) (mforget m)) i (mems g))
    (unas g) (asgd g) (delete (t, p) (rdym g)) ({[p]} ∪ recv g) ({[p]} ∪ trans g).
(** unassignFromDonor, group_state.go:250-263; both branches do the same *)
Definition unassignFrom (p i : nat) (g : gs) : gs :=
  set_mems (alter (fun m => mkMem (mstat m) (mleft m) (mprep m) (mrdy m) (masg m ∖ {[p]}) (mdon m ∖ {[p]}) ({[p]} ∪ mdng m) (mto m) (mforget m)) i) g.

(** distributeUnassigned, group_state.go:265-284: the recipient and the loop *)
Definition heir (t p : nat) (g : gs) : option nat :=
  match list_find (fun x => prepOrReadyFor t p (snd x) = true) (actives g) with
  | Some (_, x) => Some (fst x)
  | None => fst <$> head (actives g)
  end.
Definition distribute1 (t : nat) (g : gs) (p : nat) : gs := match heir t p g with Some i => assignTo t p i g | None => g end.
Definition distribute (o : orc) (t : nat) (g : gs) : gs := foldl (distribute1 t) g (oU o (elements (unas g))).

(** deliverScheduledPartitionMoves, group_state.go:286-301 *)
Definition fully1 (t : nat) (g : gs) (f : gmap nat nat) (x : tp * nat) : gmap nat nat :=
  match mems g !! snd x with
  | Some m => if readyFor t (snd (fst x)) m then <[snd (fst x) := snd x]> f else f
  | None => f
  end.
Definition fullyReady (o : orc) (t : nat) (g : gs) : gmap nat nat := foldl (fully1 t g) ∅ (oR o (map_to_list (rdym g))).
Definition deliver1 (t : nat) (g : gs) (x : nat * nat) : gs :=
  match asgd g !! fst x with
  | Some d => assignTo t (fst x) (snd x) (unassignFrom (fst x) d g)
  | None => g
  end.
Definition deliver (o : orc) (t : nat) (g : gs) : gs := foldl (deliver1 t) g (oF o (map_to_list (fullyReady o t g))).

(** randomPartition, group_state.go:303-316; the i-th element in some fixed order instead of the ascending one, with an arbitrary i; 0 stands for rand.Intn panicking on 0 *)
Definition randomPartition (o : orc) (b : nat) (m : mem) : nat :=
  match elements (mdon m) !! (oRnd o b mod size (mdon m)) with Some p => p | None => 0 end.
(** donatePartition and instructActiveMemberToPrepareFor, group_state.go:336-346 and 243-248; deleting a member from the tree and inserting it again is the identity *)
Definition donate (o : orc) (t b : nat) (d r : nat * mem) (g : gs) : gs :=
  let p := randomPartition o b (snd d) in
  set_mems (alter (fun m => mkMem (mstat m) (mleft m) (mprep m) (mrdy m) (masg m) (mdon m) (mdng m) (mto m ++ [(t, p)]) (mforget m)) (fst r)) g.
(** isImbalanced, group_state.go:385-412 *)
Definition isImbalanced (n : nat) (g : gs) : option ((nat * mem) * (nat * mem)) :=
  let l := actives g in
  if decide (length l < 2) then None else
  match last l, head l with
  | Some d, Some r =>
      if decide (1 < size (mdon (snd d)) /\ (load (snd r) < n / length l \/ n / length l + 1 < load (snd d))) then Some (d, r) else None
  | _, _ => None
  end.
(** schedulePartitionMoves, group_state.go:348-383. First loop: donatable is not changed by a donation, so memberAt with the advancing index always ends at the first
    inactive member that has something to donate. *)
Fixpoint drain (o : orc) (t b : nat) (g : gs) : nat * gs :=
  match b with
  | 0 => (0, g)
  | S b' =>
      match list_find (fun x => mdon (snd x) <> ∅) (inactives g), head (actives g) with
      | Some (_, d), Some r => drain o t b' (donate o t b d r g)
      | _, _ => (b, g)
      end
  end.
Fixpoint even_out (o : orc) (n t b : nat) (g : gs) : gs :=
  match b with
  | 0 => g
  | S b' => match isImbalanced n g with Some (d, r) => even_out o n t b' (donate o t b d r g) | None => g end
  end.
Definition schedule (o : orc) (n t b : nat) (g : gs) : gs := let '(b', g') := drain o t b g in even_out o n t b' g'.
(** balance, group_state.go:207-224; a negative budget is 0 *)
Definition balance (o : orc) (n t shifts : nat) (g : gs) : gs :=
  let g' := deliver o t (distribute o t g) in schedule o n t (shifts - size (recv g') - size (trans g')) g'.

(** balanceTopic with budget 1, incr_rebalancer.go:178-202 and 280-283, addMemberToPlan 229-236: the final group state and the plan (nothing without active members) *)
Definition balanced (o : orc) (n t : nat) (cs : list claim) : gs :=
  let g := newGroupState n t cs in if decide (actives g = []) then g else balance o n t 1 g.
Definition plan (o : orc) (n t : nat) (cs : list claim) : list (nat * list nat) :=
  let g := balanced o n t cs in
  if decide (actives g = []) then [] else (fun x => (fst x, elements (masg (snd x)))) <$> inactives g ++ actives g.
(** the instructions sent with the plan, incr_rebalancer.go:156-168: one topic; (member, what to prepare) *)
Definition prepares (o : orc) (n t : nat) (cs : list claim) : list (nat * tp) :=
  x ← map_to_list (mems (balanced o n t cs)); pair (fst x) <$> mto (snd x).
Definition forgets (o : orc) (n t : nat) (cs : list claim) (i : nat) : list tp :=
  match mems (balanced o n t cs) !! i with Some m => mforget m | None => [] end.
