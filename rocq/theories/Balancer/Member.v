(** Model of one member's side of the incremental balancer: incrementalRebalancer, streams/incr_rebalancer.go:238-465, with the part of eventSourceConsumer that does what the
    leader instructs, streams/source_consumer.go:133-242. Every method of the rebalancer holds statusLock, so it is one step here. *)
From stdpp Require Export prelude list gmap.
From Verif.Balancer Require Export Model.
Open Scope nat_scope.

(** The fields of incrementalRebalancer that change (238-248); [closes] counts the calls of close(gracefulChan), the second of which panics. The fields of the consumer: [sprep] is
    sc.prepping (keyed by partition alone, source_consumer.go:143, 149), [work] the keys of sc.workers (190-242), [starting] the goroutines started at incr_rebalancer.go:401 that
    have not yet entered PrepareTopicPartition, [syncing] the goroutines started at source_consumer.go:150 that have not yet called PartitionPrepared. *)
Record member := mkMember { m_stat : status; m_left : Z; closes : nat; preping : gset tp; rdy : gset tp; sprep : gset nat; work : gset nat; starting : list tp; syncing : list tp }.
(** IncrementalRebalancer, 272-292 *)
Definition fresh_member : member := mkMember Active 0 0 ∅ ∅ ∅ ∅ [] [].

(** kmsg.ConsumerMemberAssignment with the decoded instructions. [sees] is not sent: it says, for each position of the Forget list, which position the goroutine started for it
    (409-412) finds in the loop variable when it reads it; that variable is shared by all iterations (go 1.19, go.mod:3). *)
Record assignment := mkAsg { a_topics : list (nat * list nat); a_prepare : list tp; a_forget : list tp; sees : nat -> nat }.
(** any position from its own on, as the loop may have gone on *)
Definition sees_ok (a : assignment) : Prop := forall i, i < length (a_forget a) -> i <= sees a i < length (a_forget a).
(** parsed, 374-377: a map, a later entry of a topic replaces an earlier one *)
Definition parsed (a : assignment) : gmap nat (list nat) := foldl (fun m x => <[fst x := snd x]> m) ∅ (a_topics a).

Inductive event :=
| ELeave (now : Z)                    (* GracefullyLeaveGroup *)
| ESync (a : option assignment)       (* ParseSyncAssignment; None: ReadFrom fails *)
| EStart (k : nat)                    (* the k-th starting goroutine runs PrepareTopicPartition *)
| ESynced (k : nat)                   (* the k-th syncing goroutine calls PartitionPrepared *)
| EFailed (x : tp)                    (* PartitionPreparationFailed, which nothing in the repository calls *)
| EAssigned (t : nat) (ps : list nat) (* partitionsAssigned for one topic *)
| ERevoked (ps : list nat).           (* partitionsRevoked for one topic *)

(** GracefullyLeaveGroup, 342-351 *)
Definition leave (now : Z) (s : member) : member :=
  match m_stat s with
  | Active => mkMember Inactive now (closes s) (preping s) (rdy s) (sprep s) (work s) (starting s) (syncing s)
  | _ => s
  end.
(** 398-403 *)
Definition prepare1 (s : member) (x : tp) : member :=
  if decide (x ∈ preping s) then s
  else mkMember (m_stat s) (m_left s) (closes s) ({[x]} ∪ preping s) (rdy s) (sprep s) (work s) (starting s ++ [x]) (syncing s).
(** ForgetPreparedTopicPartition, source_consumer.go:177-188 (cancelPartition is in StateStore/Model.v) *)
Definition cancelPrep (x : tp) (s : member) : member :=
  mkMember (m_stat s) (m_left s) (closes s) (preping s) (rdy s) (sprep s ∖ {[x.2]}) (work s) (starting s) (syncing s).
(** one iteration of 407-419; the goroutine's effect is put here, wg.Wait (419) makes it happen before the function returns *)
Definition forget1 (a : assignment) (s : member) (i : nat) : member :=
  match a_forget a !! i with
  | None => s
  | Some x =>
      let s' := mkMember (m_stat s) (m_left s) (closes s) (preping s ∖ {[x]}) (rdy s ∖ {[x]}) (sprep s) (work s) (starting s) (syncing s) in
      if decide (x ∈ preping s \/ x ∈ rdy s) then match a_forget a !! sees a i with Some y => cancelPrep y s' | None => s' end else s'
  end.
(** ParseSyncAssignment, 365-426 *)
Definition parseSync (a : assignment) (s : member) : member :=
  if decide (m_stat s = Inactive /\ map_Forall (fun _ l => l = []) (parsed a))
  then mkMember Defunct (m_left s) (S (closes s)) (preping s) (rdy s) (sprep s) (work s) (starting s) (syncing s)
  else foldl (forget1 a) (foldl prepare1 s (a_prepare a)) (seq 0 (length (a_forget a))).
(** PrepareTopicPartition, source_consumer.go:139-173 *)
Definition start (x : tp) (s : member) : member :=
  if decide (x.2 ∈ sprep s) then s else mkMember (m_stat s) (m_left s) (closes s) (preping s) (rdy s) ({[x.2]} ∪ sprep s) (work s) (starting s) (syncing s ++ [x]).
(** PartitionPrepared, 295-301 *)
Definition partitionPrepared (x : tp) (s : member) : member :=
  mkMember (m_stat s) (m_left s) (closes s) (preping s ∖ {[x]}) ({[x]} ∪ rdy s) (sprep s) (work s) (starting s) (syncing s).
(** PartitionPreparationFailed and the loop body of PartitionsAssigned, 304-330 *)
Definition drop1 (x : tp) (s : member) : member :=
  mkMember (m_stat s) (m_left s) (closes s) (preping s ∖ {[x]}) (rdy s ∖ {[x]}) (sprep s) (work s) (starting s) (syncing s).
(** assignPartitions, source_consumer.go:190-223 *)
Definition assign1 (t : nat) (s : member) (p : nat) : member :=
  drop1 (t, p) (mkMember (m_stat s) (m_left s) (closes s) (preping s) (rdy s) (sprep s ∖ {[p]}) ({[p]} ∪ work s) (starting s) (syncing s)).
(** revokePartitions, source_consumer.go:225-242 *)
Definition revoke1 (s : member) (p : nat) : member :=
  mkMember (m_stat s) (m_left s) (closes s) (preping s) (rdy s) (sprep s) (work s ∖ {[p]}) (starting s) (syncing s).
(** goroutine k of a list of goroutines goes on *)
Definition set_starting (l : list tp) (s : member) : member := mkMember (m_stat s) (m_left s) (closes s) (preping s) (rdy s) (sprep s) (work s) l (syncing s).
Definition set_syncing (l : list tp) (s : member) : member := mkMember (m_stat s) (m_left s) (closes s) (preping s) (rdy s) (sprep s) (work s) (starting s) l.
Definition mstep (s : member) (e : event) : member :=
  match e with
  | ELeave now => leave now s
  | ESync None => s
  | ESync (Some a) => parseSync a s
  | EStart k => match starting s !! k with Some x => start x (set_starting (delete k (starting s)) s) | None => s end
  | ESynced k => match syncing s !! k with Some x => partitionPrepared x (set_syncing (delete k (syncing s)) s) | None => s end
  | EFailed x => drop1 x s
  | EAssigned t ps => foldl (assign1 t) s ps
  | ERevoked ps => foldl revoke1 s ps
  end.
Definition mrun (l : list event) : member := foldl mstep fresh_member l.
(** userData, 454-465, with what JoinGroupMetadata adds, 437-451: what the member tells the leader *)
Definition tells (i : nat) (own : list (nat * list nat)) (s : member) : claim := mkClaim i own true (m_stat s) (m_left s) (elements (preping s)) (elements (rdy s)).

(** BalanceStrategy, balancer_options.go:37-43; any other number *)
Inductive strategy := SRange | SRoundRobin | SSticky | SIncremental | SOther.
Global Instance strategy_dec : EqDecision strategy.
Proof. solve_decision. Defined.
(** newEventSourceConsumer, source_consumer.go:64-69 and toGroupBalancers, balancer_options.go:20-35: the strategies the consumer offers *)
Definition effective (l : list strategy) : list strategy := filter (fun x => x <> SOther) (match l with [] => [SIncremental] | _ => l end).
(** sc.incrBalancer is not nil, source_consumer.go:103-108 *)
Definition hasIncr (l : list strategy) : bool := bool_decide (SIncremental ∈ effective l).
(** assignPartitions, source_consumer.go:190-223, with line 220 calling a method of sc.incrBalancer: None is a nil dereference *)
Definition assignWith (l : list strategy) (t : nat) (ps : list nat) (s : member) : option member := if hasIncr l then Some (foldl (assign1 t) s ps) else None.
