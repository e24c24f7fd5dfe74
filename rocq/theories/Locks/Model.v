(** The mutexes of the consumer and the incremental balancer and the order in which the functions take them: streams/source_consumer.go,
    streams/incr_rebalancer.go:296-465, streams/partitioned_store.go:77-104, streams/state_store_consumer.go:277-306.
    Only locking is modelled. What else a function can wait for while it holds a mutex is left out: the send of interject (C87), user code other
    than calls of Interject, and calls into the kafka client. A function runs its operations in the order given; all mutexes are given back in the
    reverse order in which they were taken (deferred, or directly after the operation). *)
From stdpp Require Import prelude list.
Open Scope nat_scope.

Inductive lock :=
| Kgo        (* not a mutex of the program: held around the calls of the kafka client if the client makes them one after the other *)
| Worker     (* eventSourceConsumer.workerMux *)
| Prep       (* eventSourceConsumer.preppingMux *)
| Status     (* incrementalRebalancer.statusLock *)
| Stores     (* partitionedChangeLog.mux *)
| Ssc.       (* stateStoreConsumer.mux *)
#[global] Instance lock_dec : EqDecision lock. Proof. solve_decision. Defined.

Inductive op := Lk (m : lock) | Ul (m : lock).
Definition brief (m : lock) : list op := [Lk m; Ul m].

(** source_consumer.go:289-293: interject takes and gives back workerMux *)
Definition interject : list op := brief Worker.
(** what a callback of the application does: how many calls of Interject *)
Definition callback (n : nat) : list op := concat (repeat interject n).

(** the functions *)
Inductive task :=
| Assign (prepped : list bool) (calls : nat)   (* assignPartitions, for each partition whether it is in prepping; calls of Interject in OnPartitionAssigned *)
| Revoke (n : nat) (calls : nat)               (* revokePartitions of n partitions; calls of Interject in OnPartitionWillRevoke and OnPartitionRevoked *)
| Receive                                      (* receive *)
| Interject                                    (* EventSource.Interject *)
| InterjectAll (n : nat)                       (* forEachChangeLogPartitionSync and Async, with n partitions *)
| Prepare (known : bool)                       (* PrepareTopicPartition, in a goroutine of its own *)
| Prepared                                     (* PartitionPrepared, PartitionPreparationFailed, GracefullyLeaveGroup, userData *)
| Parse (forget : list bool)                   (* ParseSyncAssignment; for each partition to forget that the member has, whether it is in prepping *)
| StopStores.                                  (* stateStoreConsumer.stop *)

Definition ops (k : task) : list op :=
  match k with
  | Assign ps n => (* source_consumer.go:190-221; incr_rebalancer.go:320-335 *)
    [Lk Worker; Lk Prep] ++ concat (map (fun b : bool => brief Stores ++ (if b then [] else brief Ssc)) ps) ++ brief Status ++ callback n ++ [Ul Prep; Ul Worker]
  | Revoke m n => (* source_consumer.go:223-242 *)
    [Lk Worker] ++ concat (repeat (brief Stores) m) ++ callback n ++ [Ul Worker]
  | Receive => brief Worker (* source_consumer.go:258-262; worker.add comes after the unlock *)
  | Interject => interject
  | InterjectAll n => brief Worker ++ callback n (* source_consumer.go:318-352 *)
  | Prepare known => (* source_consumer.go:139-148 *)
    [Lk Prep] ++ (if known then [] else brief Stores ++ brief Ssc) ++ [Ul Prep]
  | Prepared => brief Status (* incr_rebalancer.go:295-317, 342-351, 454-465 *)
  | Parse fs => (* incr_rebalancer.go:379-421. ForgetPreparedTopicPartition (source_consumer.go:177-188) runs in goroutines of its own, for which wg.Wait
                   waits with statusLock held; as they exclude one another, one after the other is the same as far as locks go *)
    [Lk Status] ++ concat (map (fun b : bool => [Lk Prep] ++ (if b then brief Ssc else []) ++ [Ul Prep]) fs) ++ [Ul Status]
  | StopStores => brief Ssc (* state_store_consumer.go:300-306 *)
  end.
(** serial: the kafka client calls these functions one after the other *)
Definition program (serial : bool) (k : task) : list op :=
  match k with
  | Assign _ _ | Revoke _ _ | Parse _ => if serial then [Lk Kgo] ++ ops k ++ [Ul Kgo] else ops k
  | _ => ops k
  end.

(** a goroutine: the mutexes it holds, the last one taken first, and what it has still to do *)
Record thread := mkT { held : list lock; todo : list op }.
Definition free (m : lock) (s : list thread) : bool := forallb (fun t => negb (bool_decide (m ∈ held t))) s.
(** sync.Mutex is not reentrant: a goroutine that holds it waits too *)
Definition step (s : list thread) (i : nat) : option (list thread) :=
  match s !! i with
  | Some (mkT h (Lk m :: r)) => if free m s then Some (<[i := mkT (m :: h) r]> s) else None
  | Some (mkT (m' :: h) (Ul m :: r)) => if bool_decide (m = m') then Some (<[i := mkT h r]> s) else None
  | _ => None
  end.
Fixpoint run (s : list thread) (l : list nat) : option (list thread) :=
  match l with [] => Some s | i :: l' => match step s i with Some s' => run s' l' | None => None end end.
(** any number of calls, of any of the functions *)
Definition begin (serial : bool) (ks : list task) : list thread := map (fun k => mkT [] (program serial k)) ks.
