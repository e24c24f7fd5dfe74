(** The callbacks an application can register for its partitions: OnPartitionAssigned, OnPartitionActivated, OnPartitionWillRevoke and
    OnPartitionRevoked (streams/source.go:86-97, 123-137, 157-163), called from streams/source_consumer.go:190-242 and
    streams/partition_worker.go:232, and how they interleave with the handlers of a partition (partition_worker.go:141-251, 284-317,
    eos_producer.go:144-159). One topic. Callbacks return; what they do is left out. Interjections count as events. Asynchronous completions,
    the limit on pending items, the commits and prepared partitions are left out (they change neither when the callbacks are called nor
    when a handler may begin); so is what the kafka client fetches. *)
From stdpp Require Import prelude list.
Open Scope nat_scope.

(** The goroutine that runs work, partition_worker.go:206-251: waiting for the commit log and the state store (217-219); these are there;
    onPartitionActivated has been called (232) and the loop (233-250) runs; it has returned (246-248) *)
Inductive stage := Boot | Booted | Active | Over.
#[global] Instance stage_dec : EqDecision stage. Proof. solve_decision. Defined.

(** partitionWorker, partition_worker.go:61-79 *)
Record worker := mkW {
  part : nat;                       (* topicPartition.Partition *)
  stg : stage;
  halted : bool;                    (* runStatus is halted *)
  batch : nat;                      (* records of the batch in scheduleTxnAndExecution that have no context yet *)
  q : list (nat * option bool);     (* contexts that the loop has not taken, oldest first: number; None: the pool has not looked at it,
                                       Some true: it has a producer, Some false: it has been refused (producerChan has nil) *)
  next : nat;                       (* number of contexts so far *)
  busy : bool                       (* the handler of the application is at work *)
}.
(** What remains to be done of assignPartitions (source_consumer.go:190-223) or revokePartitions (225-242) *)
Inductive micro :=
| MCreate (p : nat)      (* newPartitionWorker, lines 206 and 213 *)
| MAssigned (p : nat)    (* onPartitionsAssigned, line 222 *)
| MWill (p : nat)        (* onPartitionWillRevoke, line 233 *)
| MHalt (p : nat)        (* worker.revoke, line 235, and the deletion *)
| MStore (p : nat)       (* partitionedStore.revoke, line 238 *)
| MRevoked (p : nat).    (* onPartitionsRevoked, line 241 *)

(** What an observer sees; workers are numbered in the order in which they are created *)
Inductive ev :=
| EvAssigned (p : nat) | EvActivated (p w : nat) | EvWill (p : nat) | EvRevoked (p : nat)   (* the callbacks *)
| EvBooted (w : nat)                       (* commit log and state store of the worker are there *)
| EvHalt (w : nat)                         (* the worker has been told that it is revoked *)
| EvStore (p : nat)                        (* the store of the partition has been told that it is revoked *)
| EvGrant (w c : nat)                      (* the pool has put context c of worker w into a transaction *)
| EvBegin (w c : nat) | EvEnd (w : nat)    (* the handler is called with context c; it returns *)
| EvOver (w : nat).                        (* work has returned *)
#[global] Instance ev_dec : EqDecision ev. Proof. solve_decision. Defined.

Record st := mkSt {
  ws : list worker;
  live : list (nat * nat);    (* sc.workers: partition, number of the worker *)
  owned : list nat;           (* what the group has assigned to this consumer, including the call in progress *)
  cur : list micro;           (* the rest of the call in progress; workerMux lets only one be in progress *)
  trace : list ev
}.
Definition init : st := mkSt [] [] [] [] [].

Definition find (p : nat) (l : list (nat * nat)) : option nat := snd <$> (head (List.filter (fun x => Nat.eqb (fst x) p) l)).
Definition drop (p : nat) (l : list (nat * nat)) : list (nat * nat) := List.filter (fun x => negb (Nat.eqb (fst x) p)) l.

Inductive action :=
| GAssign (ps : list nat)    (* the kafka client calls partitionsAssigned, only for partitions it does not have *)
| GRevoke (ps : list nat)    (* the kafka client calls partitionsRevoked (also for lost ones), only for partitions it has *)
| GStep                      (* the call in progress goes on *)
| WBoot (w : nat)            (* lastProcessed and waiter have returned, lines 217-219; pushRecords is started, line 224 *)
| WActivate (w : nat)        (* line 232 *)
| WBatch (w n : nat)         (* pushRecords takes n records, lines 143-146, 164-166 *)
| WSchedule (w : nat)        (* a context is made for one of them and goes to the pool, lines 171-174 *)
| WStale (w : nat)           (* one of them is skipped, lines 175-177 *)
| PLook (w : nat)            (* the pool looks at the oldest context it has not looked at, eos_producer.go:144-159 *)
| WTake (w : nat)            (* the loop takes the oldest context: it begins the handler or drops the context, partition_worker.go:284-317 *)
| WEnd (w : nat)             (* the handler returns *)
| WOver (w : nat).           (* the loop ends, lines 241-248: the worker is halted and nothing is left *)

Definition upd (w : nat) (x : worker) (es : list ev) (s : st) : st := mkSt (<[w := x]> (ws s)) (live s) (owned s) (cur s) (trace s ++ es).

(** one step of assignPartitions or revokePartitions *)
Definition micro_step (s : st) (m : micro) (l : list micro) : st :=
  match m with
  | MCreate p => mkSt (ws s ++ [mkW p Boot false 0 [] 0 false]) ((p, length (ws s)) :: live s) (owned s) l (trace s)
  | MAssigned p => mkSt (ws s) (live s) (owned s) l (trace s ++ [EvAssigned p])
  | MWill p => mkSt (ws s) (live s) (owned s) l (trace s ++ [EvWill p])
  | MHalt p => match find p (live s) with
               | Some w => match ws s !! w with
                           | Some x => mkSt (<[w := mkW (part x) (stg x) true (batch x) (q x) (next x) (busy x)]> (ws s)) (drop p (live s)) (owned s) l (trace s ++ [EvHalt w])
                           | None => mkSt (ws s) (live s) (owned s) l (trace s) end
               | None => mkSt (ws s) (live s) (owned s) l (trace s) end
  | MStore p => mkSt (ws s) (live s) (owned s) l (trace s ++ [EvStore p])
  | MRevoked p => mkSt (ws s) (live s) (owned s) l (trace s ++ [EvRevoked p])
  end.

(** the oldest context the pool has not looked at *)
Fixpoint look (ans : bool) (l : list (nat * option bool)) : option (nat * list (nat * option bool)) :=
  match l with
  | [] => None
  | (c, None) :: l' => Some (c, (c, Some ans) :: l')
  | x :: l' => match look ans l' with Some (c, l'') => Some (c, x :: l'') | None => None end
  end.

Definition step (s : st) (a : action) : option st :=
  match a with
  | GAssign ps => match cur s with
                  | [] => if decide (NoDup ps /\ Forall (fun p => p ∉ owned s) ps) then
                            Some (mkSt (ws s) (live s) (owned s ++ ps) (map MCreate ps ++ map MAssigned ps) (trace s)) else None
                  | _ => None end
  | GRevoke ps => match cur s with
                  | [] => if decide (NoDup ps /\ Forall (fun p => p ∈ owned s) ps) then
                            Some (mkSt (ws s) (live s) (List.filter (fun p => negb (bool_decide (p ∈ ps))) (owned s))
                                       (flat_map (fun p => [MWill p; MHalt p; MStore p]) ps ++ map MRevoked ps) (trace s)) else None
                  | _ => None end
  | GStep => match cur s with m :: l => Some (micro_step s m l) | [] => None end
  | WBoot w => match ws s !! w with
               | Some x => if decide (stg x = Boot) then Some (upd w (mkW (part x) Booted (halted x) (batch x) (q x) (next x) (busy x)) [EvBooted w] s) else None
               | None => None end
  | WActivate w => match ws s !! w with
                   | Some x => if decide (stg x = Booted) then Some (upd w (mkW (part x) Active (halted x) (batch x) (q x) (next x) (busy x)) [EvActivated (part x) w] s) else None
                   | None => None end
  | WBatch w n => match ws s !! w with
                  | Some x => if decide ((stg x = Booted \/ stg x = Active) /\ halted x = false /\ batch x = 0)
                              then Some (upd w (mkW (part x) (stg x) (halted x) n (q x) (next x) (busy x)) [] s) else None
                  | None => None end
  | WSchedule w => match ws s !! w with
                   | Some x => match batch x with
                               | S n => Some (upd w (mkW (part x) (stg x) (halted x) n (q x ++ [(next x, None)]) (S (next x)) (busy x)) [] s)
                               | 0 => None end
                   | None => None end
  | WStale w => match ws s !! w with
                | Some x => match batch x with
                            | S n => Some (upd w (mkW (part x) (stg x) (halted x) n (q x) (next x) (busy x)) [] s)
                            | 0 => None end
                | None => None end
  | PLook w => match ws s !! w with
               | Some x => match look (negb (halted x)) (q x) with
                           | Some (c, l) => Some (upd w (mkW (part x) (stg x) (halted x) (batch x) l (next x) (busy x)) (if halted x then [] else [EvGrant w c]) s)
                           | None => None end
               | None => None end
  | WTake w => match ws s !! w with
               | Some x => match q x, busy x with
                           | (c, Some b) :: l, false =>
                               if decide (stg x = Active) then Some (upd w (mkW (part x) (stg x) (halted x) (batch x) l (next x) b) (if b then [EvBegin w c] else []) s) else None
                           | _, _ => None end
               | None => None end
  | WEnd w => match ws s !! w with
              | Some x => if busy x then Some (upd w (mkW (part x) (stg x) (halted x) (batch x) (q x) (next x) false) [EvEnd w] s) else None
              | None => None end
  | WOver w => match ws s !! w with
               | Some x => if decide (stg x = Active /\ halted x = true /\ batch x = 0 /\ q x = [] /\ busy x = false)
                           then Some (upd w (mkW (part x) Over (halted x) 0 [] (next x) false) [EvOver w] s) else None
               | None => None end
  end.
Fixpoint run (s : st) (acts : list action) : option st :=
  match acts with [] => Some s | a :: l => match step s a with Some s' => run s' l | None => None end end.
