(** Model of the pool of transactional producers, streams/eos_producer.go, with the parts of streams/partition_worker.go and
    streams/event_context.go that hand events to it. A transition system of: the partition workers (pushRecords and the handlers, any number),
    the goroutine forwardExecutionContexts, the goroutine commitLoop. Kafka is seen through the records handed to it and the ends of
    transactions. Left out: metrics, MarkCommitRecords (in Group.v), byte counts, timestamps, the 29 s context (a timeout is a failed commit), failures of
    BeginTransaction and of single records (reported on the error channel only; a commitLoop ended by them is one that takes no further step),
    the capacity of the channel buffer (1024; here unbounded, which only allows more). *)
From stdpp Require Import prelude list.
From Coq Require Import ZArith.
Open Scope nat_scope.

(** EventContext (event_context.go:35-50), the fixed part: a number to tell contexts apart, the worker it comes from, its partition, its offset
    (None: an interjection, Offset() = -1) *)
Record ec := mkEc { e_id : nat; e_w : nat; e_p : nat; e_off : option nat }.

(** a record given to ProduceRecord: by Forward or RecordChange (a number stands for it), or the commit record with its resume offset
    (commit_log.go: commitRecord, offset + 1) *)
Inductive orec := Out (r : nat) | Mark (w : nat).

(** producerNode (eos_producer.go:246-270). [n_ecs]: the events in currentPartitions, of all partitions together, oldest first; the list of a
    partition is the part of [n_ecs] with that partition. [n_pend] is recordsToProduce with the event instead of its partition. [n_txn] only
    records: the number of the transaction the events are in. *)
Record node := mkNode { n_ecs : list ec; n_pend : list (ec * orec); n_prod : nat; n_ev : nat; n_txn : nat }.

(** where forwardExecutionContexts is (eos_producer.go:144-205) *)
Inductive fpc :=
| FIdle                (* in select, line 164 *)
| FChecked (e : ec)    (* after line 145, found not revoked *)
| FAdded (e : ec)      (* after line 151 *)
| FOwned (e : ec)      (* after line 152 *)
| FTried               (* after line 153 *)
| FFlush               (* at tryFlush, line 181 *)
| FPush                (* blocked sending on commitQueue, line 185 *)
| FPop.                (* waiting for a free node, lines 186, 193 *)

(** where commitLoop is (eos_producer.go:207-240, 359-467) *)
Inductive kpc :=
| KIdle
| KFin (n : nat) (cur : list ec) (marked : bool) (todo : list nat)  (* in commit, lines 370-375: [todo] partitions not begun, [cur] events of the current one still to be waited for, in the order of the loop; [marked] is commitRecordProduced *)
| KEnded (n : nat)                                                  (* EndTransaction has returned and the waiters of line 398 are released *)
| KRel (n : nat) (todo : list nat)                                  (* in relinquishOwnership, holding the partition locks of the other nodes: line 446 *)
| KDead (n : nat).                                                  (* commit of n failed and the loop has ended (lines 220, 222) *)

(** what is recorded *)
Inductive ev :=
| EvArr (e : ec)                 (* given to the pool, partition_worker.go:173, 202 *)
| EvRej (e : ec)                 (* rejected because its worker is revoked, eos_producer.go:147 *)
| EvTake (e : ec)                (* received and found not revoked, line 145 *)
| EvAdd (t : nat) (e : ec)       (* made part of transaction t *)
| EvCall (t : nat) (e : ec) (r : orec)   (* ProduceRecord called *)
| EvSend (t : nat) (e : ec) (r : orec)   (* handed to the Kafka client in transaction t, line 521 *)
| EvDone (e : ec)                (* complete, event_context.go:187 *)
| EvEnd (t : nat) (ok : bool)    (* transaction t has ended: committed or aborted *)
| EvRevoke (w : nat)             (* the context of worker w is cancelled *)
| EvStop (w : nat).              (* worker w has stopped *)

Global Instance ec_eq : EqDecision ec. Proof. solve_decision. Defined.
Global Instance orec_eq : EqDecision orec. Proof. solve_decision. Defined.
Global Instance ev_eq : EqDecision ev. Proof. solve_decision. Defined.

(** EosConfig (eos_config.go:40-56) without BatchDelay: the timer may fire at any time *)
Record cfg := mkCfg { poolSize : nat; pendingTxn : nat; target : nat; maxBatch : nat }.

(** eosProducerPool (eos_producer.go:82-95) and the workers' shared parts *)
Record st := mkSt {
  narr : nat;                   (* event contexts made so far *)
  buffer : list ec;
  nodes : nat -> node;
  owners : nat -> option nat;   (* partitionOwners, lines 33-62 *)
  onDeck : nat;                 (* not meaningful in FPop *)
  queue : list nat;             (* commitQueue *)
  freeq : list nat;             (* producerNodeQueue *)
  fp : fpc;
  kp : kpc;
  given : list (nat * ec);      (* events whose producerChan got a node *)
  done : list ec;               (* events that are complete *)
  revoked : list nat;           (* workers whose context is cancelled *)
  closed : list nat;            (* workers whose pushRecords has seen that *)
  waits : nat -> Z;             (* revocationWaiter of each worker *)
  ntxn : nat;                   (* transactions begun; only records *)
  trace : list ev }.            (* only records *)

Definition set_narr v s := mkSt v (buffer s) (nodes s) (owners s) (onDeck s) (queue s) (freeq s) (fp s) (kp s) (given s) (done s) (revoked s) (closed s) (waits s) (ntxn s) (trace s).
Definition set_buffer v s := mkSt (narr s) v (nodes s) (owners s) (onDeck s) (queue s) (freeq s) (fp s) (kp s) (given s) (done s) (revoked s) (closed s) (waits s) (ntxn s) (trace s).
Definition set_nodes v s := mkSt (narr s) (buffer s) v (owners s) (onDeck s) (queue s) (freeq s) (fp s) (kp s) (given s) (done s) (revoked s) (closed s) (waits s) (ntxn s) (trace s).
Definition set_owners v s := mkSt (narr s) (buffer s) (nodes s) v (onDeck s) (queue s) (freeq s) (fp s) (kp s) (given s) (done s) (revoked s) (closed s) (waits s) (ntxn s) (trace s).
Definition set_onDeck v s := mkSt (narr s) (buffer s) (nodes s) (owners s) v (queue s) (freeq s) (fp s) (kp s) (given s) (done s) (revoked s) (closed s) (waits s) (ntxn s) (trace s).
Definition set_queue v s := mkSt (narr s) (buffer s) (nodes s) (owners s) (onDeck s) v (freeq s) (fp s) (kp s) (given s) (done s) (revoked s) (closed s) (waits s) (ntxn s) (trace s).
Definition set_freeq v s := mkSt (narr s) (buffer s) (nodes s) (owners s) (onDeck s) (queue s) v (fp s) (kp s) (given s) (done s) (revoked s) (closed s) (waits s) (ntxn s) (trace s).
Definition set_fp v s := mkSt (narr s) (buffer s) (nodes s) (owners s) (onDeck s) (queue s) (freeq s) v (kp s) (given s) (done s) (revoked s) (closed s) (waits s) (ntxn s) (trace s).
Definition set_kp v s := mkSt (narr s) (buffer s) (nodes s) (owners s) (onDeck s) (queue s) (freeq s) (fp s) v (given s) (done s) (revoked s) (closed s) (waits s) (ntxn s) (trace s).
Definition set_given v s := mkSt (narr s) (buffer s) (nodes s) (owners s) (onDeck s) (queue s) (freeq s) (fp s) (kp s) v (done s) (revoked s) (closed s) (waits s) (ntxn s) (trace s).
Definition set_done v s := mkSt (narr s) (buffer s) (nodes s) (owners s) (onDeck s) (queue s) (freeq s) (fp s) (kp s) (given s) v (revoked s) (closed s) (waits s) (ntxn s) (trace s).
Definition set_revoked v s := mkSt (narr s) (buffer s) (nodes s) (owners s) (onDeck s) (queue s) (freeq s) (fp s) (kp s) (given s) (done s) v (closed s) (waits s) (ntxn s) (trace s).
Definition set_closed v s := mkSt (narr s) (buffer s) (nodes s) (owners s) (onDeck s) (queue s) (freeq s) (fp s) (kp s) (given s) (done s) (revoked s) v (waits s) (ntxn s) (trace s).
Definition set_waits v s := mkSt (narr s) (buffer s) (nodes s) (owners s) (onDeck s) (queue s) (freeq s) (fp s) (kp s) (given s) (done s) (revoked s) (closed s) v (ntxn s) (trace s).
Definition set_ntxn v s := mkSt (narr s) (buffer s) (nodes s) (owners s) (onDeck s) (queue s) (freeq s) (fp s) (kp s) (given s) (done s) (revoked s) (closed s) (waits s) v (trace s).
Definition emits (es : list ev) s := mkSt (narr s) (buffer s) (nodes s) (owners s) (onDeck s) (queue s) (freeq s) (fp s) (kp s) (given s) (done s) (revoked s) (closed s) (waits s) (ntxn s) (trace s ++ es).
Definition emit (e : ev) s := emits [e] s.

Definition noNode : node := mkNode [] [] 0 0 0.
Definition upd {A} (n : nat) (x : A) (f : nat -> A) : nat -> A := fun m => if decide (m = n) then x else f m.
Definition setNode (n : nat) (x : node) (s : st) : st := set_nodes (upd n x (nodes s)) s.
(** WaitGroup.Add and Done of worker w; that the count does not get negative is not built in *)
Definition addWait (w : nat) (d : Z) (s : st) : st := set_waits (upd w (waits s w + d)%Z (waits s)) s.

(** the list of one partition in currentPartitions, and the keys *)
Definition ofPart (p : nat) (l : list ec) : list ec := filter (fun e => e_p e = p) l.
Definition parts (l : list ec) : list nat := remove_dups (map e_p l).

(** newEOSProducerPool, lines 97-133: node 0 on deck, the others free, in order; node i is followed by node i+1 mod PoolSize *)
Definition start (c : cfg) : st :=
  mkSt 0 [] (fun _ => noNode) (fun _ => None) 0 [] (seq 1 (poolSize c - 1)) FIdle KIdle [] [] [] [] (fun _ => 0%Z) 0 [].

(** ProduceRecord, lines 494-512, under produceLock of n. Looking up the owner and producing is one step: only n's own commit, or a commit that
    first takes n's produceLock, changes the owner of a partition n has events of, once it is set. *)
Definition produceRecord (n : nat) (e : ec) (r : orec) (s : st) : st :=
  let x := nodes s n in
  let s := emit (EvCall (n_txn x) e r) s in
  if decide (owners s (e_p e) = Some n)
  then emit (EvSend (n_txn x) e r) (setNode n (mkNode (n_ecs x) (n_pend x) (S (n_prod x)) (n_ev x) (n_txn x)) s)
  else setNode n (mkNode (n_ecs x) (n_pend x ++ [(e, r)]) (S (n_prod x)) (n_ev x) (n_txn x)) s.

(** produceKafkaRecord, lines 514-536, for several records of transaction t *)
Definition sendAll (t : nat) (l : list (ec * orec)) : list ev := map (fun er => EvSend t (fst er) (snd er)) l.

(** flushPartition, lines 469-480 *)
Definition flushPartition (m p : nat) (s : st) : st :=
  let x := nodes s m in
  emits (sendAll (n_txn x) (filter (fun er => e_p (fst er) = p) (n_pend x)))
    (setNode m (mkNode (n_ecs x) (filter (fun er => e_p (fst er) <> p) (n_pend x)) (n_prod x) (n_ev x) (n_txn x)) s).

(** producerNode.addEventContext, lines 296-324, on the node on deck *)
Definition addEc (e : ec) (s : st) : st :=
  let x := nodes s (onDeck s) in
  let new := n_ev x =? 0 in
  let t := if new then ntxn s else n_txn x in
  let s1 := if decide (e_p e ∈ map e_p (n_ecs x)) then s else addWait (e_w e) 1 s in
  emit (EvAdd t e) (set_ntxn (if new then S (ntxn s) else ntxn s)
    (setNode (onDeck s) (mkNode (n_ecs x ++ [e]) (n_pend x) (n_prod x) (S (n_ev x)) t) s1)).

(** partitionOwners.conditionallyUpdate, lines 50-56 *)
Definition claim (p n : nat) (s : st) : st := match owners s p with Some _ => s | None => set_owners (upd p (Some n) (owners s)) s end.

(** the nodes after n on the ring of k nodes *)
Definition ring (k n : nat) : list nat := map (fun i => (n + i) mod k) (seq 1 (k - 1)).
Definition holds (s : st) (p m : nat) : bool := bool_decide (p ∈ map e_p (n_ecs (nodes s m))).
(** relinquishOwnership for one partition, lines 447-462 *)
Definition relinquish (k n p : nat) (s : st) : st :=
  let s1 := match List.find (holds s p) (ring k n) with
            | Some m => set_owners (upd p (Some m) (owners s)) (flushPartition m p s)
            | None => set_owners (upd p None (owners s)) s
            end in
  let x := nodes s1 n in
  setNode n (mkNode (filter (fun e => e_p e <> p) (n_ecs x)) (n_pend x) (n_prod x) (n_ev x) (n_txn x)) s1.

(** clearState, lines 397-398, for the partitions [ps] of a node with events [l] *)
Definition releaseRoots (l : list ec) (ps : list nat) (s : st) : st :=
  fold_right (fun p s' => match ofPart p l with e :: _ => addWait (e_w e) (-1) s' | [] => s' end) s ps.

Inductive action :=
| AArrive (w p : nat) (o : option nat)  (* a worker makes an event context and gives it to the pool, partition_worker.go:171-173, 199-202. The waiter is
                                           incremented earlier, for the whole batch (:168); a worker leaves its loop only between batches *)
| ARevoke (w : nat)                     (* partitionWorker.revoke, :129-131 *)
| AClose (w : nat)                      (* pushRecords leaves its loop, :150-152 *)
| AStop (w : nat)                       (* waitForRevocation returns and the worker stops, :253-256, 246-248 *)
| HProduce (n : nat) (e : ec) (r : nat) (* a handler of e calls Forward or RecordChange, having received its producer n and not yet completed *)
| HDone (n : nat) (e : ec)              (* a handler completes e, synchronously or not *)
| FTake | FAdd | FOwn | FSend | FTry | FTick | FDo | FPushed | FSwap
| KStart | KPick (p : nat) | KWait | KEnd | KLock | KRelinq (p : nat) | KFree
| KFail (ok : bool)                     (* commit returns an error and the error handler ends the loop; [ok]: Kafka committed nevertheless *)
| KSkip.                                (* commit returns an error and the error handler says Continue *)

Section Step.
Context (c : cfg).
(** lines 174, 178 *)
Definition full (x : node) : nat := n_ev x `max` n_prod x.
Definition step (s : st) (a : action) : option st :=
  match a with
  | AArrive w p o =>
    if decide (w ∈ closed s) then None
    else let e := mkEc (narr s) w p o in Some (emit (EvArr e) (addWait w 1 (set_buffer (buffer s ++ [e]) (set_narr (S (narr s)) s))))
  | ARevoke w => if decide (w ∈ revoked s) then None else Some (emit (EvRevoke w) (set_revoked (w :: revoked s) s))
  | AClose w => if decide (w ∈ revoked s /\ w ∉ closed s) then Some (set_closed (w :: closed s) s) else None
  | AStop w => if decide (w ∈ closed s /\ waits s w = 0%Z /\ EvStop w ∉ trace s) then Some (emit (EvStop w) s) else None
  | HProduce n e r => if decide ((n, e) ∈ given s /\ e ∉ done s) then Some (produceRecord n e (Out r) s) else None
  | HDone n e => if decide ((n, e) ∈ given s /\ e ∉ done s) then Some (emit (EvDone e) (set_done (e :: done s) s)) else None
  | FTake => (* lines 165, 145-150 *)
    match fp s, buffer s with
    | FIdle, e :: b =>
      Some (if decide (e_w e ∈ revoked s)
            then emit (EvRej e) (addWait (e_w e) (-1) (set_buffer b s))
            else emit (EvTake e) (set_fp (FChecked e) (set_buffer b s)))
    | _, _ => None
    end
  | FAdd => (* line 151; relinquishOwnership holds the partitionLock of the node on deck *)
    match fp s, kp s with
    | FChecked _, KRel _ _ => None
    | FChecked e, _ => Some (set_fp (FAdded e) (addEc e s))
    | _, _ => None
    end
  | FOwn => match fp s with FAdded e => Some (set_fp (FOwned e) (claim (e_p e) (onDeck s) s)) | _ => None end
  | FSend => match fp s with FOwned e => Some (set_fp FTried (set_given ((onDeck s, e) :: given s) s)) | _ => None end
  | FTry => match fp s with FTried => Some (set_fp (if target c <=? full (nodes s (onDeck s)) then FFlush else FIdle) s) | _ => None end
  | FTick => match fp s with FIdle => Some (set_fp FFlush s) | _ => None end
  | FDo => (* tryFlush, lines 181-205 *)
    match fp s with
    | FFlush =>
      let x := nodes s (onDeck s) in
      Some (if full x =? maxBatch c then set_fp FPush s
            else if 0 <? n_ev x then if length (queue s) <? pendingTxn c then set_fp FPop (set_queue (queue s ++ [onDeck s]) s) else set_fp FIdle s
            else set_fp FIdle s)
    | _ => None
    end
  | FPushed => match fp s with FPush => if length (queue s) <? pendingTxn c then Some (set_fp FPop (set_queue (queue s ++ [onDeck s]) s)) else None | _ => None end
  | FSwap => match fp s, freeq s with FPop, m :: q => Some (set_fp FIdle (set_onDeck m (set_freeq q s))) | _, _ => None end
  | KStart => (* lines 211-212, 361-369: flushRemaining (482-492) does not empty recordsToProduce *)
    match kp s, queue s with
    | KIdle, n :: q =>
      let x := nodes s n in
      let ps := parts (n_ecs x) in
      Some (set_kp (KFin n [] false ps) (set_owners (fun p => if decide (p ∈ ps) then Some n else owners s p)
             (emits (sendAll (n_txn x) (n_pend x)) (set_queue q s))))
    | _, _ => None
    end
  | KPick p => (* lines 370-371 *)
    match kp s with
    | KFin n [] _ todo => if decide (p ∈ todo) then Some (set_kp (KFin n (rev (ofPart p (n_ecs (nodes s n)))) false (filter (fun q => q <> p) todo)) s) else None
    | _ => None
    end
  | KWait => (* one turn of the loop in finalizeEventContexts, lines 339-355 *)
    match kp s with
    | KFin n (e :: cur) marked todo =>
      if decide (e ∈ done s)
      then match marked, e_off e with
           | false, Some o => Some (set_kp (KFin n cur true todo) (addWait (e_w e) (-1) (produceRecord n e (Mark (S o)) s)))
           | _, _ => Some (set_kp (KFin n cur marked todo) (addWait (e_w e) (-1) s))
           end
      else None
    | _ => None
    end
  | KEnd => (* lines 376-398 *)
    match kp s with
    | KFin n [] _ [] =>
      let x := nodes s n in
      Some (set_kp (KEnded n) (emit (EvEnd (n_txn x) (0 <? n_prod x)) (releaseRoots (n_ecs x) (parts (n_ecs x)) s)))
    | _ => None
    end
  | KLock => (* lines 443-445 *)
    match kp s with
    | KEnded n => Some (set_kp (KRel n (parts (n_ecs (nodes s n)))) s)
    | _ => None
    end
  | KRelinq p =>
    match kp s with
    | KRel n todo => if decide (p ∈ todo) then Some (set_kp (KRel n (filter (fun q => q <> p) todo)) (relinquish (poolSize c) n p s)) else None
    | _ => None
    end
  | KFree => (* lines 424-429, 238 *)
    match kp s with
    | KRel n [] => let x := nodes s n in Some (set_kp KIdle (set_freeq (freeq s ++ [n]) (setNode n (mkNode (n_ecs x) [] 0 0 (n_txn x)) s)))
    | _ => None
    end
  | KFail ok => (* lines 371-374, 376-380, 385-389, 215-222 *)
    match kp s with
    | KFin n cur _ todo =>
      let x := nodes s n in
      if ok && negb (match cur, todo with [], [] => 0 <? n_prod x | _, _ => false end) then None
      else Some (set_kp (KDead n) (emit (EvEnd (n_txn x) ok) s))
    | _ => None
    end
  | KSkip => (* the same, and the node is not given back *)
    match kp s with
    | KFin n _ _ _ => Some (set_kp KIdle (emit (EvEnd (n_txn (nodes s n)) false) s))
    | _ => None
    end
  end.
Fixpoint run (s : st) (acts : list action) : option st :=
  match acts with [] => Some s | a :: acts' => match step s a with Some s' => run s' acts' | None => None end end.
End Step.
