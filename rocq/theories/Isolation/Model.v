(** How the records of one poll reach the workers of their partitions, and what one worker can do to the others:
    streams/source_consumer.go:190-223 (assignPartitions), 225-242 (revokePartitions), 258-266 (receive), 270-286 (start),
    streams/partition_worker.go:121-131 (add, revoke), 141-182 (pushRecords, scheduleTxnAndExecution), 206-251 (work), 284-317 (handleEvent).
    One consumer with any number of partitions of its topic. A record is modelled by the fact that it exists; a batch by its length.
    Left out: interjections, asynchronous completions, maxPending and the producers (they only make a worker wait longer: C22, C33, C92), stale
    records (C24), the closing of a worker's channels (C80; in this model a worker that is revoked goes on to take its batches and drops them), and the
    moment between the look-up and the check of isRevoked in add (a worker revoked there gets nothing). *)
From stdpp Require Import prelude list.
Open Scope nat_scope.

(** What the goroutine that runs work (partition_worker.go:206-251) has done *)
Inductive stage :=
| Fresh                (* it has not run yet *)
| Waiting              (* it has paused its partition (lines 212-214) and waits for commitLog.lastProcessed and the state store (217-219) *)
| Running.             (* it has resumed its partition (220-222) and started pushRecords (224) *)
#[global] Instance stage_dec : EqDecision stage. Proof. solve_decision. Defined.

(** partitionWorker, partition_worker.go:61-79 *)
Record worker := mkW {
  part : nat;          (* topicPartition.Partition *)
  stg : stage;
  revoked : bool;      (* runStatus is halted *)
  q : list nat;        (* partitionInput, capacity 4 (line 105): the batches, oldest first *)
  cur : nat;           (* records of the batch in scheduleTxnAndExecution that have not got into eventInput *)
  ev : nat;            (* eventInput *)
  busy : bool;         (* the handler of the application is at work *)
  handled : nat        (* how many events were given to the handler so far *)
}.
(** sc.client: which partitions are paused; sc.workers; the loop in start: the batches of the poll that have not been dealt with, and the worker whose
    add has been called for the first of them, if it has not returned *)
Record st := mkSt { ws : list worker; live : list (nat * nat) (* sc.workers: partition, index in ws *); paused : list nat;
                    rest : list (nat * nat) (* partition, length *); adding : option (nat * nat) (* worker, length *) }.
Definition init : st := mkSt [] [] [] [] None.

(** make(chan []*kgo.Record, 4), partition_worker.go:105 *)
Definition inputCap := 4.
Definition find (p : nat) (l : list (nat * nat)) : option nat := snd <$> (head (List.filter (fun x => Nat.eqb (fst x) p) l)).
Definition drop (p : nat) (l : list (nat * nat)) : list (nat * nat) := List.filter (fun x => negb (Nat.eqb (fst x) p)) l.

Inductive action :=
| Assign (p : nat)                     (* assignPartitions, for a partition that has no worker *)
| Revoke (p : nat)                     (* revokePartitions *)
| Pause (w : nat)                      (* work pauses the partition *)
| Resume (w : nat)                     (* lastProcessed and the state store are done; work resumes the partition and starts pushRecords *)
| Poll (l : list (nat * nat))          (* pollConsumer returns: batches of partitions that are not paused, at most one for each *)
| Receive                              (* receive for the next batch: looks up the worker and calls add *)
| Add                                  (* the send to partitionInput succeeds *)
| Take (w : nat)                       (* pushRecords receives the next batch *)
| Push (w : nat)                       (* scheduleTxnAndExecution: one record is put into eventInput *)
| Handle (w : nat)                     (* work takes an event and calls the handler *)
| Return (w : nat).                    (* the handler returns *)

Definition upd (w : nat) (x : worker) (s : st) : st := mkSt (<[w := x]> (ws s)) (live s) (paused s) (rest s) (adding s).

(** [cap]: capacity of eventInput, max(MaxBatchSize/10, 100), partition_worker.go:91, 106. None: the step can not happen now *)
Definition step (cap : nat) (s : st) (a : action) : option st :=
  match a with
  | Assign p => match find p (live s) with
                | Some _ => None
                | None => Some (mkSt (ws s ++ [mkW p Fresh false [] 0 0 false 0]) ((p, length (ws s)) :: live s) (paused s) (rest s) (adding s)) end
  | Revoke p => match find p (live s) with
                | Some w => match ws s !! w with
                            | Some x => Some (mkSt (<[w := mkW (part x) (stg x) true (q x) (cur x) (ev x) (busy x) (handled x)]> (ws s))
                                                   (drop p (live s)) (paused s) (rest s) (adding s))
                            | None => None end
                | None => None end
  | Pause w => match ws s !! w with
               | Some x => if decide (stg x = Fresh) then
                   Some (mkSt (<[w := mkW (part x) Waiting (revoked x) (q x) (cur x) (ev x) (busy x) (handled x)]> (ws s))
                              (live s) (part x :: paused s) (rest s) (adding s)) else None
               | None => None end
  | Resume w => match ws s !! w with
                | Some x => if decide (stg x = Waiting) then
                    Some (mkSt (<[w := mkW (part x) Running (revoked x) (q x) (cur x) (ev x) (busy x) (handled x)]> (ws s))
                               (live s) (List.filter (fun p => negb (Nat.eqb p (part x))) (paused s)) (rest s) (adding s)) else None
                | None => None end
  | Poll l => match rest s, adding s with
              | [], None => if decide (NoDup (fst <$> l) /\ Forall (fun x => fst x ∉ paused s) l) then Some (mkSt (ws s) (live s) (paused s) l None) else None
              | _, _ => None end
  | Receive => match rest s, adding s with
               | (p, n) :: l, None =>
                   match find p (live s), n with
                   | Some w, S _ => Some (mkSt (ws s) (live s) (paused s) l (Some (w, n)))
                   | _, _ => Some (mkSt (ws s) (live s) (paused s) l None) end
               | _, _ => None end
  | Add => match adding s with
           | Some (w, n) => match ws s !! w with
                            | Some x => if decide (length (q x) < inputCap) then
                                Some (mkSt (<[w := mkW (part x) (stg x) (revoked x) (q x ++ [n]) (cur x) (ev x) (busy x) (handled x)]> (ws s))
                                           (live s) (paused s) (rest s) None) else None
                            | None => None end
           | None => None end
  | Take w => match ws s !! w with
              | Some x => match q x, cur x with
                          | n :: l, 0 => if decide (stg x = Running) then
                              (* isRevoked: the batch is dropped, partition_worker.go:144-147 *)
                              Some (upd w (mkW (part x) (stg x) (revoked x) l (if revoked x then 0 else n) (ev x) (busy x) (handled x)) s) else None
                          | _, _ => None end
              | None => None end
  | Push w => match ws s !! w with
              | Some x => match cur x with
                          | S c => if decide (ev x < cap) then
                              Some (upd w (mkW (part x) (stg x) (revoked x) (q x) c (S (ev x)) (busy x) (handled x)) s) else None
                          | 0 => None end
              | None => None end
  | Handle w => match ws s !! w with
                | Some x => match ev x, busy x with
                            | S e, false => Some (upd w (mkW (part x) (stg x) (revoked x) (q x) (cur x) e true (S (handled x))) s)
                            | _, _ => None end
                | None => None end
  | Return w => match ws s !! w with
                | Some x => if busy x then Some (upd w (mkW (part x) (stg x) (revoked x) (q x) (cur x) (ev x) false (handled x)) s) else None
                | None => None end
  end.
Fixpoint run (cap : nat) (s : st) (acts : list action) : option st :=
  match acts with [] => Some s | a :: l => match step cap s a with Some s' => run cap s' l | None => None end end.

(** The poll loop stands in add, and the worker can not take the batch *)
Definition blockedAt (s : st) (w : nat) : Prop := exists n x, adding s = Some (w, n) /\ ws s !! w = Some x /\ inputCap <= length (q x).
