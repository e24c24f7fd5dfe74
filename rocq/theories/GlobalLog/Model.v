(** streams/global_change_log.go:34-136 (GlobalChangeLog): one consumer of all partitions of a topic that forwards each record to its receiver.
    A record is its partition and its offset; the offsets of a partition have no gaps (no compaction; see C96 for what that changes).
    The kafka client is trusted to do what its documentation says: a poll returns records of partitions that are not paused, in order, from the position
    on, and advances it; a pause or a new position holds for every poll that returns later (records buffered in the client are dropped).
    Left out: fetch errors (logged, lines 120-124), what the receiver does (an error it returns is logged and nothing else, lines 131-136), a position
    outside of the partition, and marker records (they are forwarded like others). *)
From stdpp Require Import prelude list.
Open Scope nat_scope.

(** A goroutine in consume, lines 113-129 *)
Inductive gor :=
| Top                                (* at the head of the loop *)
| Polling                            (* in pollConsumer, source.go:36-41 *)
| Batch (l : list (nat * nat))       (* in EachRecord: the records not yet forwarded *)
| Ended.
Record st := mkSt {
  len : nat -> nat;                  (* how many records a partition of the topic has *)
  pos : nat -> nat;                  (* the client's position *)
  paused : nat -> bool;
  running : bool;                    (* runStatus.Running() *)
  closed : bool;                     (* the client is closed *)
  gs : list gor;                     (* one for each call of Start *)
  out : list (nat * nat)             (* the calls of receiver.ReceiveChange *)
}.
(** NewGlobalChangeLogWithRunStatus, lines 53-78: all partitions from their start *)
Definition init : st := mkSt (fun _ => 0) (fun _ => 0) (fun _ => false) true false [] [].

Definition set {A} (f : nat -> A) (p : nat) (a : A) : nat -> A := fun q => if Nat.eqb q p then a else f q.
(** The records that a poll returns for [(p, k)]: k records of partition p, from the position on *)
Definition records (s : st) (x : nat * nat) : list (nat * nat) := pair (fst x) <$> seq (pos s (fst x)) (snd x).
Definition advance (f : nat -> nat) (l : list (nat * nat)) : nat -> nat := foldr (fun x f => set f (fst x) (f (fst x) + snd x)) f l.

Inductive action :=
| Append (p : nat)                   (* somebody writes to the topic *)
| Start                              (* lines 109-111 *)
| Stop                               (* lines 105-107 *)
| Pause (p : nat)                    (* lines 90-92 *)
| PauseAll                           (* PauseAllPartitions, lines 81-87 *)
| ResumeAt (p o : nat)               (* ResumePartitionAt, lines 95-103; SetOffsets and ResumeFetchPartitions in one step *)
| Check (g : nat)                    (* lines 114, 127-128: the head of the loop *)
| Return (g : nat) (l : list (nat * nat)) (* pollConsumer returns; partition and number of records *)
| Forward (g : nat).                 (* forwardChange for the next record, or the end of EachRecord *)

(** [n]: numPartitions *)
Definition step (n : nat) (s : st) (a : action) : option st :=
  match a with
  | Append p => Some (mkSt (set (len s) p (S (len s p))) (pos s) (paused s) (running s) (closed s) (gs s) (out s))
  | Start => Some (mkSt (len s) (pos s) (paused s) (running s) (closed s) (gs s ++ [Top]) (out s))
  | Stop => Some (mkSt (len s) (pos s) (paused s) false (closed s) (gs s) (out s))
  | Pause p => Some (mkSt (len s) (pos s) (set (paused s) p true) (running s) (closed s) (gs s) (out s))
  | PauseAll => Some (mkSt (len s) (pos s) (fun p => if p <? n then true else paused s p) (running s) (closed s) (gs s) (out s))
  | ResumeAt p o => if p <? n then Some (mkSt (len s) (set (pos s) p o) (set (paused s) p false) (running s) (closed s) (gs s) (out s))
                    else Some s (* the client does not consume it *)
  | Check g => match gs s !! g with
               | Some Top => Some (if running s then mkSt (len s) (pos s) (paused s) (running s) (closed s) (<[g := Polling]> (gs s)) (out s)
                                   else mkSt (len s) (pos s) (paused s) (running s) true (<[g := Ended]> (gs s)) (out s))
               | _ => None end
  | Return g l => match gs s !! g with
                  | Some Polling =>
                      if closed s then (* IsClientClosed, lines 116-119 *)
                        match l with [] => Some (mkSt (len s) (pos s) (paused s) (running s) (closed s) (<[g := Ended]> (gs s)) (out s)) | _ => None end
                      else if decide (NoDup (fst <$> l) /\ Forall (fun x => fst x < n /\ paused s (fst x) = false /\ pos s (fst x) + snd x <= len s (fst x)) l)
                           then Some (mkSt (len s) (advance (pos s) l) (paused s) (running s) (closed s) (<[g := Batch (l ≫= records s)]> (gs s)) (out s))
                           else None
                  | _ => None end
  | Forward g => match gs s !! g with
                 | Some (Batch (x :: l)) => Some (mkSt (len s) (pos s) (paused s) (running s) (closed s) (<[g := Batch l]> (gs s)) (out s ++ [x]))
                 | Some (Batch []) => Some (mkSt (len s) (pos s) (paused s) (running s) (closed s) (<[g := Top]> (gs s)) (out s))
                 | _ => None end
  end.
Fixpoint run (n : nat) (s : st) (acts : list action) : option st :=
  match acts with [] => Some s | a :: l => match step n s a with Some s' => run n s' l | None => None end end.

(** The offsets of partition p in a list of records *)
Definition of_part (p : nat) (l : list (nat * nat)) : list nat := snd <$> List.filter (fun x => Nat.eqb (fst x) p) l.
