(** * Producer: Produce and ProduceAsync

    streams/producer.go:59-83, record.go:80-82, 186-189, 216-219, 237-255, topics.go:114-119.  A topic is a number, 0 is the empty string; a partition is [None] for AutoAssign.
    Records are mutable and shared: WithTopic changes the record itself (record.go:186-189), and toKafkaRecord gives the client a pointer into it (record.go:254), so that the
    client writes the partition that it has chosen into the record (kgo: "Partition is the partition that a record is written to", set by the client when it produces).
    The client reads the topic when Produce is called; it chooses the partition later, with the OptionalPartitioner of record.go:399-404, and calls the promise once when
    the record is written or has failed.  Keys, values and headers are in Record.  Release of a record is not modelled: the caller owns it. *)
From stdpp Require Import prelude list.
Open Scope nat_scope.

Record rec := mkRec { topic : nat; part : option nat }.
Inductive stage := Queued | Wired | Answered (err : option nat) | Returned.
#[global] Instance stage_dec : EqDecision stage. Proof. solve_decision. Defined.
(** a call: the producer, the record, whether it is Produce, the topic for the client *)
Record call := mkCall { prod : nat; rc : nat; sync : bool; to : nat; stg : stage }.

Inductive ev :=
| EvWire (i : nat) (t : nat) (p : nat)            (* the record of call i is sent to topic t, partition p *)
| EvCallback (i : nat) (err : option nat)         (* the callback of the caller of ProduceAsync *)
| EvReturn (i : nat) (err : option nat).          (* Produce returns *)
#[global] Instance ev_dec : EqDecision ev. Proof. solve_decision. Defined.
Record st := mkSt { recs : list rec; calls : list call; trace : list ev }.
Definition init : st := mkSt [] [] [].

Inductive action :=
| New                                             (* NewRecord, record.go:80-82 *)
| SetTopic (r t : nat) | SetPart (r : nat) (p : option nat)   (* WithTopic, WithPartition by the user, record.go:186-189, 216-219 *)
| Call (j r : nat) (sync : bool)                  (* producer j: Produce, ProduceAsync *)
| Wire (i pick : nat)                             (* the client sends; pick: what the default partitioner chooses *)
| Promise (i : nat) (err : option nat)            (* the client calls the promise, producer.go:78-82 *)
| Return (i : nat).                               (* producer.go:68 *)

(** producer.go:59-83; [defaults]: the DefaultTopic of each producer *)
Definition step (defaults : list nat) (s : st) (a : action) : option st :=
  match a with
  | New => Some (mkSt (recs s ++ [mkRec 0 None]) (calls s) (trace s))
  | SetTopic r t => match recs s !! r with Some x => Some (mkSt (<[r := mkRec t (part x)]> (recs s)) (calls s) (trace s)) | None => None end
  | SetPart r p => match recs s !! r with Some x => Some (mkSt (<[r := mkRec (topic x) p]> (recs s)) (calls s) (trace s)) | None => None end
  | Call j r b => match defaults !! j, recs s !! r with
                  | Some d, Some x => let t := if topic x =? 0 then d else topic x in          (* producer.go:75-77 *)
                      Some (mkSt (<[r := mkRec t (part x)]> (recs s)) (calls s ++ [mkCall j r b t Queued]) (trace s))
                  | _, _ => None end
  | Wire i pick => match calls s !! i with
                   | Some c => match stg c, recs s !! rc c with
                               | Queued, Some x => let p := match part x with Some p => p | None => pick end in
                                   Some (mkSt (<[rc c := mkRec (topic x) (Some p)]> (recs s)) (<[i := mkCall (prod c) (rc c) (sync c) (to c) Wired]> (calls s)) (trace s ++ [EvWire i (to c) p]))
                               | _, _ => None end
                   | None => None end
  | Promise i e => match calls s !! i with
                   | Some c => match stg c, e with
                               | Wired, _ | Queued, Some _ =>                                  (* a record that has not been sent has failed *)
                                   Some (mkSt (recs s) (<[i := mkCall (prod c) (rc c) (sync c) (to c) (Answered e)]> (calls s)) (trace s ++ (if sync c then [] else [EvCallback i e])))
                               | _, _ => None end
                   | None => None end
  | Return i => match calls s !! i with
                | Some c => match stg c, sync c with
                            | Answered e, true => Some (mkSt (recs s) (<[i := mkCall (prod c) (rc c) (sync c) (to c) Returned]> (calls s)) (trace s ++ [EvReturn i e]))
                            | _, _ => None end
                | None => None end
  end.
Fixpoint run (d : list nat) (s : st) (acts : list action) : option st :=
  match acts with [] => Some s | a :: l => match step d s a with Some s' => run d s' l | None => None end end.
