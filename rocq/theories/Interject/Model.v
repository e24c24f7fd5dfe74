(** Model of interjections on one assigned partition: streams/interjection.go, the interjection parts of
    streams/partition_worker.go, and Interject of streams/source_consumer.go.
    The timer goroutines, the pushRecords goroutine, the work goroutine, callers of Interject and completions of
    asynchronous work are separate step kinds. Events other than interjections, transactions and the limit on
    pending items are left out: they can only delay the steps below. *)
From Coq Require Import List Bool Arith.
Import ListNotations.

(** scheduled interjections (event_source.go:305, one copy per partition, partition_worker.go:227) and one-off ones *)
Inductive ij := Sched (n : nat) | Once (n : nat).
Definition ij_eq_dec (a b : ij) : {a = b} + {a <> b}.
Proof. decide equality; apply Nat.eq_dec. Defined.
Definition isOneOff (i : ij) : bool := match i with Once _ => true | Sched _ => false end.

Record st := mkSt {
  timers : list ij;     (* armed timers *)
  senders : list ij;    (* timer goroutines in the select of interjection.go:73-80 *)
  chan : list ij;       (* interjectionInput, capacity 1 *)
  evq : list ij;        (* interjectionEventInput, capacity 1 *)
  pending : list ij;    (* returned Incomplete, completion outstanding *)
  signals : list ij;    (* cancelSignal holds an element *)
  runs : list ij;       (* history of interjector calls *)
  resolved : list ij;   (* one-off ones whose channel has been closed or has been given an error *)
  fresh : nat;          (* number of one-off interjections so far *)
  scheduled : nat;      (* number of scheduled interjections *)
  assigned : bool;      (* the worker is in eventSourceConsumer.workers *)
  revoked : bool;       (* runStatus halted, partition_worker.go:129-131 *)
  pushing : bool;       (* pushRecords is in its loop *)
  stopped : bool        (* the stop signal has been handled *)
}.
(** partition_worker.go:225-231: every scheduled interjection is initialised and its timer armed. Before that point (ready = 0)
    Interject answers as for an unassigned partition (source_consumer.go:297-301); those calls are left out. *)
Definition start (n : nat) : st :=
  mkSt (map Sched (seq 0 n)) [] [] [] [] [] [] [] 0 n true false true false.

Fixpoint rem1 (i : ij) (l : list ij) : list ij :=
  match l with [] => [] | x :: l' => if ij_eq_dec x i then l' else x :: rem1 i l' end.
Definition mem (i : ij) (l : list ij) : bool := if in_dec ij_eq_dec i l then true else false.

Inductive action :=
| AInterject                                (* a call of Interject *)
| AFire (i : ij)                            (* a timer runs out *)
| ASend (i : ij)                            (* its goroutine sends *)
| ADrop (i : ij)                            (* its goroutine sees the cancel signal *)
| APush                                     (* pushRecords (or interleaveInterjection) takes an interjection *)
| AExit                                     (* pushRecords sees that the run status is done *)
| AStop                                     (* the work goroutine takes the stop signal *)
| AHandle (granted : bool) (sync : bool)    (* handleInterjection; sync: the interjector returns Complete *)
| AAsync (i : ij)                           (* an asynchronous completion is processed *)
| ARevoke.                                  (* the partition is revoked *)

(** interjection.go:65-82 *)
Definition tick (i : ij) (l : list ij) : list ij := if isOneOff i then l else l ++ [i].

Definition step (s : st) (a : action) : option st :=
  let '(mkSt ti se ch ev pe si ru re fr sc asg rv pu sp) := s in
  match a with
  | AInterject => (* source_consumer.go:289-312 *)
      if asg then
        if length ch <? 1 then Some (mkSt ti se (ch ++ [Once fr]) ev pe si ru re (S fr) sc asg rv pu sp) else None
      else Some (mkSt ti se ch ev pe si ru (re ++ [Once fr]) (S fr) sc asg rv pu sp)
  | AFire i => if mem i ti then Some (mkSt (rem1 i ti) (se ++ [i]) ch ev pe si ru re fr sc asg rv pu sp) else None
  | ASend i => (* interjection.go:74-76 *)
      if mem i se && (length ch <? 1) then Some (mkSt ti (rem1 i se) (ch ++ [i]) ev pe si ru re fr sc asg rv pu sp) else None
  | ADrop i => (* interjection.go:77-78 *)
      if mem i se && mem i si then Some (mkSt ti (rem1 i se) ch ev pe (rem1 i si) ru re fr sc asg rv pu sp) else None
  | APush => (* partition_worker.go:148-149, 184-204; callback is never set, so the revoked branch only drops *)
      match ch with
      | i :: ch' =>
          if pu then
            if rv then Some (mkSt ti se ch' ev pe si ru re fr sc asg rv pu sp)
            else if length ev <? 1 then Some (mkSt ti se ch' (ev ++ [i]) pe si ru re fr sc asg rv pu sp) else None
          else None
      | [] => None
      end
  | AExit => (* partition_worker.go:150-152 *)
      if pu && rv then Some (mkSt ti se ch ev pe si ru re fr sc asg rv false sp) else None
  | AStop => (* partition_worker.go:241-244, interjection.go:84-92 *)
      if negb pu && negb sp then
        Some (mkSt (filter isOneOff ti) se ch ev pe (map Sched (seq 0 sc)) ru re fr sc asg rv pu true) else None
  | AHandle granted sync => (* partition_worker.go:269-282, source_consumer.go:305-309; no producer is handed out only
                               to revoked partitions, eos_producer.go:145-150 *)
      match ev with
      | i :: ev' =>
          if granted then
            let re' := if isOneOff i then re ++ [i] else re in
            if sync then Some (mkSt (tick i ti) se ch ev' pe si (ru ++ [i]) re' fr sc asg rv pu sp)
            else Some (mkSt ti se ch ev' (pe ++ [i]) si (ru ++ [i]) re' fr sc asg rv pu sp)
          else if rv then Some (mkSt ti se ch ev' pe si ru re fr sc asg rv pu sp) else None
      | [] => None
      end
  | AAsync i => (* partition_worker.go:258-263 *)
      if mem i pe then Some (mkSt ti se ch ev (rem1 i pe) si ru re fr sc asg rv pu sp) else None
  | ARevoke => (* source_consumer.go:225-242 *)
      Some (mkSt ti se ch ev pe si ru re fr sc false true pu sp)
  end.
Fixpoint run (s : st) (acts : list action) : option st :=
  match acts with
  | [] => Some s
  | a :: acts' => match step s a with Some s' => run s' acts' | None => None end
  end.
