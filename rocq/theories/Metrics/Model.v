(** Model of metric emission: streams/event_source.go:73-76, 119-146, streams/eos_producer.go:410-421,
    streams/source_consumer.go:159-168. Times are integers, 0 standing for the zero time. *)
From Coq Require Import List ZArith Bool.
Import ListNotations.

(** streams/metric.go:22-33, only the fields that emitMetrics reads or writes; [mBody] is the rest *)
Record metric := mkM { StartTime : Z; ExecuteTime : Z; mBody : nat }.

(** the metrics channel (None: no MetricsHandler was configured), the consumer of it and what the handler was given *)
Record st := mkSt { buf : list metric; closed : bool; halted : bool; handled : list metric }.
Definition capacity : nat := 2048.
Definition start : st := mkSt [] false false [].

Inductive out := ODone | ODropped | OBlocked | OPanic.
Inductive action :=
| AEmit (m : metric)     (* EventSource.EmitMetric *)
| ACommit (m : metric)   (* the metric of a finished transaction or a prepared partition *)
| AConsume               (* emitMetrics receives one *)
| AHalt                  (* the event source's run status is halted *)
| AClose.                (* emitMetrics sees that and closes the channel *)

(** event_source.go:136-140 *)
Definition handle (m : metric) : metric := if Z.eqb (ExecuteTime m) 0 then mkM (StartTime m) (StartTime m) (mBody m) else m.

(** None: the step is not possible in this state. A blocked sender leaves the state as it is. *)
Definition step (s : st) (a : action) : option (out * st) :=
  match a with
  | AEmit m => (* event_source.go:119-127; a select with a ready or closed send case never takes the default *)
      if closed s then Some (OPanic, s)
      else if length (buf s) <? capacity then Some (ODone, mkSt (buf s ++ [m]) (closed s) (halted s) (handled s))
      else Some (ODropped, s)
  | ACommit m => (* eos_producer.go:411, source_consumer.go:160 *)
      if closed s then Some (OPanic, s)
      else if length (buf s) <? capacity then Some (ODone, mkSt (buf s ++ [m]) (closed s) (halted s) (handled s))
      else Some (OBlocked, s)
  | AConsume => (* event_source.go:136-140 *)
      if closed s then None
      else match buf s with [] => None | m :: b => Some (ODone, mkSt b (closed s) (halted s) (handled s ++ [handle m])) end
  | AHalt => Some (ODone, mkSt (buf s) (closed s) true (handled s))
  | AClose => (* event_source.go:141-143 *)
      if halted s && negb (closed s) then Some (ODone, mkSt (buf s) true (halted s) (handled s)) else None
  end%nat.
Fixpoint run (s : st) (acts : list action) : option (list out * st) :=
  match acts with
  | [] => Some ([], s)
  | a :: acts' =>
      match step s a with
      | Some (o, s1) => match run s1 acts' with Some (os, s2) => Some (o :: os, s2) | None => None end
      | None => None
      end
  end.
