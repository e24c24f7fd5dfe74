(** Start and end of an EventSource: streams/event_source.go:93-117 and 191-289, streams/source.go:165-172, the mutex workerMux of
    streams/source_consumer.go:190-312 and 379-399, and the commit loop's way of reporting errors, streams/eos_producer.go:207-228.
    Left out: what the workers do apart from taking interjections, the commit log, metrics. *)
From stdpp Require Import prelude list.
Open Scope nat_scope.

(** What matters of a partition worker here (partition_worker.go:61-79): it can take interjections (ready, line 225); whether
    interjectionInput (capacity 1, line 107) is full; whether pushRecords, its only reader, is in its loop (lines 141-161). While it is, it
    comes back to its select: that it may wait for the scheduler meanwhile is left out. *)
Record worker := mkW { w_ready : bool; w_full : bool; w_push : bool }.

(** Answers of the TxnErrorHandler, error_handling.go:20-36; ErrorResponse is an int, so there are other values. *)
Inductive answer := Continue | FailConsumer | FatallyExit | Other.

(** StopNow, event_source.go:282-289: before runStatus.Halt, before consumer.stop, before the send to done, returned *)
Inductive now := NHalt | NClose | NSend | NOver.
(** the goroutine of Stop, event_source.go:262-273: not started; waiting for GracefullyLeaveGroup (source_consumer.go:388); in stop
    (lines 383 and 389); before Halt; before the send to done; over *)
Inductive once := SNone | SLeave | SClose | SHalt | SSend | SOver.
(** the commit loop, eos_producer.go:207-228: in the loop, in fail (source.go:169-172), before the panic of line 222, returned *)
Inductive loop := FRun | FFail (r : answer) | FPanic | FOver.

(** Calls and effects, in the order in which they happen *)
Inductive ev :=
| EvAssign (p : nat) | EvRevoke (p : nat)        (* a worker is put into, taken out of workers *)
| EvHalt | EvClosed                              (* runStatus.Halt has been called; client.Close has returned *)
| EvSignal | EvReleased                          (* a value is put into done; a reader of Done() gets it *)
| EvCall | EvReturn                              (* StopNow is called (closeOnFail calls it too); returns *)
| EvError (r : answer)                           (* the handler has answered r to an error *)
| EvFail                                         (* closeOnFail has received an error *)
| EvExit.                                        (* panic in the commit loop: the process ends *)

Record st := mkSt {
  workers : list (nat * worker);   (* eventSourceConsumer.workers, keyed by partition *)
  mux : option nat;                (* workerMux is held by a call of Interject that is sending to this partition's worker; the other
                                      users of workerMux do not wait while they hold it, so each of them is one step *)
  halted : bool; closed : bool; healthy : bool;
  full : bool;                     (* done, capacity 1 (event_source.go:84), holds a value *)
  waiting : nat;                   (* goroutines that wait for Done() *)
  nows : list now;                 (* calls of StopNow *)
  stop1 : once;                    (* the one goroutine that stopOnce lets Stop start *)
  cof : bool;                      (* closeOnFail still waits for an error *)
  kl : loop;
  dead : bool;                     (* the process has ended *)
  trace : list ev
}.
(** after ConsumeEvents (event_source.go:93-97), called once *)
Definition start : st := mkSt [] None false false true false 0 [] SNone true FRun false [].

Definition emit e s := mkSt (workers s) (mux s) (halted s) (closed s) (healthy s) (full s) (waiting s) (nows s) (stop1 s) (cof s) (kl s) (dead s) (trace s ++ [e]).
Definition emits es s := mkSt (workers s) (mux s) (halted s) (closed s) (healthy s) (full s) (waiting s) (nows s) (stop1 s) (cof s) (kl s) (dead s) (trace s ++ es).
Definition set_workers x s := mkSt x (mux s) (halted s) (closed s) (healthy s) (full s) (waiting s) (nows s) (stop1 s) (cof s) (kl s) (dead s) (trace s).
Definition set_mux x s := mkSt (workers s) x (halted s) (closed s) (healthy s) (full s) (waiting s) (nows s) (stop1 s) (cof s) (kl s) (dead s) (trace s).
Definition set_halted x s := mkSt (workers s) (mux s) x (closed s) (healthy s) (full s) (waiting s) (nows s) (stop1 s) (cof s) (kl s) (dead s) (trace s).
Definition set_closed x s := mkSt (workers s) (mux s) (halted s) x (healthy s) (full s) (waiting s) (nows s) (stop1 s) (cof s) (kl s) (dead s) (trace s).
Definition set_healthy x s := mkSt (workers s) (mux s) (halted s) (closed s) x (full s) (waiting s) (nows s) (stop1 s) (cof s) (kl s) (dead s) (trace s).
Definition set_full x s := mkSt (workers s) (mux s) (halted s) (closed s) (healthy s) x (waiting s) (nows s) (stop1 s) (cof s) (kl s) (dead s) (trace s).
Definition set_waiting x s := mkSt (workers s) (mux s) (halted s) (closed s) (healthy s) (full s) x (nows s) (stop1 s) (cof s) (kl s) (dead s) (trace s).
Definition set_nows x s := mkSt (workers s) (mux s) (halted s) (closed s) (healthy s) (full s) (waiting s) x (stop1 s) (cof s) (kl s) (dead s) (trace s).
Definition set_stop1 x s := mkSt (workers s) (mux s) (halted s) (closed s) (healthy s) (full s) (waiting s) (nows s) x (cof s) (kl s) (dead s) (trace s).
Definition set_cof x s := mkSt (workers s) (mux s) (halted s) (closed s) (healthy s) (full s) (waiting s) (nows s) (stop1 s) x (kl s) (dead s) (trace s).
Definition set_kl x s := mkSt (workers s) (mux s) (halted s) (closed s) (healthy s) (full s) (waiting s) (nows s) (stop1 s) (cof s) x (dead s) (trace s).
Definition set_dead x s := mkSt (workers s) (mux s) (halted s) (closed s) (healthy s) (full s) (waiting s) (nows s) (stop1 s) (cof s) (kl s) x (trace s).

Fixpoint find (p : nat) (l : list (nat * worker)) : option worker :=
  match l with [] => None | (q, w) :: l' => if p =? q then Some w else find p l' end.
Fixpoint put (p : nat) (w : worker) (l : list (nat * worker)) : list (nat * worker) :=
  match l with [] => [] | (q, v) :: l' => if p =? q then (q, w) :: l' else (q, v) :: put p w l' end.
Fixpoint del (p : nat) (l : list (nat * worker)) : list (nat * worker) :=
  match l with [] => [] | (q, v) :: l' => if p =? q then l' else (q, v) :: del p l' end.

(** runStatus.Halt() (sak/context.go); the workers' run statuses are forks of it (partition_worker.go:109), so all of them are halted *)
Definition halt (s : st) : st := emit EvHalt (set_halted true s).
(** client.Close() (source_consumer.go:396-399) makes the kafka client leave the group: it calls partitionsRevoked for the partitions it
    has and returns after that. revokePartitions (lines 223-242) locks workerMux. A second Close finds nothing to do. None: it waits. *)
Definition close (s : st) : option st :=
  if closed s then Some s else
  match mux s with
  | None => Some (emits (map (fun x => EvRevoke x.1) (workers s) ++ [EvClosed]) (set_closed true (set_workers [] s)))
  | Some _ => None
  end.
(** select { case es.done <- struct{}{}: default: }, event_source.go:267-270 and 285-288 *)
Definition signal (s : st) : st := if full s then s else emit EvSignal (set_full true s).

Inductive action :=
| GAssign (p : nat) | GRevoke (p : nat)   (* the group assigns, revokes a partition *)
| WReady (p : nat)                        (* the worker is initialised: pushRecords is started, ready is set *)
| WTimer (p : nat)                        (* the timer of a scheduled interjection puts it into interjectionInput *)
| WTake (p : nat)                         (* pushRecords takes the interjection *)
| WExit (p : nat)                         (* pushRecords sees that the run status is done *)
| UInterject (p : nat)                    (* Interject is called; InterjectAll and InterjectAllSync call it for every partition *)
| ISend                                   (* its send succeeds *)
| UStop (incremental : bool)              (* Stop is called; currentProtocolIsIncremental() says *)
| UStopNow                                (* StopNow is called *)
| UWait                                   (* a goroutine starts to wait for Done() *)
| DRecv                                   (* one of those gets the value *)
| SGrace                                  (* gracefulChan is closed: the member has no partitions any more (C48) *)
| SStep                                   (* a step of Stop's goroutine *)
| NStep (i : nat)                         (* a step of the i-th call of StopNow *)
| KError (r : answer)                     (* the commit loop has an error, the handler answers *)
| KFail                                   (* fail hands the error over to closeOnFail *)
| KExit.                                  (* the panic of the commit loop *)

Definition step1 (s : st) (a : action) : option st :=
  match a with
  | GAssign p => (* source_consumer.go:190-221, 244-249 *)
    match mux s with
    | Some _ => None
    | None => if closed s then None else match find p (workers s) with Some _ => Some s | None => Some (emit (EvAssign p) (set_workers ((p, mkW false false false) :: workers s) s)) end
    end
  | GRevoke p => (* source_consumer.go:223-242, 251-256 *)
    match mux s with
    | Some _ => None
    | None => match find p (workers s) with Some _ => Some (emit (EvRevoke p) (set_workers (del p (workers s)) s)) | None => Some s end
    end
  | WReady p => (* partition_worker.go:206-232 *)
    match find p (workers s) with
    | Some (mkW false f _) => Some (set_workers (put p (mkW true f true) (workers s)) s)
    | _ => None
    end
  | WTimer p => (* interjection.go:65-82 *)
    match find p (workers s) with
    | Some (mkW true false b) => Some (set_workers (put p (mkW true true b) (workers s)) s)
    | _ => None
    end
  | WTake p => (* partition_worker.go:148-149, 184-190 *)
    match find p (workers s) with
    | Some (mkW r true true) => Some (set_workers (put p (mkW r false true) (workers s)) s)
    | _ => None
    end
  | WExit p => (* partition_worker.go:150-158 *)
    match find p (workers s) with
    | Some (mkW r f true) => if halted s then Some (set_workers (put p (mkW r f false) (workers s)) s) else None
    | _ => None
    end
  | UInterject p => (* source_consumer.go:289-302: lock, look the worker up *)
    match mux s with
    | Some _ => None
    | None => match find p (workers s) with Some (mkW true _ _) => Some (set_mux (Some p) s) | _ => Some s end
    end
  | ISend => (* source_consumer.go:303-312: the send, then unlock *)
    match mux s with
    | Some p => match find p (workers s) with Some (mkW r false b) => Some (set_mux None (set_workers (put p (mkW r true b) (workers s)) s)) | _ => None end
    | None => None
    end
  | UStop inc => (* event_source.go:262-273, source_consumer.go:379-393 *)
    Some (match stop1 s with SNone => set_stop1 (if inc then SLeave else SClose) s | _ => s end)
  | UStopNow => Some (emit EvCall (set_nows (nows s ++ [NHalt]) s))
  | UWait => Some (set_waiting (S (waiting s)) s)
  | DRecv =>
    match waiting s with
    | S n => if full s then Some (emit EvReleased (set_full false (set_waiting n s))) else None
    | 0 => None
    end
  | SGrace => (* ParseSyncAssignment, incr_rebalancer.go:367-399, which a closed client does not call *)
    match stop1 s with SLeave => if closed s then None else Some (set_stop1 SClose s) | _ => None end
  | SStep => (* source_consumer.go:383-384, 389-390; event_source.go:265-270 *)
    match stop1 s with
    | SClose => match close s with Some s' => Some (set_stop1 SHalt s') | None => None end
    | SHalt => Some (set_stop1 SSend (halt s))
    | SSend => Some (set_stop1 SOver (signal s))
    | _ => None
    end
  | NStep i => (* event_source.go:282-289 *)
    match nows s !! i with
    | Some NHalt => Some (set_nows (<[i := NClose]> (nows s)) (halt s))
    | Some NClose => match close s with Some s' => Some (set_nows (<[i := NSend]> (nows s)) s') | None => None end
    | Some NSend => Some (emit EvReturn (set_nows (<[i := NOver]> (nows s)) (signal s)))
    | _ => None
    end
  | KError r => (* eos_producer.go:215-217, source.go:169-170 *)
    match kl s with
    | FRun => Some (emit (EvError r) (match r with Continue => s | _ => set_kl (FFail r) (set_healthy false s) end))
    | _ => None
    end
  | KFail => (* source.go:171, failure has no buffer (line 111); event_source.go:111-117; eos_producer.go:218-223 *)
    match kl s with
    | FFail r =>
      if cof s then
        let s1 := emits [EvFail; EvCall] (set_nows (nows s ++ [NHalt]) (set_cof false s)) in
        Some (match r with FailConsumer => set_kl FOver s1 | FatallyExit => set_kl FPanic s1 | _ => set_kl FRun s1 end)
      else None
    | _ => None
    end
  | KExit => match kl s with FPanic => Some (emit EvExit (set_dead true (set_kl FOver s))) | _ => None end
  end.
Definition step (s : st) (a : action) : option st := if dead s then None else step1 s a.
Fixpoint run (s : st) (acts : list action) : option st :=
  match acts with [] => Some s | a :: l => match step s a with Some s' => run s' l | None => None end end.

(** steps that happen by themselves, without calls from the application, events of the group, timers or errors *)
Definition internal (a : action) : bool :=
  match a with WTake _ | WExit _ | ISend | DRecv | SStep | NStep _ | KFail | KExit => true | _ => false end.
