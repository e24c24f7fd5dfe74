(** Model of partitionWorker (streams/partition_worker.go:60-317): the poll loop that adds records, the goroutine pushRecords, the goroutine work, handlers and
    asynchronous completions, and the pool's answers, any interleaving. Left out: pausing and resuming of fetches, the interjection's own ticking
    and callbacks (modelled in Interject), metrics and logs, the capacity of asyncJobs (sends to it block; here they need not, which only allows more). *)
From stdpp Require Import prelude list.
Open Scope nat_scope.

(** EventContext (event_context.go:35-50): a number to tell them apart; the offset, None for an interjection *)
Record ctx := mkCtx { c_id : nat; c_off : option nat }.
Global Instance ctx_eq : EqDecision ctx. Proof. solve_decision. Defined.

(** [cap] is MaxBatchSize*PoolSize (eos_producer.go:140-142), [evCap] recordsInputSize (partition_worker.go:91), [wm] what lastProcessed has returned (:217), where
    -1, no commit, is 0: all offsets are let through in both cases *)
Record cfg := mkCfg { cap : nat; evCap : nat; wm : nat }.

(** pushRecords (141-182) *)
Inductive ppc :=
| PIdle                               (* in select *)
| PBatch (l : list nat)               (* in the loop of scheduleTxnAndExecution, [l]: the offsets to come (kgo delivers no nil records); also after an interjection, lines 192-203, 187 *)
| PTok (e : ctx) (l : list nat)       (* at line 172 or 200 *)
| PPool (e : ctx) (l : list nat)      (* at line 173 or 201 *)
| PIn (e : ctx) (l : list nat)        (* at line 174 or 202 *)
| PStop                               (* sending stopSignal, line 152 *)
| PStopped                            (* waiting for stopped, line 153 *)
| PClosed.                            (* lines 154-156 done *)
(** work (229-250) *)
Inductive wpc :=
| WIdle
| WAssign (e : ctx)                   (* in assignProducer *)
| WHandle (e : ctx)                   (* the handler runs *)
| WRel (e : ctx) (back : option ctx)  (* before the receive from maxPending; then: WIdle or in assignProducer for another *)
| WStopped
| WDead (back : option ctx).           (* complete() was called a second time: close of a closed channel panics (event_context.go:186-188), before the slot is given back; [back]: the context being assigned *)
Global Instance wpc_eq : EqDecision wpc. Proof. solve_decision. Defined.

Inductive ev :=
| EvKeep (o : nat)     (* a delivered record passes the test of line 170 *)
| EvSkip (o : nat)     (* a delivered record does not *)
| EvAcq (e : ctx)      (* slot taken *)
| EvRej (e : ctx)      (* the pool has rejected it, 271, 305 *)
| EvHand (e : ctx)     (* given to a handler, 276, 313 *)
| EvDone (e : ctx)     (* complete() *)
| EvRel (e : ctx)      (* slot given back *)
| EvRevoke | EvClose   (* revoke(); channels closed *)
| EvPanic              (* send on a closed channel *)
| EvTwice (e : ctx).   (* second complete(), panic *)
Global Instance ev_eq : EqDecision ev. Proof. solve_decision. Defined.

Record st := mkSt {
  hw : nat;                     (* highestOffset *)
  tokens : nat;                 (* elements in maxPending *)
  rcv : option (list nat);      (* add (121-127) after its check, before its send *)
  input : list (list nat);      (* partitionInput *)
  pp : ppc;
  pool : list ctx;              (* given to the pool and not answered *)
  answers : list (ctx * bool);  (* producerChan of each: a node or nil *)
  evq : list ctx; ijq : list ctx;  (* eventInput, interjectionEventInput *)
  wp : wpc;
  async : list ctx;             (* handler has returned Incomplete *)
  jobs : list ctx;              (* asyncJobs *)
  revoked : bool; stopping : bool;
  waits : nat;                  (* revocationWaiter *)
  settled : list ctx;           (* answered contexts for which the pool has called Done on it *)
  nctx : nat;
  trace : list ev }.
Definition set_hw v s := mkSt v (tokens s) (rcv s) (input s) (pp s) (pool s) (answers s) (evq s) (ijq s) (wp s) (async s) (jobs s) (revoked s) (stopping s) (waits s) (settled s) (nctx s) (trace s).
Definition set_tokens v s := mkSt (hw s) v (rcv s) (input s) (pp s) (pool s) (answers s) (evq s) (ijq s) (wp s) (async s) (jobs s) (revoked s) (stopping s) (waits s) (settled s) (nctx s) (trace s).
Definition set_rcv v s := mkSt (hw s) (tokens s) v (input s) (pp s) (pool s) (answers s) (evq s) (ijq s) (wp s) (async s) (jobs s) (revoked s) (stopping s) (waits s) (settled s) (nctx s) (trace s).
Definition set_input v s := mkSt (hw s) (tokens s) (rcv s) v (pp s) (pool s) (answers s) (evq s) (ijq s) (wp s) (async s) (jobs s) (revoked s) (stopping s) (waits s) (settled s) (nctx s) (trace s).
Definition set_pp v s := mkSt (hw s) (tokens s) (rcv s) (input s) v (pool s) (answers s) (evq s) (ijq s) (wp s) (async s) (jobs s) (revoked s) (stopping s) (waits s) (settled s) (nctx s) (trace s).
Definition set_pool v s := mkSt (hw s) (tokens s) (rcv s) (input s) (pp s) v (answers s) (evq s) (ijq s) (wp s) (async s) (jobs s) (revoked s) (stopping s) (waits s) (settled s) (nctx s) (trace s).
Definition set_answers v s := mkSt (hw s) (tokens s) (rcv s) (input s) (pp s) (pool s) v (evq s) (ijq s) (wp s) (async s) (jobs s) (revoked s) (stopping s) (waits s) (settled s) (nctx s) (trace s).
Definition set_evq v s := mkSt (hw s) (tokens s) (rcv s) (input s) (pp s) (pool s) (answers s) v (ijq s) (wp s) (async s) (jobs s) (revoked s) (stopping s) (waits s) (settled s) (nctx s) (trace s).
Definition set_ijq v s := mkSt (hw s) (tokens s) (rcv s) (input s) (pp s) (pool s) (answers s) (evq s) v (wp s) (async s) (jobs s) (revoked s) (stopping s) (waits s) (settled s) (nctx s) (trace s).
Definition set_wp v s := mkSt (hw s) (tokens s) (rcv s) (input s) (pp s) (pool s) (answers s) (evq s) (ijq s) v (async s) (jobs s) (revoked s) (stopping s) (waits s) (settled s) (nctx s) (trace s).
Definition set_async v s := mkSt (hw s) (tokens s) (rcv s) (input s) (pp s) (pool s) (answers s) (evq s) (ijq s) (wp s) v (jobs s) (revoked s) (stopping s) (waits s) (settled s) (nctx s) (trace s).
Definition set_jobs v s := mkSt (hw s) (tokens s) (rcv s) (input s) (pp s) (pool s) (answers s) (evq s) (ijq s) (wp s) (async s) v (revoked s) (stopping s) (waits s) (settled s) (nctx s) (trace s).
Definition set_revoked v s := mkSt (hw s) (tokens s) (rcv s) (input s) (pp s) (pool s) (answers s) (evq s) (ijq s) (wp s) (async s) (jobs s) v (stopping s) (waits s) (settled s) (nctx s) (trace s).
Definition set_stopping v s := mkSt (hw s) (tokens s) (rcv s) (input s) (pp s) (pool s) (answers s) (evq s) (ijq s) (wp s) (async s) (jobs s) (revoked s) v (waits s) (settled s) (nctx s) (trace s).
Definition set_waits v s := mkSt (hw s) (tokens s) (rcv s) (input s) (pp s) (pool s) (answers s) (evq s) (ijq s) (wp s) (async s) (jobs s) (revoked s) (stopping s) v (settled s) (nctx s) (trace s).
Definition set_settled v s := mkSt (hw s) (tokens s) (rcv s) (input s) (pp s) (pool s) (answers s) (evq s) (ijq s) (wp s) (async s) (jobs s) (revoked s) (stopping s) (waits s) v (nctx s) (trace s).
Definition set_nctx v s := mkSt (hw s) (tokens s) (rcv s) (input s) (pp s) (pool s) (answers s) (evq s) (ijq s) (wp s) (async s) (jobs s) (revoked s) (stopping s) (waits s) (settled s) v (trace s).
Definition emit (e : ev) s := mkSt (hw s) (tokens s) (rcv s) (input s) (pp s) (pool s) (answers s) (evq s) (ijq s) (wp s) (async s) (jobs s) (revoked s) (stopping s) (waits s) (settled s) (nctx s) (trace s ++ [e]).

(** newPartitionWorker (81-116), and the beginning of work up to line 222: pushRecords starts after highestOffset is set. The records that add has put into
    partitionInput before are delivered after it, in effect *)
Definition start (c : cfg) : st := mkSt (wm c) 0 None [] PIdle [] [] [] [] WIdle [] [] false false 0 [] 0 [].

Inductive action :=
| RAdd (l : list nat)   (* add: the check, 122 *)
| RSend                 (* add: the send, 126 *)
| ARevoke               (* 129-131 *)
| PTake                 (* 144-146, 164-168 *)
| PInject               (* 148, 187, 192-199: an interjection is in interjectionInput *)
| PNext                 (* 169-171, 176 *)
| PAcq | PGive | PPut   (* 172-174, 200-202 *)
| PDone                 (* 150 *)
| PSignal               (* 152, 242: stopSignal, received by work; waitForRevocation is started *)
| PClose                (* 153-156 *)
| GAnswer (ok : bool)   (* the pool answers the next context: with a node, or with nil because it is revoked, eos_producer.go:145-153 *)
| GSettle (e : ctx)     (* the pool calls Done on the waiter for a context that is complete, eos_producer.go:339-355 *)
| WTake | WTakeInj      (* 231-234 *)
| WGet                  (* 295 *)
| WJob (ok : bool)      (* 235, 297, 258-263; [ok]: Finalize returns Complete *)
| WReturn (ok : bool)   (* the handler returns; [ok]: Complete, 276, 313 *)
| WRelease              (* 261, 271, 278, 306, 315 *)
| WStop                 (* 254-255, 246-248 *)
| AJob (e : ctx).       (* AsyncJobComplete (event_context.go:169-174) by anybody who has got the context: the handler must have been called, nothing else is assumed *)

Section Step.
Context (c : cfg).
Definition step (s : st) (a : action) : option st :=
  match a with
  | RAdd l => match rcv s with None => if revoked s then Some s else Some (set_rcv (Some l) s) | Some _ => None end
  | RSend =>
    match rcv s with
    | Some l => match pp s with
                | PClosed => Some (emit EvPanic (set_rcv None s))
                | _ => if length (input s) <? 4 then Some (set_rcv None (set_input (input s ++ [l]) s)) else None
                end
    | None => None
    end
  | ARevoke => if revoked s then None else Some (emit EvRevoke (set_revoked true s))
  | PTake =>
    match pp s, input s with
    | PIdle, l :: r => if revoked s then Some (set_input r s) else Some (set_pp (PBatch l) (set_waits (waits s + length l) (set_input r s)))
    | _, _ => None
    end
  | PInject =>
    match pp s with
    | PIdle => if revoked s then Some s else Some (set_pp (PTok (mkCtx (nctx s) None) []) (set_nctx (S (nctx s)) (set_waits (S (waits s)) s)))
    | PBatch l => if revoked s then Some s else Some (set_pp (PTok (mkCtx (nctx s) None) l) (set_nctx (S (nctx s)) (set_waits (S (waits s)) s)))
    | _ => None
    end
  | PNext =>
    match pp s with
    | PBatch [] => Some (set_pp PIdle s)
    | PBatch (o :: l) =>
      if hw s <=? o then Some (set_pp (PTok (mkCtx (nctx s) (Some o)) l) (set_nctx (S (nctx s)) (emit (EvKeep o) s)))
      else Some (emit (EvSkip o) (set_pp (PBatch l) (set_waits (waits s - 1) s)))
    | _ => None
    end
  | PAcq => match pp s with PTok e l => if tokens s <? cap c then Some (emit (EvAcq e) (set_pp (PPool e l) (set_tokens (S (tokens s)) s))) else None | _ => None end
  | PGive => match pp s with PPool e l => Some (set_pp (PIn e l) (set_pool (pool s ++ [e]) s)) | _ => None end
  | PPut =>
    match pp s with
    | PIn e l => match c_off e with
                 | Some _ => if length (evq s) <? evCap c then Some (set_pp (PBatch l) (set_evq (evq s ++ [e]) s)) else None
                 | None => if length (ijq s) <? 1 then Some (set_pp (PBatch l) (set_ijq (ijq s ++ [e]) s)) else None
                 end
    | _ => None
    end
  | PDone => match pp s with PIdle => if revoked s then Some (set_pp PStop s) else None | _ => None end
  | PSignal => match pp s, wp s with PStop, WIdle => Some (set_stopping true (set_pp PStopped s)) | _, _ => None end
  | PClose => match pp s, wp s with PStopped, WStopped => Some (emit EvClose (set_pp PClosed s)) | _, _ => None end
  | GAnswer ok =>
    match pool s with
    | e :: q => if ok then Some (set_answers (answers s ++ [(e, true)]) (set_pool q s))
                else if revoked s then Some (set_settled (e :: settled s) (set_waits (waits s - 1) (set_answers (answers s ++ [(e, false)]) (set_pool q s)))) else None
    | [] => None
    end
  | GSettle e => if decide (EvDone e ∈ trace s /\ e ∉ settled s) then Some (set_settled (e :: settled s) (set_waits (waits s - 1) s)) else None
  | WTake => match wp s, evq s with WIdle, e :: q => Some (set_wp (WAssign e) (set_evq q s)) | _, _ => None end
  | WTakeInj => match wp s, ijq s with WIdle, e :: q => Some (set_wp (WAssign e) (set_ijq q s)) | _, _ => None end
  | WGet =>
    match wp s with
    | WAssign e =>
      if decide ((e, true) ∈ answers s) then Some (emit (EvHand e) (set_wp (WHandle e) (match c_off e with Some o => set_hw (S o) s | None => s end)))
      else if decide ((e, false) ∈ answers s) then Some (emit (EvRej e) (set_wp (WRel e None) s)) else None
    | _ => None
    end
  | WJob ok =>
    match wp s, jobs s with
    | WIdle, e :: q =>
      if ok then if decide (EvDone e ∈ trace s) then Some (emit (EvTwice e) (set_wp (WDead None) (set_jobs q s)))
                 else Some (emit (EvDone e) (set_wp (WRel e None) (set_async (filter (fun x => x <> e) (async s)) (set_jobs q s))))
      else Some (set_jobs q s)
    | WAssign e', e :: q =>
      if ok then if decide (EvDone e ∈ trace s) then Some (emit (EvTwice e) (set_wp (WDead (Some e')) (set_jobs q s)))
                 else Some (emit (EvDone e) (set_wp (WRel e (Some e')) (set_async (filter (fun x => x <> e) (async s)) (set_jobs q s))))
      else Some (set_jobs q s)
    | _, _ => None
    end
  | WReturn ok =>
    match wp s with
    | WHandle e =>
      if ok then Some (emit (EvDone e) (set_wp (WRel e None) s)) (* it is not complete yet: its jobs are processed by this goroutine, which is in the handler *)
      else Some (set_wp WIdle (set_async (e :: async s) s))
    | _ => None
    end
  | WRelease =>
    match wp s with
    | WRel e b => if 0 <? tokens s then Some (emit (EvRel e) (set_wp (match b with Some e' => WAssign e' | None => WIdle end) (set_tokens (tokens s - 1) s))) else None
    | _ => None
    end
  | WStop => match wp s with WIdle => if stopping s && (waits s =? 0) then Some (set_wp WStopped s) else None | _ => None end
  | AJob e =>
    if decide (EvHand e ∈ trace s)
    then match pp s with PClosed => Some (emit EvPanic s) | _ => Some (set_jobs (jobs s ++ [e]) s) end
    else None
  end.
Fixpoint run (s : st) (acts : list action) : option st :=
  match acts with [] => Some s | a :: acts' => match step s a with Some s' => run s' acts' | None => None end end.
End Step.
