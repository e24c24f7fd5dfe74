(** Model of how one change-log partition is read into its store: streams/state_store_consumer.go:50-298 (stateStorePartition,
    stateStoreConsumer) together with the callers in streams/source_consumer.go:139-242 (prepare, forget, assign, revoke).
    A transition system of: whoever writes to the change log, the group callbacks, the goroutines in sync, the goroutine in consume,
    and the goroutines in populate. Partitions do not influence each other except that the one consume goroutine serves all of them;
    here it serves this one. *)
From stdpp Require Import prelude list.
Open Scope nat_scope.

(** A record of the change-log partition: a change (a number stands for its contents) or a marker (topics.go:306-308) with its value. Marker
    values are uuids (state_store_consumer.go:92): every marker written has a value never used before. *)
Inductive record := Data (n : nat) | Mark (m : nat).

(** partitionState, state_store_consumer.go:30-36; standby and active are never used *)
Inductive pstate := Paused | Prepping | Ready.

(** a channel of fetched batches (line 51): contents, oldest first, and whether it is closed *)
Record chan := mkCh { c_q : list (list record); c_closed : bool }.
Definition bufferSize : nat := 1024. (* lines 134, 235 *)

(** a goroutine in populate (lines 165-192): its channel (range evaluates ssp.buffer once, when the goroutine starts; here together with the
    go statement, so a cancel in between, after which it would wait on nil for ever, is left out), the store it fills, the rest of the batch in
    hand; [p_done], the records it has handled, only records *)
Record pop := mkPop { p_chan : nat; p_store : nat; p_rest : list record; p_live : bool; p_done : list record }.

(** a goroutine in sync (lines 108-112), started by PrepareTopicPartition or by a partition worker *)
Inductive kind := KPrep | KWork.
Inductive stage :=
| SNew                       (* before addWaiter *)
| SReg (m : nat)             (* waiter for m registered, marker not written *)
| SSent (m : nat)            (* marker written, or writing it failed (the error is dropped, line 110); waiting *)
| SDone (m : nat).           (* sync has returned *)
(** [sy_store] is the store of the caller: of the worker (source_consumer.go:206, 213), or the one being prepared *)
Record sync := mkSync { sy_kind : kind; sy_store : nat; sy_stage : stage }.

(** the goroutine in consume (lines 263-270) *)
Inductive cons :=
| CIdle
| CHold (b : list record)                    (* polled a batch *)
| CAdd (b : list record)                     (* saw a state other than paused, about to call add *)
| CSend (b : list record) (c : option nat)   (* evaluated ssp.buffer, about to send; None is the nil channel *)
| CPanic.                                    (* sent on a closed channel *)

(** what is recorded: a record given to a store (line 182), a waiter released (line 161) *)
Inductive ev := EvApply (x : nat) (r : record) | EvRelease (m : nat).

Record st := mkSt {
  log : list record;           (* the partition of the change-log topic *)
  nextMark : nat;              (* marks from here on are unused *)
  pos : nat;                   (* the client's position *)
  fpaused : bool;              (* fetching is paused *)
  state : pstate;
  buf : option nat;            (* ssp.buffer; None is nil *)
  chans : list chan;
  pops : list pop;
  syncs : list sync;
  waiters : list nat;          (* keys of ssp.waiters *)
  store : option nat;          (* partitionedStore.data[p] *)
  stores : nat;                (* stores made so far *)
  prepping : bool;             (* p in sc.prepping *)
  worker : bool;               (* p in sc.workers *)
  con : cons;
  preps : nat;                 (* calls of prep; only records *)
  trace : list ev }.           (* only records *)

Definition set_log v s := mkSt v (nextMark s) (pos s) (fpaused s) (state s) (buf s) (chans s) (pops s) (syncs s) (waiters s) (store s) (stores s) (prepping s) (worker s) (con s) (preps s) (trace s).
Definition set_nextMark v s := mkSt (log s) v (pos s) (fpaused s) (state s) (buf s) (chans s) (pops s) (syncs s) (waiters s) (store s) (stores s) (prepping s) (worker s) (con s) (preps s) (trace s).
Definition set_pos v s := mkSt (log s) (nextMark s) v (fpaused s) (state s) (buf s) (chans s) (pops s) (syncs s) (waiters s) (store s) (stores s) (prepping s) (worker s) (con s) (preps s) (trace s).
Definition set_fpaused v s := mkSt (log s) (nextMark s) (pos s) v (state s) (buf s) (chans s) (pops s) (syncs s) (waiters s) (store s) (stores s) (prepping s) (worker s) (con s) (preps s) (trace s).
Definition set_state v s := mkSt (log s) (nextMark s) (pos s) (fpaused s) v (buf s) (chans s) (pops s) (syncs s) (waiters s) (store s) (stores s) (prepping s) (worker s) (con s) (preps s) (trace s).
Definition set_buf v s := mkSt (log s) (nextMark s) (pos s) (fpaused s) (state s) v (chans s) (pops s) (syncs s) (waiters s) (store s) (stores s) (prepping s) (worker s) (con s) (preps s) (trace s).
Definition set_chans v s := mkSt (log s) (nextMark s) (pos s) (fpaused s) (state s) (buf s) v (pops s) (syncs s) (waiters s) (store s) (stores s) (prepping s) (worker s) (con s) (preps s) (trace s).
Definition set_pops v s := mkSt (log s) (nextMark s) (pos s) (fpaused s) (state s) (buf s) (chans s) v (syncs s) (waiters s) (store s) (stores s) (prepping s) (worker s) (con s) (preps s) (trace s).
Definition set_syncs v s := mkSt (log s) (nextMark s) (pos s) (fpaused s) (state s) (buf s) (chans s) (pops s) v (waiters s) (store s) (stores s) (prepping s) (worker s) (con s) (preps s) (trace s).
Definition set_waiters v s := mkSt (log s) (nextMark s) (pos s) (fpaused s) (state s) (buf s) (chans s) (pops s) (syncs s) v (store s) (stores s) (prepping s) (worker s) (con s) (preps s) (trace s).
Definition set_store v s := mkSt (log s) (nextMark s) (pos s) (fpaused s) (state s) (buf s) (chans s) (pops s) (syncs s) (waiters s) v (stores s) (prepping s) (worker s) (con s) (preps s) (trace s).
Definition set_stores v s := mkSt (log s) (nextMark s) (pos s) (fpaused s) (state s) (buf s) (chans s) (pops s) (syncs s) (waiters s) (store s) v (prepping s) (worker s) (con s) (preps s) (trace s).
Definition set_prepping v s := mkSt (log s) (nextMark s) (pos s) (fpaused s) (state s) (buf s) (chans s) (pops s) (syncs s) (waiters s) (store s) (stores s) v (worker s) (con s) (preps s) (trace s).
Definition set_worker v s := mkSt (log s) (nextMark s) (pos s) (fpaused s) (state s) (buf s) (chans s) (pops s) (syncs s) (waiters s) (store s) (stores s) (prepping s) v (con s) (preps s) (trace s).
Definition set_con v s := mkSt (log s) (nextMark s) (pos s) (fpaused s) (state s) (buf s) (chans s) (pops s) (syncs s) (waiters s) (store s) (stores s) (prepping s) (worker s) v (preps s) (trace s).
Definition set_preps v s := mkSt (log s) (nextMark s) (pos s) (fpaused s) (state s) (buf s) (chans s) (pops s) (syncs s) (waiters s) (store s) (stores s) (prepping s) (worker s) (con s) v (trace s).
Definition emit (e : ev) s := mkSt (log s) (nextMark s) (pos s) (fpaused s) (state s) (buf s) (chans s) (pops s) (syncs s) (waiters s) (store s) (stores s) (prepping s) (worker s) (con s) (preps s) (trace s ++ [e]).

(** newStateStoreConsumer (lines 203-248): paused at the start of the log, with a buffer nobody reads. [l] is the change log at that time, [n]
    a bound of the marks in it. *)
Definition start (l : list record) (n : nat) : st :=
  mkSt l n 0 true Paused (Some 0) [mkCh [] false] [] [] [] None 0 false false CIdle 0 [].

(** partitionedStore.assign and revoke for this partition (partitioned_store.go:77-101, see Partitioned.v) *)
Definition assignStore (s : st) : nat * st :=
  match store s with Some x => (x, s) | None => (stores s, set_store (Some (stores s)) (set_stores (S (stores s)) s)) end.

(** prep (lines 130-144): new buffer, position back to the start of the log, fetching resumed, a populator started *)
Definition prep (init : pstate) (x : nat) (s : st) : st :=
  let c := length (chans s) in
  set_preps (S (preps s)) (set_pops (pops s ++ [mkPop c x [] true []]) (set_fpaused false (set_pos 0 (set_buf (Some c)
    (set_chans (chans s ++ [mkCh [] false]) (set_state init s)))))).

Definition closeCh (c : nat) (s : st) : st :=
  match chans s !! c with Some ch => set_chans (<[c := mkCh (c_q ch) true]> (chans s)) s | None => s end.
(** pause (lines 66-74) *)
Definition pause (s : st) : st := set_fpaused true (set_state Paused s).
(** cancel (lines 83-86) with kill (76-81); one step here, although setState, PauseFetchPartitions, close and the assignment of nil are separate
    steps of the code and not under a lock *)
Definition cancel (s : st) : st :=
  let s := pause s in match buf s with Some c => set_buf None (closeCh c s) | None => s end.

(** isCompletionMarker (lines 146-163): (complete, state after) *)
Definition isCompletionMarker (m : nat) (s : st) : bool * st :=
  if decide (m ∈ waiters s) then
    let s := set_waiters (filter (fun w => w <> m) (waiters s)) s in
    match state s with
    | Prepping => (false, emit (EvRelease m) (set_state Ready s))
    | Ready => (true, emit (EvRelease m) (cancel s))
    | Paused => (false, emit (EvRelease m) s)
    end
  else (false, s).

(** handleRecordsAndContinue for one record (lines 176-190): (complete, state after). The counters are left out. An error of ReceiveChange is
    logged and dropped (partitioned_store.go:43-52). *)
Definition handleRecord (x : nat) (r : record) (s : st) : bool * st :=
  match r with
  | Mark m => isCompletionMarker m s
  | Data _ => (false, emit (EvApply x r) s)
  end.

Inductive action :=
| AWrite (n : nat)        (* somebody writes a change to the change log *)
| AForeign                (* another consumer writes a marker *)
| APrepare                (* PrepareTopicPartition, source_consumer.go:139-173 *)
| AForget                 (* ForgetPreparedTopicPartition, :177-188 *)
| AAssign                 (* assignPartitions, :190-223 *)
| ARevoke                 (* revokePartitions, :225-242 *)
| ARegister (i : nat)     (* addWaiter of sync call i, lines 88-96 *)
| ASend (i : nat)         (* its marker is written, lines 308-322 *)
| AFail (i : nat)         (* writing its marker fails *)
| AReturn (i : nat)       (* its waiter channel is closed: it returns *)
| CPoll (n : nat)         (* consume gets a batch of n records *)
| CCheck                  (* line 265 *)
| CEval                   (* line 63: ssp.buffer is evaluated *)
| CPut                    (* line 63: the send *)
| PTake (j : nat)         (* populator j receives from its channel, line 167 *)
| PHandle (j : nat).      (* populator j handles the next record of its batch *)

Definition released (tr : list ev) : list nat := flat_map (fun e => match e with EvRelease m => [m] | _ => [] end) tr.
(** the changes given to store x *)
Definition applied (x : nat) (tr : list ev) : list record := flat_map (fun e => match e with EvApply y r => if x =? y then [r] else [] | _ => [] end) tr.
Definition mark_of (s : stage) : option nat := match s with SNew => None | SReg m | SSent m | SDone m => Some m end.

Definition setSync (i : nat) (k : kind) (x : nat) (g : stage) (s : st) : st := set_syncs (<[i := mkSync k x g]> (syncs s)) s.
Definition addSync (k : kind) (x : nat) (s : st) : st := set_syncs (syncs s ++ [mkSync k x SNew]) s.

Definition step (s : st) (a : action) : option st :=
  match a with
  | AWrite n => Some (set_log (log s ++ [Data n]) s)
  | AForeign => Some (set_nextMark (S (nextMark s)) (set_log (log s ++ [Mark (nextMark s)]) s))
  | APrepare =>
    if prepping s then Some s
    else let '(x, s) := assignStore s in Some (addSync KPrep x (set_prepping true (prep Prepping x s)))
  | AForget => Some (if prepping s then set_prepping false (cancel s) else s)
  | AAssign =>
    let '(x, s) := assignStore s in
    Some (if prepping s then addSync KWork x (set_worker true (set_prepping false s))
          else if worker s then s
          else addSync KWork x (set_worker true (prep Ready x s)))
  | ARevoke => Some (set_store None (set_worker false s))
  | ARegister i =>
    match syncs s !! i with
    | Some (mkSync k x SNew) => Some (set_nextMark (S (nextMark s)) (set_waiters (waiters s ++ [nextMark s]) (setSync i k x (SReg (nextMark s)) s)))
    | _ => None
    end
  | ASend i =>
    match syncs s !! i with
    | Some (mkSync k x (SReg m)) => Some (set_log (log s ++ [Mark m]) (setSync i k x (SSent m) s))
    | _ => None
    end
  | AFail i =>
    match syncs s !! i with
    | Some (mkSync k x (SReg m)) => Some (setSync i k x (SSent m) s)
    | _ => None
    end
  | AReturn i =>
    match syncs s !! i with
    | Some (mkSync k x (SSent m)) => if decide (m ∈ released (trace s)) then Some (setSync i k x (SDone m) s) else None
    | _ => None
    end
  | CPoll n =>
    match con s with
    | CIdle =>
      if fpaused s then None
      else if decide (0 < n /\ pos s + n <= length (log s))
      then Some (set_con (CHold (take n (drop (pos s) (log s)))) (set_pos (pos s + n) s)) else None
    | _ => None
    end
  | CCheck =>
    match con s with
    | CHold b => Some (match state s with Paused => set_con CIdle (pause s) | _ => set_con (CAdd b) s end)
    | _ => None
    end
  | CEval => match con s with CAdd b => Some (set_con (CSend b (buf s)) s) | _ => None end
  | CPut =>
    match con s with
    | CSend b (Some c) =>
      match chans s !! c with
      | Some ch => if c_closed ch then Some (set_con CPanic s)
                   else if length (c_q ch) <? bufferSize then Some (set_con CIdle (set_chans (<[c := mkCh (c_q ch ++ [b]) false]> (chans s)) s))
                   else None
      | None => None
      end
    | _ => None
    end
  | PTake j =>
    match pops s !! j with
    | Some (mkPop c x [] true dn) =>
      match chans s !! c with
      | Some (mkCh (b :: q) cl) => Some (set_pops (<[j := mkPop c x b true dn]> (pops s)) (set_chans (<[c := mkCh q cl]> (chans s)) s))
      | Some (mkCh [] true) => Some (set_pops (<[j := mkPop c x [] false dn]> (pops s)) s)
      | _ => None
      end
    | _ => None
    end
  | PHandle j =>
    match pops s !! j with
    | Some (mkPop c x (r :: b) true dn) =>
      let '(complete, s1) := handleRecord x r s in
      Some (set_pops (<[j := mkPop c x b (negb complete) (dn ++ [r])]> (pops s)) s1)
    | _ => None
    end
  end.
Fixpoint run (s : st) (acts : list action) : option st :=
  match acts with [] => Some s | a :: acts' => match step s a with Some s' => run s' acts' | None => None end end.

(** the change records of a piece of the log *)
Definition changes (l : list record) : list record := flat_map (fun r => match r with Data _ => [r] | Mark _ => [] end) l.
