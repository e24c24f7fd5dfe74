(** Model of AsyncJobScheduler, streams/async_scheduler.go, with any number of callers (partition workers) and the scheduler's
    goroutines as a transition system. One step is one critical section under ap.mux, one channel operation, or one call of
    user code. Keys and values are numbers; any comparable key type has such a numbering. *)
From stdpp Require Import prelude list.
From Verif.ItemQueue Require Model.
Notation queue := ItemQueue.Model.queue.

(** asyncJobContainer (async_scheduler.go:27-33) with the partition worker of its event context; a job's error and finalizer
    play no role for scheduling *)
Record job := mkJ { jkey : nat; jcaller : nat; jval : nat }.
#[global] Instance job_eq_dec : EqDecision job.
Proof. solve_decision. Defined.

(** worker (async_scheduler.go:39-47); depth (line 43) is never read *)
Record wobj := mkW { wkey : nat; wcap : nat; wq : queue job }.

(** where a caller is inside Schedule (async_scheduler.go:231-279) *)
Inductive cst :=
| CIdle                          (* not in Schedule *)
| CGrab (j : job)                (* about to lock ap.mux, line 250 *)
| CWait (j : job)                (* in waitForWorker, line 255 *)
| CBlock (w : nat) (j : job)     (* in blockingAddItem, line 275 *)
| CEnq (w : nat).                (* about to enqueueWorker, line 277 *)

(** where a goroutine is inside work (async_scheduler.go:281-301) *)
Inductive gst :=
| GLoop                          (* at the top of the loop *)
| GSel (ch : nat)                (* in the select, having read ap.workerChannel, which was the ch-th channel so far *)
| GProc (w : nat)                (* received w, about to process it *)
| GRun (w : nat) (j : job)       (* in the processor, line 88 *)
| GAdv (w : nat) (j : job)       (* about to advance, line 89 *)
| GDeliver (w : nat) (j : job)   (* in AsyncJobComplete, line 90 *)
| GRel (w : nat)                 (* about to releaseWorker, line 287 *)
| GSig                           (* about to signal workerAvailable, line 392 *)
| GEnq (w : nat)                 (* about to enqueueWorker, line 396 *)
| GExit.

(** AsyncJobScheduler (async_scheduler.go:106-118). [chans] are all worker channels ever made, the last being the current one
    and the others closed; [chcap] is the capacity of the current one. [pool] is workerPool; an element the runtime drops is one
    that is never taken again. [comps] are the completion channels of the partition workers, all of capacity [ccap].
    The fields from [accepted] on only record: calls of Schedule that went ahead, calls that answered Complete at once, jobs put
    into a queue, jobs given to the processor, jobs dequeued, completions handed over, completions received by the worker. *)
Record st := mkSt {
  callers : list cst;
  gs : list gst;
  ws : list wobj;
  wmap : list (nat * nat);
  chans : list (list nat);
  chcap : nat;
  signal : bool;
  maxk : nat;
  depth : nat;
  pool : list nat;
  closed : bool;
  comps : nat -> list job;
  ccap : nat;
  accepted : list job;
  completed : list job;
  inserted : list job;
  started : list job;
  taken : list job;
  delivered : list job;
  collected : list job }.
Definition set_callers (x : list cst) (s : st) : st := mkSt x (gs s) (ws s) (wmap s) (chans s) (chcap s) (signal s) (maxk s) (depth s) (pool s) (closed s) (comps s) (ccap s) (accepted s) (completed s) (inserted s) (started s) (taken s) (delivered s) (collected s).
Definition set_gs (x : list gst) (s : st) : st := mkSt (callers s) x (ws s) (wmap s) (chans s) (chcap s) (signal s) (maxk s) (depth s) (pool s) (closed s) (comps s) (ccap s) (accepted s) (completed s) (inserted s) (started s) (taken s) (delivered s) (collected s).
Definition set_ws (x : list wobj) (s : st) : st := mkSt (callers s) (gs s) x (wmap s) (chans s) (chcap s) (signal s) (maxk s) (depth s) (pool s) (closed s) (comps s) (ccap s) (accepted s) (completed s) (inserted s) (started s) (taken s) (delivered s) (collected s).
Definition set_wmap (x : list (nat * nat)) (s : st) : st := mkSt (callers s) (gs s) (ws s) x (chans s) (chcap s) (signal s) (maxk s) (depth s) (pool s) (closed s) (comps s) (ccap s) (accepted s) (completed s) (inserted s) (started s) (taken s) (delivered s) (collected s).
Definition set_chans (x : list (list nat)) (s : st) : st := mkSt (callers s) (gs s) (ws s) (wmap s) x (chcap s) (signal s) (maxk s) (depth s) (pool s) (closed s) (comps s) (ccap s) (accepted s) (completed s) (inserted s) (started s) (taken s) (delivered s) (collected s).
Definition set_chcap (x : nat) (s : st) : st := mkSt (callers s) (gs s) (ws s) (wmap s) (chans s) x (signal s) (maxk s) (depth s) (pool s) (closed s) (comps s) (ccap s) (accepted s) (completed s) (inserted s) (started s) (taken s) (delivered s) (collected s).
Definition set_signal (x : bool) (s : st) : st := mkSt (callers s) (gs s) (ws s) (wmap s) (chans s) (chcap s) x (maxk s) (depth s) (pool s) (closed s) (comps s) (ccap s) (accepted s) (completed s) (inserted s) (started s) (taken s) (delivered s) (collected s).
Definition set_maxk (x : nat) (s : st) : st := mkSt (callers s) (gs s) (ws s) (wmap s) (chans s) (chcap s) (signal s) x (depth s) (pool s) (closed s) (comps s) (ccap s) (accepted s) (completed s) (inserted s) (started s) (taken s) (delivered s) (collected s).
Definition set_depth (x : nat) (s : st) : st := mkSt (callers s) (gs s) (ws s) (wmap s) (chans s) (chcap s) (signal s) (maxk s) x (pool s) (closed s) (comps s) (ccap s) (accepted s) (completed s) (inserted s) (started s) (taken s) (delivered s) (collected s).
Definition set_pool (x : list nat) (s : st) : st := mkSt (callers s) (gs s) (ws s) (wmap s) (chans s) (chcap s) (signal s) (maxk s) (depth s) x (closed s) (comps s) (ccap s) (accepted s) (completed s) (inserted s) (started s) (taken s) (delivered s) (collected s).
Definition set_closed (x : bool) (s : st) : st := mkSt (callers s) (gs s) (ws s) (wmap s) (chans s) (chcap s) (signal s) (maxk s) (depth s) (pool s) x (comps s) (ccap s) (accepted s) (completed s) (inserted s) (started s) (taken s) (delivered s) (collected s).
Definition set_comps (x : nat -> list job) (s : st) : st := mkSt (callers s) (gs s) (ws s) (wmap s) (chans s) (chcap s) (signal s) (maxk s) (depth s) (pool s) (closed s) x (ccap s) (accepted s) (completed s) (inserted s) (started s) (taken s) (delivered s) (collected s).
Definition set_ccap (x : nat) (s : st) : st := mkSt (callers s) (gs s) (ws s) (wmap s) (chans s) (chcap s) (signal s) (maxk s) (depth s) (pool s) (closed s) (comps s) x (accepted s) (completed s) (inserted s) (started s) (taken s) (delivered s) (collected s).
Definition set_accepted (x : list job) (s : st) : st := mkSt (callers s) (gs s) (ws s) (wmap s) (chans s) (chcap s) (signal s) (maxk s) (depth s) (pool s) (closed s) (comps s) (ccap s) x (completed s) (inserted s) (started s) (taken s) (delivered s) (collected s).
Definition set_completed (x : list job) (s : st) : st := mkSt (callers s) (gs s) (ws s) (wmap s) (chans s) (chcap s) (signal s) (maxk s) (depth s) (pool s) (closed s) (comps s) (ccap s) (accepted s) x (inserted s) (started s) (taken s) (delivered s) (collected s).
Definition set_inserted (x : list job) (s : st) : st := mkSt (callers s) (gs s) (ws s) (wmap s) (chans s) (chcap s) (signal s) (maxk s) (depth s) (pool s) (closed s) (comps s) (ccap s) (accepted s) (completed s) x (started s) (taken s) (delivered s) (collected s).
Definition set_started (x : list job) (s : st) : st := mkSt (callers s) (gs s) (ws s) (wmap s) (chans s) (chcap s) (signal s) (maxk s) (depth s) (pool s) (closed s) (comps s) (ccap s) (accepted s) (completed s) (inserted s) x (taken s) (delivered s) (collected s).
Definition set_taken (x : list job) (s : st) : st := mkSt (callers s) (gs s) (ws s) (wmap s) (chans s) (chcap s) (signal s) (maxk s) (depth s) (pool s) (closed s) (comps s) (ccap s) (accepted s) (completed s) (inserted s) (started s) x (delivered s) (collected s).
Definition set_delivered (x : list job) (s : st) : st := mkSt (callers s) (gs s) (ws s) (wmap s) (chans s) (chcap s) (signal s) (maxk s) (depth s) (pool s) (closed s) (comps s) (ccap s) (accepted s) (completed s) (inserted s) (started s) (taken s) x (collected s).
Definition set_collected (x : list job) (s : st) : st := mkSt (callers s) (gs s) (ws s) (wmap s) (chans s) (chcap s) (signal s) (maxk s) (depth s) (pool s) (closed s) (comps s) (ccap s) (accepted s) (completed s) (inserted s) (started s) (taken s) (delivered s) x.

Notation newQueue := ItemQueue.Model.newQueue.

(** NewAsyncJobScheduler (async_scheduler.go:172-210), [n] callers. warmup only fills the pool with unused workers; here
    the pool starts empty and workers are made when needed. *)
Record config := mkC { Concurrency : nat; WorkerQueueDepth : nat; MaxConcurrentKeys : nat }.
(** async_scheduler.go:125-130 *)
Definition concurrentKeys (c : config) : nat := if MaxConcurrentKeys c <? Concurrency c then Concurrency c else MaxConcurrentKeys c.
Definition start (c : config) (n compCap : nat) : st :=
  mkSt (repeat CIdle n) (repeat GLoop (Concurrency c)) [] [] [[]] (S (concurrentKeys c)) false (concurrentKeys c) (WorkerQueueDepth c)
       [] false (fun _ => []) compCap [] [] [] [] [] [] [].

Inductive action :=
| ASchedule (c : nat) (j : job) | AGrab (c : nat) (src : option nat) | AWake (c : nat) | ABlockSend (c : nat) | ABlockCancel (c : nat) | AEnq (c : nat)
| ACollect (c : nat)
| GRead (g : nat) | GTake (g : nat) | GPeek (g : nat) | GReturn (g : nat) | GAdvance (g : nat) | GComplete (g : nat) | GRelease (g : nat) | GSignal (g : nat) | GEnqueue (g : nat) | GStop (g : nat)
| ASetMax (n : nat) | ASetDepth (n : nat) | AClose.

Fixpoint mlookup (k : nat) (m : list (nat * nat)) : option nat :=
  match m with [] => None | (k', w) :: m' => if decide (k = k') then Some w else mlookup k m' end.
Fixpoint mdelete (k : nat) (m : list (nat * nat)) : list (nat * nat) :=
  match m with [] => [] | (k', w) :: m' => if decide (k = k') then mdelete k m' else (k', w) :: mdelete k m' end.

Definition setc (c : nat) (x : cst) (s : st) : st := set_callers (<[c := x]> (callers s)) s.
Definition setg (g : nat) (x : gst) (s : st) : st := set_gs (<[g := x]> (gs s)) s.
Definition setq (w : nat) (o : wobj) (q : queue job) (s : st) : st := set_ws (<[w := mkW (wkey o) (wcap o) q]> (ws s)) s.
Definition current (s : st) : nat := pred (length (chans s)).

(** line 271: tryAddItem, and lines 274-278: what the caller does next *)
Definition addTo (c : nat) (j : job) (w : nat) (created : bool) (s : st) : option st :=
  match ws s !! w with
  | None => None
  | Some o =>
      let '(added, q) := ItemQueue.Model.tryEnqueue (wq o) j in
      let s := setq w o q s in
      if added then Some (setc c (if created then CEnq w else CIdle) (set_inserted (inserted s ++ [j]) s))
      else Some (setc c (CBlock w j) s)
  end.

(** lines 250-272, one section under ap.mux, with grabWorker (lines 399-414); [src] is the position in the pool that Get returned
    after workers of another capacity have been thrown away, None if a new worker was made (lines 220-228) *)
Definition grab (c : nat) (j : job) (src : option nat) (s : st) : option st :=
  match mlookup (jkey j) (wmap s) with
  | Some w => addTo c j w false s
  | None =>
      if maxk s <=? length (wmap s) then Some (setc c (CWait j) s)
      else match src with
      | None =>
          let w := length (ws s) in
          addTo c j w true (set_wmap ((jkey j, w) :: wmap s) (set_ws (ws s ++ [mkW (jkey j) (depth s) (newQueue (depth s))]) s))
      | Some i =>
          match pool s !! i with
          | None => None
          | Some w =>
              match ws s !! w with
              | None => None
              | Some o => if wcap o =? depth s
                          then addTo c j w true (set_wmap ((jkey j, w) :: wmap s) (set_pool (delete i (pool s)) (set_ws (<[w := mkW (jkey j) (wcap o) (wq o)]> (ws s)) s)))
                          else None
              end
          end
      end
  end.

(** send to the current worker channel, line 370; None: it is full, the sender waits *)
Definition sendWorker (w : nat) (s : st) : option st :=
  match chans s !! current s with
  | Some ch => if length ch <? chcap s then Some (set_chans (<[current s := ch ++ [w]]> (chans s)) s) else None
  | None => None
  end.

(** ensureWorkerChannelCapacity (async_scheduler.go:324-349) and SetMaxConcurrentKeys (:310-322). It runs under updateRWLock and ap.mux;
    the goroutines take from the channel without a lock, which commutes with the transfer. *)
Definition setMax (n : nat) (s : st) : st :=
  let s1 := set_maxk n s in
  if maxk s <? n
  then match chans s !! current s with
       | Some ch => set_chcap (S n) (set_chans (<[current s := drop n ch]> (chans s) ++ [take n ch]) s1)
       | None => s1
       end
  else s1.

Definition step (s : st) (a : action) : option st :=
  match a with
  | ASchedule c j => (* lines 231-243 *)
      match callers s !! c with
      | Some CIdle =>
          if jcaller j =? c then
            if closed s then Some (set_completed (completed s ++ [j]) s)
            else Some (setc c (CGrab j) (set_accepted (accepted s ++ [j]) s))
          else None
      | _ => None
      end
  | AGrab c src => match callers s !! c with Some (CGrab j) => grab c j src s | _ => None end
  | AWake c => (* lines 255-258, 351-353 *)
      match callers s !! c with
      | Some (CWait j) => if signal s then Some (setc c (if closed s then CIdle else CGrab j) (set_signal false s)) else None
      | _ => None
      end
  | ABlockSend c => (* lines 61-64 *)
      match callers s !! c with
      | Some (CBlock w j) =>
          match ws s !! w with
          | Some o => match ItemQueue.Model.chanSend (wq o) j with
                      | Some q => Some (setc c CIdle (set_inserted (inserted s ++ [j]) (setq w o q s)))
                      | None => None
                      end
          | None => None
          end
      | _ => None
      end
  | ABlockCancel c => (* line 65 *)
      match callers s !! c with Some (CBlock w j) => if closed s then Some (setc c CIdle s) else None | _ => None end
  | AEnq c => match callers s !! c with Some (CEnq w) => option_map (setc c CIdle) (sendWorker w s) | _ => None end
  | ACollect c => (* partition_worker.go:239, 297: not while in Schedule *)
      match callers s !! c with
      | Some CIdle => match comps s c with
                      | j :: q => Some (set_comps (fun x => if x =? c then q else comps s x) (set_collected (collected s ++ [j]) s))
                      | [] => None
                      end
      | _ => None
      end
  | GRead g => match gs s !! g with Some GLoop => Some (setg g (GSel (current s)) s) | _ => None end
  | GTake g => (* line 284; a closed empty channel yields nil *)
      match gs s !! g with
      | Some (GSel i) =>
          match chans s !! i with
          | Some (w :: ch) => Some (setg g (GProc w) (set_chans (<[i := ch]> (chans s)) s))
          | Some [] => if i =? current s then None else Some (setg g GLoop s)
          | None => None
          end
      | _ => None
      end
  | GPeek g => (* lines 80-87 *)
      match gs s !! g with
      | Some (GProc w) =>
          if closed s then Some (setg g (GRel w) s)
          else match ws s !! w with
               | Some o => match ItemQueue.Model.peek (wq o) with
                           | Some j => Some (setg g (GRun w j) (set_started (started s ++ [j]) s))
                           | None => Some (setg g (GRel w) s)
                           end
               | None => None
               end
      | _ => None
      end
  | GReturn g => match gs s !! g with Some (GRun w j) => Some (setg g (GAdv w j) s) | _ => None end
  | GAdvance g => (* lines 69-76 *)
      match gs s !! g with
      | Some (GAdv w j) =>
          match ws s !! w with
          | Some o => Some (setg g (GDeliver w j) (set_taken (taken s ++ match fst (ItemQueue.Model.dequeue (wq o)) with Some x => [x] | None => [] end)
                                                             (setq w o (snd (ItemQueue.Model.dequeue (wq o))) s)))
          | None => None
          end
      | _ => None
      end
  | GComplete g => (* line 90, partition_worker.go:57-59; blocks while the channel is full *)
      match gs s !! g with
      | Some (GDeliver w j) =>
          if length (comps s (jcaller j)) <? ccap s
          then Some (setg g (GRel w) (set_delivered (delivered s ++ [j]) (set_comps (fun x => if x =? jcaller j then comps s x ++ [j] else comps s x) s)))
          else None
      | _ => None
      end
  | GRelease g => (* lines 382-397 *)
      match gs s !! g with
      | Some (GRel w) =>
          match ws s !! w with
          | Some o => if ItemQueue.Model.done (wq o)
                      then Some (setg g GSig (set_pool (pool s ++ [w]) (set_ws (<[w := mkW 0 (wcap o) (wq o)]> (ws s)) (set_wmap (mdelete (wkey o) (wmap s)) s))))
                      else Some (setg g (GEnq w) s)
          | None => None
          end
      | _ => None
      end
  | GSignal g => (* lines 355-363 *)
      match gs s !! g with Some GSig => Some (setg g GLoop (if closed s then s else set_signal true s)) | _ => None end
  | GEnqueue g => match gs s !! g with Some (GEnq w) => option_map (setg g GLoop) (sendWorker w s) | _ => None end
  | GStop g => (* lines 289-298 *)
      match gs s !! g with Some (GSel _) => if closed s then Some (setg g GExit (set_signal true s)) else None | _ => None end
  | ASetMax n => Some (setMax n s)
  | ASetDepth n => Some (set_depth n s) (* :303-305 *)
  | AClose => Some (set_closed true s)
  end.
Fixpoint run (s : st) (acts : list action) : option st :=
  match acts with [] => Some s | a :: acts' => match step s a with Some s' => run s' acts' | None => None end end.
