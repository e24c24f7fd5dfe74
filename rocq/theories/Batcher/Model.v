(** Model of AsyncBatcher, streams/async_batcher.go, as a transition system over any number of Add calls, flush timers and
    executeBatch goroutines. One step is one critical section under ab.mux, one call of user code, or one completion delivered.
    Keys are numbers; any comparable key type has such a numbering. Item values, errors and UserData play no role. *)
From stdpp Require Import prelude list gmap.
From Coq Require Import ZArith.
Open Scope nat_scope.

(** BatchItem (async_batcher.go:33-40): the BatchItems it belongs to, its key, and its position there; None is itemType placeholder *)
Record item := mkI { i_b : nat; i_k : nat; i_n : option nat }.
#[global] Instance item_eq_dec : EqDecision item.
Proof. solve_decision. Defined.

(** BatchItems (async_batcher.go:50-57): its key, the keys of its items (Add and AddWithKey, lines 90-113; filled before it is given
    to the batcher), its completed counter (the 64-bit wrap-around is out of reach of len(items)), and [b_next], how far the
    loop of AsyncBatcher.Add (lines 195-216) has got. A BatchItems is given to the batcher once. *)
Record batch := mkB { b_key : nat; b_items : list nat; b_done : nat; b_next : nat }.

(** where a goroutine is inside executeBatch (async_batcher.go:271-284) *)
Inductive pc :=
| PStart                 (* started, line 272 *)
| PExec (c : nat)        (* in the user's BatchExecutor, line 273; c numbers the call, for the record only *)
| PComp (i : nat)        (* in completeBatchItems at item i, line 274 *)
| PNoops (i : nat).      (* in the loop over noops at i, line 276, or waiting for the mutex after it *)

(** asyncBatchExecutor (async_batcher.go:122-127). [e_noops] keeps the placeholder where Go keeps its batch pointer. [e_go] are the
    goroutines started on it and not ended. [e_all], items and placeholders in order of arrival, only records. *)
Record ex := mkE { e_items : list item; e_noops : list item; e_busy : bool; e_timer : option nat; e_go : list pc; e_all : list item }.

(** a time.AfterFunc timer of executor [t_ex] (async_batcher.go:249-254): not expired, expired with its function not yet run, or over *)
Inductive tst := TArmed | TFired | TOver.
Record timer := mkT { t_ex : nat; t_st : tst }.

(** what can be observed: an item entered the batcher (its turn in add), call c of the BatchExecutor with these items, its return,
    an item (or placeholder) completed, AsyncJobComplete called with the callback of a BatchItems *)
Inductive ev := EvAdd (it : item) | EvCall (c : nat) (l : list item) | EvRet (c : nat) | EvComp (it : item) | EvCb (b : nat).

(** AsyncBatcher (async_batcher.go:160-169); [trace] only records *)
Record st := mkSt {
  batches : list batch;
  execs : list ex;
  assign : gmap nat nat;
  pending : list item;
  count : Z;
  maxb : nat;
  timers : list timer;
  calls : nat;
  trace : list ev }.

Definition set_batches v s := mkSt v (execs s) (assign s) (pending s) (count s) (maxb s) (timers s) (calls s) (trace s).
Definition set_execs v s := mkSt (batches s) v (assign s) (pending s) (count s) (maxb s) (timers s) (calls s) (trace s).
Definition set_assign v s := mkSt (batches s) (execs s) v (pending s) (count s) (maxb s) (timers s) (calls s) (trace s).
Definition set_pending v s := mkSt (batches s) (execs s) (assign s) v (count s) (maxb s) (timers s) (calls s) (trace s).
Definition set_count v s := mkSt (batches s) (execs s) (assign s) (pending s) v (maxb s) (timers s) (calls s) (trace s).
Definition set_timers v s := mkSt (batches s) (execs s) (assign s) (pending s) (count s) (maxb s) v (calls s) (trace s).
Definition set_calls v s := mkSt (batches s) (execs s) (assign s) (pending s) (count s) (maxb s) (timers s) v (trace s).
Definition log (e : ev) s := mkSt (batches s) (execs s) (assign s) (pending s) (count s) (maxb s) (timers s) (calls s) (trace s ++ [e]).

(** NewAsyncBatcher (async_batcher.go:174-193): maxBatchSize, maxConcurrentBatches; the delay plays no role, timers expire when they like *)
Definition freshE := mkE [] [] false None [] [].
Definition start (size conc : nat) : st := mkSt [] (repeat freshE conc) ∅ [] 0 size [] 0 [].

(** the items ab.add is called with, in order (async_batcher.go:196-215) *)
Definition itemsOf (b : nat) (x : batch) : list item :=
  if decide (b_items x = []) then [mkI b (b_key x) None] else imap (fun i k => mkI b k (Some i)) (b_items x).

(** asyncExecutorFor (async_batcher.go:228-242) *)
Fixpoint firstReady (l : list ex) (i : nat) : option nat :=
  match l with [] => None | x :: l' => if e_busy x then firstReady l' (S i) else Some i end.
Definition executorFor (it : item) (s : st) : option nat :=
  match assign s !! i_k it with
  | Some e => match execs s !! e with Some x => if e_busy x then None else Some e | None => None end
  | None => firstReady (execs s) 0
  end.

(** asyncBatchExecutor.add (async_batcher.go:129-135) *)
Definition exAdd (it : item) (x : ex) : ex :=
  match i_n it with
  | None => mkE (e_items x) (e_noops x ++ [it]) (e_busy x) (e_timer x) (e_go x) (e_all x ++ [it])
  | Some _ => mkE (e_items x ++ [it]) (e_noops x) (e_busy x) (e_timer x) (e_go x) (e_all x ++ [it])
  end.

(** Timer.Stop: no effect on a timer whose function has been started *)
Definition stop (t : nat) (l : list timer) : list timer :=
  match l !! t with Some (mkT e TArmed) => <[t := mkT e TOver]> l | _ => l end.

(** conditionallyExecuteBatch (async_batcher.go:258-268) *)
Definition condExec (e : nat) (s : st) : st :=
  match execs s !! e with
  | Some x =>
    if e_busy x then s
    else set_timers (match e_timer x with Some t => stop t (timers s) | None => timers s end)
         (set_count (count s + 1)%Z (set_execs (<[e := mkE (e_items x) (e_noops x) true None (e_go x ++ [PStart]) (e_all x)]> (execs s)) s))
  | None => s
  end.

(** addToExecutor (async_batcher.go:244-256) *)
Definition addToExecutor (it : item) (e : nat) (s : st) : st :=
  match execs s !! e with
  | Some x =>
    let x1 := exAdd it x in
    let s1 := set_execs (<[e := x1]> (execs s)) (set_assign (<[i_k it := e]> (assign s)) s) in
    if length (e_items x1) + length (e_noops x1) =? maxb s then condExec e s1
    else match e_timer x1 with
         | None => set_timers (timers s ++ [mkT e TArmed]) (set_execs (<[e := mkE (e_items x1) (e_noops x1) (e_busy x1) (Some (length (timers s))) (e_go x1) (e_all x1)]> (execs s)) s1)
         | Some _ => s1
         end
  | None => s
  end.

(** add (async_batcher.go:218-226) *)
Definition addItem (it : item) (s : st) : st :=
  let s := log (EvAdd it) s in
  match executorFor it s with
  | Some e => addToExecutor it e s
  | None => set_pending (pending s ++ [it]) s
  end.

(** reset (async_batcher.go:137-148): the keys of the items are unassigned, those of placeholders are not *)
Definition resetE (e : nat) (s : st) : st :=
  match execs s !! e with
  | Some x => set_assign (foldr (fun it m => delete (i_k it) m) (assign s) (e_items x))
              (set_execs (<[e := mkE [] [] false (e_timer x) (e_go x) []]> (execs s)) s)
  | None => s
  end.

(** the loop of flushPendingItems (async_batcher.go:291-305), returning the items left on the list *)
Fixpoint flushLoop (todo : list item) (s : st) : list item * st :=
  match todo with
  | [] => ([], s)
  | it :: todo' =>
    match executorFor it s with
    | Some e => let s1 := addToExecutor it e s in
                if (count s1 =? Z.of_nat (length (execs s1)))%Z then (todo', s1) else flushLoop todo' s1
    | None => let '(l, s1) := flushLoop todo' s in (it :: l, s1)
    end
  end.
(** flushPendingItems (async_batcher.go:286-306) *)
Definition flushPending (s : st) : st :=
  if (count s =? Z.of_nat (length (execs s)))%Z then s
  else let '(l, s1) := flushLoop (pending s) s in set_pending l s1.

(** completeItem (async_batcher.go:83-87); AsyncJobComplete (event_context.go:169-174) hands the callback to the partition worker,
    which is taken to accept it *)
Definition completeItem (it : item) (s : st) : st :=
  match batches s !! i_b it with
  | Some b =>
    let b1 := mkB (b_key b) (b_items b) (S (b_done b)) (b_next b) in
    let s1 := log (EvComp it) (set_batches (<[i_b it := b1]> (batches s)) s) in
    if b_done b1 =? length (b_items b1) then log (EvCb (i_b it)) s1 else s1
  | None => s
  end.

Definition setGo (e j : nat) (p : pc) (s : st) : st :=
  match execs s !! e with
  | Some x => set_execs (<[e := mkE (e_items x) (e_noops x) (e_busy x) (e_timer x) (<[j := p]> (e_go x)) (e_all x)]> (execs s)) s
  | None => s
  end.
Definition endGo (e j : nat) (s : st) : st :=
  match execs s !! e with
  | Some x => set_execs (<[e := mkE (e_items x) (e_noops x) (e_busy x) (e_timer x) (delete j (e_go x)) (e_all x)]> (execs s)) s
  | None => s
  end.

(** one step of the j-th goroutine in executeBatch on executor e (async_batcher.go:271-284) *)
Definition goStep (e j : nat) (s : st) : option st :=
  match execs s !! e with
  | Some x =>
    match e_go x !! j with
    | Some PStart =>
      Some (if 0 <? length (e_items x) then setGo e j (PExec (calls s)) (log (EvCall (calls s) (e_items x)) (set_calls (S (calls s)) s))
            else setGo e j (PNoops 0) s)
    | Some (PExec c) => Some (setGo e j (PComp 0) (log (EvRet c) s))
    | Some (PComp i) =>
      Some (match e_items x !! i with
            | Some it => setGo e j (PComp (S i)) (completeItem it s)
            | None => setGo e j (PNoops 0) s
            end)
    | Some (PNoops i) =>
      Some (match e_noops x !! i with
            | Some it => setGo e j (PNoops (S i)) (log (EvCb (i_b it)) (log (EvComp it) s))
            | None => flushPending (resetE e (set_count (count s - 1)%Z (endGo e j s)))
            end)
    | None => None
    end
  | None => None
  end.

Inductive action :=
| AStart (k : nat) (ks : list nat)   (* someone calls Add with a BatchItems of key k and items of keys ks *)
| AItem (b : nat)                    (* the Add call of BatchItems b adds its next item *)
| AFire (t : nat)                    (* timer t expires *)
| ATimer (t : nat)                   (* the function of the expired timer t runs, lines 250-253 *)
| AGo (e j : nat).                   (* a goroutine in executeBatch takes a step *)

Definition step (s : st) (a : action) : option st :=
  match a with
  | AStart k ks => Some (set_batches (batches s ++ [mkB k ks 0 0]) s)
  | AItem b =>
    match batches s !! b with
    | Some x =>
      match itemsOf b x !! b_next x with
      | Some it => Some (addItem it (set_batches (<[b := mkB (b_key x) (b_items x) (b_done x) (S (b_next x))]> (batches s)) s))
      | None => None
      end
    | None => None
    end
  | AFire t => match timers s !! t with Some (mkT e TArmed) => Some (set_timers (<[t := mkT e TFired]> (timers s)) s) | _ => None end
  | ATimer t => match timers s !! t with Some (mkT e TFired) => Some (condExec e (set_timers (<[t := mkT e TOver]> (timers s)) s)) | _ => None end
  | AGo e j => goStep e j s
  end.
Fixpoint run (s : st) (acts : list action) : option st :=
  match acts with [] => Some s | a :: acts' => match step s a with Some s' => run s' acts' | None => None end end.
