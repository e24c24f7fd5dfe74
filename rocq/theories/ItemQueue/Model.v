(** Model of streams/async_item_queue.go. Every operation but the channel send of a waiting sender happens under headLock; the
    send is atomic by itself, so operations are single steps. [size] is an int32 in the code and an unbounded integer here:
    it counts queued items and waiting senders. *)
From Coq Require Import List ZArith.
Import ListNotations.

Section Q.
Context {T : Type}.

(** asyncItemQueue (async_item_queue.go:40-49); head = None stands for peekable = false *)
Record queue := mkQ { size : Z; head : option T; chan : list T; chcap : nat }.

Definition minWorkItemQueueSize : nat := 2. (* :21 *)

(** async_item_queue.go:51-60 *)
Definition newQueue (maxSize : nat) : queue :=
  let m := if Nat.ltb maxSize minWorkItemQueueSize then minWorkItemQueueSize else maxSize in mkQ 0 None [] (m - 1).

(** async_item_queue.go:62-71 *)
Definition backfill (q : queue) : bool * queue :=
  match chan q with
  | x :: c => (true, mkQ (size q) (Some x) c (chcap q))
  | [] => (false, mkQ (size q) None [] (chcap q))
  end.

(** the channel send of a waiting sender (async_scheduler.go:61-66) and of tryEnqueue; None: no room *)
Definition chanSend (q : queue) (x : T) : option queue :=
  if Nat.ltb (length (chan q)) (chcap q) then Some (mkQ (size q) (head q) (chan q ++ [x]) (chcap q)) else None.

(** async_item_queue.go:77-92 *)
Definition tryEnqueue (q : queue) (x : T) : bool * queue :=
  let q := mkQ (size q + 1) (head q) (chan q) (chcap q) in
  let (peekable, q) := match head q with Some _ => (true, q) | None => backfill q end in
  if peekable then match chanSend q x with Some q' => (true, q') | None => (false, q) end
  else (true, mkQ (size q) (Some x) (chan q) (chcap q)).

(** async_item_queue.go:94-104 *)
Definition dequeue (q : queue) : option T * queue :=
  let (peekable, q) := match head q with Some _ => (true, q) | None => backfill q end in
  if peekable then let q := mkQ (size q - 1) (head q) (chan q) (chcap q) in (head q, snd (backfill q)) else (None, q).

(** async_item_queue.go:106-110 *)
Definition peek (q : queue) : option T := head q.
(** async_item_queue.go:112-116 *)
Definition done (q : queue) : bool := Z.leb (size q) 0.

(** ** any number of senders and receivers using one queue: a sender whose tryEnqueue was refused waits to send *)
Record st := mkSt { q : queue; waiting : list T; entered : list T; left : list T }.
Inductive op := OEnqueue (x : T) | OSend (i : nat) | ODequeue | OPeek | ODone.
Inductive out := RBool (b : bool) | RItem (x : option T).
Definition start (maxSize : nat) : st := mkSt (newQueue maxSize) [] [] [].
Definition remove (i : nat) (l : list T) : list T := firstn i l ++ skipn (S i) l.
(** [entered] and [left] only record in which order items entered and left *)
Definition step (s : st) (o : op) : option (out * st) :=
  match o with
  | OEnqueue x =>
      let (b, q') := tryEnqueue (q s) x in
      Some (RBool b, if b then mkSt q' (waiting s) (entered s ++ [x]) (left s) else mkSt q' (waiting s ++ [x]) (entered s) (left s))
  | OSend i =>
      match nth_error (waiting s) i with
      | Some x => match chanSend (q s) x with Some q' => Some (RBool true, mkSt q' (remove i (waiting s)) (entered s ++ [x]) (left s)) | None => None end
      | None => None
      end
  | ODequeue => let (r, q') := dequeue (q s) in
                Some (RItem r, mkSt q' (waiting s) (entered s) (left s ++ match r with Some x => [x] | None => [] end))
  | OPeek => Some (RItem (peek (q s)), s)
  | ODone => Some (RBool (done (q s)), s)
  end.
Fixpoint run (s : st) (os : list op) : option (list out * st) :=
  match os with
  | [] => Some ([], s)
  | o :: os' => match step s o with
                | Some (r, s1) => match run s1 os' with Some (rs, s2) => Some (r :: rs, s2) | None => None end
                | None => None
                end
  end.
End Q.
Arguments queue : clear implicits.
Arguments st : clear implicits.
Arguments op : clear implicits.
Arguments out : clear implicits.
