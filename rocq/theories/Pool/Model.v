(** Model of streams/sak/pool.go and of the record pool, streams/record.go:44-82, 293-295. *)
From Coq Require Import ZArith List Bool Arith.
From Verif.Record Require Import Model.
Import ListNotations.
Open Scope nat_scope.

(** ** sak.Pool; items of type T, capacity fixed by make([]T, 0, size), pool.go:33-38.
    The mutex makes every method one step; the value returned by the factory is an argument. *)
Section Pool.
  Context {T : Type}.
  Record Pool := mkPool { freelist : list T; capacity : nat }.
  Definition NewPool (size : nat) : Pool := mkPool [] size.

  (** pool.go:41-54; the last element is the top; [factory] is what the factory would return *)
  Definition Borrow (factory : T) (p : Pool) : T * Pool :=
    match rev (freelist p) with
    | [] => (factory, p)
    | n :: rest => (n, mkPool (rev rest) (capacity p))
    end.

  (** pool.go:58-67, after reset *)
  Definition Release (n : T) (p : Pool) : bool * Pool :=
    if length (freelist p) <? capacity p
    then (true, mkPool (freelist p ++ [n]) (capacity p))
    else (false, p).
End Pool.
Arguments Pool : clear implicits.

(** ** Records in memory: pointers are numbers, allocated in order *)
Record recState := mkRS { r_rec : Record_; r_err : option nat }.

(** record.go:53-63, factory *)
Definition factoryRecord : recState := mkRS blankRecord None.
(** record.go:63-78, resetter: one field after the other (for line 70-72 see Record.Model.resetRecord) *)
Definition set_kRecord (k : KRecord) (r : recState) : recState :=
  mkRS (mkRecord (keyBuffer (r_rec r)) (valueBuffer (r_rec r)) k (recordType (r_rec r))) (r_err r).
Definition reset_keyBuffer (r : recState) : recState :=
  mkRS (mkRecord [] (valueBuffer (r_rec r)) (kRecord (r_rec r)) (recordType (r_rec r))) (r_err r).
Definition reset_valueBuffer (r : recState) : recState :=
  mkRS (mkRecord (keyBuffer (r_rec r)) [] (kRecord (r_rec r)) (recordType (r_rec r))) (r_err r).
Definition clear_recordType (r : recState) : recState :=
  mkRS (mkRecord (keyBuffer (r_rec r)) (valueBuffer (r_rec r)) (kRecord (r_rec r)) []) (r_err r).
Definition clear_err (r : recState) : recState := mkRS (r_rec r) None.
Definition resetState (r : recState) : recState :=
  clear_err (clear_recordType (reset_valueBuffer (reset_keyBuffer (set_kRecord blankKRecord r)))).

Record world := mkWorld { w_mem : list recState; w_pool : Pool nat }.
Definition world0 (size : nat) : world := mkWorld [] (NewPool size).

Inductive action :=
| ANew                          (* NewRecord(), record.go:80-82 *)
| AMutate (p : nat) (s : recState)  (* somebody with a pointer p does anything to the record *)
| ARelease (p : nat).           (* p.Release(), record.go:293-295 *)

(** What a call returns is the pointer NewRecord returns. Nothing keeps a caller from using a pointer after releasing it, or from
    releasing it twice; only pointers that exist can be used. *)
Definition step (w : world) (a : action) : option (world * option nat) :=
  match a with
  | ANew =>
      let fresh := length (w_mem w) in
      let '(p, pool) := Borrow fresh (w_pool w) in
      let mem := if p =? fresh then w_mem w ++ [factoryRecord] else w_mem w in
      Some (mkWorld mem pool, Some p)
  | AMutate p s =>
      match nth_error (w_mem w) p with
      | None => None
      | Some _ => Some (mkWorld (firstn p (w_mem w) ++ s :: skipn (S p) (w_mem w)) (w_pool w), None)
      end
  | ARelease p =>
      match nth_error (w_mem w) p with
      | None => None
      | Some r =>
          let mem := firstn p (w_mem w) ++ resetState r :: skipn (S p) (w_mem w) in
          let '(_, pool) := Release p (w_pool w) in
          Some (mkWorld mem pool, None)
      end
  end.

Fixpoint run (w : world) (acts : list action) : option (list (option nat) * world) :=
  match acts with
  | [] => Some ([], w)
  | a :: rest =>
      match step w a with
      | Some (w', r) => match run w' rest with Some (rs, w2) => Some (r :: rs, w2) | None => None end
      | None => None
      end
  end.
