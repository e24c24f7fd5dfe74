(** Model of partitionedChangeLog, streams/partitioned_store.go:59-101. *)
From stdpp Require Import prelude list gmap.
Open Scope nat_scope.

(** A store is known by the number of the factory call that made it: two calls of the factory (partitioned_store.go:85) are taken to
    return different stores. Partitions are numbers. The log and [created], [revoked] only record. *)
Record st := mkSt { data : gmap nat nat; created : list nat; revoked : list nat }.
Definition start : st := mkSt ∅ [] [].

(** assign, partitioned_store.go:77-91, under ps.mux: returns the store *)
Definition assign (p : nat) (s : st) : nat * st :=
  match data s !! p with
  | Some x => (x, s)
  | None => let x := length (created s) in (x, mkSt (<[p := x]> (data s)) (created s ++ [p]) (revoked s))
  end.
(** revoke, partitioned_store.go:93-101, under ps.mux: Revoked is called on the store, if there is one *)
Definition revoke (p : nat) (s : st) : st :=
  match data s !! p with
  | Some x => mkSt (delete p (data s)) (created s) (revoked s ++ [x])
  | None => s
  end.
(** Len, partitioned_store.go:73-75 *)
Definition Len (s : st) : nat := size (data s).

Inductive op := OAssign (p : nat) | ORevoke (p : nat).
Definition step (s : st) (o : op) : option nat * st :=
  match o with
  | OAssign p => let '(x, s') := assign p s in (Some x, s')
  | ORevoke p => (None, revoke p s)
  end.
(** what every call returned *)
Fixpoint run (s : st) (os : list op) : list (option nat) * st :=
  match os with
  | [] => ([], s)
  | o :: os' => let '(r, s1) := step s o in let '(rs, s2) := run s1 os' in (r :: rs, s2)
  end.
