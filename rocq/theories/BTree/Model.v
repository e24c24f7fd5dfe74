(** Model of the library container github.com/google/btree BTreeG as far as the repository uses it
    (New, ReplaceOrInsert, Get, Delete, Len, Ascend, Clear), used by streams/topics.go:47-91,
    streams/stores/simple_store.go, streams/stores/sharded_tree.go, streams/group_state.go,
    streams/incr_rebalancer.go.

    The tree is the sorted slice of its items; items are located with sort.Search exactly as in the
    library's items.find.  Splitting the slice into nodes of bounded degree is not modelled: a tree with at
    most 2*degree-1 items (31 for degree 16, 127 for degree 64) is one such slice. *)
From Coq Require Import List Bool Arith.
Import ListNotations.

(** Go's sort.Search(n, f); [fuel] bounds the iterations (n+1 suffices) *)
Fixpoint searchLoop (fuel : nat) (f : nat -> bool) (i j : nat) : nat :=
  match fuel with
  | O => i
  | S fuel' =>
      if i <? j then
        let h := Nat.div2 (i + j) in
        if f h then searchLoop fuel' f i h else searchLoop fuel' f (S h) j
      else i
  end.
Definition sortSearch (n : nat) (f : nat -> bool) : nat := searchLoop (S n) f 0 n.

Section BTree.
  Context {T : Type} (less : T -> T -> bool).

  Definition tree := list T.

  (** items.find: i := sort.Search(len(s), less(item, s[i])); if i > 0 && !less(s[i-1], item) { return i-1, true }; return i, false *)
  Definition find_ (s : tree) (item : T) : nat * bool :=
    let i := sortSearch (length s) (fun k => match nth_error s k with Some y => less item y | None => true end) in
    match i with
    | O => (O, false)
    | S i' => match nth_error s i' with
              | Some y => if negb (less y item) then (i', true) else (i, false)
              | None => (i, false)
              end
    end.

  Definition Get (s : tree) (key : T) : option T :=
    let '(i, found) := find_ s key in if found then nth_error s i else None.

  (** returns the replaced item, if any *)
  Definition ReplaceOrInsert (s : tree) (item : T) : option T * tree :=
    let '(i, found) := find_ s item in
    if found then (nth_error s i, firstn i s ++ item :: skipn (S i) s)
    else (None, firstn i s ++ item :: skipn i s).

  (** returns the removed item, if any *)
  Definition Delete (s : tree) (item : T) : option T * tree :=
    let '(i, found) := find_ s item in
    if found then (nth_error s i, firstn i s ++ skipn (S i) s) else (None, s).

  Definition Len (s : tree) : nat := length s.
  (** the items visited by Ascend with a callback that never stops *)
  Definition Ascend (s : tree) : list T := s.
End BTree.
Arguments tree : clear implicits.
