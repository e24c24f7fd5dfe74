(** Model of streams/stores/sharded_tree.go on top of the btree model. *)
From Coq Require Import ZArith List Bool.
From Verif.Base Require Import GoInt.
From Verif.BTree Require Import Model.
Import ListNotations.
Open Scope Z_scope.

Section S.
  (** [hashFunc] is arbitrary (StringHash and ByteHash, sharded_tree.go:28-36, are xxhash); its result is a uint64 *)
  Context {K T : Type} (hashFunc : K -> Z) (less : T -> T -> bool).

  (** sharded_tree.go:52-56 *)
  Record ShardedTree := mkST { trees : list (tree T); mod_ : Z }.

  (** [2 << exponent] on int: None = panic for a negative shift count; bits shifted out are lost *)
  Definition shiftLeft (x n : Z) : option Z := if n <? 0 then None else Some (s64 (Z.shiftl x n)).

  (** sharded_tree.go:74-86; None = panic (negative shift count, or make with a negative length). The shared
      free list only recycles memory and is not modelled; neither is running out of memory. *)
  Definition NewShardedTree (exponent : Z) : option ShardedTree :=
    match shiftLeft 2 exponent with
    | None => None
    | Some shards =>
        if shards <? 0 then None
        else Some (mkST (repeat [] (Z.to_nat shards)) (u64 (shards - 1)))
    end.

  (** sharded_tree.go:97-99: the index of the returned tree; None = index out of range *)
  Definition For (st : ShardedTree) (key : K) : option nat :=
    let i := Z.land (u64 (hashFunc key)) (mod_ st) in
    if i <? Z.of_nat (length (trees st)) then Some (Z.to_nat i) else None.

  (** sharded_tree.go:102-107; the sum is below 2^63 in any memory *)
  Definition ShardLen (st : ShardedTree) : nat := fold_left (fun l t => (l + Len t)%nat) (trees st) O.

  Definition set_tree (st : ShardedTree) (i : nat) (t : tree T) : ShardedTree :=
    mkST (firstn i (trees st) ++ t :: skipn (S i) (trees st)) (mod_ st).

  (** uses of the tree as its documentation describes (sharded_tree.go:88-96): every operation on an item goes
      to the tree returned by For for the key of that item *)
  Context (keyOf : T -> K).
  Inductive op := OInsert (x : T) | ODelete (x : T) | OGet (x : T).
  Definition step (st : ShardedTree) (o : op) : option (option T * ShardedTree) :=
    let x := match o with OInsert x | ODelete x | OGet x => x end in
    match For st (keyOf x) with
    | None => None
    | Some i =>
        match nth_error (trees st) i with
        | None => None
        | Some t =>
            match o with
            | OInsert _ => let '(old, t') := ReplaceOrInsert less t x in Some (old, set_tree st i t')
            | ODelete _ => let '(old, t') := Delete less t x in Some (old, set_tree st i t')
            | OGet _ => Some (Get less t x, st)
            end
        end
    end.
  Fixpoint run (st : ShardedTree) (os : list op) : option (list (option T) * ShardedTree) :=
    match os with
    | [] => Some ([], st)
    | o :: os' =>
        match step st o with
        | None => None
        | Some (r, st1) => match run st1 os' with
                           | None => None
                           | Some (rs, st2) => Some (r :: rs, st2)
                           end
        end
    end.
End S.
Arguments ShardedTree : clear implicits.
Arguments op : clear implicits.
