(** Model of streams/stores/min_max_heap.go. *)
From Coq Require Import List Bool Arith.
Import ListNotations.

Section Heap.
  (** priorities and HasPriorityOver (min_max_heap.go:21-23) *)
  Context {P : Type} (lt : P -> P -> bool).

  (** min_max_heap.go:25-28, 37-40. Items are pointers (numbers here); [idx] and [value] are their fields.
      [arr] gives the item in each slot, slots from [len] on are not part of the slice. Index arithmetic does
      not wrap around (lengths below 2^61). *)
  Record heap := mkHeap { len : nat; arr : nat -> nat; idx : nat -> nat; value : nat -> P; maxed : bool }.

  Definition upd {B} (f : nat -> B) (k : nat) (v : B) : nat -> B := fun x => if Nat.eqb x k then v else f x.
  Definition val (h : heap) (i : nat) : P := value h (arr h i).
  Definition setMaxed (h : heap) (b : bool) : heap := mkHeap (len h) (arr h) (idx h) (value h) b.
  Definition setValue (h : heap) (x : nat) (v : P) : heap := mkHeap (len h) (arr h) (idx h) (upd (value h) x v) (maxed h).

  (** min_max_heap.go:53-57 *)
  Definition less (h : heap) (i j : nat) : bool := lt (val h i) (val h j).
  (** min_max_heap.go:59-64 *)
  Definition swap (h : heap) (i j : nat) : heap :=
    let a := upd (upd (arr h) i (arr h j)) j (arr h i) in
    mkHeap (len h) a (upd (upd (idx h) (a i) i) (a j) j) (value h) (maxed h).
  (** min_max_heap.go:122-128, 130-132 *)
  Definition pop_ (h : heap) : nat * heap := (arr h (len h - 1), mkHeap (len h - 1) (arr h) (idx h) (value h) (maxed h)).
  Definition push_ (h : heap) (x : nat) : heap := mkHeap (S (len h)) (upd (arr h) (len h) x) (idx h) (value h) (maxed h).

  (** min_max_heap.go:137-168 *)
  Definition level (i : nat) : nat := Nat.log2 (i + 1).
  Definition isMinLevel (i : nat) : bool := Nat.even (level i).
  Definition lchild (i : nat) : nat := i * 2 + 1.
  Definition rchild (i : nat) : nat := i * 2 + 2.
  Definition parent (i : nat) : nat := (i - 1) / 2.
  Definition hasParent (i : nat) : bool := 0 <? i.
  Definition hasGrandparent (i : nat) : bool := 2 <? i.
  Definition grandparent (i : nat) : nat := parent (parent i).

  (** min_max_heap.go:174-194: the slot among i, its children and grandchildren below n that the loop selects;
      None = the break on line 177-179. The loop on lines 190-194 runs over lchild(l) .. rchild(r), four slots. *)
  Definition best (h : heap) (min : bool) (i n : nat) : option nat :=
    let l := lchild i in
    if n <=? l then None else
    let m := i in
    let m := if eqb (less h l m) min then l else m in
    let r := rchild i in
    let m := if (r <? n) && eqb (less h r m) min then r else m in
    let m := fold_left (fun m g => if (g <? n) && (g <=? rchild r) && eqb (less h g m) min then g else m)
                       [lchild l; lchild l + 1; lchild l + 2; lchild l + 3] m in
    Some m.

  (** min_max_heap.go:173-212; the result is the final i *)
  Fixpoint downLoop (fuel : nat) (h : heap) (min : bool) (i n : nat) : heap * nat :=
    match fuel with
    | O => (h, i)
    | S fuel' =>
        match best h min i n with
        | None => (h, i)
        | Some m =>
            if Nat.eqb m i then (h, i)
            else
              let h := swap h i m in
              if Nat.eqb m (lchild i) || Nat.eqb m (rchild i) then (h, i)
              else
                let p := parent m in
                let h := if eqb (less h p m) min then swap h m p else h in
                downLoop fuel' h min m n
        end
    end.
  (** min_max_heap.go:170-214; the slot grows with every round, so n rounds suffice *)
  Definition down (h : heap) (i n : nat) : heap * bool :=
    let '(h', j) := downLoop (S n) h (isMinLevel i) i n in (h', i <? j).

  (** min_max_heap.go:228-236 *)
  Fixpoint upLoop (fuel : nat) (h : heap) (min : bool) (i : nat) : heap :=
    match fuel with
    | O => h
    | S fuel' =>
        if hasGrandparent i then
          let g := grandparent i in
          if negb (eqb (less h i g) min) then h
          else upLoop fuel' (swap h i g) min g
        else h
    end.
  (** min_max_heap.go:216-237 *)
  Definition up (h : heap) (i : nat) : heap :=
    let min := isMinLevel i in
    if hasParent i then
      let p := parent i in
      if eqb (less h p i) min then upLoop (S i) (swap h i p) (negb min) p
      else upLoop (S i) h min i
    else upLoop (S i) h min i.

  (** min_max_heap.go:243-248 *)
  Fixpoint initLoop (k : nat) (h : heap) (n : nat) : heap :=
    match k with O => h | S i => initLoop i (fst (down h i n)) n end.
  Definition initHeap (h : heap) : heap := initLoop (len h / 2) h (len h).

  (** min_max_heap.go:42-51; the new items are the pointers 0, 1, … *)
  Definition NewMinMaxHeap (zero : P) (items : list P) : heap :=
    initHeap (mkHeap (length items) (fun i => i) (fun x => if x <? length items then x else 0)
                     (fun x => nth x items zero) false).

  (** min_max_heap.go:252-255, 70-73 *)
  Definition push (h : heap) (x : nat) : heap := let h := push_ h x in up h (len h - 1).
  Definition Push (h : heap) (x : nat) : heap := push (setMaxed h false) x.
  (** min_max_heap.go:85-90 *)
  Definition Min (h : heap) : option nat := if Nat.eqb (len h) 0 then None else Some (arr h 0).
  (** min_max_heap.go:268-284 *)
  Definition setMax (h : heap) : heap :=
    let n := len h in
    let i := 0 in
    let l := lchild 0 in
    let i := if (l <? n) && negb (less h l i) then l else i in
    let r := rchild 0 in
    let i := if (r <? n) && negb (less h r i) then r else i in
    fst (down (swap h i (n - 1)) i (n - 1)).
  (** min_max_heap.go:92-101 *)
  Definition Max (h : heap) : option nat * heap :=
    if Nat.eqb (len h) 0 then (None, h)
    else
      let h := if maxed h then h else setMaxed (setMax h) true in
      (Some (arr h (len h - 1)), h).
  (** min_max_heap.go:259-264, 103-109 *)
  Definition popMin (h : heap) : nat * heap :=
    let n := len h - 1 in pop_ (fst (down (swap h 0 n) 0 n)).
  Definition PopMin (h : heap) : option nat * heap :=
    if Nat.eqb (len h) 0 then (None, h)
    else let '(x, h') := popMin (setMaxed h false) in (Some x, h').
  (** min_max_heap.go:111-120 *)
  Definition PopMax (h : heap) : option nat * heap :=
    if Nat.eqb (len h) 0 then (None, h)
    else
      let h := if maxed h then h else setMax h in
      let '(x, h') := pop_ (setMaxed h false) in (Some x, h').

  (** min_max_heap.go:309-318; None = index out of range *)
  Definition remove (h : heap) (i : nat) : option heap :=
    if len h <=? i then None
    else
      let n := len h - 1 in
      let h := if Nat.eqb n i then h
               else let h := swap h i n in
                    let '(h', moved) := down h i n in
                    if moved then h' else up h' i in
      Some (snd (pop_ h)).
  (** min_max_heap.go:80-83 *)
  Definition Remove (h : heap) (x : nat) : option heap := remove (setMaxed h false) (idx h x).
  (** min_max_heap.go:325-329; on an empty heap only slot 0 is not dereferenced; None = index out of range *)
  Definition fix_ (h : heap) (i : nat) : option heap :=
    if (len h <=? i) && negb (Nat.eqb i 0) then None
    else let '(h', moved) := down h i (len h) in Some (if moved then h' else up h' i).
  (** min_max_heap.go:75-78, after the caller changed the Value *)
  Definition Update (h : heap) (x : nat) : option heap := fix_ (setMaxed h false) (idx h x).

  Inductive op := OPush (x : nat) (v : P) | OMin | OMax | OPopMin | OPopMax.
  (** a pushed item is a fresh pointer or one that is no longer in the heap; its Value is set by the caller *)
  Definition step (h : heap) (o : op) : option nat * heap :=
    match o with
    | OPush x v => (None, Push (setValue h x v) x)
    | OMin => (Min h, h)
    | OMax => Max h
    | OPopMin => PopMin h
    | OPopMax => PopMax h
    end.
  Fixpoint run (h : heap) (os : list op) : list (option nat) * heap :=
    match os with
    | [] => ([], h)
    | o :: os' => let '(r, h1) := step h o in let '(rs, h2) := run h1 os' in (r :: rs, h2)
    end.
  Definition items (h : heap) : list nat := map (arr h) (seq 0 (len h)).
End Heap.
Arguments heap : clear implicits.
Arguments op : clear implicits.
