(** Model of streams/sak/yadll.go: doubly linked lists over a pointer store. *)
From Coq Require Import ZArith List Bool Arith.
Import ListNotations.

(** a pointer to an element: the sentinel embedded in a list, or an allocated element *)
Inductive ptr := Root (l : nat) | El (e : nat).
Definition ptr_eqb (a b : ptr) : bool :=
  match a, b with
  | Root x, Root y => Nat.eqb x y
  | El x, El y => Nat.eqb x y
  | _, _ => false
  end.

Section DList.
  Context {T : Type}.

  (** the store: fields next, prev, list, Value of elements (yadll.go:11-24; None = nil) and len of lists
      (yadll.go:44-47, without wrap-around). An element that was never allocated reads as a zero Element, a list that was
      never touched as a zero List. [fresh] is the next address handed out by the allocator. *)
  Record mem := mkMem {
    nx : ptr -> option ptr;
    pv : ptr -> option ptr;
    own : nat -> option nat;
    val : nat -> T;
    len : nat -> Z;
    fresh : nat }.

  Definition fupd {B} (f : ptr -> B) (p : ptr) (v : B) : ptr -> B := fun q => if ptr_eqb q p then v else f q.
  Definition nupd {B} (f : nat -> B) (p : nat) (v : B) : nat -> B := fun q => if Nat.eqb q p then v else f q.
  Definition setn (p : ptr) (v : option ptr) (m : mem) := mkMem (fupd (nx m) p v) (pv m) (own m) (val m) (len m) (fresh m).
  Definition setp (p : ptr) (v : option ptr) (m : mem) := mkMem (nx m) (fupd (pv m) p v) (own m) (val m) (len m) (fresh m).
  Definition seto (e : nat) (v : option nat) (m : mem) := mkMem (nx m) (pv m) (nupd (own m) e v) (val m) (len m) (fresh m).
  Definition setl (l : nat) (v : Z) (m : mem) := mkMem (nx m) (pv m) (own m) (val m) (nupd (len m) l v) (fresh m).

  Definition opt_eqb (a : option nat) (b : nat) : bool := match a with Some x => Nat.eqb x b | None => false end.
  Definition popt_eqb (a : option ptr) (b : ptr) : bool := match a with Some x => ptr_eqb x b | None => false end.

  (** yadll.go:27-32, 35-40 *)
  Definition Next (m : mem) (e : nat) : option ptr :=
    match own m e with
    | Some l => if popt_eqb (nx m (El e)) (Root l) then None else nx m (El e)
    | None => None
    end.
  Definition Prev (m : mem) (e : nat) : option ptr :=
    match own m e with
    | Some l => if popt_eqb (pv m (El e)) (Root l) then None else pv m (El e)
    | None => None
    end.

  (** yadll.go:50-55 *)
  Definition Init (m : mem) (l : nat) : mem :=
    setl l 0 (setp (Root l) (Some (Root l)) (setn (Root l) (Some (Root l)) m)).
  (** yadll.go:62, 65-70, 73-78 *)
  Definition Len (m : mem) (l : nat) : Z := len m l.
  Definition Front (m : mem) (l : nat) : option ptr := if (len m l =? 0)%Z then None else nx m (Root l).
  Definition Back (m : mem) (l : nat) : option ptr := if (len m l =? 0)%Z then None else pv m (Root l).
  (** yadll.go:81-85 *)
  Definition lazyInit (m : mem) (l : nat) : mem := match nx m (Root l) with None => Init m l | Some _ => m end.

  (** the four assignments of yadll.go:89-92 and 121-124; None = nil dereference *)
  Definition link (m : mem) (e : nat) (at_ : option ptr) : option mem :=
    let m := setp (El e) at_ m in
    match at_ with
    | None => None
    | Some a =>
        let m := setn (El e) (nx m a) m in
        match pv m (El e) with
        | None => None
        | Some p =>
            let m := setn p (Some (El e)) m in
            match nx m (El e) with
            | None => None
            | Some q => Some (setp q (Some (El e)) m)
            end
        end
    end.
  (** yadll.go:105-106 and 118-119 *)
  Definition unlink (m : mem) (e : nat) : option mem :=
    match pv m (El e) with
    | None => None
    | Some p =>
        let m := setn p (nx m (El e)) m in
        match nx m (El e) with
        | None => None
        | Some q => Some (setp q (pv m (El e)) m)
        end
    end.

  (** yadll.go:88-96 *)
  Definition insert (m : mem) (l e : nat) (at_ : option ptr) : option mem :=
    match link m e at_ with
    | None => None
    | Some m => Some (setl l (len m l + 1) (seto e (Some l) m))
    end.
  (** yadll.go:99-101: a new element with the given value *)
  Definition insertValue (m : mem) (l : nat) (v : T) (at_ : option ptr) : option (nat * mem) :=
    let e := fresh m in
    let m1 := mkMem (fupd (nx m) (El e) None) (fupd (pv m) (El e) None) (nupd (own m) e None) (nupd (val m) e v) (len m) (S e) in
    match insert m1 l e at_ with None => None | Some m2 => Some (e, m2) end.
  (** yadll.go:104-111 *)
  Definition remove (m : mem) (l e : nat) : option mem :=
    match unlink m e with
    | None => None
    | Some m => Some (setl l (len m l - 1) (seto e None (setp (El e) None (setn (El e) None m))))
    end.
  (** yadll.go:114-125 *)
  Definition move (m : mem) (e : nat) (at_ : option ptr) : option mem :=
    if popt_eqb at_ (El e) then Some m
    else match unlink m e with None => None | Some m => link m e at_ end.

  (** yadll.go:130-137 *)
  Definition Remove (m : mem) (l e : nat) : option (T * mem) :=
    if opt_eqb (own m e) l then match remove m l e with None => None | Some m' => Some (val m' e, m') end
    else Some (val m e, m).
  (** yadll.go:140-143, 146-149 *)
  Definition PushFront (m : mem) (l : nat) (v : T) : option (nat * mem) :=
    let m := lazyInit m l in insertValue m l v (Some (Root l)).
  Definition PushBack (m : mem) (l : nat) (v : T) : option (nat * mem) :=
    let m := lazyInit m l in insertValue m l v (pv m (Root l)).
  (** yadll.go:154-160, 165-171; the inner None = nil result *)
  Definition InsertBefore (m : mem) (l : nat) (v : T) (mark : nat) : option (option nat * mem) :=
    if negb (opt_eqb (own m mark) l) then Some (None, m)
    else match insertValue m l v (pv m (El mark)) with None => None | Some (e, m') => Some (Some e, m') end.
  Definition InsertAfter (m : mem) (l : nat) (v : T) (mark : nat) : option (option nat * mem) :=
    if negb (opt_eqb (own m mark) l) then Some (None, m)
    else match insertValue m l v (Some (El mark)) with None => None | Some (e, m') => Some (Some e, m') end.
  (** yadll.go:176-182, 187-193, 198-203, 208-213 *)
  Definition MoveToFront (m : mem) (l e : nat) : option mem :=
    if negb (opt_eqb (own m e) l) || popt_eqb (nx m (Root l)) (El e) then Some m else move m e (Some (Root l)).
  Definition MoveToBack (m : mem) (l e : nat) : option mem :=
    if negb (opt_eqb (own m e) l) || popt_eqb (pv m (Root l)) (El e) then Some m else move m e (pv m (Root l)).
  Definition MoveBefore (m : mem) (l e mark : nat) : option mem :=
    if negb (opt_eqb (own m e) l) || Nat.eqb e mark || negb (opt_eqb (own m mark) l) then Some m
    else move m e (pv m (El mark)).
  Definition MoveAfter (m : mem) (l e mark : nat) : option mem :=
    if negb (opt_eqb (own m e) l) || Nat.eqb e mark || negb (opt_eqb (own m mark) l) then Some m
    else move m e (Some (El mark)).

  (** yadll.go:217-222, 226-231. The loop variable is an element of [other]; a nil or sentinel element in the
      loop body is a panic (the sentinel has no owner, so its Next would be nil; it never occurs, see Proofs). *)
  Fixpoint pushBackLoop (m : mem) (l : nat) (i : nat) (e : option ptr) : option mem :=
    match i with
    | O => Some m
    | S i' => match e with
              | Some (El x) => match insertValue m l (val m x) (pv m (Root l)) with
                               | None => None
                               | Some (_, m') => pushBackLoop m' l i' (Next m' x)
                               end
              | _ => None
              end
    end.
  Definition PushBackList (m : mem) (l other : nat) : option mem :=
    let m := lazyInit m l in pushBackLoop m l (Z.to_nat (Len m other)) (Front m other).
  Fixpoint pushFrontLoop (m : mem) (l : nat) (i : nat) (e : option ptr) : option mem :=
    match i with
    | O => Some m
    | S i' => match e with
              | Some (El x) => match insertValue m l (val m x) (Some (Root l)) with
                               | None => None
                               | Some (_, m') => pushFrontLoop m' l i' (Prev m' x)
                               end
              | _ => None
              end
    end.
  Definition PushFrontList (m : mem) (l other : nat) : option mem :=
    let m := lazyInit m l in pushFrontLoop m l (Z.to_nat (Len m other)) (Back m other).

  Inductive op :=
  | OInit (l : nat) | OLen (l : nat) | OFront (l : nat) | OBack (l : nat) | ONext (e : nat) | OPrev (e : nat)
  | ORemove (l e : nat) | OPushFront (l : nat) (v : T) | OPushBack (l : nat) (v : T)
  | OInsertBefore (l : nat) (v : T) (mark : nat) | OInsertAfter (l : nat) (v : T) (mark : nat)
  | OMoveToFront (l e : nat) | OMoveToBack (l e : nat) | OMoveBefore (l e mark : nat) | OMoveAfter (l e mark : nat)
  | OPushBackList (l other : nat) | OPushFrontList (l other : nat).
  Inductive res := RUnit | RLen (n : Z) | RElem (e : option ptr) | RVal (v : T).

  Definition unit_ (x : option mem) : option (res * mem) := match x with None => None | Some m => Some (RUnit, m) end.
  Definition step (m : mem) (o : op) : option (res * mem) :=
    match o with
    | OInit l => Some (RUnit, Init m l)
    | OLen l => Some (RLen (Len m l), m)
    | OFront l => Some (RElem (Front m l), m)
    | OBack l => Some (RElem (Back m l), m)
    | ONext e => Some (RElem (Next m e), m)
    | OPrev e => Some (RElem (Prev m e), m)
    | ORemove l e => match Remove m l e with None => None | Some (v, m') => Some (RVal v, m') end
    | OPushFront l v => match PushFront m l v with None => None | Some (e, m') => Some (RElem (Some (El e)), m') end
    | OPushBack l v => match PushBack m l v with None => None | Some (e, m') => Some (RElem (Some (El e)), m') end
    | OInsertBefore l v k => match InsertBefore m l v k with None => None | Some (e, m') => Some (RElem (option_map El e), m') end
    | OInsertAfter l v k => match InsertAfter m l v k with None => None | Some (e, m') => Some (RElem (option_map El e), m') end
    | OMoveToFront l e => unit_ (MoveToFront m l e)
    | OMoveToBack l e => unit_ (MoveToBack m l e)
    | OMoveBefore l e k => unit_ (MoveBefore m l e k)
    | OMoveAfter l e k => unit_ (MoveAfter m l e k)
    | OPushBackList l o' => unit_ (PushBackList m l o')
    | OPushFrontList l o' => unit_ (PushFrontList m l o')
    end.
  Fixpoint run (m : mem) (os : list op) : option (list res * mem) :=
    match os with
    | [] => Some ([], m)
    | o :: os' => match step m o with
                  | None => None
                  | Some (r, m1) => match run m1 os' with None => None | Some (rs, m2) => Some (r :: rs, m2) end
                  end
    end.
  (** nothing allocated; [zero] is the zero value of T *)
  Definition mem0 (zero : T) : mem := mkMem (fun _ => None) (fun _ => None) (fun _ => None) (fun _ => zero) (fun _ => 0%Z) 0.
End DList.
Arguments mem : clear implicits.
Arguments op : clear implicits.
Arguments res : clear implicits.
