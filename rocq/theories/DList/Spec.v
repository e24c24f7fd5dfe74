(** Sequences of elements: what the lists should be. *)
From Coq Require Import ZArith List Bool Arith.
From Verif.DList Require Import Model.
Import ListNotations.

Section Spec.
  Context {T : Type}.
  (** the elements of every list in order, the value of every element, and the next element name *)
  Record sstate := mkS { seq : nat -> list nat; sval : nat -> T; sfresh : nat }.

  Definition mem_ (e : nat) (s : list nat) : bool := existsb (Nat.eqb e) s.
  Definition without (e : nat) (s : list nat) : list nat := filter (fun x => negb (Nat.eqb x e)) s.
  Fixpoint after (x e : nat) (s : list nat) : list nat :=
    match s with [] => [] | y :: s' => if Nat.eqb y x then y :: e :: s' else y :: after x e s' end.
  Fixpoint before (x e : nat) (s : list nat) : list nat :=
    match s with [] => [] | y :: s' => if Nat.eqb y x then e :: y :: s' else y :: before x e s' end.
  Fixpoint following (e : nat) (s : list nat) : option nat :=
    match s with [] => None | x :: s' => if Nat.eqb x e then hd_error s' else following e s' end.
  Definition preceding (e : nat) (s : list nat) : option nat := following e (rev s).
  Definition put (s : sstate) (l : nat) (c : list nat) : sstate := mkS (nupd (seq s) l c) (sval s) (sfresh s).
  Definition new (s : sstate) (v : T) : sstate := mkS (seq s) (nupd (sval s) (sfresh s) v) (S (sfresh s)).
  (** copies of the values [vs], inserted as new elements at the back / in front *)
  Fixpoint append_all (s : sstate) (l : nat) (vs : list T) : sstate :=
    match vs with [] => s | v :: vs' => append_all (put (new s v) l (seq s l ++ [sfresh s])) l vs' end.
  Fixpoint prepend_all (s : sstate) (l : nat) (vs : list T) : sstate :=
    match vs with [] => s | v :: vs' => prepend_all (put (new s v) l (sfresh s :: seq s l)) l vs' end.

  (** the outcome of an operation: result [r] and next state [s'] *)
  Definition spec_step (s : sstate) (o : op T) (r : res T) (s' : sstate) : Prop :=
    match o with
    | OInit l => r = RUnit /\ s' = put s l []
    | OLen l => r = RLen (Z.of_nat (length (seq s l))) /\ s' = s
    | OFront l => r = RElem (option_map El (hd_error (seq s l))) /\ s' = s
    | OBack l => r = RElem (option_map El (hd_error (rev (seq s l)))) /\ s' = s
    | ONext e => s' = s /\ (forall l, In e (seq s l) -> r = RElem (option_map El (following e (seq s l)))) /\
                 ((forall l, ~ In e (seq s l)) -> r = RElem None)
    | OPrev e => s' = s /\ (forall l, In e (seq s l) -> r = RElem (option_map El (preceding e (seq s l)))) /\
                 ((forall l, ~ In e (seq s l)) -> r = RElem None)
    | ORemove l e => r = RVal (sval s e) /\ s' = (if mem_ e (seq s l) then put s l (without e (seq s l)) else s)
    | OPushFront l v => r = RElem (Some (El (sfresh s))) /\ s' = put (new s v) l (sfresh s :: seq s l)
    | OPushBack l v => r = RElem (Some (El (sfresh s))) /\ s' = put (new s v) l (seq s l ++ [sfresh s])
    | OInsertBefore l v k =>
        if mem_ k (seq s l)
        then r = RElem (Some (El (sfresh s))) /\ s' = put (new s v) l (before k (sfresh s) (seq s l))
        else r = RElem None /\ s' = s
    | OInsertAfter l v k =>
        if mem_ k (seq s l)
        then r = RElem (Some (El (sfresh s))) /\ s' = put (new s v) l (after k (sfresh s) (seq s l))
        else r = RElem None /\ s' = s
    | OMoveToFront l e => r = RUnit /\ s' = (if mem_ e (seq s l) then put s l (e :: without e (seq s l)) else s)
    | OMoveToBack l e => r = RUnit /\ s' = (if mem_ e (seq s l) then put s l (without e (seq s l) ++ [e]) else s)
    | OMoveBefore l e k =>
        r = RUnit /\ s' = (if mem_ e (seq s l) && mem_ k (seq s l) && negb (Nat.eqb e k)
                           then put s l (before k e (without e (seq s l))) else s)
    | OMoveAfter l e k =>
        r = RUnit /\ s' = (if mem_ e (seq s l) && mem_ k (seq s l) && negb (Nat.eqb e k)
                           then put s l (after k e (without e (seq s l))) else s)
    | OPushBackList l o' => r = RUnit /\ s' = append_all s l (map (sval s) (seq s o'))
    | OPushFrontList l o' => r = RUnit /\ s' = prepend_all s l (rev (map (sval s) (seq s o')))
    end.
  Inductive spec_run : sstate -> list (op T) -> list (res T) -> sstate -> Prop :=
  | sr_nil s : spec_run s [] [] s
  | sr_cons s o os r s1 rs s2 : spec_step s o r s1 -> spec_run s1 os rs s2 -> spec_run s (o :: os) (r :: rs) s2.
  Definition s0 (zero : T) : sstate := mkS (fun _ => []) (fun _ => zero) 0.

  (** Init is used on empty lists only *)
  Fixpoint disciplined (s : sstate) (os : list (op T)) : Prop :=
    match os with
    | [] => True
    | o :: os' => (forall l, o = OInit l -> seq s l = []) /\ forall r s', spec_step s o r s' -> disciplined s' os'
    end.
End Spec.
Arguments sstate : clear implicits.
