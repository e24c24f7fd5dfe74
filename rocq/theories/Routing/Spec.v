(** Which handler should see a record: the first registration with the record's type. *)
From Coq Require Import Strings.Byte List.
Import ListNotations.
Open Scope nat_scope.

(** [first_match types t i]: i is the position of the first occurrence of t in types *)
Definition first_match (types : list (list byte)) (t : list byte) (i : nat) : Prop :=
  nth_error types i = Some t /\ forall j, j < i -> nth_error types j <> Some t.
