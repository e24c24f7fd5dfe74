(** Specification vocabulary for the codecs: byte-wise lexicographic order (Go's bytes.Compare). *)
From Coq Require Import ZArith List Strings.Byte.
Import ListNotations.

(** a is strictly before b in the order used by bytes.Compare / LSM stores *)
Inductive lex_lt : list byte -> list byte -> Prop :=
| lex_nil : forall y b, lex_lt [] (y :: b)
| lex_head : forall x y a b, (Byte.to_N x < Byte.to_N y)%N -> lex_lt (x :: a) (y :: b)
| lex_tail : forall x a b, lex_lt a b -> lex_lt (x :: a) (x :: b).

(** values with the same sign class whose distance from zero lies in the same block of 256 *)
Definition same_block (a b : Z) : Prop :=
  ((0 < a /\ 0 < b /\ a / 256 = b / 256) \/
   (a <= 0 /\ b <= 0 /\ (- a) / 256 = (- b) / 256))%Z.
