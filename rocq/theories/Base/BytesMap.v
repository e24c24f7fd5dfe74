(** std++ instances for bytes, so that byte strings can be keys of finite maps. *)
From Coq Require Import Strings.Byte.
From stdpp Require Import countable.

#[global] Instance byte_eq_decision : EqDecision byte := Byte.byte_eq_dec.
#[global] Program Instance byte_countable : Countable byte :=
  inj_countable Byte.to_N Byte.of_N _.
Next Obligation. exact Byte.of_to_N. Qed.
