(** Go's order on strings: bytewise lexicographic; used by keyedLess (simple_store.go:32-34),
    StringLess (sharded_tree.go:38-40) and topicPartitionLess (topics.go:57). *)
From Coq Require Import Strings.Byte ZArith List Bool Lia.
From Verif.Base Require Import Bytes.
From Verif.BTree Require Import Proofs.
Import ListNotations.
Open Scope Z_scope.

Fixpoint strLess (a b : bytes) : bool :=
  match a, b with
  | _, [] => false
  | [], _ :: _ => true
  | x :: a', y :: b' =>
      if Z_of_byte x <? Z_of_byte y then true
      else if Z_of_byte y <? Z_of_byte x then false
      else strLess a' b'
  end.

Lemma strLess_irrefl a : strLess a a = false.
Proof. induction a as [|x a IH]; cbn; auto. rewrite Z.ltb_irrefl. auto. Qed.

Lemma strLess_trans a : forall b c, strLess a b = true -> strLess b c = true -> strLess a c = true.
Proof.
  induction a as [|x a IH]; intros [|y b] [|z c]; cbn; try discriminate; auto.
  destruct (Z.ltb_spec (Z_of_byte x) (Z_of_byte y)), (Z.ltb_spec (Z_of_byte y) (Z_of_byte x)),
    (Z.ltb_spec (Z_of_byte y) (Z_of_byte z)), (Z.ltb_spec (Z_of_byte z) (Z_of_byte y)),
    (Z.ltb_spec (Z_of_byte x) (Z_of_byte z)), (Z.ltb_spec (Z_of_byte z) (Z_of_byte x));
    try discriminate; try lia; auto. apply IH.
Qed.

Lemma strLess_total a : forall b, strLess a b = false -> strLess b a = false -> a = b.
Proof.
  induction a as [|x a IH]; intros [|y b]; cbn; try discriminate; auto.
  destruct (Z.ltb_spec (Z_of_byte x) (Z_of_byte y)), (Z.ltb_spec (Z_of_byte y) (Z_of_byte x)); try discriminate; try lia.
  intros A B. f_equal; auto. apply Z_of_byte_inj. lia.
Qed.

(** a strict total order is a weak order *)
Lemma total_weak {T} (less : T -> T -> bool) :
  (forall a, less a a = false) ->
  (forall a b c, less a b = true -> less b c = true -> less a c = true) ->
  (forall a b, less a b = false -> less b a = false -> a = b) -> weak_order less.
Proof.
  intros I Tr To. split; auto. intros a b c A B.
  destruct (less c a) eqn:C; auto. destruct (less a b) eqn:D.
  - rewrite <- B. symmetry. eapply Tr; eauto.
  - assert (a = b) by (apply To; auto). subst. congruence.
Qed.

Lemma strLess_order : weak_order strLess.
Proof. exact (total_weak _ strLess_irrefl strLess_trans strLess_total). Qed.
