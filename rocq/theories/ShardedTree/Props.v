(** Property C54. *)
From Coq Require Import ZArith List Bool Lia.
From Verif.Base Require Import GoInt.
From Verif.BTree Require Import Model Proofs StringOrder.
From Verif.ShardedTree Require Import Model Proofs.
Import ListNotations.
Open Scope Z_scope.

(** C54: with exponents 0 to 61 nothing panics, For gives the tree with index hash mod 2^(e+1) for a key at
    every time, and this tree exists *)
Theorem c54_for_is_stable_and_in_range :
  forall K T (hashFunc : K -> Z) (less : T -> T -> bool) (keyOf : T -> K) e st0 os rs st k,
  0 <= e <= 61 -> NewShardedTree e = Some st0 -> run hashFunc less keyOf st0 os = Some (rs, st) ->
  exists i, For hashFunc st0 k = Some i /\ For hashFunc st k = Some i /\
    (i < length (trees st))%nat /\ Z.of_nat (length (trees st)) = 2 ^ (e + 1) /\
    Z.of_nat i = hashFunc k mod 2 ^ (e + 1).
Proof. exact @for_stable. Qed.
Print Assumptions c54_for_is_stable_and_in_range.

(** C54: every sequence of inserts, deletes and lookups gives the results of one map, and Len is its size *)
Theorem c54_trees_behave_as_one_map :
  forall K T (hashFunc : K -> Z) (less : T -> T -> bool) (keyOf : T -> K), weak_order less ->
  (forall a b, eqv less a b = true -> keyOf a = keyOf b) ->
  forall e os, 0 <= e <= 61 ->
  exists st0 st, NewShardedTree e = Some st0 /\
    run hashFunc less keyOf st0 os = Some (fst (spec_run (eqv less) (fun _ => None) os), st) /\
    has_size (eqv less) (snd (spec_run (eqv less) (fun _ => None) os)) (ShardLen st).
Proof. exact @sharded_ok. Qed.
Print Assumptions c54_trees_behave_as_one_map.

(** the range of exponents is exact *)
Theorem c54_unsupported_exponents :
  forall T, (forall e, e < 0 -> @NewShardedTree T e = None) /\ @NewShardedTree T 62 = None /\
  (forall K hash e (k : K), 63 <= e -> exists st, @NewShardedTree T e = Some st /\ trees st = [] /\ For hash st k = None).
Proof. exact (fun T => conj (new_negative T) (conj (new_62 T) (fun K hash e k => new_large T K hash e k))). Qed.
Print Assumptions c54_unsupported_exponents.

Definition exLess (a b : Z * Z) : bool := fst a <? fst b.
Lemma exLess_order : weak_order exLess.
Proof.
  unfold exLess. split; intros.
  - apply Z.ltb_irrefl.
  - rewrite Z.ltb_lt in *. lia.
  - rewrite Z.ltb_ge in *. lia.
Qed.
Lemma exLess_key a b : eqv exLess a b = true -> fst a = fst b.
Proof. intros H. apply eqv_spec in H. unfold exLess in H. rewrite !Z.ltb_ge in H. lia. Qed.
Definition exOps : list (op (Z * Z)) :=
  [OInsert (1, 10); OInsert (5, 50); OInsert (2, 20); OInsert (5, 51); ODelete (1, 0); OGet (5, 0); OGet (1, 0); OInsert (9, 90)].
Example c54_example :
  match NewShardedTree 1 with
  | Some st0 => option_map (fun '(rs, st) => (rs, trees st, ShardLen st)) (run (fun k : Z => k + 2 ^ 63) exLess fst st0 exOps)
  | None => None
  end = Some ([None; None; None; Some (5, 50); Some (1, 10); Some (5, 51); None; None],
              [[]; [(5, 51); (9, 90)]; [(2, 20)]; []], 3%nat).
Proof. vm_compute. reflexivity. Qed.
