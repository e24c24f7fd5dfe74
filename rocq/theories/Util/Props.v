(** Property C72. *)
From Coq Require Import ZArith List Bool Lia Floats.SpecFloat.
From stdpp Require Import gmap.
From Verif.Util Require Import Model Proofs.
Import ListNotations.
Open Scope Z_scope.

(** C72.  Abs is the absolute value at every signed integer width except for the smallest value,
    which stays negative. *)
Theorem c72_abs_partial :
  forall w a, 1 <= w -> - 2 ^ (w - 1) < a < 2 ^ (w - 1) -> Abs w a = Z.abs a.
Proof. exact abs_ok. Qed.
Print Assumptions c72_abs_partial.

Theorem c72_abs_smallest_refuted : forall w, 1 <= w -> Abs w (- 2 ^ (w - 1)) = - 2 ^ (w - 1).
Proof. exact abs_min. Qed.
Print Assumptions c72_abs_smallest_refuted.
Example c72_abs_example : Abs 64 (-5) = 5 /\ Abs 8 (-128) = -128 /\ Abs 64 7 = 7.
Proof. repeat split; vm_compute; reflexivity. Qed.

(** extremes of integers of every width *)
Theorem c72_min : forall a b, least Z.ltb [a; b] (Min Z.ltb a b).
Proof. exact (min_ok Z.ltb weak_order_Z). Qed.
Print Assumptions c72_min.
Theorem c72_max : forall a b, greatest Z.ltb [a; b] (Max Z.ltb a b).
Proof. exact (max_ok Z.ltb weak_order_Z). Qed.
Print Assumptions c72_max.
Theorem c72_minN : forall l, l <> [] -> least Z.ltb l (MinN Z.ltb 0 l).
Proof. exact (minN_ok Z.ltb 0 weak_order_Z). Qed.
Print Assumptions c72_minN.
Theorem c72_maxN : forall l, l <> [] -> greatest Z.ltb l (MaxN Z.ltb 0 l).
Proof. exact (maxN_ok Z.ltb 0 weak_order_Z). Qed.
Print Assumptions c72_maxN.
Example c72_extremes_example :
  MinN Z.ltb 0 [4; -2; 9; -2] = -2 /\ MaxN Z.ltb 0 [4; -2; 9; -2] = 9 /\ MinN Z.ltb 0 [] = 0.
Proof. repeat split; vm_compute; reflexivity. Qed.

(** any other ordered type, e.g. floats without NaN ... *)
Theorem c72_minN_any_order :
  forall T (lt : T -> T -> bool) zero, weak_order lt -> forall l, l <> [] -> least lt l (MinN lt zero l).
Proof. exact (fun T lt zero W => minN_ok lt zero W). Qed.
Print Assumptions c72_minN_any_order.
Theorem c72_maxN_any_order :
  forall T (lt : T -> T -> bool) zero, weak_order lt -> forall l, l <> [] -> greatest lt l (MaxN lt zero l).
Proof. exact (fun T lt zero W => maxN_ok lt zero W). Qed.
Print Assumptions c72_maxN_any_order.

(** ... but with a NaN first, MinN and MaxN answer NaN although numbers follow, and Min depends on the
    order of its arguments (IEEE 754 comparison from the standard library) *)
Definition one : spec_float := S754_finite false 4503599627370496 (-52).
Theorem c72_nan_refuted :
  MinN SFltb S754_nan [S754_nan; one] = S754_nan /\ MinN SFltb S754_nan [one; S754_nan] = one /\
  Min SFltb S754_nan one = one /\ Min SFltb one S754_nan = S754_nan.
Proof. repeat split; vm_compute; reflexivity. Qed.
Print Assumptions c72_nan_refuted.

(** ToPtrSlice: one fresh, distinct, non-nil pointer per value, in order, holding a copy; nothing else changes *)
Theorem c72_to_ptr_slice :
  forall T (m : memory T) vs m' ps, ToPtrSlice m vs = (m', ps) ->
  length ps = length vs /\
  (forall i v, nth_error vs i = Some v -> exists p, nth_error ps i = Some p /\ load m' p = Some v) /\
  NoDup ps /\
  (forall p, In p ps -> p <> None /\ load m p = None) /\
  (forall p v, load m p = Some v -> load m' p = Some v).
Proof. exact @toptr_ok. Qed.
Print Assumptions c72_to_ptr_slice.
Theorem c72_ptr_slice_round_trip :
  forall T (m : memory T) vs m' ps, ToPtrSlice m vs = (m', ps) -> ToStructSlice m' ps = Some vs.
Proof. exact @tostruct_toptr. Qed.
Print Assumptions c72_ptr_slice_round_trip.
Theorem c72_to_struct_slice :
  forall T (m : memory T) ps vs,
  ToStructSlice m ps = Some vs <-> Forall2 (fun p v => load m p = Some v) ps vs.
Proof. exact @tostruct_spec. Qed.
Print Assumptions c72_to_struct_slice.
Example c72_slice_example :
  ToPtrSlice [7] [1; 1; 2] = ([7; 1; 1; 2], [Some 1%nat; Some 2%nat; Some 3%nat]) /\
  ToStructSlice [7; 1; 1; 2] [Some 1%nat; Some 2%nat; Some 3%nat] = Some [1; 1; 2] /\
  ToStructSlice [7] [None] = None.
Proof. repeat split. Qed.

(** map helpers, for every map and every iteration order Go may choose *)
Theorem c72_map_keys :
  forall K T `(Countable K) (m : gmap K T) o, iteration_of m o ->
  NoDup (MapKeysToSlice o) /\ forall k, k ∈ MapKeysToSlice o <-> is_Some (m !! k).
Proof. exact @keys_ok. Qed.
Print Assumptions c72_map_keys.
Theorem c72_map_values :
  forall K T `(Countable K) (m : gmap K T) o, iteration_of m o -> MapValuesToSlice o ≡ₚ (map_to_list m).*2.
Proof. exact @values_ok. Qed.
Print Assumptions c72_map_values.
Theorem c72_map_copy :
  forall K T `(Countable K) (m : gmap K T) o, iteration_of m o -> MapCopy o = m.
Proof. exact @copy_ok. Qed.
Print Assumptions c72_map_copy.
Example c72_map_example :
  iteration_of (<[1 := 5]> (<[2 := 6]> ∅) : gmap Z Z) [(2, 6); (1, 5)] /\
  MapKeysToSlice [(2, 6); (1, 5)] = [2; 1] /\ MapValuesToSlice [(2, 6); (1, 5)] = [6; 5].
Proof.
  split; [|split; reflexivity]. unfold iteration_of.
  rewrite !map_to_list_insert, map_to_list_empty by (vm_compute; reflexivity). apply Permutation_swap.
Qed.
