(** Machine integers of Go on a 64-bit platform, as integers with explicit wrap-around.
    Language-level definitions (Go specification, "Integer overflow" and "Conversions"),
    not tied to a particular file of /repo. *)
From Coq Require Import ZArith Lia.
Open Scope Z_scope.

Definition MaxInt64 : Z := 9223372036854775807.
Definition MinInt64 : Z := -9223372036854775808.

Definition in_int64 (z : Z) : Prop := MinInt64 <= z <= MaxInt64.
Definition in_int32 (z : Z) : Prop := -2147483648 <= z <= 2147483647.

(** conversion of any integer to uint64 / int64 / int32: reduction modulo 2^n *)
Definition u64 (z : Z) : Z := z mod 18446744073709551616.
Definition s64 (z : Z) : Z := (z + 9223372036854775808) mod 18446744073709551616 - 9223372036854775808.
Definition s32 (z : Z) : Z := (z + 2147483648) mod 4294967296 - 2147483648.

Lemma s64_id z : in_int64 z -> s64 z = z.
Proof.
  unfold in_int64, s64, MinInt64, MaxInt64. intros H.
  rewrite Z.mod_small; lia.
Qed.

Lemma s32_id z : in_int32 z -> s32 z = z.
Proof. unfold in_int32, s32. intros H. rewrite Z.mod_small; lia. Qed.

Lemma s64_u64 z : s64 (u64 z) = s64 z.
Proof.
  unfold s64, u64. f_equal.
  rewrite Z.add_mod_idemp_l by lia. reflexivity.
Qed.

Lemma s32_s64 z : s32 (s64 z) = s32 z.
Proof.
  unfold s32, s64. f_equal.
  set (q := (z + 9223372036854775808) / 18446744073709551616).
  replace ((z + 9223372036854775808) mod 18446744073709551616)
    with (z + 9223372036854775808 - 18446744073709551616 * q)
    by (pose proof (Z.div_mod (z + 9223372036854775808) 18446744073709551616 ltac:(lia)); unfold q; lia).
  replace (z + 9223372036854775808 - 18446744073709551616 * q - 9223372036854775808 + 2147483648)
    with ((z + 2147483648) + (- 4294967296 * q) * 4294967296) by lia.
  apply Z.mod_add. lia.
Qed.

Lemma s64_range z : in_int64 (s64 z).
Proof.
  unfold in_int64, s64, MinInt64, MaxInt64.
  pose proof (Z.mod_pos_bound (z + 9223372036854775808) 18446744073709551616). lia.
Qed.

Lemma s32_range z : in_int32 (s32 z).
Proof.
  unfold in_int32, s32.
  pose proof (Z.mod_pos_bound (z + 2147483648) 4294967296). lia.
Qed.

Lemma u64_range z : 0 <= u64 z < 18446744073709551616.
Proof. apply Z.mod_pos_bound. lia. Qed.

Lemma in_int32_int64 z : in_int32 z -> in_int64 z.
Proof. unfold in_int32, in_int64, MinInt64, MaxInt64. lia. Qed.
