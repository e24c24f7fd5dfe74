(** Properties C01-C04. *)
From Coq Require Import ZArith List Strings.Byte.
From Verif.Base Require Import GoInt Bytes.
From Verif.Codec Require Import Model Spec Proofs.
Import ListNotations.
Open Scope Z_scope.

(** C01: the integer codecs round-trip on the whole range of their type; encodings have 8 bytes. *)
Theorem c01_int64_roundtrip :
  forall z, in_int64 z -> Int64Codec_Decode (Int64Codec_Encode [] z) = Ok z.
Proof. exact decode_encode_64. Qed.
Print Assumptions c01_int64_roundtrip.

Theorem c01_int_roundtrip :
  forall z, in_int64 z -> IntCodec_Decode (IntCodec_Encode [] z) = Ok z.
Proof. exact decode_encode_64. Qed.
Print Assumptions c01_int_roundtrip.

Theorem c01_int32_roundtrip :
  forall z, in_int32 z -> Int32Codec_Decode (Int32Codec_Encode [] z) = Ok z.
Proof. exact decode_encode_32. Qed.
Print Assumptions c01_int32_roundtrip.

(** Encode appends exactly eight bytes to the caller's buffer and leaves the rest alone. *)
Theorem c01_encoding_size :
  forall buf z, exists enc, length enc = 8%nat /\
    Int64Codec_Encode buf z = buf ++ enc /\ IntCodec_Encode buf z = buf ++ enc /\
    Int32Codec_Encode buf z = buf ++ enc.
Proof.
  exact (fun buf z => ex_intro _ (intCodec_Encode [] z)
    (conj (encode_length z) (conj (encode_appends buf z)
    (conj (encode_appends buf z) (encode_appends buf z))))).
Qed.
Print Assumptions c01_encoding_size.

Example c01_example :
  in_int64 (-5) /\ Int64Codec_Encode [] (-5) = [xfb; xff; xff; xff; xff; xff; xff; xff] /\
  in_int32 (-2147483648) /\
  Int32Codec_Decode (Int32Codec_Encode [] (-2147483648)) = Ok (-2147483648).
Proof. unfold in_int64, in_int32, MinInt64, MaxInt64. repeat split; vm_compute; congruence. Qed.

(** C02 *)
Theorem c02_lexo_roundtrip :
  forall z, in_int64 z -> lexoInt64Codec_Decode (lexoInt64Codec_Encode [] z) = Some z.
Proof. exact lexo_roundtrip. Qed.
Print Assumptions c02_lexo_roundtrip.

Theorem c02_lexo_error_iff_length :
  forall b, lexoInt64Codec_Decode b = None <-> length b <> 9%nat.
Proof. exact lexo_decode_error. Qed.
Print Assumptions c02_lexo_error_iff_length.

Theorem c02_lexo_decode_in_range :
  forall b z, lexoInt64Codec_Decode b = Some z -> in_int64 z.
Proof. exact lexo_decode_range. Qed.
Print Assumptions c02_lexo_decode_in_range.

Example c02_example :
  in_int64 MinInt64 /\ lexoInt64Codec_Decode (lexoInt64Codec_Encode [] MinInt64) = Some MinInt64 /\
  lexoInt64Codec_Decode (lexoInt64Codec_Encode [] 0) = Some 0 /\
  lexoInt64Codec_Decode (lexoInt64Codec_Encode [] MaxInt64) = Some MaxInt64 /\
  lexoInt64Codec_Decode [x01; x02] = None.
Proof. unfold in_int64. repeat split; vm_compute; congruence. Qed.

(** C03: false.  The sign byte orders correctly, the magnitude is written little-endian, so
    255 < 256 but Encode(256) sorts before Encode(255); likewise for negative values. *)
Theorem c03_lexo_order_refuted :
  exists a b, in_int64 a /\ in_int64 b /\ a < b /\
    lex_lt (lexoInt64Codec_Encode [] b) (lexoInt64Codec_Encode [] a).
Proof. exact lexo_order_refuted. Qed.
Print Assumptions c03_lexo_order_refuted.

Theorem c03_lexo_order_negative_refuted :
  exists a b, in_int64 a /\ in_int64 b /\ a < b < 0 /\
    lex_lt (lexoInt64Codec_Encode [] b) (lexoInt64Codec_Encode [] a).
Proof. exact lexo_order_negative_refuted. Qed.
Print Assumptions c03_lexo_order_negative_refuted.

(** What does hold: non-positive values sort before positive ones, and values sort correctly within a
    block of 256 values.  Missing for C03: all other pairs (for which it is false in general). *)
Theorem c03_lexo_order_partial :
  forall a b, in_int64 a -> in_int64 b -> a < b ->
    (a <= 0 /\ 0 < b) \/ same_block a b ->
    lex_lt (lexoInt64Codec_Encode [] a) (lexoInt64Codec_Encode [] b).
Proof. exact lexo_order_partial. Qed.
Print Assumptions c03_lexo_order_partial.

Example c03_example :
  (in_int64 (-4) /\ in_int64 (-2) /\ -4 < -2 /\ same_block (-4) (-2)) /\
  (in_int64 300 /\ in_int64 301 /\ same_block 300 301).
Proof.
  unfold in_int64, same_block, MinInt64, MaxInt64.
  repeat split; try (vm_compute; congruence).
  - right. repeat split; vm_compute; congruence.
  - left. repeat split; vm_compute; congruence.
Qed.

(** C04: false for inputs shorter than 8 bytes: the empty input panics, 1..7 bytes read past the end. *)
Theorem c04_int_decode_total_refuted :
  Int64Codec_Decode [] = Panic /\ Int32Codec_Decode [] = Panic /\
  Int64Codec_Decode [x01] = OutOfBounds /\ Int32Codec_Decode [x01] = OutOfBounds.
Proof. exact (conj eq_refl (conj eq_refl (conj eq_refl eq_refl))). Qed.
Print Assumptions c04_int_decode_total_refuted.

(** Positive part: decoding is safe exactly for inputs of at least 8 bytes. *)
Theorem c04_int_decode_total_partial :
  forall conv b, (exists z, intCodec_Decode conv b = Ok z) <-> (8 <= length b)%nat.
Proof. exact decode_ok_iff. Qed.
Print Assumptions c04_int_decode_total_partial.

Example c04_example :
  (8 <= length [x01; x00; x00; x00; x00; x00; x00; x00; xff])%nat /\
  Int64Codec_Decode [x01; x00; x00; x00; x00; x00; x00; x00; xff] = Ok 1.
Proof. split; [cbn; repeat constructor | reflexivity]. Qed.
