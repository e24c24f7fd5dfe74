From Coq Require Import ZArith NArith List Lia Strings.Byte.
From Verif.Base Require Import GoInt Bytes.
From Verif.Codec Require Import Model Spec.
Import ListNotations.
Open Scope Z_scope.

Lemma le_val_8 z : le_val (le_bytes 8 (u64 z)) = u64 z.
Proof.
  rewrite le_val_bytes. change (256 ^ Z.of_nat 8) with 18446744073709551616.
  apply Z.mod_small. apply u64_range.
Qed.

Lemma decode_encode conv z (rest : bytes) :
  readIntegerFromByteArray conv (writeSignedIntToByteArray z [] ++ rest) = Ok (conv (s64 z)).
Proof.
  unfold readIntegerFromByteArray, writeSignedIntToByteArray. cbn [app].
  assert (Hl : length (le_bytes intByteSize (u64 z)) = 8%nat) by apply le_bytes_length.
  destruct (le_bytes intByteSize (u64 z)) as [|b0 l] eqn:E; [cbn in Hl; lia|].
  cbn [app]. change (b0 :: l ++ rest) with ((b0 :: l) ++ rest).
  rewrite app_length, Hl.
  destruct (8 + length rest <? intByteSize)%nat eqn:L.
  { apply Nat.ltb_lt in L. unfold intByteSize in L. lia. }
  replace (firstn intByteSize ((b0 :: l) ++ rest)) with (b0 :: l).
  2:{ change intByteSize with 8%nat. rewrite <- Hl. rewrite firstn_app, Nat.sub_diag, firstn_all.
      cbn [firstn]. symmetry. apply app_nil_r. }
  rewrite <- E. unfold intByteSize. rewrite le_val_8, s64_u64. reflexivity.
Qed.

Lemma decode_encode_64 z : in_int64 z -> intCodec_Decode s64 (intCodec_Encode [] z) = Ok z.
Proof.
  intros H. unfold intCodec_Decode, intCodec_Encode.
  rewrite <- (app_nil_r (writeSignedIntToByteArray z [])), decode_encode.
  rewrite !s64_id; auto. rewrite s64_id; auto.
Qed.

Lemma decode_encode_32 z : in_int32 z -> intCodec_Decode s32 (intCodec_Encode [] z) = Ok z.
Proof.
  intros H. unfold intCodec_Decode, intCodec_Encode.
  rewrite <- (app_nil_r (writeSignedIntToByteArray z [])), decode_encode.
  rewrite s32_s64, s32_id; auto.
Qed.

Lemma encode_length z : length (intCodec_Encode [] z) = 8%nat.
Proof. unfold intCodec_Encode, writeSignedIntToByteArray. cbn [app]. apply le_bytes_length. Qed.

Lemma encode_appends b z : intCodec_Encode b z = b ++ intCodec_Encode [] z.
Proof. reflexivity. Qed.

(** ** total decoding for inputs of at least 8 bytes *)
Lemma decode_long conv b :
  (8 <= length b)%nat -> exists z, intCodec_Decode conv b = Ok z.
Proof.
  intros H. unfold intCodec_Decode, readIntegerFromByteArray.
  destruct b as [|x b]; [cbn in H; lia|].
  destruct (length (x :: b) <? intByteSize)%nat eqn:E.
  - apply Nat.ltb_lt in E. unfold intByteSize in E. lia.
  - eauto.
Qed.

Lemma decode_ok_iff conv b :
  (exists z, intCodec_Decode conv b = Ok z) <-> (8 <= length b)%nat.
Proof.
  split; [|apply decode_long].
  intros [z H]. unfold intCodec_Decode, readIntegerFromByteArray in H.
  destruct b as [|x b]; [discriminate|].
  destruct (length (x :: b) <? intByteSize)%nat eqn:E; [discriminate|].
  apply Nat.ltb_ge in E. exact E.
Qed.

(** ** LexoInt64Codec *)
Lemma lexo_encode_length z : length (lexoInt64Codec_Encode [] z) = 9%nat.
Proof. unfold lexoInt64Codec_Encode. cbn [app]. destruct (0 <? z); cbn [length]; rewrite le_bytes_length; auto. Qed.

Lemma lexo_roundtrip z : in_int64 z -> lexoInt64Codec_Decode (lexoInt64Codec_Encode [] z) = Some z.
Proof.
  intros Hz. unfold lexoInt64Codec_Decode. rewrite lexo_encode_length. cbn [Nat.eqb negb].
  unfold lexoInt64Codec_Encode. cbn [app].
  destruct (0 <? z) eqn:E; cbn [Byte.eqb].
  - rewrite le_val_8, s64_u64, s64_id by auto. reflexivity.
  - apply Z.ltb_ge in E. rewrite le_val_8, s64_u64.
    assert (Hm : in_int64 (MaxInt64 + z)) by (unfold in_int64, MinInt64, MaxInt64 in *; lia).
    rewrite (s64_id (MaxInt64 + z)) by auto. rewrite s64_id by auto.
    replace (MaxInt64 + z - MaxInt64) with z by lia. rewrite s64_id; auto.
Qed.

Lemma lexo_decode_error b : lexoInt64Codec_Decode b = None <-> length b <> 9%nat.
Proof.
  unfold lexoInt64Codec_Decode, LexInt64Size.
  destruct (length b =? 9)%nat eqn:E; cbn [negb].
  - apply Nat.eqb_eq in E. destruct b; [cbn in E; lia|].
    destruct (Byte.eqb b x01); split; intros H; (discriminate || congruence).
  - apply Nat.eqb_neq in E. tauto.
Qed.

Lemma lexo_decode_range b z : lexoInt64Codec_Decode b = Some z -> in_int64 z.
Proof.
  unfold lexoInt64Codec_Decode. destruct (negb _); [discriminate|].
  destruct b; [discriminate|]. destruct (Byte.eqb b x01); intros [= <-]; apply s64_range.
Qed.

Lemma lex_lt_le_bytes n a b :
  0 <= a -> 0 <= b -> a < b -> a / 256 = b / 256 -> lex_lt (le_bytes (S n) a) (le_bytes (S n) b).
Proof.
  intros Ha Hb Hab Hd. cbn [le_bytes]. apply lex_head.
  assert (H : Z_of_byte (byte_of_Z a) < Z_of_byte (byte_of_Z b)).
  { rewrite !Z_of_byte_of_Z.
    pose proof (Z.div_mod a 256 ltac:(lia)). pose proof (Z.div_mod b 256 ltac:(lia)). lia. }
  unfold Z_of_byte in H. lia.
Qed.

Lemma lexo_order_sign a b :
  a <= 0 -> 0 < b -> lex_lt (lexoInt64Codec_Encode [] a) (lexoInt64Codec_Encode [] b).
Proof.
  intros Ha Hb. unfold lexoInt64Codec_Encode. cbn [app].
  destruct (0 <? a) eqn:Ea; [apply Z.ltb_lt in Ea; lia|].
  destruct (0 <? b) eqn:Eb; [|apply Z.ltb_ge in Eb; lia].
  apply lex_head. cbn. lia.
Qed.

Lemma lexo_order_block a b :
  in_int64 a -> in_int64 b -> a < b -> same_block a b ->
  lex_lt (lexoInt64Codec_Encode [] a) (lexoInt64Codec_Encode [] b).
Proof.
  unfold in_int64, MinInt64, MaxInt64. intros Ha Hb Hab [(Pa & Pb & Hd) | (Pa & Pb & Hd)];
    unfold lexoInt64Codec_Encode; cbn [app].
  - destruct (0 <? a) eqn:Ea; [|apply Z.ltb_ge in Ea; lia].
    destruct (0 <? b) eqn:Eb; [|apply Z.ltb_ge in Eb; lia].
    apply lex_tail.
    unfold u64. rewrite !Z.mod_small by lia. apply lex_lt_le_bytes; lia.
  - destruct (0 <? a) eqn:Ea; [apply Z.ltb_lt in Ea; lia|].
    destruct (0 <? b) eqn:Eb; [apply Z.ltb_lt in Eb; lia|].
    apply lex_tail.
    assert (Ha' : -9223372036854775808 < a).
    { destruct (Z.eq_dec a (-9223372036854775808)) as [->|]; [|lia].
      exfalso. pose proof (Z.div_mod (- b) 256 ltac:(lia)).
      pose proof (Z.mod_pos_bound (- b) 256 ltac:(lia)).
      change (- -9223372036854775808 / 256) with 36028797018963968 in Hd. lia. }
    rewrite !s64_id by (unfold in_int64, MinInt64, MaxInt64; lia).
    unfold u64, MaxInt64. rewrite !Z.mod_small by lia.
    apply lex_lt_le_bytes; try lia.
    pose proof (Z.div_mod (- b) 256 ltac:(lia)).
    pose proof (Z.mod_pos_bound (- b) 256 ltac:(lia)).
    pose proof (Z.div_mod (- a) 256 ltac:(lia)).
    pose proof (Z.mod_pos_bound (- a) 256 ltac:(lia)).
    assert (Q : forall m q r, m = 256 * q + r -> 0 <= r < 256 ->
                 (9223372036854775807 - m) / 256 = 36028797018963967 - q).
    { intros m q r -> Hr. symmetry. apply (Z.div_unique_pos _ _ _ (255 - r)); lia. }
    replace (9223372036854775807 + a) with (9223372036854775807 - (- a)) by lia.
    replace (9223372036854775807 + b) with (9223372036854775807 - (- b)) by lia.
    rewrite (Q (- a) (- a / 256) ((- a) mod 256)) by lia.
    rewrite (Q (- b) (- b / 256) ((- b) mod 256)) by lia. lia.
Qed.

Lemma lexo_order_partial a b :
  in_int64 a -> in_int64 b -> a < b ->
  (a <= 0 /\ 0 < b) \/ same_block a b ->
  lex_lt (lexoInt64Codec_Encode [] a) (lexoInt64Codec_Encode [] b).
Proof.
  intros ? ? ? [[]|]; [apply lexo_order_sign | apply lexo_order_block]; auto.
Qed.

Lemma lexo_order_refuted :
  exists a b, in_int64 a /\ in_int64 b /\ a < b /\
    lex_lt (lexoInt64Codec_Encode [] b) (lexoInt64Codec_Encode [] a).
Proof.
  exists 255, 256. unfold in_int64, MinInt64, MaxInt64.
  repeat split; try lia. vm_compute. apply lex_tail, lex_head. vm_compute. reflexivity.
Qed.

Lemma lex_lt_asym a b : lex_lt a b -> lex_lt b a -> False.
Proof.
  intros H. induction H; intros H'; inversion H'; subst; try lia; auto.
Qed.

Lemma lexo_order_negative_refuted :
  exists a b, in_int64 a /\ in_int64 b /\ a < b < 0 /\
    lex_lt (lexoInt64Codec_Encode [] b) (lexoInt64Codec_Encode [] a).
Proof.
  exists (-256), (-255). unfold in_int64, MinInt64, MaxInt64.
  repeat split; try lia. vm_compute. apply lex_tail, lex_head. vm_compute. reflexivity.
Qed.

Lemma string_roundtrip s : StringCodec_Decode (StringCodec_Encode [] s) = Some s.
Proof. reflexivity. Qed.
