From Coq Require Import ZArith Bool Lia.
From Verif.Base Require Import GoInt.
From Verif.Interject Require Import Jitter.
Open Scope Z_scope.

Lemma rnd_cases m : 0 <= m -> rnd53 m = m /\ m < 2 ^ 53 \/
  exists s q r, 1 <= s /\ 2 ^ 52 <= q < 2 ^ 53 /\ m = q * 2 ^ s + r /\ 0 <= r < 2 ^ s /\
    (rnd53 m = q * 2 ^ s \/ rnd53 m = (q + 1) * 2 ^ s /\ 2 ^ s <= 2 * r) /\ 0 < 2 ^ s.
Proof.
  intros M. unfold rnd53. destruct (Z.ltb_spec m (2 ^ 53)) as [L|L]; [left; auto|]. right.
  set (s := Z.log2 m - 52).
  assert (Hs : 53 <= Z.log2 m) by (rewrite <- (Z.log2_pow2 53) by lia; apply Z.log2_le_mono; lia).
  assert (P : 0 < 2 ^ s) by (apply Z.pow_pos_nonneg; lia).
  pose proof (Z.log2_spec m ltac:(lia)) as (A & B).
  replace (Z.log2 m) with (52 + s) in A by lia. replace (Z.succ (Z.log2 m)) with (53 + s) in B by lia.
  rewrite Z.pow_add_r in A, B by lia.
  pose proof (Z.div_mod m (2 ^ s) ltac:(lia)) as E. pose proof (Z.mod_pos_bound m (2 ^ s) P) as R.
  exists s, (m / 2 ^ s), (m mod 2 ^ s).
  assert (S2 : 2 ^ s = 2 * 2 ^ (s - 1)) by (rewrite <- Z.pow_succ_r by lia; f_equal; lia).
  split; [lia|]. split; [split; [apply Z.div_le_lower_bound; lia|apply Z.div_lt_upper_bound; lia]|].
  split; [lia|]. split; [exact R|]. split; [|exact P].
  destruct (Z.ltb_spec (m mod 2 ^ s) (2 ^ (s - 1))); [left; reflexivity|].
  destruct (Z.ltb_spec (2 ^ (s - 1)) (m mod 2 ^ s)); [right; split; [reflexivity|lia]|].
  destruct (Z.even (m / 2 ^ s)); [left; reflexivity|right; split; [reflexivity|lia]].
Qed.

Lemma pow_le a b : 0 <= a <= b -> 2 ^ a <= 2 ^ b.
Proof. intros. apply Z.pow_le_mono_r; lia. Qed.
Lemma pow_split a b : 0 <= a <= b -> 2 ^ b = 2 ^ (b - a) * 2 ^ a /\ 1 <= 2 ^ (b - a).
Proof. intros H. split; [rewrite <- Z.pow_add_r by lia; f_equal; lia|]. change 1 with (2 ^ 0). apply pow_le. lia. Qed.

Lemma rnd_nonneg m : 0 <= m -> 0 <= rnd53 m.
Proof. intros M. destruct (rnd_cases m M) as [(-> & _)|(s & q & r & _ & Q & _ & _ & [->|(-> & _)] & P)]; nia. Qed.
Lemma rnd_le m c t : 0 <= m -> 0 <= c <= 2 ^ 53 -> 0 <= t -> m <= c * 2 ^ t -> rnd53 m <= c * 2 ^ t.
Proof.
  intros M C T H. destruct (rnd_cases m M) as [(-> & _)|(s & q & r & Hs & Q & E & R & [->|(-> & U)] & P)]; [auto|lia|].
  destruct (Z.le_gt_cases s t) as [L|L].
  - destruct (pow_split s t ltac:(lia)) as (F & _). rewrite F in *. rewrite Z.mul_assoc in *. set (X := c * 2 ^ (t - s)) in *.
    assert (q < X) by (apply (Z.mul_lt_mono_pos_r (2 ^ s)); lia). apply Z.mul_le_mono_nonneg_r; lia.
  - destruct (pow_split t s ltac:(lia)) as (F & _).
    destruct (pow_split (t + 1) s ltac:(lia)) as (F2 & G2). assert (0 < 2 ^ t) by (apply Z.pow_pos_nonneg; lia).
    rewrite Z.pow_add_r in F2 by lia. change (2 ^ 1) with 2 in F2. change (2 ^ 53) with (2 * 2 ^ 52) in C. nia.
Qed.
Lemma rnd_below m c t : 0 <= m -> 2 ^ 52 < c <= 2 ^ 53 -> 0 <= t -> 2 * m < (2 * c - 1) * 2 ^ t -> rnd53 m <= (c - 1) * 2 ^ t.
Proof.
  intros M C T H. assert (Pt : 0 < 2 ^ t) by (apply Z.pow_pos_nonneg; lia).
  destruct (rnd_cases m M) as [(-> & L)|(s & q & r & Hs & Q & E & R & [->|(-> & U)] & P)].
  - destruct (Z.eq_dec t 0) as [->|N].
    + change (2 ^ 0) with 1 in *. lia.
    + assert (2 ^ 1 <= 2 ^ t) by (apply pow_le; lia). change (2 ^ 53) with (2 ^ 52 * 2 ^ 1) in L. nia.
  - destruct (Z.lt_trichotomy s t) as [L|[->|L]].
    + destruct (pow_split (s + 1) t ltac:(lia)) as (F & G). rewrite Z.pow_add_r in F by lia. change (2 ^ 1) with 2 in F.
      change (2 ^ 53) with (2 * 2 ^ 52) in Q. nia.
    + assert (q < c) by (apply (Z.mul_lt_mono_pos_r (2 ^ t)); lia). apply Z.mul_le_mono_nonneg_r; lia.
    + destruct (pow_split (t + 1) s ltac:(lia)) as (F & G). rewrite Z.pow_add_r in F by lia. change (2 ^ 1) with 2 in F.
      change (2 ^ 53) with (2 * 2 ^ 52) in C. nia.
  - destruct (Z.lt_trichotomy s t) as [L|[->|L]].
    + destruct (pow_split (s + 1) t ltac:(lia)) as (F & G). rewrite Z.pow_add_r in F by lia. change (2 ^ 1) with 2 in F.
      change (2 ^ 53) with (2 * 2 ^ 52) in Q. nia.
    + assert (q + 1 < c) by (apply (Z.mul_lt_mono_pos_r (2 ^ t)); lia). apply Z.mul_le_mono_nonneg_r; lia.
    + destruct (pow_split (t + 1) s ltac:(lia)) as (F & G). rewrite Z.pow_add_r in F by lia. change (2 ^ 1) with 2 in F.
      change (2 ^ 53) with (2 * 2 ^ 52) in C. nia.
Qed.

Lemma scaled k j : 0 <= k < 2 ^ 53 -> 0 <= j -> 0 <= rnd53 (k * rnd53 j) / 2 ^ 53 <= j.
Proof.
  intros K J. assert (P53 : 0 < 2 ^ 53) by (vm_compute; reflexivity).
  pose proof (rnd_nonneg j J) as RJ.
  split; [apply Z.div_pos; auto; apply rnd_nonneg; nia|].
  enough (H : rnd53 (k * rnd53 j) <= j * 2 ^ 53) by (apply Z.div_le_upper_bound; lia).
  destruct (rnd_cases j J) as [(E & L)|(s & q & r & Hs & Q & E & R & C & P)].
  - rewrite E. apply (rnd_le (k * j) j 53); nia.
  - assert (P2 : 2 ^ (s + 53) = 2 ^ s * 2 ^ 53) by (apply Z.pow_add_r; lia).
    destruct C as [C|(C & U)].
    + apply Z.le_trans with (q * 2 ^ (s + 53)); [|rewrite P2; nia]. apply rnd_le; [nia|lia|lia|]. rewrite C, P2. nia.
    + apply Z.le_trans with ((q + 1 - 1) * 2 ^ (s + 53)); [|rewrite P2; nia].
      apply rnd_below; [nia|lia|lia|]. rewrite C, P2.
      assert (W : 2 ^ 53 = 2 * 2 ^ 52) by reflexivity.
      assert (A : 2 * (k * (q + 1)) < (2 * (q + 1) - 1) * 2 ^ 53).
      { apply Z.le_lt_trans with (2 * ((2 ^ 53 - 1) * (q + 1))); [|lia].
        apply Z.mul_le_mono_nonneg_l; [lia|]. apply Z.mul_le_mono_nonneg_r; lia. }
      apply (Z.mul_lt_mono_pos_r (2 ^ s)) in A; lia.
Qed.

Lemma jitter_bounds every jitter k up : 0 <= k < 2 ^ 53 ->
  in_int64 (every - Z.abs jitter) -> in_int64 (every + Z.abs jitter) ->
  every - Z.abs jitter <= timerDuration every jitter k up <= every + Z.abs jitter.
Proof.
  intros K A B. unfold timerDuration. destruct (Z.eqb_spec jitter 0); [lia|].
  pose proof (scaled k (Z.abs jitter) K ltac:(lia)) as S. unfold jitterPart.
  set (x := rnd53 (k * rnd53 (Z.abs jitter)) / 2 ^ 53) in *. clearbody x.
  assert (Z.sgn jitter * x = x \/ Z.sgn jitter * x = - x) as Sg by (destruct (Z.sgn_spec jitter) as [(? & ->)|[(? & ->)|(? & ->)]]; lia).
  unfold in_int64 in *. destruct up; rewrite s64_id by (unfold in_int64; lia); lia.
Qed.
