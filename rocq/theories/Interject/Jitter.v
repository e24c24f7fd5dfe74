(** Model of the delay of a scheduled interjection, streams/interjection.go:53-62. *)
From Coq Require Import ZArith Bool.
From Verif.Base Require Import GoInt.
Open Scope Z_scope.

(** rounding of a non-negative number to 53 significant bits, ties to even (IEEE double precision; all numbers here
    are far from the subnormal and overflow ranges) *)
Definition rnd53 (m : Z) : Z :=
  if m <? 2 ^ 53 then m else
  let s := Z.log2 m - 52 in
  let q := m / 2 ^ s in
  let r := m mod 2 ^ s in
  let h := 2 ^ (s - 1) in
  if r <? h then q * 2 ^ s else
  if h <? r then (q + 1) * 2 ^ s else
  if Z.even q then q * 2 ^ s else (q + 1) * 2 ^ s.

(** time.Duration(rand.Float64() * float64(jitter)), interjection.go:57; rand.Float64 gives k / 2^53 with 0 <= k < 2^53.
    The product is kept scaled by 2^53; conversion to an integer cuts towards zero. *)
Definition jitterPart (k jitter : Z) : Z :=
  Z.sgn jitter * (rnd53 (k * rnd53 (Z.abs jitter)) / 2 ^ 53).

(** interjection.go:53-62; [up] is rand.Intn(10) < 5 *)
Definition timerDuration (every jitter k : Z) (up : bool) : Z :=
  if jitter =? 0 then every else
  let j := jitterPart k jitter in
  if up then s64 (every + j) else s64 (every - j).
