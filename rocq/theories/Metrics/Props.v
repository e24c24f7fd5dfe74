(** C70: metrics. *)
From Coq Require Import List ZArith Bool Arith Lia.
From Verif.Metrics Require Import Model Proofs.
Import ListNotations.

(** C70 (partial: EmitMetric only, and only until the channel is closed): it goes through or is dropped, the latter only when the buffer is
    full, and then nothing changes *)
Theorem c70_emit_never_blocks_partial :
  forall acts os s m, ~ In AClose acts -> run start acts = Some (os, s) ->
  exists o s', step s (AEmit m) = Some (o, s') /\ (o = ODone \/ o = ODropped) /\ (o = ODropped -> s' = s /\ length (buf s) >= capacity).
Proof. intros acts os s m N R. apply emit_free. exact (not_closed acts start os s N eq_refl R). Qed.
Print Assumptions c70_emit_never_blocks_partial.

(** what was accepted is handed to the handler in order, nothing lost or repeated except what is still buffered *)
Theorem c70_accepted_in_order :
  forall acts os s, run start acts = Some (os, s) ->
  handled s ++ map handle (buf s) = map handle (accepted acts os) /\ length (buf s) <= capacity.
Proof. intros acts os s R. apply (fifo acts start os s R). cbn. lia. Qed.
Print Assumptions c70_accepted_in_order.
Definition m1 := mkM 5 0 1. Definition m2 := mkM 6 7 2.
Example c70_example : run start [AEmit m1; ACommit m2; AConsume; AHalt; AConsume] = Some ([ODone; ODone; ODone; ODone; ODone], mkSt [] false true [mkM 5 5 1; m2]).
Proof. reflexivity. Qed.

(** C70 refuted, twice: after shutdown of the metrics any emission panics, EmitMetric included *)
Theorem c70_emit_after_close_refuted :
  exists acts s, run start acts = Some ([ODone; ODone], s) /\ forall m, step s (AEmit m) = Some (OPanic, s) /\ step s (ACommit m) = Some (OPanic, s).
Proof. exists [AHalt; AClose]. eexists. split; [reflexivity|]. intros m. split; reflexivity. Qed.
Print Assumptions c70_emit_after_close_refuted.
(** and while the buffer is full, the metric of a finished transaction blocks the committing goroutine *)
Theorem c70_commit_blocks_refuted :
  exists acts os s, run start acts = Some (os, s) /\ ~ In AClose acts /\ forall m, step s (ACommit m) = Some (OBlocked, s).
Proof.
  set (acts := repeat (AEmit m1) capacity).
  assert (H : forall k n, k + n = capacity -> run (mkSt (repeat m1 k) false false []) (repeat (AEmit m1) n) = Some (repeat ODone n, mkSt (repeat m1 capacity) false false [])).
  { intros k n. revert k. induction n as [|n IH]; intros k E; cbn [repeat run].
    - replace k with capacity by lia. reflexivity.
    - cbn [step closed buf halted handled]. rewrite repeat_length. destruct (Nat.ltb_spec k capacity); [|lia].
      replace (repeat m1 k ++ [m1]) with (repeat m1 (S k)) by (cbn [repeat]; apply repeat_cons). rewrite (IH (S k)) by lia. reflexivity. }
  exists acts, (repeat ODone capacity), (mkSt (repeat m1 capacity) false false []). split; [apply (H 0 capacity); reflexivity|].
  split; [intros I; apply repeat_spec in I; discriminate|]. intros m. cbn [step closed buf]. rewrite repeat_length.
  destruct (Nat.ltb_spec capacity capacity); [lia|reflexivity].
Qed.
Print Assumptions c70_commit_blocks_refuted.
