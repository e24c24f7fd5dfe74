(** Property C102. *)
From stdpp Require Import prelude list.
From Coq Require Import Lia.
From Verif.Balancer Require Import Model Member Leave.
Open Scope nat_scope.

Lemma graceful_eq l r : leavesGracefully l r = currentProtocolIsIncremental l r.
Proof. unfold leavesGracefully, currentProtocolIsIncremental. destruct (hasIncr l); [|reflexivity]. cbn. destruct (length (configured l) <=? 1), r; try reflexivity. cbn. case_bool_decide; reflexivity. Qed.
Lemma only_incremental l : hasIncr l = true -> length (configured l) <= 1 -> effective l = [SIncremental].
Proof.
  unfold hasIncr, effective. intros H L. apply bool_decide_eq_true in H. destruct l as [|x [|y l]]; [reflexivity| |cbn in L; lia]. destruct x; vm_compute in H |- *; try (exfalso; set_solver); reflexivity.
Qed.

(** C102 if the group is described truthfully. [proto]: the protocol the group uses, which is one of those the member offers *)
Theorem c102_exactly_if_incremental_partial l proto : proto ∈ effective l -> leavesGracefully l (RProtocol (Some proto)) = true <-> proto = SIncremental.
Proof.
  intros P. rewrite graceful_eq. unfold currentProtocolIsIncremental. destruct (hasIncr l) eqn:H; cbn.
  - destruct (length (configured l) <=? 1) eqn:L.
    + rewrite (only_incremental l H (proj1 (Nat.leb_le _ _) L)) in P. apply elem_of_list_singleton in P. tauto.
    + rewrite bool_decide_eq_true. split; congruence.
  - split; [discriminate|]. intros ->. unfold hasIncr in H. apply bool_decide_eq_false in H. contradiction.
Qed.
Print Assumptions c102_exactly_if_incremental_partial.
(** C102 for a consumer with one strategy, whatever the broker answers *)
Theorem c102_single_strategy_partial l proto r : length l <= 1 -> proto ∈ effective l -> leavesGracefully l r = true <-> proto = SIncremental.
Proof.
  intros L P. rewrite graceful_eq. unfold currentProtocolIsIncremental. assert (L' : length (configured l) <= 1) by (destruct l; cbn in *; lia). destruct (hasIncr l) eqn:H; cbn.
  - destruct (Nat.leb_spec (length (configured l)) 1); [|lia]. rewrite (only_incremental l H L') in P. apply elem_of_list_singleton in P. tauto.
  - split; [discriminate|]. intros ->. unfold hasIncr in H. apply bool_decide_eq_false in H. contradiction.
Qed.
Print Assumptions c102_single_strategy_partial.
(** C102, the other direction, for every answer that does not name a wrong protocol: a graceful leave happens in a group that knows it *)
Theorem c102_graceful_only_if_incremental l proto r : proto ∈ effective l -> (forall x, r = RProtocol (Some x) -> x = proto) -> leavesGracefully l r = true -> proto = SIncremental.
Proof.
  intros P R G. destruct r as [| |[x|]].
  4: rewrite graceful_eq in G; unfold currentProtocolIsIncremental in G; destruct (hasIncr l) eqn:H; cbn in G; [|discriminate]; destruct (length (configured l) <=? 1) eqn:L; [|discriminate];
     rewrite (only_incremental l H (proj1 (Nat.leb_le _ _) L)) in P; apply elem_of_list_singleton in P; exact P.
  3: rewrite (R x eq_refl) in G; exact (proj1 (c102_exactly_if_incremental_partial l proto P) G).
  all: rewrite graceful_eq in G; unfold currentProtocolIsIncremental in G; destruct (hasIncr l) eqn:H; cbn in G; [|discriminate]; destruct (length (configured l) <=? 1) eqn:L; [|discriminate];
     rewrite (only_incremental l H (proj1 (Nat.leb_le _ _) L)) in P; apply elem_of_list_singleton in P; exact P.
Qed.
Print Assumptions c102_graceful_only_if_incremental.
(** C102 is false: with two strategies the consumer leaves at once if the broker can not be asked, or is just rebalancing *)
Theorem c102_refuted l : SIncremental ∈ l -> 1 < length l ->
  leavesGracefully l RError = false /\ leavesGracefully l (RProtocol None) = false /\ SIncremental ∈ effective l.
Proof.
  intros I L. rewrite !graceful_eq. unfold currentProtocolIsIncremental. assert (E : configured l = l) by (destruct l; [cbn in L; lia|reflexivity]).
  rewrite E. destruct (Nat.leb_spec (length l) 1); [lia|]. split; [destruct (negb (hasIncr l)); reflexivity|]. split; [destruct (negb (hasIncr l)); reflexivity|].
  unfold effective. apply elem_of_list_filter. split; [discriminate|]. destruct l; [cbn in L; lia|exact I].
Qed.
Print Assumptions c102_refuted.
Example c102_example : leavesGracefully [SSticky; SIncremental] (RProtocol (Some SIncremental)) = true /\ leavesGracefully [SSticky; SIncremental] (RProtocol (Some SSticky)) = false /\
  leavesGracefully [] RError = true /\ leavesGracefully [SRange] RError = false /\ leavesGracefully [SSticky; SIncremental] (RProtocol None) = false /\ SIncremental ∈ effective [SSticky; SIncremental].
Proof. repeat split; try by vm_compute. vm_compute. set_solver. Qed.
