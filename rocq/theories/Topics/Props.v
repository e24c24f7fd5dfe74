(** Properties C67, C68. *)
From Coq Require Import Strings.String Strings.Byte ZArith List Lia.
From Verif.Base Require Import Bytes.
From Verif.Record Require Import Model.
From Verif.Config Require Import Model.
From Verif.Topics Require Import Model Proofs.
Import ListNotations.
Open Scope Z_scope.

(** C67: whatever existed before, success means all three topics exist, the change log has as many
    partitions as the source, and the commit-log partition count in use is the topic's.
    Assumed: no create request is rejected for its topic (see the refutation below) and an existing
    commit log has a partition. *)
Theorem c67_success_means_agreement_partial :
  forall ad c w c' w', no_rejections ad -> sane w ->
  resolveOrCreateTopics ad c w = (inr c', w') -> agree c' w'.
Proof. exact resolve_ok. Qed.
Print Assumptions c67_success_means_agreement_partial.

Theorem c67_mismatch_is_an_error :
  forall ad c s ch wc, t_partitions ch <> t_partitions s ->
  exists e w', resolveOrCreateTopics ad c (mkClusters (Some s) wc (Some ch)) = (inl e, w').
Proof. exact resolve_mismatch. Qed.
Print Assumptions c67_mismatch_is_an_error.

Definition ex_ad : admin := mkAdmin None (topicCreated None) None (topicCreated None) (topicCreated None).
Definition ex_c : sourceConfig := mkSC (str "g") (str "t") [] 10 2 1 0.
Example c67_example :
  no_rejections ex_ad /\ sane (mkClusters (Some (mkTopic 12 3)) None None) /\
  resolveOrCreateTopics ex_ad ex_c (mkClusters (Some (mkTopic 12 3)) None None) =
    (inr (setPartitions ex_c 12 3),
     mkClusters (Some (mkTopic 12 3)) (Some (mkTopic 5 3)) (Some (mkTopic 12 3))).
Proof. repeat split. Qed.

(** the error of an individual topic is dropped: CreateSource succeeds although the source topic was
    refused by the broker and does not exist, or although another instance created the change log with
    another partition count in between *)
Theorem c67_rejected_topic_refuted :
  exists ad c w c' w', resolveOrCreateTopics ad c w = (inr c', w') /\ c_source w' = None.
Proof.
  exists (mkAdmin None (topicCreated (Some None)) None (topicCreated None) (topicCreated None)),
    (mkSC (str "g") (str "t") [] 0 1 1 0), (mkClusters None None None).
  do 2 eexists. split; reflexivity.
Qed.
Print Assumptions c67_rejected_topic_refuted.

Theorem c67_concurrent_creation_refuted :
  exists ad c w c' w' s ch, resolveOrCreateTopics ad c w = (inr c', w') /\
  c_source w' = Some s /\ c_changeLog w' = Some ch /\ t_partitions ch <> t_partitions s.
Proof.
  exists (mkAdmin None (topicCreated None) None (topicCreated None) (topicCreated (Some (Some (mkTopic 8 1))))),
    ex_c, (mkClusters (Some (mkTopic 12 3)) None None).
  do 4 eexists. split; [reflexivity|]. split; [reflexivity|]. split; [reflexivity|]. cbn. discriminate.
Qed.
Print Assumptions c67_concurrent_creation_refuted.

(** C68: any non-network error crashes the process (after any number of network errors) instead of
    being returned ... *)
Theorem c68_other_error_crashes_refuted :
  forall attempt k, (k < 15)%nat ->
  (forall i, (0 <= i < k)%nat -> fst (attempt i) = Some NetError) ->
  fst (attempt k) = Some OtherError -> CreateSource true attempt = Crashed.
Proof. exact (fun attempt k L => loop_crash 15 0 attempt _ k (Nat.le_0_l k) L). Qed.
Print Assumptions c68_other_error_crashes_refuted.

(** ... for example the partition-count mismatch that resolveOrCreateTopics reports *)
Example c68_mismatch_crashes :
  fst (resolveOrCreateTopics ex_ad ex_c (mkClusters (Some (mkTopic 12 3)) None (Some (mkTopic 8 1)))) = inl OtherError /\
  CreateSource true (fun _ => (Some OtherError, 0)) = Crashed.
Proof. split; reflexivity. Qed.

(** ... and CreateDestination never creates anything: whatever it returns, the topic exists afterwards
    only if it did before *)
Theorem c68_destination_not_created_refuted :
  forall clientErr existed err exists_after,
  CreateDestination clientErr existed = Returned err exists_after -> exists_after = existed.
Proof. exact (fun ce ex => dest_loop_exists 15 0 ce None ex). Qed.
Print Assumptions c68_destination_not_created_refuted.

Example c68_destination_example : CreateDestination (fun _ => None) false = Returned None false.
Proof. reflexivity. Qed.

(** what holds if every error is a network error: no crash; the first successful attempt among 15 decides;
    15 failures are reported.  Missing: all other errors, and the destination's topic. *)
Theorem c68_source_retry_partial :
  forall attempt k, (k < 15)%nat ->
  (forall i, (0 <= i < k)%nat -> fst (attempt i) = Some NetError) ->
  fst (attempt k) = None -> CreateSource true attempt = Returned None (snd (attempt k)).
Proof. exact (fun attempt k L => loop_success 15 0 attempt _ k (Nat.le_0_l k) L). Qed.
Print Assumptions c68_source_retry_partial.

Theorem c68_source_gives_up_partial :
  forall attempt, (forall i, (0 <= i < 0 + 15)%nat -> fst (attempt i) = Some NetError) ->
  exists a, CreateSource true attempt = Returned (Some NetError) a.
Proof. exact (fun attempt H => loop_all_network 15 0 attempt _ H (Nat.lt_0_succ 14)). Qed.
Print Assumptions c68_source_gives_up_partial.

Theorem c68_destination_error_partial :
  forall clientErr existed, (forall i, clientErr i <> Some OtherError) ->
  CreateDestination clientErr existed = Returned (clientErr 14%nat) existed.
Proof. exact (fun ce ex H => dest_loop_err 15 0 ce None ex (Nat.lt_0_succ 14) H). Qed.
Print Assumptions c68_destination_error_partial.
Example c68_example :
  CreateSource true (fun n => if Nat.ltb n 3 then (Some NetError, 0) else (None, 7)) = Returned None 7 /\
  CreateSource true (fun _ => (Some NetError, 0)) = Returned (Some NetError) 0.
Proof. split; reflexivity. Qed.
