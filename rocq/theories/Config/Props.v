(** Properties C25, C66, C74. *)
From Coq Require Import Strings.String Strings.Byte ZArith List Lia.
From Verif.Base Require Import Bytes.
From Verif.Record Require Import Model.
From Verif.Config Require Import Model Proofs.
Import ListNotations.
Open Scope Z_scope.

(** C25 *)
Theorem c25_zero_config_uses_default :
  forall c, all_zero c -> effectiveConfig c = Some DefaultEosConfig.
Proof. exact effective_zero. Qed.
Print Assumptions c25_zero_config_uses_default.

Theorem c25_nonzero_config_accepted_iff_valid :
  forall c, ~ all_zero c ->
  (acceptable c -> effectiveConfig c = Some c) /\ (~ acceptable c -> effectiveConfig c = None).
Proof. exact effective_nonzero. Qed.
Print Assumptions c25_nonzero_config_accepted_iff_valid.

Theorem c25_default_acceptable : acceptable DefaultEosConfig.
Proof. exact default_acceptable. Qed.
Print Assumptions c25_default_acceptable.

Example c25_example :
  effectiveConfig (mkEos 0 0 0 0 0) = Some DefaultEosConfig /\
  effectiveConfig (mkEos 2 1 10 10 1000000) = Some (mkEos 2 1 10 10 1000000) /\
  effectiveConfig (mkEos 2 1 11 10 1000000) = None /\ effectiveConfig (mkEos 0 1 10 10 1000000) = None /\
  ~ all_zero (mkEos 2 1 10 10 1000000) /\ acceptable (mkEos 2 1 10 10 1000000).
Proof. unfold all_zero, acceptable; cbn. repeat split; try reflexivity; lia. Qed.

(** C66 *)
Theorem c66_replication_factor_valid :
  forall c, 1 <= replicationFactorConfig c /\
  (1 <= ReplicationFactor c -> replicationFactorConfig c = ReplicationFactor c).
Proof. exact replication_valid. Qed.
Print Assumptions c66_replication_factor_valid.

Theorem c66_commit_log_partitions_valid :
  forall c, 1 <= commitLogPartitionsConfig c /\
  (1 <= CommitLogPartitions c -> commitLogPartitionsConfig c = CommitLogPartitions c).
Proof. exact commitlog_valid. Qed.
Print Assumptions c66_commit_log_partitions_valid.

Theorem c66_min_insync_never_above_replication :
  forall c, minInSyncConfig c <= replicationFactorConfig c.
Proof. exact min_insync_le. Qed.
Print Assumptions c66_min_insync_never_above_replication.

(** the documented default of 1 for MinInSync is not applied once the replication factor exceeds 1 *)
Theorem c66_min_insync_unset_refuted :
  exists c, MinInSync c = 0 /\ ReplicationFactor c = 3 /\ minInSyncConfig c < 1.
Proof. exists (mkSC [] [] [] 10 3 0 5). repeat split; reflexivity. Qed.
Print Assumptions c66_min_insync_unset_refuted.

(** a configured positive value gives a valid result and is kept below the replication factor (a value
    equal to it is lowered by one).  Missing: the unset or negative case. *)
Theorem c66_min_insync_configured_partial :
  forall c, 1 <= MinInSync c ->
  1 <= minInSyncConfig c /\ (MinInSync c < ReplicationFactor c -> minInSyncConfig c = MinInSync c).
Proof. exact min_insync_configured. Qed.
Print Assumptions c66_min_insync_configured_partial.
(** a configured value equal to the replication factor, which is not above it, is lowered by one *)
Theorem c66_min_insync_equal_refuted :
  forall c, 2 <= ReplicationFactor c -> MinInSync c = ReplicationFactor c ->
  minInSyncConfig c = ReplicationFactor c - 1.
Proof. exact min_insync_equal. Qed.
Print Assumptions c66_min_insync_equal_refuted.
Example c66_equal_example : minInSyncConfig (mkSC [] [] [] 10 3 3 0) = 2.
Proof. reflexivity. Qed.
Example c66_example :
  minInSyncConfig (mkSC [] [] [] 10 3 2 0) = 2 /\ minInSyncConfig (mkSC [] [] [] 10 3 5 0) = 2 /\
  minInSyncConfig (mkSC [] [] [] 10 0 5 0) = 1 /\ commitLogPartitionsConfig (mkSC [] [] [] 10 3 2 0) = 5.
Proof. vm_compute. auto. Qed.

(** C74: commit-log names identify the group, generated change-log names identify topic and group if
    topics contain no underscore, and the two kinds never coincide. *)
Theorem c74_commit_log_name_identifies_group :
  forall c1 c2, CommitLogTopicNameForGroupId c1 = CommitLogTopicNameForGroupId c2 <-> GroupId c1 = GroupId c2.
Proof. exact commit_log_name_inj. Qed.
Print Assumptions c74_commit_log_name_identifies_group.

Theorem c74_commit_and_change_log_distinct :
  forall c1 c2, StateStoreTopic c2 = [] -> CommitLogTopicNameForGroupId c1 <> StateStoreTopicName c2.
Proof. exact commit_change_distinct. Qed.
Print Assumptions c74_commit_and_change_log_distinct.

(** two event sources with different topics and groups can share a generated change-log topic *)
Theorem c74_change_log_name_collision_refuted :
  exists c1 c2, Topic c1 <> Topic c2 /\ GroupId c1 <> GroupId c2 /\
  StateStoreTopic c1 = [] /\ StateStoreTopic c2 = [] /\ StateStoreTopicName c1 = StateStoreTopicName c2.
Proof.
  exists (mkSC (str "c") (str "a_b") [] 1 1 1 1), (mkSC (str "b_c") (str "a") [] 1 1 1 1).
  repeat split; try discriminate; reflexivity.
Qed.
Print Assumptions c74_change_log_name_collision_refuted.

(** holds inside one group, and everywhere if topic names contain no underscore *)
Theorem c74_change_log_name_same_group_partial :
  forall c1 c2, StateStoreTopic c1 = [] -> StateStoreTopic c2 = [] -> GroupId c1 = GroupId c2 ->
  StateStoreTopicName c1 = StateStoreTopicName c2 -> Topic c1 = Topic c2.
Proof. exact state_topic_same_group. Qed.
Print Assumptions c74_change_log_name_same_group_partial.

Theorem c74_change_log_name_no_underscore_partial :
  forall c1 c2, StateStoreTopic c1 = [] -> StateStoreTopic c2 = [] ->
  ~ In "_"%byte (Topic c1) -> ~ In "_"%byte (Topic c2) ->
  StateStoreTopicName c1 = StateStoreTopicName c2 -> Topic c1 = Topic c2 /\ GroupId c1 = GroupId c2.
Proof. exact state_topic_no_underscore. Qed.
Print Assumptions c74_change_log_name_no_underscore_partial.
Example c74_example :
  StateStoreTopicName (mkSC (str "g_1") (str "orders") [] 1 1 1 1) = str "gkes_change_log_orders_g_1" /\
  ~ In "_"%byte (str "orders").
Proof. split; [reflexivity|]. cbn. intuition discriminate. Qed.
