From Coq Require Import Strings.String Strings.Byte ZArith List Bool Lia ZifyBool.
From Verif.Base Require Import Bytes.
From Verif.Record Require Import Model.
From Verif.Config Require Import Model.
Import ListNotations.
Open Scope Z_scope.

(** the documented acceptance rule *)
Definition acceptable (c : EosConfig) : Prop :=
  1 <= PoolSize c /\ 1 <= PendingTxnCount c /\ 1 <= TargetBatchSize c /\ 1 <= MaxBatchSize c /\
  1000000 <= BatchDelay c /\ TargetBatchSize c <= MaxBatchSize c.
Definition all_zero (c : EosConfig) : Prop :=
  PoolSize c = 0 /\ PendingTxnCount c = 0 /\ TargetBatchSize c = 0 /\ MaxBatchSize c = 0 /\ BatchDelay c = 0.

Ltac ifs := repeat match goal with |- context [if ?b then _ else _] => destruct b eqn:? end.

Lemma isZero_iff c : IsZero c = true <-> all_zero c.
Proof. unfold IsZero, all_zero. ifs; split; intros; try discriminate; lia. Qed.

Lemma validate_iff c : validate c = true <-> acceptable c.
Proof. unfold validate, acceptable, Millisecond. ifs; split; intros; try discriminate; lia. Qed.

Lemma default_acceptable : acceptable DefaultEosConfig.
Proof. unfold acceptable, DefaultEosConfig, Millisecond; cbn; lia. Qed.

Lemma effective_zero c : all_zero c -> effectiveConfig c = Some DefaultEosConfig.
Proof.
  intros H. unfold effectiveConfig. rewrite (proj2 (isZero_iff c) H). reflexivity.
Qed.

Lemma effective_nonzero c : ~ all_zero c ->
  (acceptable c -> effectiveConfig c = Some c) /\ (~ acceptable c -> effectiveConfig c = None).
Proof.
  intros H. unfold effectiveConfig.
  destruct (IsZero c) eqn:E; [apply isZero_iff in E; contradiction|].
  destruct (validate c) eqn:V.
  - apply validate_iff in V. tauto.
  - split; auto. intros A. apply validate_iff in A. congruence.
Qed.

Lemma replication_valid c : 1 <= replicationFactorConfig c /\
  (1 <= ReplicationFactor c -> replicationFactorConfig c = ReplicationFactor c).
Proof. unfold replicationFactorConfig. ifs; lia. Qed.

Lemma commitlog_valid c : 1 <= commitLogPartitionsConfig c /\
  (1 <= CommitLogPartitions c -> commitLogPartitionsConfig c = CommitLogPartitions c).
Proof. unfold commitLogPartitionsConfig. ifs; lia. Qed.

Lemma min_insync_le c : minInSyncConfig c <= replicationFactorConfig c.
Proof. unfold minInSyncConfig, replicationFactorConfig. ifs; lia. Qed.

Lemma min_insync_equal c : 2 <= ReplicationFactor c -> MinInSync c = ReplicationFactor c ->
  minInSyncConfig c = ReplicationFactor c - 1.
Proof. intros A B. unfold minInSyncConfig, replicationFactorConfig. destruct (ReplicationFactor c <=? 0) eqn:?; ifs; lia. Qed.

Lemma min_insync_configured c : 1 <= MinInSync c ->
  1 <= minInSyncConfig c /\ (MinInSync c < ReplicationFactor c -> minInSyncConfig c = MinInSync c).
Proof. unfold minInSyncConfig, replicationFactorConfig. destruct (ReplicationFactor c <=? 0) eqn:?; ifs; lia. Qed.

(** ** topic names *)
Lemma commit_log_name_inj c1 c2 :
  CommitLogTopicNameForGroupId c1 = CommitLogTopicNameForGroupId c2 <-> GroupId c1 = GroupId c2.
Proof.
  unfold CommitLogTopicNameForGroupId. split; [apply app_inv_head|congruence].
Qed.

Lemma state_topic_same_group c1 c2 :
  StateStoreTopic c1 = [] -> StateStoreTopic c2 = [] -> GroupId c1 = GroupId c2 ->
  StateStoreTopicName c1 = StateStoreTopicName c2 -> Topic c1 = Topic c2.
Proof.
  unfold StateStoreTopicName. intros -> -> <-. cbn [length Nat.ltb Nat.leb]. intros H.
  apply app_inv_head in H. apply app_inv_tail in H. exact H.
Qed.

(** without '_' in the topic, the name determines topic and group *)
Lemma state_topic_no_underscore c1 c2 :
  StateStoreTopic c1 = [] -> StateStoreTopic c2 = [] ->
  ~ In "_"%byte (Topic c1) -> ~ In "_"%byte (Topic c2) ->
  StateStoreTopicName c1 = StateStoreTopicName c2 -> Topic c1 = Topic c2 /\ GroupId c1 = GroupId c2.
Proof.
  unfold StateStoreTopicName. intros -> ->. cbn [length Nat.ltb Nat.leb]. intros N1 N2 H.
  apply app_inv_head in H. revert H N1 N2. generalize (Topic c1) (Topic c2) (GroupId c1) (GroupId c2).
  intros t1. induction t1 as [|x t1 IH]; intros [|y t2] g1 g2; cbn; intros H N1 N2.
  - injection H as ->. auto.
  - injection H as <- H. exfalso. apply N2. auto.
  - injection H as -> H. exfalso. apply N1. auto.
  - injection H as -> H. destruct (IH t2 g1 g2) as [-> ->]; auto.
Qed.

(** a commit log never has the name of a generated change log *)
Lemma commit_change_distinct c1 c2 :
  StateStoreTopic c2 = [] -> CommitLogTopicNameForGroupId c1 <> StateStoreTopicName c2.
Proof.
  unfold CommitLogTopicNameForGroupId, StateStoreTopicName. intros ->.
  cbn [length Nat.ltb Nat.leb]. intros H. cbn in H. discriminate.
Qed.
