(** Model of streams/eos_config.go, its use in streams/source_consumer.go:94-101, and the topic
    configuration helpers of streams/source.go:195-238. *)
From Coq Require Import Strings.String Strings.Byte ZArith List Bool.
From Verif.Base Require Import Bytes.
From Verif.Record Require Import Model.
Import ListNotations.
Open Scope Z_scope.

(** eos_config.go:40-56; durations are nanoseconds *)
Record EosConfig := mkEos {
  PoolSize : Z; PendingTxnCount : Z; TargetBatchSize : Z; MaxBatchSize : Z; BatchDelay : Z }.

Definition Millisecond : Z := 1000000.

(** eos_config.go:59-76 *)
Definition IsZero (c : EosConfig) : bool :=
  if negb (PoolSize c =? 0) then false
  else if negb (PendingTxnCount c =? 0) then false
  else if negb (TargetBatchSize c =? 0) then false
  else if negb (MaxBatchSize c =? 0) then false
  else if negb (BatchDelay c =? 0) then false
  else true.

(** eos_config.go:78-97; false = panic *)
Definition validate (c : EosConfig) : bool :=
  if PoolSize c <? 1 then false
  else if PendingTxnCount c <? 1 then false
  else if TargetBatchSize c <? 1 then false
  else if MaxBatchSize c <? 1 then false
  else if BatchDelay c <? Millisecond then false
  else if TargetBatchSize c >? MaxBatchSize c then false
  else true.

(** eos_config.go:99-111 *)
Definition DefaultEosConfig : EosConfig := mkEos 3 1 1000 10000 (10 * Millisecond).

(** source_consumer.go:94-101: the configuration the producer pool is built with, None = panic *)
Definition effectiveConfig (c : EosConfig) : option EosConfig :=
  let eosConfig := if IsZero c then DefaultEosConfig else c in
  if validate eosConfig then Some eosConfig else None.

(** the fields of EventSourceConfig (source.go:43-100) used below *)
Record sourceConfig := mkSC {
  GroupId : bytes; Topic : bytes; StateStoreTopic : bytes;
  NumPartitions : Z; ReplicationFactor : Z; MinInSync : Z; CommitLogPartitions : Z }.

(** source.go:226-231 *)
Definition replicationFactorConfig (c : sourceConfig) : Z :=
  if ReplicationFactor c <=? 0 then 1 else ReplicationFactor c.
(** source.go:215-224 *)
Definition minInSyncConfig (c : sourceConfig) : Z :=
  let factor := replicationFactorConfig c in
  if factor <=? 1 then 1
  else if MinInSync c >=? factor then ReplicationFactor c - 1
  else MinInSync c.
(** source.go:233-238 *)
Definition commitLogPartitionsConfig (c : sourceConfig) : Z :=
  if CommitLogPartitions c <=? 0 then 5 else CommitLogPartitions c.

(** source.go:195-197 and 200-205 *)
Definition CommitLogTopicNameForGroupId (c : sourceConfig) : bytes := str "gkes_commit_log_" ++ GroupId c.
Definition StateStoreTopicName (c : sourceConfig) : bytes :=
  if (0 <? length (StateStoreTopic c))%nat then StateStoreTopic c
  else str "gkes_change_log_" ++ Topic c ++ str "_" ++ GroupId c.
