(** syncAll (commit_log.go:108-119), which the consumer waits for before it polls (source_consumer.go:270-273): one goroutine for each partition i of the commit log
    runs syncCommitLogPartition. In the model of the commit log with its users (Model.v) it is a sync of the source partition i, whose commit-log partition is i itself
    because i is below numPartitions; the watermark such a sync reads at the end is not used here. *)
From Coq Require Import Strings.Byte ZArith List.
From stdpp Require Import gmap.
From Verif.Base Require Import GoInt Bytes BytesMap.
From Verif.Codec Require Import Model.
From Verif.Record Require Import Model.
From Verif.CommitLog Require Import Model.
Import ListNotations.
Open Scope Z_scope.

(** lines 110-118: a sync of every commit-log partition was begun in [acts] and its Wait has returned *)
Definition syncedAll (cl : clConfig) (t0 : bytes) (acts : list action) : Prop :=
  forall i, 0 <= i < cl_numPartitions cl -> exists id mark, AStartSync id (ntp i t0) mark ∈ acts /\ AReadWatermark id ∈ acts.
