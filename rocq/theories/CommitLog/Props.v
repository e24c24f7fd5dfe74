(** Properties C05-C09. *)
From Coq Require Import Strings.String Strings.Byte ZArith List Sorted.
From stdpp Require Import gmap.
From Verif.Base Require Import GoInt Bytes BytesMap.
From Verif.Codec Require Import Model.
From Verif.Record Require Import Model.
From Verif.CommitLog Require Import Model Spec Proofs.
Import ListNotations.
Open Scope Z_scope.

(** C05: a commit record decodes to its topic partition and offset + 1, and is no marker. *)
Theorem c05_commit_record_decodes :
  forall cl tp o, in_int32 (tp_partition tp) -> MinInt64 <= o < MaxInt64 ->
  let r := newIncomingRecord (toKafkaRecord (commitRecord cl tp o)) in
  topicPartitionFromBytes (Key r) = Ok tp /\
  readIntegerFromByteArray s64 (Value r) = Ok (o + 1) /\
  isMarkerRecord (i_kRecord r) = false.
Proof. exact commit_decodes. Qed.
Print Assumptions c05_commit_record_decodes.

(** C05: same Kafka key if and only if same topic partition. *)
Theorem c05_commit_key_identifies_partition :
  forall cl tp1 tp2 o1 o2, in_int32 (tp_partition tp1) -> in_int32 (tp_partition tp2) ->
  k_key (toKafkaRecord (commitRecord cl tp1 o1)) = k_key (toKafkaRecord (commitRecord cl tp2 o2)) <-> tp1 = tp2.
Proof. exact commit_key_inj. Qed.
Print Assumptions c05_commit_key_identifies_partition.

(** C05: no marker shares a key with a commit of a valid (non-negative) partition. *)
Theorem c05_commit_key_differs_from_markers :
  forall cl tp o cp m, in_int32 (tp_partition tp) -> 0 <= tp_partition tp ->
  k_key (toKafkaRecord (commitRecord cl tp o)) <> k_key (markerRecord (cl_topic cl) cp m).
Proof. exact commit_key_not_marker. Qed.
Print Assumptions c05_commit_key_differs_from_markers.

Definition ex_cl : clConfig := mkClConfig (str "gkes_commit_log_g") 5.
Example c05_example :
  in_int32 7 /\ MinInt64 <= 41 < MaxInt64 /\
  k_key (toKafkaRecord (commitRecord ex_cl (ntp 7 (str "orders")) 41)) =
    [x07; x00; x00; x00; x00; x00; x00; x00] ++ str "orders" /\
  k_value (toKafkaRecord (commitRecord ex_cl (ntp 7 (str "orders")) 41)) =
    Some [x2a; x00; x00; x00; x00; x00; x00; x00].
Proof. unfold in_int32, MinInt64, MaxInt64. repeat split; try lia; vm_compute; reflexivity. Qed.

(** C06: for every log of commits (of one source topic) and markers, and for every compaction of it, the
    watermark of each partition is the resume offset of its last commit, -1 without one. *)
Theorem c06_watermark_is_last_commit :
  forall cl cp t0 l, Forall (ok_entry t0) l ->
  exists s', receiveAll (map (enc cl cp) l) clInit = Ok s' /\
    forall p, Watermark (ntp p t0) s' = resume_of (offsets_of t0 p l).
Proof. exact watermark_spec. Qed.
Print Assumptions c06_watermark_is_last_commit.

Theorem c06_compaction_preserves_watermark :
  forall cl cp t0 l log', Forall (ok_entry t0) l ->
  compacts k_key (map (enc cl cp) l) log' ->
  exists s', receiveAll log' clInit = Ok s' /\
    forall p, Watermark (ntp p t0) s' = resume_of (offsets_of t0 p l).
Proof. exact compacted_watermark. Qed.
Print Assumptions c06_compaction_preserves_watermark.

Definition ex_t : bytes := str "orders".
Definition ex_log : list entry :=
  [Commit ex_t 1 4; Mark (str "a"); Commit ex_t 6 9; Commit ex_t 1 5; Mark (str "b")].
Example c06_example :
  Forall (ok_entry ex_t) ex_log /\
  compacts k_key (map (enc ex_cl 1) ex_log)
    (map (enc ex_cl 1) [Commit ex_t 6 9; Commit ex_t 1 5; Mark (str "b")]) /\
  resume_of (offsets_of ex_t 1 ex_log) = 6 /\ resume_of (offsets_of ex_t 6 ex_log) = 10 /\
  resume_of (offsets_of ex_t 2 ex_log) = -1.
Proof.
  split; [|split].
  - repeat constructor; unfold ok_offset, MinInt64, MaxInt64; lia.
  - cbn [map ex_log]. eapply compacts_drop with (y := enc ex_cl 1 (Commit ex_t 1 5)); [|cbn; auto 6|reflexivity].
    eapply compacts_drop with (y := enc ex_cl 1 (Mark (str "b"))); [|cbn; auto 6|reflexivity].
    repeat constructor.
  - vm_compute. auto.
Qed.

(** C07: the value a sync returns is the resume offset of a prefix of the partition's commits that
    contains at least all commits appended before its marker.  (Records compacted away before they are
    read: C96.) *)
Theorem c07_sync_sees_prior_commits :
  forall cl t0 a1 a2 id w tp mark r,
  Forall (act_ok t0) (a1 ++ ASendMarker id :: a2) ->
  (forall c, ASkip c ∉ a1 ++ ASendMarker id :: a2) ->
  run cl worldInit (a1 ++ ASendMarker id :: a2) = Some w ->
  w_syncs w !! id = Some (mkSync tp mark (Returned r)) ->
  exists k,
    offsets_of t0 (tp_partition tp) (commits_in a1) `prefix_of` k /\
    k `prefix_of` offsets_of t0 (tp_partition tp) (commits_in (a1 ++ ASendMarker id :: a2)) /\
    r = resume_of k.
Proof. exact sync_sees_prior. Qed.
Print Assumptions c07_sync_sees_prior_commits.

(** hence, when the commits of the partition increase (C16), it is beyond each of them *)
Theorem c07_start_beyond_prior_commits :
  forall cl t0 a1 a2 id w tp mark r o,
  Forall (act_ok t0) (a1 ++ ASendMarker id :: a2) ->
  (forall c, ASkip c ∉ a1 ++ ASendMarker id :: a2) ->
  run cl worldInit (a1 ++ ASendMarker id :: a2) = Some w ->
  w_syncs w !! id = Some (mkSync tp mark (Returned r)) ->
  StronglySorted Z.lt (offsets_of t0 (tp_partition tp) (commits_in (a1 ++ ASendMarker id :: a2))) ->
  In o (offsets_of t0 (tp_partition tp) (commits_in a1)) ->
  o < r.
Proof. exact sync_resume_bound. Qed.
Print Assumptions c07_start_beyond_prior_commits.

(** a run with a foreign marker, two partitions sharing a commit-log partition and a late commit *)
Definition ex_tp : TopicPartition := ntp 1 ex_t.
Definition ex_a1 : list action :=
  [ACommit ex_tp 3; AStartSync 0 ex_tp (str "u1"); ACommit (ntp 6 ex_t) 8; AForeignMarker 1 (str "x");
   ACommit ex_tp 4; AConsume 1].
Definition ex_a2 : list action :=
  [ACommit ex_tp 5; AConsume 1; AConsume 1; AConsume 1; AConsume 1; AReadWatermark 0; AConsume 1].
Example c07_example :
  Forall (act_ok ex_t) (ex_a1 ++ ASendMarker 0 :: ex_a2) /\
  (forall c, ASkip c ∉ ex_a1 ++ ASendMarker 0 :: ex_a2) /\
  match run ex_cl worldInit (ex_a1 ++ ASendMarker 0 :: ex_a2) with
  | Some w => w_syncs w !! 0%nat = Some (mkSync ex_tp (str "u1") (Returned 5)) /\ Watermark ex_tp (w_cl w) = 6
  | None => False
  end.
Proof.
  split; [|split].
  - repeat constructor; unfold ok_offset, MinInt64, MaxInt64; cbn; lia.
  - intros c H. apply elem_of_list_In in H. cbn in H. decompose [or] H; congruence.
  - vm_compute. auto.
Qed.

(** C08 is false: watermarks are keyed by the partition number only, while the commit log is shared by
    all topics of a consumer group. *)
Theorem c08_topics_interfere_refuted :
  exists cl t1 t2 l s,
  t1 <> t2 /\
  receiveAll (map (enc cl 0) l) clInit = Ok s /\
  Watermark (ntp 0 t1) s <> resume_of (offsets_of t1 0 l).
Proof.
  exists ex_cl, (str "a"), (str "b"), [Commit (str "a") 0 9; Commit (str "b") 0 3].
  eexists. split; [discriminate|]. split; [vm_compute; reflexivity|]. vm_compute. discriminate.
Qed.
Print Assumptions c08_topics_interfere_refuted.

(** what remains true: commits of other partition numbers never interfere, whatever their topic.
    Missing: independence of equal partition numbers of different topics. *)
Theorem c08_other_partitions_do_not_interfere_partial :
  forall cl cp t p o q s s', in_int32 p -> MinInt64 <= o < MaxInt64 -> p <> tp_partition q ->
  ReceiveChange (newIncomingRecord (enc cl cp (Commit t p o))) s = Ok s' ->
  Watermark q s' = Watermark q s.
Proof. exact receive_other. Qed.
Print Assumptions c08_other_partitions_do_not_interfere_partial.
Example c08_example :
  match receiveAll (map (enc ex_cl 1) [Commit ex_t 1 4; Commit (str "b") 2 7]) clInit with
  | Ok s => Watermark ex_tp s = 5
  | _ => False
  end.
Proof. vm_compute. reflexivity. Qed.

(** C09: one valid commit-log partition per source partition *)
Theorem c09_commit_partition_valid :
  forall cl tp, 0 < cl_numPartitions cl -> 0 <= tp_partition tp ->
  0 <= commitRecordPartition cl tp < cl_numPartitions cl.
Proof. exact commit_partition_range. Qed.
Print Assumptions c09_commit_partition_valid.

Theorem c09_commit_record_destination :
  forall cl tp o, k_partition (toKafkaRecord (commitRecord cl tp o)) = commitRecordPartition cl tp /\
  k_topic (toKafkaRecord (commitRecord cl tp o)) = cl_topic cl.
Proof. exact commit_record_destination. Qed.
Print Assumptions c09_commit_record_destination.
Example c09_example :
  0 < cl_numPartitions ex_cl /\ commitRecordPartition ex_cl (ntp 13 ex_t) = 3 /\
  k_partition (toKafkaRecord (commitRecord ex_cl (ntp 13 ex_t) 77)) = 3.
Proof. vm_compute. auto. Qed.
