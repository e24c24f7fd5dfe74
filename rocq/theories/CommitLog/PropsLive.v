(** Properties C95 and C96. *)
From Coq Require Import Strings.String Strings.Byte ZArith List Sorted.
From stdpp Require Import gmap.
From Verif.Base Require Import GoInt Bytes BytesMap.
From Verif.Codec Require Import Model.
From Verif.Record Require Import Model.
From Verif.CommitLog Require Import Model Spec Proofs Live.
Import ListNotations.
Open Scope Z_scope.

Definition lv_cl : clConfig := mkClConfig (str "gkes_commit_log_g") 5.
Definition lv_t : bytes := str "orders".
Definition lv_tp : TopicPartition := ntp 1 lv_t.

(** C95: the marker has been written and is not compacted away; whatever else happens, once the consumer
    has received as many records of that commit-log partition as were ahead of the marker and one more,
    the call has returned or its next step returns.  Missing: see the refutations below. *)
Theorem c95_returns_partial :
  forall cl a0 id tp mark a1 w1 a2 w2,
  run cl worldInit (a0 ++ AStartSync id tp mark :: a1) = Some w1 ->
  let cp := commitRecordPartition cl tp in
  run cl w1 (ASendMarker id :: a2) = Some w2 ->
  ASkip cp ∉ a2 ->
  (length (w_log w1 cp) < w_position w1 cp + consumed cp a2)%nat ->
  hasReturned w2 id \/ (exists w3, step cl w2 (AReadWatermark id) = Some w3 /\ hasReturned w3 id).
Proof. exact call_returns. Qed.
Print Assumptions c95_returns_partial.
(** C95: and the call can send its marker at any time after it has begun, unless the produce call fails *)
Theorem c95_marker_is_sent :
  forall cl a0 id tp mark a1 w1,
  run cl worldInit (a0 ++ AStartSync id tp mark :: a1) = Some w1 -> ASendMarker id ∉ a1 -> AMarkerLost id ∉ a1 ->
  exists w', step cl w1 (ASendMarker id) = Some w'.
Proof. exact marker_is_sent. Qed.
Print Assumptions c95_marker_is_sent.

(** C95: the consumer can always receive the next record, so it gets there. *)
Theorem c95_consumer_progress :
  forall cl t0 acts w cp,
  Forall (act_ok t0) acts -> run cl worldInit acts = Some w ->
  (w_position w cp < length (w_log w cp))%nat ->
  exists w', step cl w (AConsume cp) = Some w' /\ w_position w' cp = S (w_position w cp).
Proof. exact consumer_live. Qed.
Print Assumptions c95_consumer_progress.

(** C95 is false when the marker cannot be written: the error is dropped and the call never returns,
    whatever happens afterwards. *)
Theorem c95_lost_marker_refuted :
  forall cl t0 a1 a2 id w,
  Forall (act_ok t0) (a1 ++ AMarkerLost id :: a2) ->
  run cl worldInit (a1 ++ AMarkerLost id :: a2) = Some w -> waiting w id.
Proof. exact lost_waits_forever. Qed.
Print Assumptions c95_lost_marker_refuted.

(** C95 is false when the marker is compacted away before the consumer reaches it (all markers have the
    same key, so the next marker of anyone in that commit-log partition suffices). *)
Theorem c95_compacted_marker_refuted :
  forall cl t0 a1 w1 id tp mark a2 w,
  Forall (act_ok t0) (a1 ++ a2) ->
  run cl worldInit a1 = Some w1 ->
  w_syncs w1 !! id = Some (mkSync tp mark Waiting) ->
  let cp := commitRecordPartition cl tp in
  w_log w1 cp !! w_position w1 cp = Some (markerRecord (cl_topic cl) cp mark) ->
  run cl w1 (ASkip cp :: a2) = Some w ->
  waiting w id.
Proof. exact compacted_waits_forever. Qed.
Print Assumptions c95_compacted_marker_refuted.

(** C07: the partition in the statements about a call is the one that lastProcessed was called with *)
Theorem c07_call_keeps_its_partition :
  forall cl a0 id tp mark a1 w,
  run cl worldInit (a0 ++ AStartSync id tp mark :: a1) = Some w ->
  exists st, w_syncs w !! id = Some (mkSync tp mark st).
Proof. intros cl a0 id tp mark a1 w R. destruct (started _ _ _ _ _ _ _ R) as (st & H & _). exists st. exact H. Qed.
Print Assumptions c07_call_keeps_its_partition.

Definition lv_a1 : list action :=
  [ACommit lv_tp 3; AStartSync 0 lv_tp (str "u1"); AConsume 1; ACommit (ntp 6 lv_t) 8].
Definition lv_a2 : list action := [ACommit lv_tp 4; AForeignMarker 1 (str "x"); AConsume 1; AConsume 1].
Example c95_returns_example :
  ASkip (commitRecordPartition lv_cl lv_tp) ∉ lv_a2 /\
  match run lv_cl worldInit lv_a1 with
  | Some w1 =>
      w_syncs w1 !! 0%nat = Some (mkSync lv_tp (str "u1") Registered) /\
      length (w_log w1 1) = 2%nat /\ w_position w1 1 = 1%nat /\ consumed 1 lv_a2 = 2%nat /\
      match run lv_cl w1 (ASendMarker 0 :: lv_a2) with
      | Some w2 => w_syncs w2 !! 0%nat = Some (mkSync lv_tp (str "u1") Waiting)
      | None => False
      end
  | None => False
  end.
Proof.
  split; [|vm_compute; auto].
  intros H. apply elem_of_list_In in H. cbn in H. decompose [or] H; congruence.
Qed.
Example c95_lost_example :
  match run lv_cl worldInit ([ACommit lv_tp 3; AStartSync 0 lv_tp (str "u1")] ++ AMarkerLost 0 ::
    [AConsume 1; AForeignMarker 1 (str "x"); AConsume 1]) with Some _ => True | None => False end.
Proof. vm_compute. exact Logic.I. Qed.
Example c95_compacted_example :
  match run lv_cl worldInit [ACommit lv_tp 3; AStartSync 0 lv_tp (str "u1"); ASendMarker 0; AConsume 1;
      AForeignMarker 1 (str "x")] with
  | Some w1 =>
    w_syncs w1 !! 0%nat = Some (mkSync lv_tp (str "u1") Waiting) /\
    w_log w1 1 !! w_position w1 1 = Some (markerRecord (cl_topic lv_cl) 1 (str "u1")) /\
    match run lv_cl w1 (ASkip 1 :: [AConsume 1]) with Some _ => True | None => False end
  | None => False
  end.
Proof. vm_compute. auto. Qed.

(** C96: with the broker compacting the log at any time, the value is that of a prefix of the partition's
    commits.  The prefix contains all commits appended before the marker, or else some record was
    compacted away and the partition was committed again after the marker. *)
Theorem c96_prefix_partial :
  forall cl t0 a1 a2 id w tp mark r,
  Forall (act_ok t0) (a1 ++ ASendMarker id :: a2) ->
  run cl worldInit (a1 ++ ASendMarker id :: a2) = Some w ->
  w_syncs w !! id = Some (mkSync tp mark (Returned r)) ->
  exists k,
    k `prefix_of` offsets_of t0 (tp_partition tp) (commits_in (a1 ++ ASendMarker id :: a2)) /\
    r = resume_of k /\
    (offsets_of t0 (tp_partition tp) (commits_in a1) `prefix_of` k \/
     ((exists c, ASkip c ∈ a1 ++ ASendMarker id :: a2) /\ offsets_of t0 (tp_partition tp) (commits_in a2) <> [])).
Proof. exact sync_sees_prior_compacted. Qed.
Print Assumptions c96_prefix_partial.

(** C96: if nobody commits the partition after the marker was written, the value is exactly the resume
    offset of all its commits, compaction or not. *)
Theorem c96_exact_partial :
  forall cl t0 a1 a2 id w tp mark r,
  Forall (act_ok t0) (a1 ++ ASendMarker id :: a2) ->
  run cl worldInit (a1 ++ ASendMarker id :: a2) = Some w ->
  w_syncs w !! id = Some (mkSync tp mark (Returned r)) ->
  offsets_of t0 (tp_partition tp) (commits_in a2) = [] ->
  r = resume_of (offsets_of t0 (tp_partition tp) (commits_in a1)).
Proof. exact sync_exact. Qed.
Print Assumptions c96_exact_partial.

Definition lv_c1 : list action := [ACommit lv_tp 3; AStartSync 0 lv_tp (str "u1")].
Definition lv_c2 : list action := [ACommit lv_tp 4; ASkip 1; AConsume 1; AReadWatermark 0].
Lemma lv_c_run :
  match run lv_cl worldInit (lv_c1 ++ ASendMarker 0 :: lv_c2) with
  | Some w => w_syncs w !! 0%nat = Some (mkSync lv_tp (str "u1") (Returned (-1)))
  | None => False
  end.
Proof. vm_compute. reflexivity. Qed.

(** C96 is false: the former owner commits once more after the marker; the broker drops the older commit
    in favour of that one; the consumer meets the marker before it, and the partition starts from the
    beginning although offset 3 was committed before the marker. *)
Theorem c96_refuted :
  exists cl t0 a1 a2 id w tp mark r o,
  Forall (act_ok t0) (a1 ++ ASendMarker id :: a2) /\
  run cl worldInit (a1 ++ ASendMarker id :: a2) = Some w /\
  w_syncs w !! id = Some (mkSync tp mark (Returned r)) /\
  StronglySorted Z.lt (offsets_of t0 (tp_partition tp) (commits_in (a1 ++ ASendMarker id :: a2))) /\
  In o (offsets_of t0 (tp_partition tp) (commits_in a1)) /\
  r = -1 /\ r <= o.
Proof.
  pose proof lv_c_run as H.
  destruct (run lv_cl worldInit (lv_c1 ++ ASendMarker 0 :: lv_c2)) as [w|] eqn:R; [|contradiction].
  exists lv_cl, lv_t, lv_c1, lv_c2, 0%nat, w, lv_tp, (str "u1"), (-1), 3.
  split; [repeat constructor; unfold ok_offset, MinInt64, MaxInt64; cbn; lia|].
  split; [exact R|]. split; [exact H|]. split; [|split; [vm_compute; auto|lia]].
  change (StronglySorted Z.lt [3; 4]). repeat constructor; lia.
Qed.
Print Assumptions c96_refuted.

(** a superseded commit and two superseded markers compacted away; the former owner has stopped *)
Definition lv_b1 : list action :=
  [ACommit lv_tp 3; AForeignMarker 1 (str "x"); ACommit lv_tp 4; AStartSync 0 lv_tp (str "u1"); ACommit (ntp 6 lv_t) 8].
Definition lv_b2 : list action :=
  [ASkip 1; ASkip 1; ACommit (ntp 6 lv_t) 9; AConsume 1; ASkip 1; AConsume 1; AReadWatermark 0].
Example c96_example :
  Forall (act_ok lv_t) (lv_b1 ++ ASendMarker 0 :: lv_b2) /\
  match run lv_cl worldInit (lv_b1 ++ ASendMarker 0 :: lv_b2) with
  | Some w => w_syncs w !! 0%nat = Some (mkSync lv_tp (str "u1") (Returned 5))
  | None => False
  end /\
  offsets_of lv_t 1 (commits_in lv_b2) = [].
Proof.
  split; [repeat constructor; unfold ok_offset, MinInt64, MaxInt64; cbn; lia|].
  split; vm_compute; reflexivity.
Qed.
