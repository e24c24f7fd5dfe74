(** C120: what the consumer knows when syncAll has returned, before it polls. [a1]: all that happens before syncAll is called, [a2]: until it has returned. *)
From Coq Require Import Strings.String Strings.Byte ZArith List Sorted.
From stdpp Require Import gmap.
From Verif.Base Require Import GoInt Bytes BytesMap.
From Verif.Codec Require Import Model.
From Verif.Record Require Import Model.
From Verif.CommitLog Require Import Model Spec Proofs Live SyncAllModel SyncAll.
Import ListNotations.
Open Scope Z_scope.

(** C120: the watermark of every source partition is the resume offset of a prefix of its commits; the prefix has all commits that were in the log when syncAll was called,
    or else some record was compacted away and the partition was committed again in the meantime *)
Theorem c120_prefix_partial : forall cl t0 a1 a2 w p, 0 < cl_numPartitions cl -> Forall (act_ok t0) (a1 ++ a2) -> run cl worldInit (a1 ++ a2) = Some w ->
  syncedAll cl t0 a2 -> 0 <= p ->
  exists k, k `prefix_of` offsets_of t0 p (commits_in (a1 ++ a2)) /\ Watermark (ntp p t0) (w_cl w) = resume_of k /\
    (offsets_of t0 p (commits_in a1) `prefix_of` k \/ ((exists c, ASkip c ∈ a1 ++ a2) /\ offsets_of t0 p (commits_in a2) <> [])).
Proof. exact sync_all. Qed.
Print Assumptions c120_prefix_partial.
(** C120: with increasing commits (C16) and without compaction it is beyond each of them *)
Theorem c120_beyond_prior_commits_partial : forall cl t0 a1 a2 w p o, 0 < cl_numPartitions cl -> Forall (act_ok t0) (a1 ++ a2) -> (forall c, ASkip c ∉ a1 ++ a2) ->
  run cl worldInit (a1 ++ a2) = Some w -> syncedAll cl t0 a2 -> 0 <= p ->
  StronglySorted Z.lt (offsets_of t0 p (commits_in (a1 ++ a2))) -> In o (offsets_of t0 p (commits_in a1)) -> o < Watermark (ntp p t0) (w_cl w).
Proof.
  intros cl t0 a1 a2 w p o Hn F NS R Hall Hp SS Hin. destruct (sync_all _ _ _ _ _ _ Hn F R Hall Hp) as (k & H1 & -> & [H3|((c & Hc) & _)]); [|destruct (NS c Hc)].
  apply resume_ge; [eapply sorted_prefix; eauto|]. eapply elem_of_prefix; [|exact H3]. now apply elem_of_list_In.
Qed.
Print Assumptions c120_beyond_prior_commits_partial.
(** C120: it is exact, compaction or not, for a partition that nobody commits in the meantime *)
Theorem c120_exact : forall cl t0 a1 a2 w p, 0 < cl_numPartitions cl -> Forall (act_ok t0) (a1 ++ a2) -> run cl worldInit (a1 ++ a2) = Some w -> syncedAll cl t0 a2 -> 0 <= p ->
  offsets_of t0 p (commits_in a2) = [] -> Watermark (ntp p t0) (w_cl w) = resume_of (offsets_of t0 p (commits_in a1)).
Proof. exact sync_all_exact. Qed.
Print Assumptions c120_exact.

(** two commit-log partitions; source partitions 0, 2 and 3 have commits, 2 once more while syncAll runs, 5 none *)
Definition sa_cl : clConfig := mkClConfig (str "gkes_commit_log_g") 2.
Definition sa_t : bytes := str "orders".
Definition sa_1 : list action := [ACommit (ntp 0 sa_t) 3; ACommit (ntp 2 sa_t) 8; ACommit (ntp 3 sa_t) 5; ACommit (ntp 3 sa_t) 6].
Definition sa_2 : list action :=
  [AStartSync 0 (ntp 0 sa_t) (str "u"); AConsume 1; AStartSync 1 (ntp 1 sa_t) (str "v"); ASendMarker 1; ASendMarker 0; ACommit (ntp 2 sa_t) 9; AConsume 0; AConsume 1; AConsume 1;
   AConsume 0; AReadWatermark 1; AConsume 0; AReadWatermark 0].
Example c120_example : Forall (act_ok sa_t) (sa_1 ++ sa_2) /\ (forall c, ASkip c ∉ sa_1 ++ sa_2) /\ syncedAll sa_cl sa_t sa_2 /\
  match run sa_cl worldInit (sa_1 ++ sa_2) with
  | Some w => map (fun p => Watermark (ntp p sa_t) (w_cl w)) [0; 2; 3; 5] = [4; 9; 7; -1]
  | None => False
  end.
Proof.
  split; [repeat constructor; unfold ok_offset, MinInt64, MaxInt64; cbn; lia|].
  split. { intros c H. apply elem_of_list_In in H. cbn in H. decompose [or] H; congruence. }
  split; [|vm_compute; reflexivity]. intros i Hi. cbn in Hi. assert (i = 0 \/ i = 1) as [-> | ->] by lia.
  - exists 0%nat, (str "u"). split; apply elem_of_list_In; cbn; auto 20.
  - exists 1%nat, (str "v"). split; apply elem_of_list_In; cbn; auto 20.
Qed.
(** a sync that has not returned: the watermark of its partitions is still missing *)
Example c120_needs_the_wait : match run sa_cl worldInit (sa_1 ++ take 6 sa_2) with Some w => Watermark (ntp 2 sa_t) (w_cl w) = -1 | None => False end.
Proof. vm_compute. reflexivity. Qed.

(** C120 is false as stated: the older commit is compacted away in favour of one that comes after the marker, and syncAll returns before the consumer has read that one *)
Definition sb_cl : clConfig := mkClConfig (str "gkes_commit_log_g") 1.
Definition sb_1 : list action := [ACommit (ntp 0 sa_t) 3].
Definition sb_2 : list action := [AStartSync 0 (ntp 0 sa_t) (str "u"); ASendMarker 0; ACommit (ntp 0 sa_t) 4; ASkip 0; AConsume 0; AReadWatermark 0].
Theorem c120_compaction_refuted : exists cl t0 a1 a2 w p o, 0 < cl_numPartitions cl /\ Forall (act_ok t0) (a1 ++ a2) /\ run cl worldInit (a1 ++ a2) = Some w /\ syncedAll cl t0 a2 /\ 0 <= p /\
  StronglySorted Z.lt (offsets_of t0 p (commits_in (a1 ++ a2))) /\ In o (offsets_of t0 p (commits_in a1)) /\ Watermark (ntp p t0) (w_cl w) = -1.
Proof.
  assert (match run sb_cl worldInit (sb_1 ++ sb_2) with Some w => Watermark (ntp 0 sa_t) (w_cl w) = -1 | None => False end) as H by (vm_compute; reflexivity).
  destruct (run sb_cl worldInit (sb_1 ++ sb_2)) as [w|] eqn:R; [|contradiction]. exists sb_cl, sa_t, sb_1, sb_2, w, 0, 3.
  split; [reflexivity|]. split; [repeat constructor; unfold ok_offset, MinInt64, MaxInt64; cbn; lia|]. split; [exact R|].
  split. { intros i Hi. cbn in Hi. assert (i = 0) as -> by lia. exists 0%nat, (str "u"). split; apply elem_of_list_In; cbn; auto 20. }
  split; [lia|]. split; [change (StronglySorted Z.lt [3; 4]); repeat constructor; lia|]. split; [vm_compute; auto|exact H].
Qed.
Print Assumptions c120_compaction_refuted.
(** C120: and syncAll never returns when one of its markers cannot be written: that sync is not ended, whatever follows *)
Theorem c120_lost_marker_refuted : forall cl t0 a1 a2 id w, Forall (act_ok t0) (a1 ++ AMarkerLost id :: a2) -> run cl worldInit (a1 ++ AMarkerLost id :: a2) = Some w ->
  AReadWatermark id ∉ a1 ++ AMarkerLost id :: a2.
Proof.
  intros cl t0 a1 a2 id w F R H. apply elem_of_list_split in H as (x & y & E). rewrite E in R.
  apply run_app in R as (w1 & R1 & R2). cbn [run] in R2. destruct (step cl w1 (AReadWatermark id)) as [w2|] eqn:S; [|discriminate].
  assert (hasReturned w2 id) as Hr.
  { cbn [step] in S. destruct (w_syncs w1 !! id) as [[tp m st]|]; [|discriminate]. destruct st; try discriminate. case_decide; [|discriminate]. injection S as <-. unfold hasReturned. cbn [w_syncs]. rewrite lookup_insert. eauto. }
  assert (hasReturned w id) as Hw. { clear -Hr R2. revert w2 Hr R2. induction y as [|a y IH]; intros w2 Hr R2; cbn [run] in R2; [injection R2 as <-; exact Hr|]. destruct (step cl w2 a) as [w3|] eqn:S3; [|discriminate]. eapply IH; [|exact R2]. eapply returned_step; eauto. }
  assert (run cl worldInit (a1 ++ AMarkerLost id :: a2) = Some w) as R. { rewrite E. apply run_app. exists w1. split; [exact R1|]. cbn [run]. rewrite S. exact R2. }
  destruct (lost_waits_forever _ _ _ _ _ _ F R) as (tp & m & Hx). destruct Hw as (tp' & m' & r & Hy). congruence.
Qed.
Print Assumptions c120_lost_marker_refuted.
