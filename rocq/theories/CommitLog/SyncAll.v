(** Proofs about syncAll (SyncAllModel.v), for C120. *)
From Coq Require Import Strings.Byte ZArith List.
From stdpp Require Import gmap.
From Verif.Base Require Import GoInt Bytes BytesMap.
From Verif.Codec Require Import Model.
From Verif.Record Require Import Model.
From Verif.CommitLog Require Import Model Spec Proofs Live SyncAllModel.
Import ListNotations.
Open Scope Z_scope.

Lemma enc_inj cl cp t0 e1 e2 : ok_entry t0 e1 -> ok_entry t0 e2 -> enc cl cp e1 = enc cl cp e2 -> e1 = e2.
Proof.
  intros O1 O2 H. destruct e2 as [t2 p2 o2|m2]; [|now apply enc_mark_inj in H]. destruct e1 as [t1 p1 o1|m1]; [|symmetry in H; apply enc_mark_inj in H; discriminate].
  cbn [enc] in H. cbn in O1, O2. destruct O1 as (_ & I1 & _ & O1), O2 as (_ & I2 & _ & O2).
  destruct (commit_decodes cl (ntp p1 t1) o1 I1 O1) as (A1 & B1 & _). destruct (commit_decodes cl (ntp p2 t2) o2 I2 O2) as (A2 & B2 & _).
  rewrite H in A1, B1. rewrite A1 in A2. rewrite B1 in B2. injection A2 as -> ->. injection B2 as B2. f_equal. lia.
Qed.
Lemma map_enc_inj cl cp t0 l k : Forall (ok_entry t0) l -> Forall (ok_entry t0) k -> map (enc cl cp) l = map (enc cl cp) k -> l = k.
Proof.
  intros F. revert k. induction F as [|e l Ha F IH]; intros [|e' k] G H; try discriminate H; [reflexivity|]. inversion G as [|? ? Ge Gk]; subst. injection H as Hh Ht.
  f_equal; [exact (enc_inj cl cp t0 e e' Ha Ge Hh)|exact (IH _ Gk Ht)].
Qed.
Lemma Inv_ok cl t0 hist w E cp : Inv cl t0 hist w E -> Forall (ok_entry t0) (E cp).
Proof.
  intros I. apply Forall_forall. intros e He. pose proof (iB _ _ _ _ _ I cp e He) as H.
  destruct e; cbn; [|exact Logic.I]. tauto.
Qed.

Lemma log_prefix cl w a w' c : step cl w a = Some w' -> w_log w c `prefix_of` w_log w' c.
Proof.
  intros Hs. assert (AP : forall c' k', w_log w c `prefix_of` w_log (append c' k' w) c).
  { intros c' k'. rewrite w_log_append. destruct (decide _) as [->|]; [exists [k']; reflexivity|reflexivity]. }
  destruct a as [tp' o|id tp' m|id|c1 m|id|c1|c1|id]; cbn [step] in Hs.
  - injection Hs as <-. apply AP.
  - case_decide; [|discriminate]. injection Hs as <-. reflexivity.
  - destruct (w_syncs w !! id) as [[tp1 m1 st]|]; [|discriminate]. destruct st; try discriminate. injection Hs as <-. apply AP.
  - case_decide; [|discriminate]. injection Hs as <-. apply AP.
  - destruct (w_syncs w !! id) as [[tp1 m1 st]|]; [|discriminate]. destruct st; try discriminate. injection Hs as <-. reflexivity.
  - destruct (w_log w c1 !! w_position w c1) as [k1|]; [|discriminate]. destruct (ReceiveChange (newIncomingRecord k1) (w_cl w)); try discriminate. injection Hs as <-. reflexivity.
  - destruct (w_log w c1 !! w_position w c1) as [k1|]; [|discriminate]. case_decide; [|discriminate]. injection Hs as <-. reflexivity.
  - destruct (w_syncs w !! id) as [[tp1 m1 st]|]; [|discriminate]. destruct st; try discriminate. case_decide; [|discriminate]. injection Hs as <-. reflexivity.
Qed.
Lemma pos_mono cl w a w' c : step cl w a = Some w' -> (w_position w c <= w_position w' c)%nat.
Proof.
  intros Hs. assert (IN : forall c1 W, w_pos W = <[c1 := S (w_position w c1)]> (w_pos w) -> (w_position w c <= w_position W c)%nat).
  { intros c1 W HW. unfold w_position at 2. rewrite HW. destruct (decide (c = c1)) as [->|N]; [rewrite lookup_insert; cbn; lia|]. rewrite lookup_insert_ne by congruence. unfold w_position. lia. }
  destruct a as [tp' o|id tp' m|id|c1 m|id|c1|c1|id]; cbn [step] in Hs.
  - injection Hs as <-. reflexivity.
  - case_decide; [|discriminate]. injection Hs as <-. reflexivity.
  - destruct (w_syncs w !! id) as [[tp1 m1 st]|]; [|discriminate]. destruct st; try discriminate. injection Hs as <-. reflexivity.
  - case_decide; [|discriminate]. injection Hs as <-. reflexivity.
  - destruct (w_syncs w !! id) as [[tp1 m1 st]|]; [|discriminate]. destruct st; try discriminate. injection Hs as <-. reflexivity.
  - destruct (w_log w c1 !! w_position w c1) as [k1|]; [|discriminate]. destruct (ReceiveChange (newIncomingRecord k1) (w_cl w)); try discriminate. injection Hs as <-. now apply (IN c1).
  - destruct (w_log w c1 !! w_position w c1) as [k1|]; [|discriminate]. case_decide; [|discriminate]. injection Hs as <-. now apply (IN c1).
  - destruct (w_syncs w !! id) as [[tp1 m1 st]|]; [|discriminate]. destruct st; try discriminate. case_decide; [|discriminate]. injection Hs as <-. reflexivity.
Qed.
Lemma log_prefix_run cl acts : forall w w' c, run cl w acts = Some w' -> w_log w c `prefix_of` w_log w' c.
Proof.
  induction acts as [|a acts IH]; intros w w' c R; cbn [run] in R. { injection R as <-. reflexivity. }
  destruct (step cl w a) as [w1|] eqn:S; [|discriminate]. etransitivity; [eapply log_prefix; eauto|eauto].
Qed.
Lemma pos_mono_run cl acts : forall w w' c, run cl w acts = Some w' -> (w_position w c <= w_position w' c)%nat.
Proof.
  induction acts as [|a acts IH]; intros w w' c R; cbn [run] in R. { injection R as <-. reflexivity. }
  destruct (step cl w a) as [w1|] eqn:S; [|discriminate]. pose proof (pos_mono _ _ _ _ c S). pose proof (IH _ _ c R). lia.
Qed.

(** the end of a sync: its marker stands in the log and has been consumed, and the commits before it are all those before it was begun *)
Lemma sync_end cl t0 a1 a2 id tp mark w : Forall (act_ok t0) (a1 ++ a2) -> run cl worldInit (a1 ++ a2) = Some w ->
  AStartSync id tp mark ∈ a2 -> AReadWatermark id ∈ a2 ->
  exists b1 b2 w1, a1 ++ a2 = b1 ++ b2 /\ a1 `prefix_of` b1 /\ run cl worldInit b1 = Some w1 /\ run cl w1 b2 = Some w /\
    (length (w_log w1 (commitRecordPartition cl tp)) < w_position w (commitRecordPartition cl tp))%nat.
Proof.
  intros F R HS HR. set (cp := commitRecordPartition cl tp).
  apply elem_of_list_split in HS as (u & v & ->). apply elem_of_list_split in HR as (x & y & E).
  (* the sync is started at the end of a1 ++ u *)
  assert (R' : run cl worldInit ((a1 ++ u) ++ AStartSync id tp mark :: v) = Some w) by (rewrite <- app_assoc; exact R).
  destruct (run_app_some _ _ _ _ _ R') as (w0 & R0 & Rv). cbn [run] in Rv. destruct (step cl w0 (AStartSync id tp mark)) as [w0'|] eqn:S0; [|discriminate].
  assert (H0 : w_syncs w0 !! id = None) by (cbn [step] in S0; case_decide as D; [exact (proj1 D)|discriminate]).
  assert (H0' : w_syncs w0' !! id = Some (mkSync tp mark Registered)). { cbn [step] in S0. case_decide; [|discriminate]. injection S0 as <-. cbn [w_syncs]. apply lookup_insert. }
  (* the sync ends within v *)
  assert (AReadWatermark id ∈ v) as HR.
  { assert (AReadWatermark id ∈ u ++ AStartSync id tp mark :: v) as Hin by (rewrite E, elem_of_app; right; left). apply elem_of_app in Hin as [Hin|Hin]; [exfalso|apply elem_of_cons in Hin as [Hin|Hin]; [discriminate|exact Hin]].
    apply elem_of_list_split in Hin as (u1 & u2 & ->). assert (run cl worldInit ((a1 ++ u1) ++ AReadWatermark id :: u2) = Some w0) as Q by (rewrite <- app_assoc; exact R0).
    destruct (run_app_some _ _ _ _ _ Q) as (w2 & _ & Q2). cbn [run] in Q2. destruct (step cl w2 (AReadWatermark id)) as [w3|] eqn:S2; [|discriminate].
    assert (exists tp' m' st, w_syncs w3 !! id = Some (mkSync tp' m' st)) as (tp' & m' & st & H3).
    { cbn [step] in S2. destruct (w_syncs w2 !! id) as [[tp1 m1 st1]|]; [|discriminate]. destruct st1; try discriminate. case_decide; [|discriminate]. injection S2 as <-. cbn [w_syncs]. rewrite lookup_insert. eauto. }
    destruct (sync_run _ _ _ _ _ _ _ _ H3 Q2) as (st' & H4 & _). congruence. }
  clear x y E. apply elem_of_list_split in HR as (v1 & v2 & ->).
  destruct (run_app_some _ _ _ _ _ Rv) as (w4 & R4 & Rv2). cbn [run] in Rv2. destruct (step cl w4 (AReadWatermark id)) as [w5|] eqn:S4; [|discriminate].
  destruct (sync_run _ _ _ _ _ _ _ _ H0' R4) as (st & H4 & _).
  assert (st = Waiting /\ mark ∈ released (w_cl w4)) as [-> Hrel]. { cbn [step] in S4. rewrite H4 in S4. destruct st; try discriminate. case_decide; [|discriminate]. auto. }
  assert (RR : run cl worldInit (a1 ++ u ++ AStartSync id tp mark :: v1) = Some w4).
  { rewrite app_assoc. apply run_app. exists w0. split; [exact R0|]. cbn [run]. rewrite S0. exact R4. }
  assert (FF : Forall (act_ok t0) (a1 ++ u ++ AStartSync id tp mark :: v1)).
  { replace (a1 ++ u ++ AStartSync id tp mark :: v1 ++ AReadWatermark id :: v2) with ((a1 ++ u ++ AStartSync id tp mark :: v1) ++ AReadWatermark id :: v2) in F by (rewrite <- !app_assoc; reflexivity).
    apply Forall_app in F. exact (proj1 F). }
  destruct (inv_run cl t0 _ [] _ _ _ (inv_init cl t0) FF RR) as (E4 & I4). cbn [app] in I4.
  destruct (iH _ _ _ _ _ I4 _ _ H4) as (_ & _ & Hs). unfold sync_ok in Hs. cbn [sy_stage sy_tp sy_mark] in Hs. fold cp in Hs.
  destruct (iG _ _ _ _ _ I4 _ Hrel) as (cp' & i & Hi & Hlt).
  destruct Hs as [(h1 & h2 & idx & Eh & N1 & _ & U & Hidx & _)|(_ & _ & N)]; [|exfalso; eapply N; eapply elem_of_list_lookup_2; exact Hi].
  destruct (U _ _ Hi) as [-> ->].
  (* the marker is sent within v1 *)
  assert (ASendMarker id ∉ a1 ++ u) as Na.
  { assert (FA : Forall (act_ok t0) (a1 ++ u)) by (rewrite app_assoc in FF; apply Forall_app in FF; exact (proj1 FF)).
    destruct (inv_run cl t0 _ [] _ _ _ (inv_init cl t0) FA R0) as (E0 & I0). exact (proj1 (iK _ _ _ _ _ I0 _ H0)). }
  assert (ASendMarker id ∈ v1) as Hv.
  { assert (ASendMarker id ∈ a1 ++ u ++ AStartSync id tp mark :: v1) as Hin by (rewrite Eh, elem_of_app; right; left). rewrite app_assoc in Hin. apply elem_of_app in Hin as [Hin|Hin]; [contradiction|].
    apply elem_of_cons in Hin as [Hin|Hin]; [discriminate|exact Hin]. }
  apply elem_of_list_split in Hv as (v3 & v4 & ->).
  set (b1 := a1 ++ u ++ AStartSync id tp mark :: v3).
  assert (RB : run cl worldInit (b1 ++ ASendMarker id :: v4) = Some w4) by (unfold b1; rewrite <- !app_assoc; exact RR).
  destruct (run_app_some _ _ _ _ _ RB) as (w1 & R1 & R14).
  exists b1, (ASendMarker id :: v4 ++ AReadWatermark id :: v2), w1. split; [unfold b1; repeat (rewrite <- ?app_assoc; cbn [app]); reflexivity|].
  split; [unfold b1; eexists; reflexivity|]. split; [exact R1|].
  split. { change (ASendMarker id :: v4 ++ AReadWatermark id :: v2) with ((ASendMarker id :: v4) ++ AReadWatermark id :: v2). apply run_app. exists w4. split; [exact R14|]. cbn [run]. rewrite S4. exact Rv2. }
  (* the marker stands at the end of the log of w1 *)
  assert (idx = length (w_log w1 cp)) as ->.
  { cbn [run] in R14. destruct (step cl w1 (ASendMarker id)) as [w1'|] eqn:S1; [|discriminate].
    assert (w_log w1' cp !! length (w_log w1 cp) = Some (markerRecord (cl_topic cl) cp mark)) as HL.
    { assert (R1' : run cl w0' v3 = Some w1).
      { unfold b1 in R1. rewrite app_assoc in R1. apply run_app in R1 as (wz & Ra & Rb). rewrite R0 in Ra. injection Ra as <-. cbn [run] in Rb. rewrite S0 in Rb. exact Rb. }
      destruct (sync_run _ _ _ _ _ _ _ _ H0' R1') as (st1 & H1 & _). cbn [step] in S1. rewrite H1 in S1. destruct st1; try discriminate. injection S1 as <-.
      change (w_log (append cp (markerRecord (cl_topic cl) cp mark) w1) cp !! length (w_log w1 cp) = Some (markerRecord (cl_topic cl) cp mark)). rewrite w_log_append, decide_True by reflexivity.
      rewrite lookup_app_r, Nat.sub_diag by lia. reflexivity. }
    assert (w_log w4 cp !! length (w_log w1 cp) = Some (markerRecord (cl_topic cl) cp mark)) as HL4.
    { destruct (log_prefix_run cl v4 w1' w4 cp R14) as [z ->]. apply lookup_app_l_Some. exact HL. }
    rewrite (iA _ _ _ _ _ I4) in HL4. apply list_lookup_fmap_inv in HL4 as (e & He & HL4). symmetry in He. apply enc_mark_inj in He. subst e. destruct (U _ _ HL4) as [_ HU]. symmetry. exact HU. }
  assert (run cl w4 (AReadWatermark id :: v2) = Some w) as R4w by (cbn [run]; rewrite S4; exact Rv2).
  pose proof (pos_mono_run _ _ _ _ cp R4w). lia.
Qed.

Lemma sync_all cl t0 a1 a2 w p : 0 < cl_numPartitions cl -> Forall (act_ok t0) (a1 ++ a2) -> run cl worldInit (a1 ++ a2) = Some w -> syncedAll cl t0 a2 -> 0 <= p ->
  exists k, k `prefix_of` offsets_of t0 p (commits_in (a1 ++ a2)) /\ Watermark (ntp p t0) (w_cl w) = resume_of k /\
    (offsets_of t0 p (commits_in a1) `prefix_of` k \/ ((exists c, ASkip c ∈ a1 ++ a2) /\ offsets_of t0 p (commits_in a2) <> [])).
Proof.
  intros Hn F R Hall Hp. set (cp := Z.rem p (cl_numPartitions cl)). assert (Hcp : 0 <= cp < cl_numPartitions cl) by (apply Z.rem_bound_pos; lia).
  destruct (Hall cp Hcp) as (id & mark & HS & HR). destruct (sync_end _ _ _ _ _ _ _ _ F R HS HR) as (b1 & b2 & w1 & Eb & Pb & R1 & R2 & Hlt).
  assert (commitRecordPartition cl (ntp cp t0) = cp) as Ec. { unfold commitRecordPartition. cbn [tp_partition]. apply Z.rem_small. exact Hcp. }
  rewrite Ec in Hlt.
  destruct (inv_run cl t0 _ [] _ _ _ (inv_init cl t0) F R) as (E & I). cbn [app] in I.
  assert (FB : Forall (act_ok t0) b1) by (rewrite Eb in F; apply Forall_app in F; exact (proj1 F)).
  destruct (inv_run cl t0 _ [] _ _ _ (inv_init cl t0) FB R1) as (E1 & I1). cbn [app] in I1.
  assert (E1 cp `prefix_of` E cp) as PE.
  { destruct (log_prefix_run _ _ _ _ cp R2) as [z Hz]. rewrite (iA _ _ _ _ _ I), (iA _ _ _ _ _ I1) in Hz.
    exists (drop (length (E1 cp)) (E cp)). assert (take (length (E1 cp)) (E cp) = E1 cp) as Ht.
    { apply (map_enc_inj cl cp t0); [apply Forall_take; eapply Inv_ok; eauto|eapply Inv_ok; eauto|]. change (map (enc cl cp)) with (fmap (M := list) (enc cl cp)) in *. rewrite fmap_take, Hz.
      rewrite take_app_alt by (rewrite fmap_length; reflexivity). reflexivity. }
    rewrite <- Ht at 1. symmetry. apply take_drop. }
  rewrite (iA _ _ _ _ _ I1), map_length in Hlt.
  pose proof (iD _ _ _ _ _ I p) as D. fold cp in D. destruct D as (n & Hle & Hv & Hc).
  pose proof (iF _ _ _ _ _ I p) as HF. fold cp in HF. pose proof (iF _ _ _ _ _ I1 p) as HF1. fold cp in HF1.
  assert (offsets_of t0 p (commits_in a1) `prefix_of` offsets_of t0 p (take (w_position w cp) (E cp))) as Hpre.
  { destruct Pb as [b' ->]. destruct PE as [e' ->]. rewrite take_app_ge by lia. rewrite offsets_app, HF1, commits_app', offsets_app, <- app_assoc. eexists. reflexivity. }
  exists (offsets_of t0 p (take n (E cp))). split; [rewrite <- HF; apply offsets_take_prefix|]. split; [exact Hv|].
  destruct Hc as [Hc|[Hsk Hd]]; [left; rewrite Hc; exact Hpre|right]. split; [exact Hsk|]. intros Hnil. apply Hd.
  rewrite commits_app', offsets_app, Hnil, app_nil_r in HF. rewrite <- (take_drop (w_position w cp) (E cp)), offsets_app in HF.
  destruct Hpre as [z Hz]. rewrite Hz in HF. apply (f_equal length) in HF. rewrite !app_length in HF. destruct (offsets_of t0 p (drop (w_position w cp) (E cp))); [reflexivity|]. cbn in HF. lia.
Qed.

Lemma sync_all_exact cl t0 a1 a2 w p : 0 < cl_numPartitions cl -> Forall (act_ok t0) (a1 ++ a2) -> run cl worldInit (a1 ++ a2) = Some w -> syncedAll cl t0 a2 -> 0 <= p ->
  offsets_of t0 p (commits_in a2) = [] -> Watermark (ntp p t0) (w_cl w) = resume_of (offsets_of t0 p (commits_in a1)).
Proof.
  intros Hn F R Hall Hp Hno. destruct (sync_all _ _ _ _ _ _ Hn F R Hall Hp) as (k & H1 & -> & [H3|(_ & H3)]); [|congruence].
  rewrite commits_app', offsets_app, Hno, app_nil_r in H1. f_equal. destruct H1 as (x & Hx), H3 as (y & Hy). rewrite Hx, <- app_assoc in Hy. rewrite Hx. destruct x; [now rewrite app_nil_r|]. exfalso.
  apply (f_equal length) in Hy. rewrite !app_length in Hy. cbn in Hy. lia.
Qed.
