From Coq Require Import Strings.Byte ZArith List Bool Lia Sorted.
From stdpp Require Import gmap.
From Verif.Base Require Import GoInt Bytes BytesMap.
From Verif.Codec Require Model Proofs.
From Verif.Codec Require Import Model.
From Verif.Record Require Import Model.
From Verif.CommitLog Require Import Model Spec.
Import ListNotations.
Open Scope Z_scope.

Definition ok_offset (o : Z) : Prop := MinInt64 <= o < MaxInt64.

(** the Kafka record of an abstract entry in commit-log partition [cp] *)
Definition enc (cl : clConfig) (cp : Z) (e : entry) : KRecord :=
  match e with
  | Commit t p o => toKafkaRecord (commitRecord cl (ntp p t) o)
  | Mark m => markerRecord (cl_topic cl) cp m
  end.

(** ** C05 *)
Lemma commit_key cl tp o :
  k_key (toKafkaRecord (commitRecord cl tp o)) = le_bytes 8 (u64 (tp_partition tp)) ++ tp_topic tp.
Proof. reflexivity. Qed.

Lemma commit_value cl tp o :
  k_value (toKafkaRecord (commitRecord cl tp o)) = Some (intCodec_Encode [] (s64 (o + 1))).
Proof. reflexivity. Qed.

Lemma commit_not_marker cl tp o : isMarkerRecord (toKafkaRecord (commitRecord cl tp o)) = false.
Proof. reflexivity. Qed.

Lemma tp_roundtrip tp :
  in_int32 (tp_partition tp) ->
  topicPartitionFromBytes (writeTopicPartitionToBytes tp []) = Ok tp.
Proof.
  intros H. unfold topicPartitionFromBytes, writeTopicPartitionToBytes. cbn [List.app].
  pose proof (Verif.Codec.Proofs.decode_encode s32 (tp_partition tp) (tp_topic tp)) as D.
  unfold intCodec_Encode, writeSignedIntToByteArray, intCodec_Decode in D. cbn [List.app] in D.
  change (app (A:=byte)) with (@List.app byte).
  rewrite D. rewrite s32_s64, s32_id by exact H.
  change intByteSize with 8%nat. rewrite skipn_app, le_bytes_length.
  rewrite skipn_all2 by (rewrite le_bytes_length; lia).
  rewrite Nat.sub_diag. cbn [skipn List.app]. destruct tp; reflexivity.
Qed.

Lemma commit_decodes cl tp o :
  in_int32 (tp_partition tp) -> ok_offset o ->
  let r := newIncomingRecord (toKafkaRecord (commitRecord cl tp o)) in
  topicPartitionFromBytes (Key r) = Ok tp /\
  readIntegerFromByteArray s64 (Value r) = Ok (o + 1) /\
  isMarkerRecord (i_kRecord r) = false.
Proof.
  intros Hp Ho r. subst r. split; [|split].
  - unfold Key. cbn [newIncomingRecord i_kRecord]. rewrite commit_key. exact (tp_roundtrip tp Hp).
  - unfold Value. cbn [newIncomingRecord i_kRecord]. rewrite commit_value.
    unfold ok_offset, MinInt64, MaxInt64 in Ho.
    rewrite (s64_id (o + 1)) by (unfold in_int64, MinInt64, MaxInt64; lia).
    apply Verif.Codec.Proofs.decode_encode_64. unfold in_int64, MinInt64, MaxInt64; lia.
  - reflexivity.
Qed.

Lemma commit_key_inj cl tp1 tp2 o1 o2 :
  in_int32 (tp_partition tp1) -> in_int32 (tp_partition tp2) ->
  k_key (toKafkaRecord (commitRecord cl tp1 o1)) = k_key (toKafkaRecord (commitRecord cl tp2 o2)) <-> tp1 = tp2.
Proof.
  intros H1 H2. split.
  - rewrite !commit_key. intros E.
    pose proof (tp_roundtrip tp1 H1) as R1. pose proof (tp_roundtrip tp2 H2) as R2.
    unfold writeTopicPartitionToBytes in R1, R2. cbn [List.app] in R1, R2.
    change intByteSize with 8%nat in R1, R2.
    change (app (A:=byte)) with (@List.app byte) in *.
    rewrite E in R1. rewrite R1 in R2. congruence.
  - intros ->. rewrite !commit_key. reflexivity.
Qed.

(** marker records never share a key with a commit record *)
Lemma commit_key_not_marker cl tp o cp m :
  in_int32 (tp_partition tp) -> 0 <= tp_partition tp ->
  k_key (toKafkaRecord (commitRecord cl tp o)) <> k_key (markerRecord (cl_topic cl) cp m).
Proof.
  intros H H0 E. rewrite commit_key in E.
  assert (N : nth 7 (le_bytes 8 (u64 (tp_partition tp)) ++ tp_topic tp) x00 = x00).
  { rewrite app_nth1 by (rewrite le_bytes_length; lia).
    unfold in_int32 in H. unfold u64. rewrite Z.mod_small by lia.
    assert (X : forall u, 0 <= u < 2^56 -> nth 7 (le_bytes 8 u) x00 = x00).
    { intros u Hu. apply Z_of_byte_inj.
      cbn [le_bytes nth]. rewrite Z_of_byte_of_Z.
      change (Z_of_byte x00) with 0.
      rewrite !Z.div_div by lia.
      rewrite Z.div_small by lia. reflexivity. }
    apply X. lia. }
  rewrite E in N. vm_compute in N. discriminate.
Qed.

(** ** ReceiveChange on encoded entries *)
Lemma receive_commit cl cp t p o s :
  in_int32 p -> ok_offset o ->
  ReceiveChange (newIncomingRecord (enc cl cp (Commit t p o))) s =
  Ok (mkCl (<[p := o + 1]> (watermarks s)) (pendingSyncs s) (released s)).
Proof.
  intros Hp Ho. destruct (commit_decodes cl (ntp p t) o Hp Ho) as (A & B & C).
  unfold ReceiveChange. cbn [enc]. rewrite C, A, B. reflexivity.
Qed.

Lemma receive_mark cl cp m s :
  ReceiveChange (newIncomingRecord (enc cl cp (Mark m))) s = Ok (closeSyncRequest m s).
Proof. reflexivity. Qed.

Lemma close_wm m s : watermarks (closeSyncRequest m s) = watermarks s.
Proof. unfold closeSyncRequest. destruct (decide _); reflexivity. Qed.

(** ** spec lemmas *)
Lemma offsets_cons t p e l :
  offsets_of t p (e :: l) =
  match e with
  | Commit t' p' o => if bool_decide (t' = t /\ p' = p) then o :: offsets_of t p l else offsets_of t p l
  | Mark _ => offsets_of t p l
  end.
Proof.
  destruct e as [t' p' o|m]; [|reflexivity]. cbn [offsets_of].
  destruct (List.list_eq_dec Byte.byte_eq_dec t' t) as [->|N].
  - destruct (BinInt.Z.eq_dec p' p) as [->|N'].
    + rewrite bool_decide_eq_true_2 by auto. reflexivity.
    + rewrite bool_decide_eq_false_2 by tauto. reflexivity.
  - rewrite bool_decide_eq_false_2 by tauto. reflexivity.
Qed.

Lemma offsets_app t p l1 l2 : offsets_of t p (l1 ++ l2) = offsets_of t p l1 ++ offsets_of t p l2.
Proof.
  induction l1 as [|e l1 IH]; [reflexivity|]. cbn [app]. rewrite !offsets_cons, IH.
  destruct e; auto. case_bool_decide; reflexivity.
Qed.

Lemma resume_snoc os o : resume_of (os ++ [o]) = o + 1.
Proof.
  induction os as [|x os IH]; auto. cbn [app resume_of].
  destruct (os ++ [o]) eqn:E; auto. destruct os; discriminate.
Qed.

Lemma offsets_take_prefix t p n l : offsets_of t p (take n l) `prefix_of` offsets_of t p l.
Proof.
  exists (offsets_of t p (drop n l)). rewrite <- offsets_app. f_equal. symmetry. apply take_drop.
Qed.

Lemma offsets_take_mono t p n m l :
  (n <= m)%nat -> offsets_of t p (take n l) `prefix_of` offsets_of t p (take m l).
Proof.
  intros H. replace (take n l) with (take n (take m l)).
  - apply offsets_take_prefix.
  - rewrite take_take. f_equal. lia.
Qed.

(** ** C06 *)
Definition ok_entry (t0 : list byte) (e : entry) : Prop :=
  match e with Commit t p o => t = t0 /\ in_int32 p /\ 0 <= p /\ ok_offset o | Mark _ => True end.

Lemma receiveAll_spec cl cp t0 l s :
  Forall (ok_entry t0) l ->
  exists s', receiveAll (map (enc cl cp) l) s = Ok s' /\
    forall p, watermarks s' !! p =
      match offsets_of t0 p l with [] => watermarks s !! p | os => Some (resume_of os) end.
Proof.
  intros H. revert s. induction l as [|e l IH]; intros s.
  - exists s. split; auto.
  - inversion H as [|? ? He Hl]; subst. cbn [map receiveAll]. destruct e as [t p o|m].
    + destruct He as (-> & Hp & _ & Ho). rewrite receive_commit by auto.
      destruct (IH Hl (mkCl (<[p:=o + 1]> (watermarks s)) (pendingSyncs s) (released s))) as (s' & E & W).
      exists s'. split; auto. intros q. rewrite W, offsets_cons. cbn [watermarks].
      case_bool_decide as D.
      * destruct D as [_ ->]. destruct (offsets_of t0 q l) eqn:O.
        -- rewrite lookup_insert. reflexivity.
        -- reflexivity.
      * rewrite lookup_insert_ne by tauto. reflexivity.
    + rewrite receive_mark. destruct (IH Hl (closeSyncRequest m s)) as (s' & E & W).
      exists s'. split; auto. intros q. rewrite W, offsets_cons, close_wm. reflexivity.
Qed.

Lemma watermark_spec cl cp t0 l :
  Forall (ok_entry t0) l ->
  exists s', receiveAll (map (enc cl cp) l) clInit = Ok s' /\
    forall p, Watermark (ntp p t0) s' = resume_of (offsets_of t0 p l).
Proof.
  intros H. destruct (receiveAll_spec cl cp t0 l clInit H) as (s' & E & W).
  exists s'. split; auto. intros p. unfold Watermark. cbn [tp_partition]. rewrite W.
  destruct (offsets_of t0 p l); [|reflexivity]. cbn. rewrite lookup_empty. reflexivity.
Qed.

Lemma in_offsets t0 p l o : In (Commit t0 p o) l -> offsets_of t0 p l <> [].
Proof.
  induction l as [|e l IH]; [cbn; tauto|]. rewrite offsets_cons. intros [->|H].
  - rewrite bool_decide_eq_true_2; auto.
  - specialize (IH H). destruct e; auto. case_bool_decide; [discriminate|auto].
Qed.

Lemma compacts_Forall {A K} (key : A -> K) (P : A -> Prop) l l' : compacts key l l' -> Forall P l -> Forall P l'.
Proof.
  induction 1 as [|y l l' _ IH|y z l l' _ IH]; intros F; inversion F; subst; auto.
Qed.

(** a compaction of the encoded log is the encoding of a compaction *)
Lemma compacts_map {A B K} (f : A -> B) (key : B -> K) l l' :
  compacts key (map f l) l' -> exists l0, l' = map f l0 /\ compacts (fun a => key (f a)) l l0.
Proof.
  revert l'. induction l as [|x l IH]; intros l' H; inversion H as [|? ? ? H'|? y ? ? H' Hin Hk]; subst.
  - exists []. split; auto. constructor.
  - apply IH in H' as (l0 & -> & C). exists (x :: l0). split; auto. constructor; auto.
  - apply IH in H' as (l0 & -> & C). apply in_map_iff in Hin as (y0 & <- & Hin).
    exists l0. split; auto. eapply compacts_drop; eauto.
Qed.

Lemma compacts_resume cl cp t0 p l l' :
  Forall (ok_entry t0) l ->
  compacts (fun e => k_key (enc cl cp e)) l l' ->
  resume_of (offsets_of t0 p l) = resume_of (offsets_of t0 p l') /\
  (offsets_of t0 p l = [] <-> offsets_of t0 p l' = []).
Proof.
  intros Hok C. induction C as [|x l l' C IH|x y l l' C IH Hin Hk].
  - split; reflexivity.
  - inversion Hok as [|? ? Hx Hl]; subst. destruct (IH Hl) as [R E].
    rewrite !offsets_cons. destruct x as [t q o|m]; [|tauto].
    case_bool_decide; [|tauto]. split; [|split; discriminate].
    cbn [resume_of]. destruct (offsets_of t0 p l), (offsets_of t0 p l'); auto.
    + exfalso. destruct E as [E _]. specialize (E eq_refl). discriminate.
    + exfalso. destruct E as [_ E]. specialize (E eq_refl). discriminate.
  - inversion Hok as [|? ? Hx Hl]; subst. destruct (IH Hl) as [R E].
    rewrite !offsets_cons. destruct x as [t q o|m]; [|tauto].
    case_bool_decide as D; [|tauto]. destruct D as [-> ->].
    destruct Hx as (_ & Hq & Hq0 & Ho).
    assert (NE : offsets_of t0 p l <> []).
    { destruct y as [t' q' o'|m'].
      - assert (Hy : ok_entry t0 (Commit t' q' o'))
          by (eapply (proj1 (Forall_forall _ _)); [exact Hl| now apply elem_of_list_In]).
        destruct Hy as (-> & Hq' & Hq0' & Ho'). cbn [enc] in Hk.
        apply commit_key_inj in Hk; auto. inversion Hk; subst.
        exact (in_offsets _ _ _ _ Hin).
      - exfalso. symmetry in Hk. eapply (commit_key_not_marker cl (ntp p t0)); [exact Hq|exact Hq0|exact Hk]. }
    split.
    + rewrite <- R. cbn [resume_of]. destruct (offsets_of t0 p l); congruence.
    + rewrite <- E. split; [discriminate|tauto].
Qed.

Lemma compacted_watermark cl cp t0 l log' :
  Forall (ok_entry t0) l ->
  compacts k_key (map (enc cl cp) l) log' ->
  exists s', receiveAll log' clInit = Ok s' /\
    forall p, Watermark (ntp p t0) s' = resume_of (offsets_of t0 p l).
Proof.
  intros Hok C. apply compacts_map in C as (l0 & -> & C).
  destruct (watermark_spec cl cp t0 l0) as (s' & E & W).
  { eapply compacts_Forall; eauto. }
  exists s'. split; auto. intros p. rewrite W. symmetry. eapply compacts_resume; eauto.
Qed.

(** ** C08: other partition numbers do not interfere, whatever their topic *)
Lemma receive_other cl cp t p o q s s' :
  in_int32 p -> ok_offset o -> p <> tp_partition q ->
  ReceiveChange (newIncomingRecord (enc cl cp (Commit t p o))) s = Ok s' ->
  Watermark q s' = Watermark q s.
Proof.
  intros Hp Ho N. rewrite receive_commit by auto. intros [= <-].
  unfold Watermark. cbn [watermarks]. rewrite lookup_insert_ne by auto. reflexivity.
Qed.

(** ** C09 *)
Lemma commit_partition_range cl tp :
  0 < cl_numPartitions cl -> 0 <= tp_partition tp ->
  0 <= commitRecordPartition cl tp < cl_numPartitions cl.
Proof. intros Hn Hp. unfold commitRecordPartition. apply Z.rem_bound_pos; auto. Qed.

Lemma commit_record_destination cl tp o :
  k_partition (toKafkaRecord (commitRecord cl tp o)) = commitRecordPartition cl tp /\
  k_topic (toKafkaRecord (commitRecord cl tp o)) = cl_topic cl.
Proof. split; reflexivity. Qed.

(** ** C07 *)
Definition commits_in (acts : list action) : list entry :=
  omap (fun a => match a with ACommit tp o => Some (Commit (tp_topic tp) (tp_partition tp) o) | _ => None end) acts.

(** well-formed actions of a deployment with one source topic *)
Definition act_ok (t0 : list byte) (a : action) : Prop :=
  match a with
  | ACommit tp o => tp_topic tp = t0 /\ in_int32 (tp_partition tp) /\ 0 <= tp_partition tp /\ ok_offset o
  | AStartSync _ tp _ => tp_topic tp = t0
  | _ => True
  end.

(** the watermark [v] of partition [p] after the consumer has passed over the first [pos] entries of [l]:
    it is the resume offset of the first [n] of them, and commits between the two can only be missing if
    they were compacted away because of a commit that is still to come *)
Definition wm_ok (t0 : list byte) (hist : list action) (l : list entry) (pos : nat) (p v : Z) : Prop :=
  exists n, (n <= pos)%nat /\ v = resume_of (offsets_of t0 p (take n l)) /\
    (offsets_of t0 p (take n l) = offsets_of t0 p (take pos l) \/
     ((exists c, ASkip c ∈ hist) /\ offsets_of t0 p (drop pos l) <> [])).

(** [a] is an attempt of sync [id] to write its marker *)
Definition sends (id : nat) (a : action) : Prop := a = ASendMarker id \/ a = AMarkerLost id.

Definition sync_ok (cl : clConfig) (t0 : list byte) (E : Z -> list entry) (hist : list action)
    (id : nat) (s : syncState) : Prop :=
  let p := tp_partition (sy_tp s) in
  let cp := commitRecordPartition cl (sy_tp s) in
  match sy_stage s with
  | Registered => ASendMarker id ∉ hist /\ AMarkerLost id ∉ hist /\ forall cp, Mark (sy_mark s) ∉ E cp
  | Waiting =>
      (exists h1 h2 idx, hist = h1 ++ ASendMarker id :: h2 /\ ASendMarker id ∉ h1 /\ AMarkerLost id ∉ hist /\
       (forall cp' i, E cp' !! i = Some (Mark (sy_mark s)) -> cp' = cp /\ i = idx) /\
       E cp !! idx = Some (Mark (sy_mark s)) /\
       offsets_of t0 p (take idx (E cp)) = offsets_of t0 p (commits_in h1)) \/
      (ASendMarker id ∉ hist /\ AMarkerLost id ∈ hist /\ forall cp, Mark (sy_mark s) ∉ E cp)
  | Returned w => exists h1 h2 k, hist = h1 ++ ASendMarker id :: h2 /\ ASendMarker id ∉ h1 /\ AMarkerLost id ∉ hist /\
       k `prefix_of` offsets_of t0 p (commits_in hist) /\ w = resume_of k /\
       (offsets_of t0 p (commits_in h1) `prefix_of` k \/
        ((exists c, ASkip c ∈ hist) /\ offsets_of t0 p (commits_in h2) <> []))
  end.

Record Inv (cl : clConfig) (t0 : list byte) (hist : list action) (w : world) (E : Z -> list entry) : Prop := {
  iA : forall cp, w_log w cp = map (enc cl cp) (E cp);
  iB : forall cp e, e ∈ E cp ->
     match e with
     | Commit t p o => t = t0 /\ in_int32 p /\ 0 <= p /\ ok_offset o /\ Z.rem p (cl_numPartitions cl) = cp
     | Mark m => m ∈ w_marks w
     end;
  iC : forall cp, (w_position w cp <= length (E cp))%nat;
  iD : forall p, wm_ok t0 hist (E (Z.rem p (cl_numPartitions cl))) (w_position w (Z.rem p (cl_numPartitions cl))) p
     (default (-1) (watermarks (w_cl w) !! p));
  iF : forall p, offsets_of t0 p (E (Z.rem p (cl_numPartitions cl))) = offsets_of t0 p (commits_in hist);
  iG : forall m, m ∈ released (w_cl w) -> exists cp i, E cp !! i = Some (Mark m) /\ (i < w_position w cp)%nat;
  iH : forall id s, w_syncs w !! id = Some s -> sy_mark s ∈ w_marks w /\ tp_topic (sy_tp s) = t0 /\ sync_ok cl t0 E hist id s;
  iK : forall id, w_syncs w !! id = None -> ASendMarker id ∉ hist /\ AMarkerLost id ∉ hist;
  iL : forall i j si sj, w_syncs w !! i = Some si -> w_syncs w !! j = Some sj -> sy_mark si = sy_mark sj -> i = j;
}.

Lemma inv_init cl t0 : Inv cl t0 [] worldInit (fun _ => []).
Proof.
  constructor; cbn; intros; try set_solver; try reflexivity; try lia.
  all: try (rewrite ?lookup_empty in *; discriminate).
  exists 0%nat. rewrite lookup_empty. cbn. auto.
Qed.

Lemma w_log_append cp k w cp' :
  w_log (append cp k w) cp' = if decide (cp = cp') then w_log w cp ++ [k] else w_log w cp'.
Proof.
  unfold w_log at 1, append. cbn [w_logs]. destruct (decide (cp = cp')) as [->|N].
  - rewrite lookup_insert. reflexivity.
  - rewrite lookup_insert_ne by auto. reflexivity.
Qed.

Definition Eapp (E : Z -> list entry) (cp : Z) (e : entry) : Z -> list entry :=
  fun c => if decide (cp = c) then E cp ++ [e] else E c.

Lemma Eapp_lookup E cp e c i x :
  Eapp E cp e c !! i = Some x <->
  E c !! i = Some x \/ (c = cp /\ i = length (E cp) /\ x = e).
Proof.
  unfold Eapp. destruct (decide (cp = c)) as [->|N].
  - rewrite lookup_app_Some, list_lookup_singleton_Some. split.
    + intros [H|(H & H' & ->)]; auto. right. repeat split; lia.
    + intros [H|(_ & -> & ->)]; auto. right. repeat split; lia.
  - split; auto. intros [H|(-> & _)]; auto. congruence.
Qed.

Lemma Eapp_elem E cp e c x : x ∈ Eapp E cp e c <-> x ∈ E c \/ (c = cp /\ x = e).
Proof.
  unfold Eapp. destruct (decide (cp = c)) as [->|N].
  - rewrite elem_of_app, elem_of_list_singleton. naive_solver.
  - naive_solver.
Qed.

Lemma Eapp_take E cp e c n : (n <= length (E c))%nat -> take n (Eapp E cp e c) = take n (E c).
Proof.
  intros H. unfold Eapp. destruct (decide (cp = c)) as [->|N]; auto.
  rewrite take_app_le; auto.
Qed.

Lemma Eapp_length E cp e c : (length (E c) <= length (Eapp E cp e c))%nat.
Proof. unfold Eapp. destruct (decide (cp = c)) as [->|N]; auto. rewrite app_length. lia. Qed.

Lemma Eapp_offsets_mark E cp m c t p : offsets_of t p (Eapp E cp (Mark m) c) = offsets_of t p (E c).
Proof.
  unfold Eapp. destruct (decide (cp = c)) as [->|N]; auto.
  rewrite offsets_app. cbn. apply app_nil_r.
Qed.

Lemma commits_app h a : commits_in (h ++ [a]) = commits_in h ++ commits_in [a].
Proof. unfold commits_in. rewrite omap_app. reflexivity. Qed.

Lemma prefix_app_r_trans {A} (a b c : list A) : a `prefix_of` b -> a `prefix_of` b ++ c.
Proof. intros (k & ->). exists (k ++ c). now rewrite app_assoc. Qed.

Lemma wm_ok_hist t0 hist l pos p v a : wm_ok t0 hist l pos p v -> wm_ok t0 (hist ++ [a]) l pos p v.
Proof.
  intros (n & H1 & H2 & H3). exists n. repeat split; auto. destruct H3 as [H3|((c & Hc) & H3)]; auto.
  right. split; auto. exists c. rewrite elem_of_app. auto.
Qed.

Lemma wm_ok_append t0 hist l pos p v e :
  (pos <= length l)%nat -> wm_ok t0 hist l pos p v -> wm_ok t0 hist (l ++ [e]) pos p v.
Proof.
  intros Hl (n & H1 & H2 & H3). exists n. rewrite !take_app_le by lia. repeat split; auto.
  destruct H3 as [H3|(Hc & H3)]; auto. right. split; auto.
  rewrite drop_app_le by lia. rewrite offsets_app. intros [? ?]%app_nil. auto.
Qed.

Lemma wm_ok_pass t0 hist l pos p v e :
  l !! pos = Some e -> offsets_of t0 p [e] = [] -> wm_ok t0 hist l pos p v -> wm_ok t0 hist l (S pos) p v.
Proof.
  intros Hl He (n & H1 & H2 & H3). exists n. repeat split; auto.
  erewrite take_S_r by eauto. rewrite offsets_app, He, app_nil_r.
  destruct H3 as [H3|(Hc & H3)]; auto. right. split; auto.
  erewrite drop_S in H3 by eauto. change (e :: drop (S pos) l) with ([e] ++ drop (S pos) l) in H3.
  rewrite offsets_app, He in H3. auto.
Qed.

Lemma wm_ok_receive t0 hist l pos p o :
  l !! pos = Some (Commit t0 p o) -> wm_ok t0 hist l (S pos) p (o + 1).
Proof.
  intros Hl. exists (S pos). repeat split; auto. erewrite take_S_r by eauto.
  rewrite offsets_app, (offsets_cons t0 p _ []), bool_decide_eq_true_2 by auto. cbn [offsets_of].
  now rewrite resume_snoc.
Qed.

Lemma wm_ok_skip t0 hist l pos p v c :
  ASkip c ∈ hist -> offsets_of t0 p (drop (S pos) l) <> [] ->
  wm_ok t0 hist l pos p v -> wm_ok t0 hist l (S pos) p v.
Proof.
  intros Hc Hd (n & H1 & H2 & H3). exists n. repeat split; auto. right. split; eauto.
Qed.

Lemma notin_snoc (id : nat) hist a : ~ sends id a -> ASendMarker id ∉ hist -> ASendMarker id ∉ hist ++ [a].
Proof. unfold sends. intros. rewrite elem_of_app, elem_of_list_singleton. naive_solver. Qed.

Lemma notlost_snoc (id : nat) hist a : ~ sends id a -> AMarkerLost id ∉ hist -> AMarkerLost id ∉ hist ++ [a].
Proof. unfold sends. intros. rewrite elem_of_app, elem_of_list_singleton. naive_solver. Qed.

Lemma neither_snoc (id : nat) hist a : ~ sends id a ->
  ASendMarker id ∉ hist /\ AMarkerLost id ∉ hist -> ASendMarker id ∉ hist ++ [a] /\ AMarkerLost id ∉ hist ++ [a].
Proof. intros H [? ?]. split; [apply notin_snoc|apply notlost_snoc]; auto. Qed.

(** a sync's facts survive an appended entry that is not its own marker and a further action that is
    not its own attempt to write one *)
Lemma sync_ok_append cl t0 E hist id s cp e a :
  (forall m, e = Mark m -> m <> sy_mark s) -> ~ sends id a ->
  sync_ok cl t0 E hist id s -> sync_ok cl t0 (Eapp E cp e) (hist ++ [a]) id s.
Proof.
  intros He Ha. unfold sync_ok. destruct (sy_stage s) as [| |w].
  - intros (H1 & H1' & H2). split; [apply notin_snoc; auto|]. split; [apply notlost_snoc; auto|].
    intros c. rewrite Eapp_elem. intros [H|(-> & H)]; [exact (H2 _ H)|]. eapply He; eauto.
  - intros [(h1 & h2 & idx & EQ & N & NL & U & L & O)|(H1 & H1' & H2)].
    + left. exists h1, (h2 ++ [a]), idx.
      assert (Hlt : (idx < length (E (commitRecordPartition cl (sy_tp s))))%nat) by (eapply lookup_lt_Some; eauto).
      split; [now rewrite EQ, <- app_assoc|]. split; [auto|]. split; [apply notlost_snoc; auto|]. repeat split; auto.
      * apply Eapp_lookup in H as [H|(-> & -> & H)].
        -- exact (proj1 (U _ _ H)).
        -- exfalso. eapply He; eauto.
      * apply Eapp_lookup in H as [H|(-> & -> & H)].
        -- exact (proj2 (U _ _ H)).
        -- exfalso. eapply He; eauto.
      * apply Eapp_lookup. auto.
      * rewrite Eapp_take by lia. auto.
    + right. split; [apply notin_snoc; auto|]. split; [rewrite elem_of_app; auto|].
      intros c. rewrite Eapp_elem. intros [H|(-> & H)]; [exact (H2 _ H)|]. eapply He; eauto.
  - intros (h1 & h2 & k & EQ & N & NL & P2 & -> & P1). exists h1, (h2 ++ [a]), k.
    split; [now rewrite EQ, <- app_assoc|]. split; [auto|]. split; [apply notlost_snoc; auto|].
    split; [rewrite commits_app, offsets_app; apply prefix_app_r_trans; auto|]. split; [auto|].
    destruct P1 as [P1|((c & Hc) & P1)]; auto. right. split; [exists c; rewrite elem_of_app; auto|].
    rewrite commits_app, offsets_app. intros [? ?]%app_nil. auto.
Qed.

Lemma sync_ok_hist cl t0 E hist id s a :
  ~ sends id a ->
  sync_ok cl t0 E hist id s -> sync_ok cl t0 E (hist ++ [a]) id s.
Proof.
  intros Ha. unfold sync_ok. destruct (sy_stage s) as [| |w].
  - intros (H1 & H1' & H2). split; [apply notin_snoc; auto|]. split; [apply notlost_snoc; auto|]. auto.
  - intros [(h1 & h2 & idx & EQ & N & NL & U & L & O)|(H1 & H1' & H2)].
    + left. exists h1, (h2 ++ [a]), idx.
      split; [now rewrite EQ, <- app_assoc|]. split; [auto|]. split; [apply notlost_snoc; auto|].
      repeat split; auto; eapply U; eauto.
    + right. split; [apply notin_snoc; auto|]. split; [rewrite elem_of_app; auto|]. auto.
  - intros (h1 & h2 & k & EQ & N & NL & P2 & -> & P1). exists h1, (h2 ++ [a]), k.
    split; [now rewrite EQ, <- app_assoc|]. split; [auto|]. split; [apply notlost_snoc; auto|].
    split; [rewrite commits_app, offsets_app; apply prefix_app_r_trans; auto|]. split; [auto|].
    destruct P1 as [P1|((c & Hc) & P1)]; auto. right. split; [exists c; rewrite elem_of_app; auto|].
    rewrite commits_app, offsets_app. intros [? ?]%app_nil. auto.
Qed.

Lemma offsets_commits_nocommit t0 p hist a :
  commits_in [a] = [] -> offsets_of t0 p (commits_in (hist ++ [a])) = offsets_of t0 p (commits_in hist).
Proof. intros H. rewrite commits_app, H, app_nil_r. reflexivity. Qed.

(** a later record with the key of a commit of partition [p] is a commit of that partition *)
Lemma later_commit cl cp t0 p o l :
  Forall (ok_entry t0) l -> in_int32 p -> 0 <= p ->
  Exists (fun k' => k_key k' = k_key (enc cl cp (Commit t0 p o))) (map (enc cl cp) l) ->
  offsets_of t0 p l <> [].
Proof.
  intros Hok Hp Hp0 Hex. apply Exists_exists in Hex as (k & Hin & Hk).
  apply elem_of_list_In, in_map_iff in Hin as (y & <- & Hin).
  destruct y as [t' q' o'|m'].
  - assert (Hy : ok_entry t0 (Commit t' q' o'))
      by (eapply (proj1 (Forall_forall _ _)); [exact Hok| now apply elem_of_list_In]).
    destruct Hy as (-> & Hq' & Hq0' & Ho'). cbn [enc] in Hk.
    apply commit_key_inj in Hk; auto. inversion Hk; subst.
    exact (in_offsets _ _ _ _ Hin).
  - exfalso. symmetry in Hk. eapply (commit_key_not_marker cl (ntp p t0)); [exact Hp|exact Hp0|exact Hk].
Qed.

Lemma wm_ok_Eapp t0 hist E cp e c pos p v :
  (pos <= length (E c))%nat -> wm_ok t0 hist (E c) pos p v -> wm_ok t0 hist (Eapp E cp e c) pos p v.
Proof.
  intros H H'. unfold Eapp. destruct (decide (cp = c)) as [->|N]; auto. now apply wm_ok_append.
Qed.

(** the consumer passes an entry that is no commit of [p] *)
Lemma pass t0 hist (E : Z -> list entry) (cp c : Z) (pos : Z -> nat) p v :
  wm_ok t0 hist (E c) (pos c) p v ->
  (cp = c -> exists e, E c !! pos c = Some e /\ offsets_of t0 p [e] = []) ->
  wm_ok t0 hist (E c) (if decide (cp = c) then S (pos cp) else pos c) p v.
Proof.
  intros H He. destruct (decide (cp = c)) as [<-|N]; auto.
  destruct (He eq_refl) as (e & He1 & He2). eapply wm_ok_pass; eauto.
Qed.

Lemma commits_app' h h' : commits_in (h ++ h') = commits_in h ++ commits_in h'.
Proof. unfold commits_in. apply omap_app. Qed.

Lemma inv_step cl t0 hist w E a w' :
  Inv cl t0 hist w E -> act_ok t0 a -> step cl w a = Some w' ->
  exists E', Inv cl t0 (hist ++ [a]) w' E'.
Proof.
  intros I Hok Hs. destruct a as [tp o|id tp mark|id|cp mark|id|cp|cp|id]; cbn [step] in Hs.
  - (* commit *)
    assert (Hw : w' = append (commitRecordPartition cl tp) (toKafkaRecord (commitRecord cl tp o)) w)
      by (injection Hs as <-; reflexivity).
    clear Hs. subst w'. destruct Hok as (Ht & Hp & Hp0 & Ho).
    set (cp := commitRecordPartition cl tp).
    set (e := Commit (tp_topic tp) (tp_partition tp) o).
    exists (Eapp E cp e).
    assert (Hk : toKafkaRecord (commitRecord cl tp o) = enc cl cp e) by (destruct tp; reflexivity).
    constructor; cbn [append w_cl w_syncs w_marks].
    + intros c. rewrite w_log_append. unfold Eapp. destruct (decide (cp = c)) as [<-|N].
      * rewrite map_app, (iA _ _ _ _ _ I), Hk. reflexivity.
      * apply (iA _ _ _ _ _ I).
    + intros c x. rewrite Eapp_elem. intros [H|(-> & ->)].
      * exact (iB _ _ _ _ _ I _ _ H).
      * subst e. exact (conj Ht (conj Hp (conj Hp0 (conj Ho eq_refl)))). 
    + intros c. change (w_position (append cp (toKafkaRecord (commitRecord cl tp o)) w) c) with (w_position w c).
      pose proof (iC _ _ _ _ _ I c). pose proof (Eapp_length E cp e c). lia.
    + intros p. change (w_position (append cp (toKafkaRecord (commitRecord cl tp o)) w)) with (w_position w).
      apply wm_ok_hist. apply wm_ok_Eapp; [apply (iC _ _ _ _ _ I)|apply (iD _ _ _ _ _ I)].
    + intros p. rewrite commits_app, offsets_app, <- (iF _ _ _ _ _ I).
      change (commits_in [ACommit tp o]) with [e].
      unfold Eapp. destruct (decide (cp = Z.rem p (cl_numPartitions cl))) as [<-|N].
      * apply offsets_app.
      * rewrite (offsets_cons t0 p e []). subst e. cbn beta iota.
        rewrite bool_decide_eq_false_2; [symmetry; apply app_nil_r|].
        intros [_ Hpp]. apply N. subst cp. unfold commitRecordPartition. now rewrite Hpp.
    + intros m Hm. destruct (iG _ _ _ _ _ I m Hm) as (c & i & L & Hlt).
      exists c, i. split; auto. apply Eapp_lookup. auto.
    + intros id s Hs. destruct (iH _ _ _ _ _ I id s Hs) as (H1 & H2 & H3). repeat split; auto.
      apply sync_ok_append; [discriminate|by intros [|]|auto].
    + intros id Hn. apply neither_snoc; [by intros [|]|]. apply (iK _ _ _ _ _ I); auto.
    + apply (iL _ _ _ _ _ I).
  - (* start sync *)
    case_decide as D; [|discriminate]. destruct D as [Dn Dm]. injection Hs as <-. cbn in Hok.
    exists E. constructor; cbn [w_cl w_syncs w_marks w_logs w_pos watermarks released].
    + apply (iA _ _ _ _ _ I).
    + intros c x Hx. pose proof (iB _ _ _ _ _ I _ _ Hx). destruct x; auto. set_solver.
    + apply (iC _ _ _ _ _ I).
    + intros p. apply wm_ok_hist. apply (iD _ _ _ _ _ I).
    + intros p. rewrite offsets_commits_nocommit by reflexivity. apply (iF _ _ _ _ _ I).
    + apply (iG _ _ _ _ _ I).
    + intros id' s. destruct (decide (id = id')) as [<-|N].
      * rewrite lookup_insert. intros [= <-]. cbn. split; [set_solver|]. split; [auto|].
        destruct (neither_snoc id hist (AStartSync id tp mark)) as [X1 X2];
          [by intros [|]|apply (iK _ _ _ _ _ I); auto|]. split; [exact X1|]. split; [exact X2|].
        intros c Hin. apply (iB _ _ _ _ _ I) in Hin. contradiction.
      * rewrite lookup_insert_ne by auto. intros H. destruct (iH _ _ _ _ _ I id' s H) as (H1 & H2 & H3).
        repeat split; auto; [set_solver|]. apply sync_ok_hist; [by intros [|]|auto].
    + intros id' Hn. apply neither_snoc; [by intros [|]|]. apply (iK _ _ _ _ _ I).
      destruct (decide (id = id')) as [<-|N]; [rewrite lookup_insert in Hn; discriminate|].
      rewrite lookup_insert_ne in Hn; auto.
    + intros i j si sj Hi Hj Hm.
      destruct (decide (id = i)) as [<-|Ni], (decide (id = j)) as [<-|Nj]; auto.
      * rewrite lookup_insert in Hi. rewrite lookup_insert_ne in Hj by auto. injection Hi as <-.
        cbn in Hm. subst mark. exfalso. apply Dm. apply (iH _ _ _ _ _ I j sj Hj).
      * rewrite lookup_insert in Hj. rewrite lookup_insert_ne in Hi by auto. injection Hj as <-.
        cbn in Hm. subst mark. exfalso. apply Dm. apply (iH _ _ _ _ _ I i si Hi).
      * rewrite lookup_insert_ne in Hi, Hj by auto. eapply (iL _ _ _ _ _ I); eauto.
  - (* send marker *)
    destruct (w_syncs w !! id) as [[tp mark st]|] eqn:Hid; [|discriminate].
    destruct st; try discriminate. injection Hs as <-.
    destruct (iH _ _ _ _ _ I _ _ Hid) as (Hm & Ht & Hso). cbn in Hm, Ht, Hso. destruct Hso as (Hn & Hnl & Hnm).
    set (cp := commitRecordPartition cl tp).
    exists (Eapp E cp (Mark mark)).
    set (k := markerRecord (cl_topic cl) cp mark).
    constructor; cbn [append w_cl w_syncs w_marks w_logs w_pos].
    + intros c. change (w_log (append cp k w) c = map (enc cl c) (Eapp E cp (Mark mark) c)).
      rewrite w_log_append. unfold Eapp. destruct (decide (cp = c)) as [<-|N].
      * rewrite map_app, (iA _ _ _ _ _ I). reflexivity.
      * apply (iA _ _ _ _ _ I).
    + intros c x. rewrite Eapp_elem. intros [H|(-> & ->)]; auto.
      exact (iB _ _ _ _ _ I _ _ H).
    + intros c. change (w_position w c <= length (Eapp E cp (Mark mark) c))%nat.
      pose proof (iC _ _ _ _ _ I c). pose proof (Eapp_length E cp (Mark mark) c). lia.
    + intros p. apply wm_ok_hist.
      apply wm_ok_Eapp; [apply (iC _ _ _ _ _ I)|apply (iD _ _ _ _ _ I)].
    + intros p. rewrite offsets_commits_nocommit by reflexivity. rewrite Eapp_offsets_mark. apply (iF _ _ _ _ _ I).
    + intros m Hm'. destruct (iG _ _ _ _ _ I m Hm') as (c & i & L & Hlt).
      exists c, i. split; auto. apply Eapp_lookup. auto.
    + intros id' s. destruct (decide (id = id')) as [<-|N].
      * rewrite lookup_insert. intros [= <-]. repeat split; auto.
        unfold sync_ok. cbn [sy_stage sy_tp sy_mark].
        left. exists hist, [], (length (E cp)). split; [auto|]. split; [auto|].
        split; [rewrite elem_of_app, elem_of_list_singleton; naive_solver|]. repeat split; auto.
        -- apply Eapp_lookup in H as [H|(-> & -> & H)]; auto.
           exfalso. apply (Hnm cp'). eapply elem_of_list_lookup_2; eauto.
        -- apply Eapp_lookup in H as [H|(-> & -> & H)]; auto.
           exfalso. apply (Hnm cp'). eapply elem_of_list_lookup_2; eauto.
        -- apply Eapp_lookup. auto.
        -- fold cp. rewrite Eapp_take by lia. rewrite take_ge by lia. apply (iF _ _ _ _ _ I).
      * rewrite lookup_insert_ne by auto. intros H. destruct (iH _ _ _ _ _ I id' s H) as (H1 & H2 & H3).
        repeat split; auto. apply sync_ok_append; auto.
        -- intros m [= <-] Heq. apply N. eapply (iL _ _ _ _ _ I); eauto.
        -- intros [[= ->]|[=]]. auto.
    + intros id' Hn'. destruct (decide (id = id')) as [<-|N]; [rewrite lookup_insert in Hn'; discriminate|].
      rewrite lookup_insert_ne in Hn' by auto.
      apply neither_snoc; [intros [?|?]; congruence|]. apply (iK _ _ _ _ _ I); auto.
    + intros i j si sj Hi Hj Hmm.
      destruct (decide (id = i)) as [<-|Ni], (decide (id = j)) as [<-|Nj]; auto.
      * rewrite lookup_insert in Hi. rewrite lookup_insert_ne in Hj by auto. injection Hi as <-.
        eapply (iL _ _ _ _ _ I); eauto.
      * rewrite lookup_insert in Hj. rewrite lookup_insert_ne in Hi by auto. injection Hj as <-.
        eapply (iL _ _ _ _ _ I); eauto.
      * rewrite lookup_insert_ne in Hi, Hj by auto. eapply (iL _ _ _ _ _ I); eauto.
  - (* foreign marker *)
    case_decide as D; [|discriminate]. injection Hs as <-.
    exists (Eapp E cp (Mark mark)).
    set (k := markerRecord (cl_topic cl) cp mark).
    constructor; cbn [append w_cl w_syncs w_marks w_logs w_pos].
    + intros c. change (w_log (append cp k w) c = map (enc cl c) (Eapp E cp (Mark mark) c)).
      rewrite w_log_append. unfold Eapp. destruct (decide (cp = c)) as [<-|N].
      * rewrite map_app, (iA _ _ _ _ _ I). reflexivity.
      * apply (iA _ _ _ _ _ I).
    + intros c x. rewrite Eapp_elem. intros [H|(-> & ->)]; [|set_solver].
      pose proof (iB _ _ _ _ _ I _ _ H). destruct x; auto. set_solver.
    + intros c. change (w_position w c <= length (Eapp E cp (Mark mark) c))%nat.
      pose proof (iC _ _ _ _ _ I c). pose proof (Eapp_length E cp (Mark mark) c). lia.
    + intros p. apply wm_ok_hist.
      apply wm_ok_Eapp; [apply (iC _ _ _ _ _ I)|apply (iD _ _ _ _ _ I)].
    + intros p. rewrite offsets_commits_nocommit by reflexivity. rewrite Eapp_offsets_mark. apply (iF _ _ _ _ _ I).
    + intros m Hm'. destruct (iG _ _ _ _ _ I m Hm') as (c & i & L & Hlt).
      exists c, i. split; auto. apply Eapp_lookup. auto.
    + intros id' s H. destruct (iH _ _ _ _ _ I id' s H) as (H1 & H2 & H3).
      repeat split; auto; [set_solver|]. apply sync_ok_append; [|by intros [|]|auto].
      intros m [= <-] ->. auto.
    + intros id' Hn'. apply neither_snoc; [by intros [|]|]. apply (iK _ _ _ _ _ I); auto.
    + apply (iL _ _ _ _ _ I).
  - (* marker lost *)
    destruct (w_syncs w !! id) as [[tp mark st]|] eqn:Hid; [|discriminate].
    destruct st; try discriminate. injection Hs as <-.
    destruct (iH _ _ _ _ _ I _ _ Hid) as (Hm & Ht & Hso). cbn in Hm, Ht, Hso. destruct Hso as (Hn & Hnl & Hnm).
    exists E. constructor; cbn [w_cl w_syncs w_marks w_logs w_pos].
    + apply (iA _ _ _ _ _ I).
    + apply (iB _ _ _ _ _ I).
    + apply (iC _ _ _ _ _ I).
    + intros p. apply wm_ok_hist. apply (iD _ _ _ _ _ I).
    + intros p. rewrite offsets_commits_nocommit by reflexivity. apply (iF _ _ _ _ _ I).
    + apply (iG _ _ _ _ _ I).
    + intros id' s. destruct (decide (id = id')) as [<-|N].
      * rewrite lookup_insert. intros [= <-]. repeat split; auto.
        unfold sync_ok. cbn [sy_stage sy_tp sy_mark]. right.
        rewrite !elem_of_app, !elem_of_list_singleton. split; [naive_solver|]. split; auto.
      * rewrite lookup_insert_ne by auto. intros H. destruct (iH _ _ _ _ _ I id' s H) as (H1 & H2 & H3).
        repeat split; auto. apply sync_ok_hist; [intros [?|?]; congruence|auto].
    + intros id' Hn'. destruct (decide (id = id')) as [<-|N]; [rewrite lookup_insert in Hn'; discriminate|].
      rewrite lookup_insert_ne in Hn' by auto.
      apply neither_snoc; [intros [?|?]; congruence|]. apply (iK _ _ _ _ _ I); auto.
    + intros i j si sj Hi Hj Hmm.
      destruct (decide (id = i)) as [<-|Ni], (decide (id = j)) as [<-|Nj]; auto.
      * rewrite lookup_insert in Hi. rewrite lookup_insert_ne in Hj by auto. injection Hi as <-.
        eapply (iL _ _ _ _ _ I); eauto.
      * rewrite lookup_insert in Hj. rewrite lookup_insert_ne in Hi by auto. injection Hj as <-.
        eapply (iL _ _ _ _ _ I); eauto.
      * rewrite lookup_insert_ne in Hi, Hj by auto. eapply (iL _ _ _ _ _ I); eauto.
  - (* consume *)
    destruct (w_log w cp !! w_position w cp) as [k|] eqn:Hk; [|discriminate].
    rewrite (iA _ _ _ _ _ I) in Hk. apply list_lookup_fmap_inv in Hk as (e & -> & He).
    assert (Hlt : (w_position w cp < length (E cp))%nat) by (eapply lookup_lt_Some; eauto).
    assert (Hin : e ∈ E cp) by (eapply elem_of_list_lookup_2; eauto).
    pose proof (iB _ _ _ _ _ I _ _ Hin) as Hb.
    assert (Hpos : forall W c, w_position (mkWorld (w_logs w) (<[cp:=S (w_position w cp)]> (w_pos w)) W (w_syncs w) (w_marks w)) c
       = if decide (cp = c) then S (w_position w cp) else w_position w c).
    { intros W c. unfold w_position at 1. cbn [w_pos]. destruct (decide (cp = c)) as [->|N].
      - rewrite lookup_insert. reflexivity.
      - rewrite lookup_insert_ne by auto. reflexivity. }
    exists E.
    assert (Hcommon : forall W,
       (forall p, wm_ok t0 hist (E (Z.rem p (cl_numPartitions cl)))
          (if decide (cp = Z.rem p (cl_numPartitions cl)) then S (w_position w cp) else w_position w (Z.rem p (cl_numPartitions cl)))
          p (default (-1) (watermarks W !! p))) ->
       (forall m, m ∈ released W -> m ∈ released (w_cl w) \/ e = Mark m) ->
       Inv cl t0 (hist ++ [AConsume cp])
         (mkWorld (w_logs w) (<[cp:=S (w_position w cp)]> (w_pos w)) W (w_syncs w) (w_marks w)) E).
    { intros W HD HG. constructor; cbn [w_cl w_syncs w_marks].
      - apply (iA _ _ _ _ _ I).
      - apply (iB _ _ _ _ _ I).
      - intros c. rewrite Hpos. pose proof (iC _ _ _ _ _ I c). destruct (decide (cp = c)) as [<-|N]; lia.
      - intros p. rewrite Hpos. apply wm_ok_hist. apply HD.
      - intros p. rewrite offsets_commits_nocommit by reflexivity. apply (iF _ _ _ _ _ I).
      - intros m Hm. destruct (HG m Hm) as [Hm'| ->].
        + destruct (iG _ _ _ _ _ I m Hm') as (c & i & L & Hi). exists c, i. split; auto. rewrite Hpos.
          destruct (decide (cp = c)) as [<-|N]; lia.
        + exists cp, (w_position w cp). split; auto. rewrite Hpos. rewrite decide_True by auto. lia.
      - intros id s H. destruct (iH _ _ _ _ _ I id s H) as (H1 & H2 & H3). repeat split; auto.
        apply sync_ok_hist; [by intros [|]|auto].
      - intros id Hn. apply neither_snoc; [by intros [|]|]. apply (iK _ _ _ _ _ I); auto.
      - apply (iL _ _ _ _ _ I). }
    destruct e as [t p o|m].
    + destruct Hb as (-> & Hp & Hp0 & Ho & Hrem).
      rewrite receive_commit in Hs by auto. injection Hs as <-. apply Hcommon; cbn [watermarks released]; auto.
      intros q. destruct (decide (p = q)) as [<-|Npq].
      * rewrite lookup_insert, decide_True by auto. cbn [default]. rewrite Hrem. now apply wm_ok_receive.
      * rewrite lookup_insert_ne by auto. apply pass; [apply (iD _ _ _ _ _ I)|].
        intros Hc. exists (Commit t0 p o). split; [rewrite <- Hc; auto|].
        rewrite (offsets_cons t0 q _ []), bool_decide_eq_false_2 by tauto. reflexivity.
    + rewrite receive_mark in Hs. injection Hs as <-. apply Hcommon.
      * intros q. rewrite close_wm. apply pass; [apply (iD _ _ _ _ _ I)|].
        intros Hc. exists (Mark m). split; [rewrite <- Hc; auto|reflexivity].
      * unfold closeSyncRequest. intros m' Hm'. destruct (decide (m ∈ pendingSyncs (w_cl w))); [|auto].
        cbn in Hm'. apply elem_of_union in Hm' as [?|?%elem_of_singleton]; auto. subst. auto.
  - (* skip *)
    destruct (w_log w cp !! w_position w cp) as [k|] eqn:Hk; [|discriminate].
    case_decide as D; [|discriminate]. injection Hs as <-.
    rewrite (iA _ _ _ _ _ I) in Hk, D. apply list_lookup_fmap_inv in Hk as (e & -> & He).
    assert (Hlt : (w_position w cp < length (E cp))%nat) by (eapply lookup_lt_Some; eauto).
    assert (Hin : e ∈ E cp) by (eapply elem_of_list_lookup_2; eauto).
    pose proof (iB _ _ _ _ _ I _ _ Hin) as Hb.
    rewrite <- fmap_drop in D.
    set (w' := mkWorld (w_logs w) (<[cp:=S (w_position w cp)]> (w_pos w)) (w_cl w) (w_syncs w) (w_marks w)).
    assert (Hpos : forall c, w_position w' c = if decide (cp = c) then S (w_position w cp) else w_position w c).
    { intros c. unfold w_position at 1. cbn [w' w_pos]. destruct (decide (cp = c)) as [->|N].
      - rewrite lookup_insert. reflexivity.
      - rewrite lookup_insert_ne by auto. reflexivity. }
    exists E. constructor; cbn [w' w_cl w_syncs w_marks].
    + apply (iA _ _ _ _ _ I).
    + apply (iB _ _ _ _ _ I).
    + intros c. rewrite Hpos. pose proof (iC _ _ _ _ _ I c). destruct (decide (cp = c)) as [<-|N]; lia.
    + intros q. rewrite Hpos.
      destruct e as [t p o|m].
      * destruct Hb as (-> & Hp & Hp0 & Ho & Hrem). destruct (decide (p = q)) as [<-|Npq].
        -- rewrite Hrem, decide_True by auto.
           apply (wm_ok_skip _ _ _ _ _ _ cp); [set_solver| |].
           ++ eapply later_commit; [|exact Hp|exact Hp0|exact D].
              apply Forall_drop, Forall_forall. intros x Hx. pose proof (iB _ _ _ _ _ I _ _ Hx) as Hbx.
              destruct x; cbn; tauto.
           ++ apply wm_ok_hist. rewrite <- Hrem. apply (iD _ _ _ _ _ I).
        -- apply wm_ok_hist. apply pass; [apply (iD _ _ _ _ _ I)|].
           intros Hc. exists (Commit t0 p o). split; [rewrite <- Hc; auto|].
           rewrite (offsets_cons t0 q _ []), bool_decide_eq_false_2 by tauto. reflexivity.
      * apply wm_ok_hist. apply pass; [apply (iD _ _ _ _ _ I)|].
        intros Hc. exists (Mark m). split; [rewrite <- Hc; auto|reflexivity].
    + intros p. rewrite offsets_commits_nocommit by reflexivity. apply (iF _ _ _ _ _ I).
    + intros m Hm. destruct (iG _ _ _ _ _ I m Hm) as (c & i & L & Hi). exists c, i. split; auto. rewrite Hpos.
      destruct (decide (cp = c)) as [<-|N]; lia.
    + intros id s H. destruct (iH _ _ _ _ _ I id s H) as (H1 & H2 & H3). repeat split; auto.
      apply sync_ok_hist; [by intros [|]|auto].
    + intros id Hn. apply neither_snoc; [by intros [|]|]. apply (iK _ _ _ _ _ I); auto.
    + apply (iL _ _ _ _ _ I).
  - (* read watermark *)
    destruct (w_syncs w !! id) as [[tp mark st]|] eqn:Hid; [|discriminate].
    destruct st; try discriminate. case_decide as D; [|discriminate]. injection Hs as <-.
    destruct (iH _ _ _ _ _ I _ _ Hid) as (Hm & Ht & Hso).
    exists E. constructor; cbn [w_cl w_syncs w_marks w_logs w_pos].
    + apply (iA _ _ _ _ _ I).
    + apply (iB _ _ _ _ _ I).
    + apply (iC _ _ _ _ _ I).
    + intros p. apply wm_ok_hist. apply (iD _ _ _ _ _ I).
    + intros p. rewrite offsets_commits_nocommit by reflexivity. apply (iF _ _ _ _ _ I).
    + apply (iG _ _ _ _ _ I).
    + intros id' s. destruct (decide (id = id')) as [<-|N].
      * rewrite lookup_insert. intros [= <-]. repeat split; auto.
        unfold sync_ok in Hso |- *. cbn [sy_stage sy_tp sy_mark] in Hso |- *.
        destruct Hso as [(h1 & h2 & idx & EQ & Hn & Hnl & U & L & O)|(_ & _ & NM)];
          [|destruct (iG _ _ _ _ _ I mark D) as (c & i & Li & Hi); exfalso; apply (NM c); eapply elem_of_list_lookup_2; eauto].
        destruct (iG _ _ _ _ _ I mark D) as (c & i & Li & Hi).
        destruct (U _ _ Li) as [-> ->].
        set (cp := commitRecordPartition cl tp) in *.
        destruct (iD _ _ _ _ _ I (tp_partition tp)) as (n & Hle & Hv & Hd).
        pose proof (iF _ _ _ _ _ I (tp_partition tp)) as HF.
        change (Z.rem (tp_partition tp) (cl_numPartitions cl)) with cp in Hle, Hv, Hd, HF.
        exists h1, (h2 ++ [AReadWatermark id]), (offsets_of t0 (tp_partition tp) (take n (E cp))).
        split; [now rewrite EQ, <- app_assoc|]. split; [auto|].
        split; [apply notlost_snoc; [by intros [|]|auto]|].
        split; [rewrite offsets_commits_nocommit, <- HF by reflexivity; apply offsets_take_prefix|].
        split; [unfold Watermark; rewrite <- Hv; destruct (watermarks (w_cl w) !! tp_partition tp); reflexivity|].
        destruct Hd as [Hd|((c & Hc) & Hd)].
        -- left. rewrite Hd, <- O. apply offsets_take_mono. lia.
        -- right. split; [exists c; rewrite elem_of_app; auto|].
           rewrite offsets_commits_nocommit by reflexivity. intros Hnil. apply Hd.
           rewrite EQ in HF. rewrite commits_app' in HF. change (ASendMarker id :: h2) with ([ASendMarker id] ++ h2) in HF.
           rewrite commits_app', !offsets_app in HF. cbn [commits_in omap list_omap offsets_of app] in HF.
           fold commits_in in HF. rewrite <- O in HF.
           assert (Hall : offsets_of t0 (tp_partition tp) (drop idx (E cp)) = []).
           { apply (app_inv_head (offsets_of t0 (tp_partition tp) (take idx (E cp)))).
             rewrite <- offsets_app, take_drop, HF. f_equal. exact Hnil. }
           replace (drop (w_position w cp) (E cp)) with (drop (w_position w cp - idx) (drop idx (E cp)))
             by (rewrite drop_drop; f_equal; lia).
           rewrite <- (take_drop (w_position w cp - idx) (drop idx (E cp))), offsets_app in Hall.
           now apply app_nil in Hall as [_ ?].
      * rewrite lookup_insert_ne by auto. intros H. destruct (iH _ _ _ _ _ I id' s H) as (H1 & H2 & H3).
        repeat split; auto. apply sync_ok_hist; [by intros [|]|auto].
    + intros id' Hn'. destruct (decide (id = id')) as [<-|N]; [rewrite lookup_insert in Hn'; discriminate|].
      rewrite lookup_insert_ne in Hn' by auto.
      apply neither_snoc; [intros [?|?]; congruence|]. apply (iK _ _ _ _ _ I); auto.
    + intros i j si sj Hi Hj Hmm.
      destruct (decide (id = i)) as [<-|Ni], (decide (id = j)) as [<-|Nj]; auto.
      * rewrite lookup_insert in Hi. rewrite lookup_insert_ne in Hj by auto. injection Hi as <-.
        eapply (iL _ _ _ _ _ I); eauto.
      * rewrite lookup_insert in Hj. rewrite lookup_insert_ne in Hi by auto. injection Hj as <-.
        eapply (iL _ _ _ _ _ I); eauto.
      * rewrite lookup_insert_ne in Hi, Hj by auto. eapply (iL _ _ _ _ _ I); eauto.
Qed.

Lemma inv_run cl t0 acts hist w E w' :
  Inv cl t0 hist w E -> Forall (act_ok t0) acts -> run cl w acts = Some w' ->
  exists E', Inv cl t0 (hist ++ acts) w' E'.
Proof.
  revert hist w E. induction acts as [|a acts IH]; intros hist w E I F R.
  - injection R as <-. rewrite app_nil_r. eauto.
  - inversion F as [|? ? Ha Hacts]; subst. cbn [run] in R.
    destruct (step cl w a) as [w1|] eqn:S; [|discriminate].
    destruct (inv_step _ _ _ _ _ _ _ I Ha S) as (E1 & I1).
    destruct (IH _ _ _ I1 Hacts R) as (E' & I'). exists E'. rewrite <- app_assoc in I'. exact I'.
Qed.

Lemma split_unique {A} (x : A) l1 l2 k1 k2 :
  l1 ++ x :: l2 = k1 ++ x :: k2 -> x ∉ l1 -> x ∉ k1 \/ x ∉ k2 -> x ∉ k1 -> l1 = k1.
Proof.
  revert k1. induction l1 as [|y l1 IH]; intros [|z k1] E H1 H2 H3; cbn in *.
  - reflexivity.
  - injection E as -> E. exfalso. apply H3. left.
  - injection E as -> E. exfalso. apply H1. left.
  - injection E as -> E. f_equal. apply IH; auto; [set_solver| |set_solver]. destruct H2; [left; set_solver|auto].
Qed.

Lemma run_app cl a1 a2 w0 w :
  run cl w0 (a1 ++ a2) = Some w <-> exists w1, run cl w0 a1 = Some w1 /\ run cl w1 a2 = Some w.
Proof.
  revert w0. induction a1 as [|a a1 IH]; intros w0; cbn [run app].
  - split; [eauto|]. intros (w1 & [= ->] & H). exact H.
  - destruct (step cl w0 a); [apply IH|]. split; [discriminate|]. intros (? & ? & _). discriminate.
Qed.

(** the marker is written once *)
Lemma send_once cl t0 a1 a2 id w :
  Forall (act_ok t0) (a1 ++ ASendMarker id :: a2) ->
  run cl worldInit (a1 ++ ASendMarker id :: a2) = Some w ->
  ASendMarker id ∉ a1.
Proof.
  intros F R. apply Forall_app in F as [F1 F2].
  apply run_app in R as (w1 & R1 & R2).
  destruct (inv_run cl t0 a1 [] _ _ _ (inv_init cl t0) F1 R1) as (E1 & I1). cbn [app] in I1.
  cbn [run step] in R2. destruct (w_syncs w1 !! id) as [[tp1 m1 st]|] eqn:Hid; [|discriminate].
  destruct st; try discriminate.
  destruct (iH _ _ _ _ _ I1 _ _ Hid) as (_ & _ & H). cbn in H. exact (proj1 H).
Qed.

Lemma commits_send a1 a2 id : commits_in (a1 ++ ASendMarker id :: a2) = commits_in a1 ++ commits_in a2.
Proof. rewrite commits_app'. reflexivity. Qed.

(** what a sync returns, with the broker compacting the log *)
Lemma sync_sees_prior_compacted cl t0 a1 a2 id w tp mark r :
  Forall (act_ok t0) (a1 ++ ASendMarker id :: a2) ->
  run cl worldInit (a1 ++ ASendMarker id :: a2) = Some w ->
  w_syncs w !! id = Some (mkSync tp mark (Returned r)) ->
  exists k,
    k `prefix_of` offsets_of t0 (tp_partition tp) (commits_in (a1 ++ ASendMarker id :: a2)) /\
    r = resume_of k /\
    (offsets_of t0 (tp_partition tp) (commits_in a1) `prefix_of` k \/
     ((exists c, ASkip c ∈ a1 ++ ASendMarker id :: a2) /\ offsets_of t0 (tp_partition tp) (commits_in a2) <> [])).
Proof.
  intros F R Hs. pose proof (send_once _ _ _ _ _ _ F R) as Hn.
  destruct (inv_run cl t0 _ [] _ _ _ (inv_init cl t0) F R) as (E & I). cbn [app] in I.
  destruct (iH _ _ _ _ _ I _ _ Hs) as (_ & _ & H). cbn in H.
  destruct H as (h1 & h2 & k & Heq & Hn1 & _ & P2 & -> & P1).
  assert (a1 = h1) as <- by (eapply split_unique; eauto).
  apply app_inv_head in Heq. injection Heq as <-. exists k. auto.
Qed.

Lemma sync_sees_prior cl t0 a1 a2 id w tp mark r :
  Forall (act_ok t0) (a1 ++ ASendMarker id :: a2) ->
  (forall c, ASkip c ∉ a1 ++ ASendMarker id :: a2) ->
  run cl worldInit (a1 ++ ASendMarker id :: a2) = Some w ->
  w_syncs w !! id = Some (mkSync tp mark (Returned r)) ->
  exists k,
    offsets_of t0 (tp_partition tp) (commits_in a1) `prefix_of` k /\
    k `prefix_of` offsets_of t0 (tp_partition tp) (commits_in (a1 ++ ASendMarker id :: a2)) /\
    r = resume_of k.
Proof.
  intros F NS R Hs. destruct (sync_sees_prior_compacted _ _ _ _ _ _ _ _ _ F R Hs) as (k & H1 & H2 & [H3|((c & Hc) & _)]).
  - eauto.
  - exfalso. eapply NS; eauto.
Qed.

(** nobody else commits the partition after the marker: the value is exact, compaction or not *)
Lemma sync_exact cl t0 a1 a2 id w tp mark r :
  Forall (act_ok t0) (a1 ++ ASendMarker id :: a2) ->
  run cl worldInit (a1 ++ ASendMarker id :: a2) = Some w ->
  w_syncs w !! id = Some (mkSync tp mark (Returned r)) ->
  offsets_of t0 (tp_partition tp) (commits_in a2) = [] ->
  r = resume_of (offsets_of t0 (tp_partition tp) (commits_in a1)).
Proof.
  intros F R Hs Hno. destruct (sync_sees_prior_compacted _ _ _ _ _ _ _ _ _ F R Hs) as (k & H1 & -> & [H3|(_ & H3)]); [|congruence].
  rewrite commits_send, offsets_app, Hno, app_nil_r in H1. f_equal.
  destruct H1 as (x & Hx), H3 as (y & Hy). rewrite Hx, <- app_assoc in Hy.
  rewrite Hx. destruct x; [now rewrite app_nil_r|]. exfalso.
  apply (f_equal length) in Hy. rewrite !app_length in Hy. cbn in Hy. lia.
Qed.

(** numeric corollary: if the partition's commits appear in increasing order (C16), the starting offset is
    beyond everything committed before the marker was written *)
Lemma resume_ge os o : StronglySorted Z.lt os -> o ∈ os -> o < resume_of os.
Proof.
  intros S. revert o. induction S as [|x os S IH F]; intros o Hin; [set_solver|].
  apply elem_of_cons in Hin as [->|Hin].
  - destruct os as [|y os]; [cbn; lia|]. change (x < resume_of (y :: os)).
    assert (y < resume_of (y :: os)) by (apply IH; left). inversion F; subst. lia.
  - destruct os as [|y os]; [set_solver|]. exact (IH _ Hin).
Qed.

Lemma sorted_prefix (a b : list Z) : a `prefix_of` b -> StronglySorted Z.lt b -> StronglySorted Z.lt a.
Proof.
  intros (k & ->). induction a as [|x a IH]; cbn; intros S; [constructor|].
  inversion S; subst. constructor; auto. apply Forall_app in H2. tauto.
Qed.

Lemma sync_resume_bound cl t0 a1 a2 id w tp mark r o :
  Forall (act_ok t0) (a1 ++ ASendMarker id :: a2) ->
  (forall c, ASkip c ∉ a1 ++ ASendMarker id :: a2) ->
  run cl worldInit (a1 ++ ASendMarker id :: a2) = Some w ->
  w_syncs w !! id = Some (mkSync tp mark (Returned r)) ->
  StronglySorted Z.lt (offsets_of t0 (tp_partition tp) (commits_in (a1 ++ ASendMarker id :: a2))) ->
  In o (offsets_of t0 (tp_partition tp) (commits_in a1)) ->
  o < r.
Proof.
  intros F NS R Hs S Hin. destruct (sync_sees_prior _ _ _ _ _ _ _ _ _ F NS R Hs) as (k & P1 & P2 & ->).
  apply resume_ge; [eapply sorted_prefix; eauto|].
  eapply elem_of_prefix; [|exact P1]. now apply elem_of_list_In.
Qed.
