From Coq Require Import ZArith List Lia Bool Strings.Byte.
From Verif.Base Require Import Bytes.
From Verif.Record Require Import Model Spec.
Import ListNotations.
Open Scope Z_scope.

#[local] Opaque RecordTypeHeaderKey markerKeyString.

Definition apply_op (r : Record_) (o : build_op) : Record_ :=
  match o with
  | OpKey bs => WriteKey bs r
  | OpValue bs => WriteValue bs r
  | OpTopic t => WithTopic t r
  | OpPartition p => WithPartition p r
  | OpType t => WithRecordType t r
  | OpHeader k v => WithHeader k v r
  end.

(** the record an application obtains from NewRecord() followed by builder calls *)
Definition build (ops : list build_op) : Record_ := fold_left apply_op ops blankRecord.

Lemma fold_app_concat (bs : list bytes) b : fold_left (@app byte) bs b = b ++ concat bs.
Proof.
  revert b. induction bs as [|x bs IH]; intros b; cbn; [now rewrite app_nil_r|].
  rewrite IH, <- app_assoc. reflexivity.
Qed.

Definition hpair (h : Header) := (h_key h, h_value h).

Lemma build_gen ops r :
  let r' := fold_left apply_op ops r in
  keyBuffer r' = keyBuffer r ++ written_key ops /\
  valueBuffer r' = valueBuffer r ++ written_value ops /\
  map hpair (k_headers (kRecord r')) = map hpair (k_headers (kRecord r)) ++ written_headers ops /\
  k_topic (kRecord r') = last_of (fun o => match o with OpTopic t => Some t | _ => None end) (k_topic (kRecord r)) ops /\
  k_partition (kRecord r') = last_of (fun o => match o with OpPartition p => Some p | _ => None end) (k_partition (kRecord r)) ops /\
  recordType r' = last_of (fun o => match o with OpType t => Some t | _ => None end) (recordType r) ops /\
  k_key (kRecord r') = k_key (kRecord r) /\ k_value (kRecord r') = k_value (kRecord r) /\
  k_offset (kRecord r') = k_offset (kRecord r).
Proof.
  revert r. induction ops as [|o ops IH]; intros r; cbn zeta.
  - unfold written_key, written_value, written_headers. cbn. rewrite !app_nil_r. repeat split.
  - cbn [fold_left]. specialize (IH (apply_op r o)). cbn zeta in IH.
    destruct IH as (A & B & C & D & E & F & G & H & I).
    destruct o; cbn [apply_op] in *; cbn in A, B, C, D, E, F, G, H, I |- *;
      repeat split; auto.
    + rewrite A, fold_app_concat, <- app_assoc. unfold written_key. cbn. now rewrite concat_app.
    + rewrite B, fold_app_concat, <- app_assoc. unfold written_value. cbn. now rewrite concat_app.
    + rewrite C, map_app, <- app_assoc. reflexivity.
Qed.

Lemma build_spec ops :
  let r := build ops in
  keyBuffer r = written_key ops /\ valueBuffer r = written_value ops /\
  map hpair (k_headers (kRecord r)) = written_headers ops /\
  k_topic (kRecord r) = written_topic ops /\ k_partition (kRecord r) = written_partition ops /\
  recordType r = written_type ops /\ k_value (kRecord r) = None.
Proof.
  cbn zeta. unfold build. pose proof (build_gen ops blankRecord) as H. cbn zeta in H.
  destruct H as (A & B & C & D & E & F & G & H & I).
  repeat split; auto.
Qed.

(** ** type header *)
Lemma existsb_no_type hs :
  (forall h, In h hs -> h_key h <> RecordTypeHeaderKey) ->
  existsb (fun h => bytes_eqb (h_key h) RecordTypeHeaderKey) hs = false.
Proof.
  intros H. apply not_true_iff_false. intros E. apply existsb_exists in E as (h & Hin & Heq).
  apply bytes_eqb_spec in Heq. exact (H h Hin Heq).
Qed.

Lemma fold_type_none hs rt :
  (forall h, In h hs -> h_key h <> RecordTypeHeaderKey) ->
  fold_left (fun rt h => if bytes_eqb (h_key h) RecordTypeHeaderKey then h_value h else rt) hs rt = rt.
Proof.
  revert rt. induction hs as [|h hs IH]; intros rt H; cbn; auto.
  destruct (bytes_eqb (h_key h) RecordTypeHeaderKey) eqn:E.
  - apply bytes_eqb_spec in E. exfalso. apply (H h); cbn; auto.
  - apply IH. intros h' Hin. apply H. cbn; auto.
Qed.

Lemma incoming_type_toKafka r :
  (forall h, In h (k_headers (kRecord r)) -> h_key h <> RecordTypeHeaderKey) ->
  i_recordType (newIncomingRecord (toKafkaRecord r)) = recordType r.
Proof.
  intros H. unfold newIncomingRecord, toKafkaRecord, addRecordTypeHeader. cbn [k_headers i_recordType].
  destruct (recordType r) as [|b l] eqn:E; cbn [length Nat.eqb].
  - apply fold_type_none. exact H.
  - rewrite existsb_no_type by exact H. cbn [k_headers].
    rewrite fold_left_app. cbn [fold_left h_key h_value].
    rewrite bytes_eqb_refl. reflexivity.
Qed.

Lemma last_type_header hs d :
  fold_left (fun rt h => if bytes_eqb (h_key h) RecordTypeHeaderKey then h_value h else rt) hs d =
  last (map h_value (filter (fun h => bytes_eqb (h_key h) RecordTypeHeaderKey) hs)) d.
Proof.
  revert d. induction hs as [|h hs IH]; intros d; cbn; auto.
  destruct (bytes_eqb (h_key h) RecordTypeHeaderKey) eqn:E; cbn [map last].
  - rewrite IH. generalize (map h_value (filter (fun h => bytes_eqb (h_key h) RecordTypeHeaderKey) hs)).
    intros [|x l]; auto. change (last (x :: l) (h_value h) = last (x :: l) d).
    clear. revert x. induction l as [|y l IHl]; intros x; cbn; auto. apply IHl.
  - apply IH.
Qed.

Definition spec_headers (ops : list build_op) : list Header :=
  map (fun kv => mkHeader (fst kv) (snd kv)) (written_headers ops).

Lemma hpair_eta hs : map (fun kv => mkHeader (fst kv) (snd kv)) (map hpair hs) = hs.
Proof. induction hs as [|[k v] hs IH]; cbn; congruence. Qed.

Lemma headers_of_build ops : k_headers (kRecord (build ops)) = spec_headers ops.
Proof.
  destruct (build_spec ops) as (_ & _ & C & _).
  unfold spec_headers. rewrite <- C, hpair_eta. reflexivity.
Qed.

Lemma toKafka_fields r :
  k_key (toKafkaRecord r) = keyBuffer r /\
  k_value (toKafkaRecord r) = (if (0 <? length (valueBuffer r))%nat then Some (valueBuffer r) else k_value (kRecord r)) /\
  k_topic (toKafkaRecord r) = k_topic (kRecord r) /\
  k_partition (toKafkaRecord r) = k_partition (kRecord r).
Proof.
  unfold toKafkaRecord, addRecordTypeHeader. cbn [k_headers].
  destruct (length (recordType r) =? 0)%nat; [repeat split|].
  destruct (existsb _ _); repeat split.
Qed.

Lemma toKafka_other_headers r :
  filter (fun h => negb (bytes_eqb (h_key h) RecordTypeHeaderKey)) (k_headers (toKafkaRecord r)) =
  filter (fun h => negb (bytes_eqb (h_key h) RecordTypeHeaderKey)) (k_headers (kRecord r)).
Proof.
  unfold toKafkaRecord, addRecordTypeHeader. cbn [k_headers].
  destruct (length (recordType r) =? 0)%nat; [reflexivity|].
  destruct (existsb _ _); [reflexivity|]. cbn [k_headers].
  rewrite filter_app. cbn. rewrite app_nil_r. reflexivity.
Qed.

Lemma filter_all_true {A} (f : A -> bool) l : (forall x, In x l -> f x = true) -> filter f l = l.
Proof.
  induction l as [|x l IH]; intros H; cbn; auto.
  rewrite (H x) by (cbn; auto). f_equal. apply IH. intros; apply H; cbn; auto.
Qed.

Lemma in_written_headers_spec ops h :
  In h (spec_headers ops) <-> In (hpair h) (written_headers ops).
Proof.
  unfold spec_headers, hpair. rewrite in_map_iff. split.
  - intros ((k & v) & <- & H). exact H.
  - intros H. exists (h_key h, h_value h). split; auto. now destruct h.
Qed.

Lemma roundtrip ops :
  (forall kv, In kv (written_headers ops) -> fst kv <> RecordTypeHeaderKey) ->
  let r := newIncomingRecord (toKafkaRecord (build ops)) in
  i_recordType r = written_type ops /\
  Key r = written_key ops /\
  Value r = written_value ops /\
  k_topic (i_kRecord r) = written_topic ops /\
  k_partition (i_kRecord r) = written_partition ops /\
  map hpair (filter (fun h => negb (bytes_eqb (h_key h) RecordTypeHeaderKey)) (k_headers (i_kRecord r)))
    = written_headers ops.
Proof.
  intros H. cbn zeta.
  destruct (build_spec ops) as (A & B & C & D & E & F & G).
  assert (Hh : forall h, In h (k_headers (kRecord (build ops))) -> h_key h <> RecordTypeHeaderKey).
  { intros h Hin. rewrite headers_of_build in Hin. apply in_written_headers_spec in Hin.
    apply (H _ Hin). }
  destruct (toKafka_fields (build ops)) as (Fk & Fv & Ft & Fp).
  repeat split.
  - rewrite incoming_type_toKafka; auto.
  - unfold Key, newIncomingRecord; cbn [i_kRecord]. rewrite Fk. auto.
  - unfold Value, newIncomingRecord; cbn [i_kRecord]. rewrite Fv, B, G.
    destruct (written_value ops); cbn; auto.
  - cbn [newIncomingRecord i_kRecord]. rewrite Ft. auto.
  - cbn [newIncomingRecord i_kRecord]. rewrite Fp. auto.
  - cbn [newIncomingRecord i_kRecord]. rewrite toKafka_other_headers.
    rewrite filter_all_true; auto.
    intros h Hin. apply Hh in Hin. apply bytes_eqb_neq in Hin. rewrite Hin. reflexivity.
Qed.

(** user-supplied type header wins *)
Lemma user_type_header_wins ops :
  (exists kv, In kv (written_headers ops) /\ fst kv = RecordTypeHeaderKey) ->
  i_recordType (newIncomingRecord (toKafkaRecord (build ops))) =
  last (map snd (filter (fun kv => bytes_eqb (fst kv) RecordTypeHeaderKey) (written_headers ops))) [].
Proof.
  intros ((k & v) & Hin & Hk). cbn in Hk. subst k.
  unfold newIncomingRecord, toKafkaRecord, addRecordTypeHeader. cbn [k_headers i_recordType].
  assert (He : existsb (fun h => bytes_eqb (h_key h) RecordTypeHeaderKey) (k_headers (kRecord (build ops))) = true).
  { apply existsb_exists. exists (mkHeader RecordTypeHeaderKey v). split.
    - rewrite headers_of_build. apply in_written_headers_spec. exact Hin.
    - cbn. apply bytes_eqb_refl. }
  rewrite He. destruct (length (recordType (build ops)) =? 0)%nat; cbn [k_headers];
    rewrite headers_of_build, last_type_header; f_equal;
    unfold spec_headers; clear; induction (written_headers ops) as [|[k w] l IH]; cbn; auto;
    destruct (bytes_eqb k RecordTypeHeaderKey); cbn; congruence.
Qed.

Lemma setRecordType_routes k rt :
  i_recordType (newIncomingRecord (SetRecordType k rt)) = rt.
Proof.
  unfold newIncomingRecord, SetRecordType. cbn. rewrite fold_left_app. cbn.
  reflexivity.
Qed.

(** ** ToKafkaRecord *)
Lemma ToKafkaRecord_type_lost r :
  i_recordType (newIncomingRecord (fst (ToKafkaRecord r))) = [].
Proof. reflexivity. Qed.

Lemma ToKafkaRecord_keyvalue ops :
  Key (newIncomingRecord (fst (ToKafkaRecord (build ops)))) = written_key ops /\
  Value (newIncomingRecord (fst (ToKafkaRecord (build ops)))) = written_value ops /\
  i_recordType (AsIncomingRecord (build ops)) = written_type ops.
Proof.
  destruct (build_spec ops) as (A & B & C & D & E & F & G).
  repeat split; auto.
  unfold Value, newIncomingRecord, ToKafkaRecord; cbn. rewrite B.
  destruct (written_value ops); reflexivity.
Qed.

(** ** markers *)
Lemma marker_is_marker t p m : isMarkerRecord (markerRecord t p m) = true.
Proof. unfold isMarkerRecord, markerRecord. cbn. reflexivity. Qed.

Lemma changed_headers t p r : k_headers (toKafkaRecord (WithPartition p (WithTopic t r))) = k_headers (toKafkaRecord r).
Proof.
  unfold toKafkaRecord, addRecordTypeHeader. cbn [WithPartition WithTopic recordType kRecord k_headers keyBuffer valueBuffer].
  destruct (length (recordType r) =? 0)%nat; [reflexivity|].
  destruct (existsb _ _); reflexivity.
Qed.

Lemma entry_marker_iff ops t p :
  isMarkerRecord (toKafkaRecord (WithPartition p (WithTopic t (build ops)))) = true <->
  exists v, written_headers ops = [(markerKeyString, v)] /\ written_type ops = [].
Proof.
  unfold isMarkerRecord. rewrite changed_headers.
  unfold toKafkaRecord, addRecordTypeHeader. cbn [k_headers].
  rewrite headers_of_build.
  destruct (build_spec ops) as (_ & _ & _ & _ & _ & F & _). rewrite F.
  unfold spec_headers.
  destruct (written_type ops) as [|b l] eqn:T; cbn [length Nat.eqb].
  - cbn [k_headers]. destruct (written_headers ops) as [|[k v] [|? ?]]; cbn [map fst snd h_key].
    + split; [discriminate | intros (v & H & _); discriminate].
    + rewrite bytes_eqb_spec. split.
      * intros ->. exists v. auto.
      * intros (v' & H & _). congruence.
    + split; [discriminate | intros (v' & H & _); discriminate].
  - assert (X : forall P, (exists v, written_headers ops = [(markerKeyString, v)] /\ b :: l = []) -> P : Prop).
    { intros P (v & _ & H). discriminate. }
    split; [|apply X].
    destruct (existsb (fun h => bytes_eqb (h_key h) RecordTypeHeaderKey) _) eqn:Ex; cbn [k_headers].
    + destruct (written_headers ops) as [|[k v] [|? ?]]; cbn [map fst snd h_key] in *; try discriminate.
      intros M. apply bytes_eqb_spec in M. subst k.
      cbn [existsb h_key] in Ex. vm_compute in Ex. discriminate.
    + destruct (written_headers ops) as [|[k v] [|? ?]]; cbn [map fst snd h_key app]; try discriminate.
Qed.

(** ** OptionalPartitioner *)
Lemma op_manual op t r n : k_partition r <> -1 -> op_partition op t r n = k_partition r.
Proof.
  intros H. unfold op_partition, AutoAssign. destruct (k_partition r =? -1) eqn:E; auto.
  apply Z.eqb_eq in E. contradiction.
Qed.

Lemma op_auto_default p t r n : k_partition r = -1 -> op_partition (NewOptionalPartitioner p) t r n = p t r n.
Proof. intros H. unfold op_partition, AutoAssign. rewrite H. reflexivity. Qed.

Lemma lookup_first m t p m1 m2 :
  m = m1 ++ (t, p) :: m2 -> (forall t' p', In (t', p') m1 -> t' <> t) -> lookupPartitioner m t = Some p.
Proof.
  intros -> H. induction m1 as [|[t' p'] m1 IH]; cbn.
  - rewrite bytes_eqb_refl. reflexivity.
  - destruct (bytes_eqb t t') eqn:E.
    + apply bytes_eqb_spec in E. subst. exfalso. apply (H t' p'); cbn; auto.
    + apply IH. intros t2 p2 Hin. apply (H t2 p2). cbn; auto.
Qed.

Lemma lookup_none m t : (forall t' p', In (t', p') m -> t' <> t) -> lookupPartitioner m t = None.
Proof.
  induction m as [|[t' p'] m IH]; intros H; cbn; auto.
  destruct (bytes_eqb t t') eqn:E.
  - apply bytes_eqb_spec in E. subst. exfalso. apply (H t' p'); cbn; auto.
  - apply IH. intros t2 p2 Hin. apply (H t2 p2). cbn; auto.
Qed.

Lemma op_auto_override op t r n m1 p m2 :
  k_partition r = -1 -> op_topics op = m1 ++ (t, p) :: m2 -> (forall t' p', In (t', p') m1 -> t' <> t) ->
  op_partition op t r n = p t r n.
Proof.
  intros H Hm Hf. unfold op_partition, AutoAssign. rewrite H. cbn.
  rewrite (lookup_first _ _ _ _ _ Hm Hf). reflexivity.
Qed.

Lemma op_auto_nooverride op t r n :
  k_partition r = -1 -> (forall t' p', In (t', p') (op_topics op) -> t' <> t) ->
  op_partition op t r n = op_default op t r n.
Proof.
  intros H Hf. unfold op_partition, AutoAssign. rewrite H. cbn.
  rewrite (lookup_none _ _ Hf). reflexivity.
Qed.

(** ** RecordChange *)
Lemma recordChange_map t p es :
  t <> [] -> RecordChange t p es = map (fun e => WithPartition p (WithTopic t e)) es.
Proof.
  intros H. unfold RecordChange. destruct t as [|b t]; [congruence|]. cbn [length Nat.ltb Nat.leb].
  induction es; cbn; congruence.
Qed.

Lemma recordChange_spec t p opss :
  t <> [] ->
  map toKafkaRecord (RecordChange t p (map build opss)) =
  map (fun ops => let k := toKafkaRecord (build ops) in
        mkKRecord (k_key k) (k_value k) (k_headers k) t p (k_offset k)) opss.
Proof.
  intros H. rewrite recordChange_map by auto. rewrite !map_map. apply map_ext. intros ops.
  unfold toKafkaRecord, addRecordTypeHeader. cbn [WithPartition WithTopic recordType kRecord k_headers keyBuffer valueBuffer k_value k_key k_offset k_topic k_partition].
  destruct (length (recordType (build ops)) =? 0)%nat; [reflexivity|].
  destruct (existsb _ _); reflexivity.
Qed.
