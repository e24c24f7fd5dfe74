(** Properties C11, C12, C14, C60, C61. *)
From Coq Require Import Strings.String Strings.Byte ZArith List.
From Verif.Base Require Import Bytes.
From Verif.Record Require Import Model Spec Proofs.
Import ListNotations.
Open Scope Z_scope.

(** C11: whatever an application builds (any sequence of builder calls, none adding the reserved
    header), produced with toKafkaRecord and consumed with newIncomingRecord, shows the same type, key,
    value, topic, partition and the same other headers in the same order. *)
Theorem c11_record_roundtrip :
  forall ops,
  (forall kv, In kv (written_headers ops) -> fst kv <> RecordTypeHeaderKey) ->
  let r := newIncomingRecord (toKafkaRecord (build ops)) in
  i_recordType r = written_type ops /\
  Key r = written_key ops /\
  Value r = written_value ops /\
  k_topic (i_kRecord r) = written_topic ops /\
  k_partition (i_kRecord r) = written_partition ops /\
  map hpair (filter (fun h => negb (bytes_eqb (h_key h) RecordTypeHeaderKey)) (k_headers (i_kRecord r)))
    = written_headers ops.
Proof. exact roundtrip. Qed.
Print Assumptions c11_record_roundtrip.

(** C11, the reserved header: if the application itself added type headers, the last of them decides and
    the declared type is not added. *)
Theorem c11_user_type_header_wins :
  forall ops,
  (exists kv, In kv (written_headers ops) /\ fst kv = RecordTypeHeaderKey) ->
  i_recordType (newIncomingRecord (toKafkaRecord (build ops))) =
  last (map snd (filter (fun kv => bytes_eqb (fst kv) RecordTypeHeaderKey) (written_headers ops))) [].
Proof. exact user_type_header_wins. Qed.
Print Assumptions c11_user_type_header_wins.

(** C11, SetRecordType on a raw kgo.Record: always decides the type, whatever headers are there. *)
Theorem c11_set_record_type :
  forall k rt, i_recordType (newIncomingRecord (SetRecordType k rt)) = rt.
Proof. exact setRecordType_routes. Qed.
Print Assumptions c11_set_record_type.

Definition ex_ops : list build_op :=
  [OpType (str "a"); OpKey [str "k"; str "1"]; OpHeader (str "h") (str "x"); OpValue [str "v"];
   OpHeader (str "h") (str "y"); OpType (str "Order"); OpPartition 4; OpTopic (str "t"); OpKey [str "2"]].
Example c11_example :
  (forall kv, In kv (written_headers ex_ops) -> fst kv <> RecordTypeHeaderKey) /\
  i_recordType (newIncomingRecord (toKafkaRecord (build ex_ops))) = str "Order" /\
  Key (newIncomingRecord (toKafkaRecord (build ex_ops))) = str "k12" /\
  length (k_headers (toKafkaRecord (build ex_ops))) = 3%nat.
Proof.
  split.
  - intros kv Hin. cbn in Hin. destruct Hin as [<-|[<-|[]]]; cbn; discriminate.
  - vm_compute. auto.
Qed.
Example c11_user_header_example :
  i_recordType (newIncomingRecord (toKafkaRecord (build [OpType (str "Order"); OpHeader RecordTypeHeaderKey (str "x")]))) = str "x".
Proof. vm_compute. reflexivity. Qed.

(** C12: the exported ToKafkaRecord puts the type header on the wrong record.  The kgo.Record it returns
    has no type, whatever the type of the Record was. *)
Theorem c12_type_lost_refuted :
  exists r, recordType r = str "Order" /\
    i_recordType (newIncomingRecord (fst (ToKafkaRecord r))) <> recordType r.
Proof.
  exact (ex_intro _ (build ex_ops) (conj eq_refl (fun H : [] = str "Order" => match H with end))).
Qed.
Print Assumptions c12_type_lost_refuted.

Theorem c12_type_always_lost :
  forall r, i_recordType (newIncomingRecord (fst (ToKafkaRecord r))) = [].
Proof. exact ToKafkaRecord_type_lost. Qed.
Print Assumptions c12_type_always_lost.

(** What ToKafkaRecord does keep; missing: type, headers, topic and partition.  AsIncomingRecord, used
    to build mock events, repairs the type. *)
Theorem c12_key_value_kept_partial :
  forall ops,
  Key (newIncomingRecord (fst (ToKafkaRecord (build ops)))) = written_key ops /\
  Value (newIncomingRecord (fst (ToKafkaRecord (build ops)))) = written_value ops /\
  i_recordType (AsIncomingRecord (build ops)) = written_type ops.
Proof. exact ToKafkaRecord_keyvalue. Qed.
Print Assumptions c12_key_value_kept_partial.
Example c12_example : Value (newIncomingRecord (fst (ToKafkaRecord (build ex_ops)))) = str "v".
Proof. vm_compute. reflexivity. Qed.

(** C14: exactly which change-log entries are taken for internal markers: those with the single header
    "gkes__mark" and no record type.  Everything else is an ordinary record, and real markers are
    always recognised. *)
Theorem c14_entry_is_marker_iff :
  forall ops topic partition,
  isMarkerRecord (toKafkaRecord (WithPartition partition (WithTopic topic (build ops)))) = true <->
  exists v, written_headers ops = [(markerKeyString, v)] /\ written_type ops = [].
Proof. exact entry_marker_iff. Qed.
Print Assumptions c14_entry_is_marker_iff.

Theorem c14_markers_recognised :
  forall topic partition mark, isMarkerRecord (markerRecord topic partition mark) = true.
Proof. exact marker_is_marker. Qed.
Print Assumptions c14_markers_recognised.

(** the unrestricted claim is false: an entry with exactly that header is swallowed *)
Theorem c14_swallowed_entry_refuted :
  exists ops, written_key ops = str "k" /\ written_value ops = str "v" /\
    isMarkerRecord (toKafkaRecord (WithPartition 0 (WithTopic (str "t") (build ops)))) = true.
Proof.
  exact (ex_intro _ [OpKey [str "k"]; OpValue [str "v"]; OpHeader (str "gkes__mark") []]
    (conj eq_refl (conj eq_refl eq_refl))).
Qed.
Print Assumptions c14_swallowed_entry_refuted.
Example c14_example :
  isMarkerRecord (toKafkaRecord (WithPartition 3 (WithTopic (str "cl") (build ex_ops)))) = false /\
  isMarkerRecord (markerRecord (str "cl") 3 (str "uuid")) = true.
Proof. vm_compute. auto. Qed.

(** C60: OptionalPartitioner *)
Theorem c60_explicit_partition :
  forall op topic r n, k_partition r <> -1 -> op_partition op topic r n = k_partition r.
Proof. exact op_manual. Qed.
Print Assumptions c60_explicit_partition.

Theorem c60_auto_uses_override :
  forall op t r n m1 p m2,
  k_partition r = -1 -> op_topics op = m1 ++ (t, p) :: m2 -> (forall t' p', In (t', p') m1 -> t' <> t) ->
  op_partition op t r n = p t r n.
Proof. exact op_auto_override. Qed.
Print Assumptions c60_auto_uses_override.

Theorem c60_auto_uses_default :
  forall op t r n,
  k_partition r = -1 -> (forall t' p', In (t', p') (op_topics op) -> t' <> t) ->
  op_partition op t r n = op_default op t r n.
Proof. exact op_auto_nooverride. Qed.
Print Assumptions c60_auto_uses_default.

Definition ex_op : OptionalPartitioner :=
  mkOP (fun _ _ n => 7 mod n) [(str "a", fun _ _ _ => 2)].
Definition ex_rec (p : Z) : KRecord := mkKRecord (str "k") None [] [] p 0.
Example c60_example :
  op_partition ex_op (str "a") (ex_rec (-1)) 5 = 2 /\ op_partition ex_op (str "b") (ex_rec (-1)) 5 = 2 mod 5 /\
  op_partition ex_op (str "b") (ex_rec (-1)) 4 = 3 /\ op_partition ex_op (str "a") (ex_rec 4) 5 = 4.
Proof. vm_compute. auto. Qed.

(** C61: RecordChange redirects every entry, in order, to the change-log topic and the event's own
    partition number, touching nothing else; without a change-log nothing is produced.  (Forward
    hands its records on as they are; what they look like on the wire is C11.) *)
Theorem c61_changes_stay_with_partition :
  forall t p opss, t <> [] ->
  map toKafkaRecord (RecordChange t p (map build opss)) =
  map (fun ops => let k := toKafkaRecord (build ops) in
        mkKRecord (k_key k) (k_value k) (k_headers k) t p (k_offset k)) opss.
Proof. exact recordChange_spec. Qed.
Print Assumptions c61_changes_stay_with_partition.

Theorem c61_not_stateful_no_records :
  forall p es, RecordChange [] p es = [].
Proof. exact (fun p es => list_ind (fun es => RecordChange [] p es = []) eq_refl (fun _ _ IH => IH) es). Qed.
Print Assumptions c61_not_stateful_no_records.

Example c61_example :
  map (fun k => (k_topic k, k_partition k, k_key k))
    (map toKafkaRecord (RecordChange (str "cl") 3 (map build [ex_ops; [OpKey [str "z"]; OpTopic (str "other")]])))
  = [(str "cl", 3, str "k12"); (str "cl", 3, str "z")].
Proof. vm_compute. reflexivity. Qed.
