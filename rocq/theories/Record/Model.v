(** Model of streams/record.go (records, headers, partitioner), streams/topics.go:306-308 (markers),
    streams/event_context.go:136-163 (Forward, RecordChange) and
    streams/state_store_consumer.go:308-312 (marker records). *)
From Coq Require Import Strings.String Strings.Byte ZArith List Bool.
From Verif.Base Require Import Bytes.
Import ListNotations.
Open Scope Z_scope.

Definition str (s : string) : bytes := list_byte_of_string s.

(** kgo.RecordHeader *)
Record Header := mkHeader { h_key : bytes; h_value : bytes }.

(** kgo.Record, restricted to the fields the library touches.  A nil Value is [None]
    (Kafka tombstone); a nil Key and an empty Key are identified.  LeaderEpoch, Timestamp etc. are
    dropped: the library only passes them through. *)
Record KRecord := mkKRecord {
  k_key : bytes;
  k_value : option bytes;
  k_headers : list Header;
  k_topic : bytes;
  k_partition : Z;
  k_offset : Z;
}.

(** record.go:44-50 [Record].  The two bytes.Buffers are byte strings.  err is dropped (set by the producer). *)
Record Record_ := mkRecord {
  keyBuffer : bytes;
  valueBuffer : bytes;
  kRecord : KRecord;
  recordType : bytes;
}.

(** record.go:84-87 *)
Record IncomingRecord := mkIncoming { i_kRecord : KRecord; i_recordType : bytes }.

(** record.go:30, 32 *)
Definition RecordTypeHeaderKey : bytes := str "__grt__".
Definition AutoAssign : Z := -1.
(** state_store_consumer.go:37 *)
Definition markerKeyString : bytes := str "gkes__mark".

(** kgo.Record zero value with Partition: AutoAssign, as in record.go:55-59 and 65-69 *)
Definition blankKRecord : KRecord := mkKRecord [] None [] [] AutoAssign 0.
(** record.go:53-63, the pool's factory *)
Definition blankRecord : Record_ := mkRecord [] [] blankKRecord [].

(** record.go:63-78, the pool's resetter.  The Headers test on line 70 sees the fresh kRecord, so it is
    dead code and omitted. *)
Definition resetRecord (r : Record_) : Record_ := mkRecord [] [] blankKRecord [].

(** record.go:154-158, 160-164, 191-199 WriteKey/WriteKeyString/WithKey/WithKeyString *)
Definition WriteKey (bs : list bytes) (r : Record_) : Record_ :=
  mkRecord (fold_left (@List.app byte) bs (keyBuffer r)) (valueBuffer r) (kRecord r) (recordType r).
(** record.go:170-174, 176-180, 201-204 *)
Definition WriteValue (bs : list bytes) (r : Record_) : Record_ :=
  mkRecord (keyBuffer r) (fold_left (@List.app byte) bs (valueBuffer r)) (kRecord r) (recordType r).
(** record.go:186-189 *)
Definition WithTopic (t : bytes) (r : Record_) : Record_ :=
  let k := kRecord r in
  mkRecord (keyBuffer r) (valueBuffer r)
    (mkKRecord (k_key k) (k_value k) (k_headers k) t (k_partition k) (k_offset k)) (recordType r).
(** record.go:206-209 *)
Definition WithHeader (key value : bytes) (r : Record_) : Record_ :=
  let k := kRecord r in
  mkRecord (keyBuffer r) (valueBuffer r)
    (mkKRecord (k_key k) (k_value k) (k_headers k ++ [mkHeader key value]) (k_topic k) (k_partition k) (k_offset k))
    (recordType r).
(** record.go:211-214, 346-349 *)
Definition WithRecordType (t : bytes) (r : Record_) : Record_ :=
  mkRecord (keyBuffer r) (valueBuffer r) (kRecord r) t.
(** record.go:216-219 *)
Definition WithPartition (p : Z) (r : Record_) : Record_ :=
  let k := kRecord r in
  mkRecord (keyBuffer r) (valueBuffer r)
    (mkKRecord (k_key k) (k_value k) (k_headers k) (k_topic k) p (k_offset k)) (recordType r).

(** record.go:221-234 [addRecordTypeHeader]: returns the updated kgo.Record *)
Definition addRecordTypeHeader (rt : bytes) (k : KRecord) : KRecord :=
  if (length rt =? 0)%nat then k
  else if existsb (fun h => bytes_eqb (h_key h) RecordTypeHeaderKey) (k_headers k) then k
  else mkKRecord (k_key k) (k_value k) (k_headers k ++ [mkHeader RecordTypeHeaderKey rt])
                 (k_topic k) (k_partition k) (k_offset k).

(** record.go:237-255 [toKafkaRecord]: updates r.kRecord in place and returns it *)
Definition toKafkaRecord (r : Record_) : KRecord :=
  let k := kRecord r in
  let k1 := mkKRecord (keyBuffer r)
                      (if (0 <? length (valueBuffer r))%nat then Some (valueBuffer r) else k_value k)
                      (k_headers k) (k_topic k) (k_partition k) (k_offset k) in
  addRecordTypeHeader (recordType r) k1.

(** record.go:258-269 [ToKafkaRecord]: returns (new kgo.Record, r afterwards); the header is added to
    r.kRecord. *)
Definition ToKafkaRecord (r : Record_) : KRecord * Record_ :=
  let record := mkKRecord (keyBuffer r)
                          (if (0 <? length (valueBuffer r))%nat then Some (valueBuffer r) else None)
                          [] [] 0 0 in
  (record, mkRecord (keyBuffer r) (valueBuffer r) (addRecordTypeHeader (recordType r) (kRecord r)) (recordType r)).

(** record.go:272-277 *)
Definition AsIncomingRecord (r : Record_) : IncomingRecord :=
  mkIncoming (fst (ToKafkaRecord r)) (recordType r).

(** record.go:286-291 *)
Definition SetRecordType (k : KRecord) (rt : bytes) : KRecord :=
  mkKRecord (k_key k) (k_value k) (k_headers k ++ [mkHeader RecordTypeHeaderKey rt])
            (k_topic k) (k_partition k) (k_offset k).

(** record.go:89-99 [newIncomingRecord]: the loop overwrites recordType at every matching header *)
Definition newIncomingRecord (k : KRecord) : IncomingRecord :=
  mkIncoming k
    (fold_left (fun rt h => if bytes_eqb (h_key h) RecordTypeHeaderKey then h_value h else rt)
               (k_headers k) []).

(** record.go:121-127; a nil slice reads as empty *)
Definition Key (r : IncomingRecord) : bytes := k_key (i_kRecord r).
Definition Value (r : IncomingRecord) : bytes :=
  match k_value (i_kRecord r) with Some v => v | None => [] end.
(** record.go:133-140 *)
Fixpoint headerValue (hs : list Header) (name : bytes) : option bytes :=
  match hs with
  | [] => None
  | h :: hs' => if bytes_eqb (h_key h) name then Some (h_value h) else headerValue hs' name
  end.
Definition HeaderValue (r : IncomingRecord) (name : bytes) : option bytes :=
  headerValue (k_headers (i_kRecord r)) name.

(** record.go:34-42 [recordSize] *)
Definition recordSize (k : KRecord) : nat :=
  fold_left (fun n h => n + length (h_key h) + length (h_value h))%nat (k_headers k)
    (length (k_key k) + length (match k_value k with Some v => v | None => [] end))%nat.

(** topics.go:306-308 *)
Definition isMarkerRecord (k : KRecord) : bool :=
  match k_headers k with
  | [h] => bytes_eqb (h_key h) markerKeyString
  | _ => false
  end.

(** state_store_consumer.go:308-312: the record that sendMarkerMessage produces *)
Definition markerRecord (topic : bytes) (partition : Z) (mark : bytes) : KRecord :=
  mkKRecord markerKeyString (Some mark) [mkHeader markerKeyString []] topic partition 0.

(** record.go:356-404 OptionalPartitioner.  A kgo.Partitioner is an oracle
    [topic -> record -> numPartitions -> partition]; the manual partitioner returns r.Partition
    (franz-go ManualPartitioner); the per-topic map is an association list (first hit). *)
Definition Partitioner := bytes -> KRecord -> Z -> Z.
Definition manualPartitioner : Partitioner := fun _ r _ => k_partition r.
Record OptionalPartitioner := mkOP {
  op_default : Partitioner;
  op_topics : list (bytes * Partitioner);
}.
Fixpoint lookupPartitioner (m : list (bytes * Partitioner)) (t : bytes) : option Partitioner :=
  match m with
  | [] => None
  | (t', p) :: m' => if bytes_eqb t t' then Some p else lookupPartitioner m' t
  end.
(** record.go:384-393 ForTopic and 399-404 Partition *)
Definition op_partition (op : OptionalPartitioner) (topic : bytes) (r : KRecord) (n : Z) : Z :=
  let partitioner := match lookupPartitioner (op_topics op) topic with Some p => p | None => op_default op end in
  if k_partition r =? AutoAssign then partitioner topic r n else manualPartitioner topic r n.
(** record.go:370-372 *)
Definition NewOptionalPartitioner (p : Partitioner) : OptionalPartitioner := mkOP p [].

(** event_context.go:136-140 [Forward]: the records handed to ProduceRecord, in order *)
Definition Forward (records : list Record_) : list Record_ := records.
(** event_context.go:150-163 [RecordChange]: the records handed to ProduceRecord, in order.
    [clTopic] is ec.changeLog.topic, [partition] is ec.topicPartition.Partition. *)
Definition RecordChange (clTopic : bytes) (partition : Z) (entries : list Record_) : list Record_ :=
  flat_map (fun entry =>
    if (0 <? length clTopic)%nat
    then [WithPartition partition (WithTopic clTopic entry)]
    else []) entries.
