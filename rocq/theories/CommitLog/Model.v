(** Model of streams/commit_log.go (eosCommitLog). *)
From Coq Require Import Strings.Byte ZArith List Bool.
From stdpp Require Import gmap.
From Verif.Base Require Import GoInt Bytes BytesMap.
From Verif.Codec Require Import Model.
From Verif.Record Require Import Model.
Import ListNotations.
Open Scope Z_scope.

(** topics.go:31-36 [TopicPartition]: int32 partition and topic name *)
Record TopicPartition := ntp { tp_partition : Z; tp_topic : bytes }.

(** commit_log.go:38-43 *)
Definition writeTopicPartitionToBytes (tp : TopicPartition) (b : bytes) : bytes :=
  (b ++ le_bytes intByteSize (u64 (tp_partition tp))) ++ tp_topic tp.

(** commit_log.go:55-59; the slice expression [b[intByteSize:]] cannot fail when the read before it
    stayed inside the slice *)
Definition topicPartitionFromBytes (b : bytes) : outcome TopicPartition :=
  match readIntegerFromByteArray s32 b with
  | Ok p => Ok (ntp p (skipn intByteSize b))
  | Panic => Panic
  | OutOfBounds => OutOfBounds
  end.

(** commit_log.go:26-34: the immutable part of eosCommitLog *)
Record clConfig := mkClConfig { cl_topic : bytes; cl_numPartitions : Z }.

(** commit_log.go:72-74; Go's % truncates towards zero *)
Definition commitRecordPartition (cl : clConfig) (tp : TopicPartition) : Z :=
  Z.rem (tp_partition tp) (cl_numPartitions cl).

(** commit_log.go:76-82, int64 addition wraps *)
Definition commitRecord (cl : clConfig) (tp : TopicPartition) (offset : Z) : Record_ :=
  let record := WithPartition (commitRecordPartition cl tp) (WithTopic (cl_topic cl) blankRecord) in
  mkRecord (writeTopicPartitionToBytes tp (keyBuffer record))
           (writeSignedIntToByteArray (s64 (offset + 1)) (valueBuffer record))
           (kRecord record) (recordType record).

(** the mutable part: watermarks (keyed by the partition number alone) and the pending syncs.
    A sync.WaitGroup with count one is identified with its mark; [released] collects the marks whose
    WaitGroup has been released. *)
Record clState := mkCl {
  watermarks : gmap Z Z;
  pendingSyncs : gset bytes;
  released : gset bytes;
}.
Definition clInit : clState := mkCl ∅ ∅ ∅.

(** commit_log.go:99-106 *)
Definition closeSyncRequest (mark : bytes) (s : clState) : clState :=
  if decide (mark ∈ pendingSyncs s)
  then mkCl (watermarks s) (pendingSyncs s ∖ {[mark]}) (released s ∪ {[mark]})
  else s.

(** commit_log.go:84-95; the mutex makes the update atomic *)
Definition ReceiveChange (r : IncomingRecord) (s : clState) : outcome clState :=
  if isMarkerRecord (i_kRecord r) then Ok (closeSyncRequest (Value r) s)
  else
    match topicPartitionFromBytes (Key r) with
    | Ok tp =>
        match readIntegerFromByteArray s64 (Value r) with
        | Ok offset => Ok (mkCl (<[tp_partition tp := offset]> (watermarks s)) (pendingSyncs s) (released s))
        | Panic => Panic
        | OutOfBounds => OutOfBounds
        end
    | Panic => Panic
    | OutOfBounds => OutOfBounds
    end.

(** commit_log.go:137-144 *)
Definition Watermark (tp : TopicPartition) (s : clState) : Z :=
  match watermarks s !! tp_partition tp with Some offset => offset | None => -1 end.

(** consuming a list of kgo.Records (global_change_log.go, ReceiveChange for each record in order) *)
Fixpoint receiveAll (log : list KRecord) (s : clState) : outcome clState :=
  match log with
  | [] => Ok s
  | k :: log' =>
      match ReceiveChange (newIncomingRecord k) s with
      | Ok s' => receiveAll log' s'
      | Panic => Panic
      | OutOfBounds => OutOfBounds
      end
  end.

(** ** The commit log with its concurrent users

    One instance consumes all partitions of the commit-log topic; any number of goroutines run
    lastProcessed (commit_log.go:121-135).  Transactions of any instance append commit records; other
    instances append markers.  Each action is one atomic step of one of them.  sendMarkerMessage
    (state_store_consumer.go:308-322) produces once and returns the error; syncCommitLogPartition drops it
    (commit_log.go:133) and waits all the same: [AMarkerLost].  The broker compacts the topic
    (commit_log.go:68, CompactCleanupPolicy): a record with a later record of the same key may be gone when
    the consumer gets there.  [w_logs] keeps every record ever written and the consumer passes over such a
    record: [ASkip].  (Every record that compaction removed before the consumer reached it has a later
    record with the same key at that time, so every run of a compacting broker is a run here.)  Not
    modelled: retention, and brokers that lose records. *)
Inductive syncStage :=
| Registered   (* mark stored in pendingSyncs, marker not yet written: commit_log.go:127-132 *)
| Waiting      (* sendMarkerMessage has returned, blocked in markWaiter.Wait: 133-134 *)
| Returned (w : Z) (* Watermark read: 123 *).
Record syncState := mkSync {
  sy_tp : TopicPartition;
  sy_mark : bytes;
  sy_stage : syncStage;
}.

Record world := mkWorld {
  w_logs : gmap Z (list KRecord);   (* commit-log partition -> records, oldest first *)
  w_pos : gmap Z nat;               (* consumer position per commit-log partition *)
  w_cl : clState;
  w_syncs : gmap nat syncState;     (* one per goroutine in lastProcessed *)
  w_marks : gset bytes;             (* every mark ever drawn (uuid.NewString never repeats) *)
}.
Definition w_log (w : world) (cp : Z) : list KRecord := default [] (w_logs w !! cp).
Definition w_position (w : world) (cp : Z) : nat := default 0%nat (w_pos w !! cp).
Definition worldInit : world := mkWorld ∅ ∅ clInit ∅ ∅.

Inductive action :=
| ACommit (tp : TopicPartition) (offset : Z)         (* a committed transaction's commit record appears *)
| AStartSync (id : nat) (tp : TopicPartition) (mark : bytes)
| ASendMarker (id : nat)
| AForeignMarker (cp : Z) (mark : bytes)             (* another instance syncs *)
| AMarkerLost (id : nat)                             (* the produce call of the marker fails *)
| AConsume (cp : Z)
| ASkip (cp : Z)                                     (* the record to be read next has been compacted away *)
| AReadWatermark (id : nat).

Definition append (cp : Z) (k : KRecord) (w : world) : world :=
  mkWorld (<[cp := w_log w cp ++ [k]]> (w_logs w)) (w_pos w) (w_cl w) (w_syncs w) (w_marks w).

Definition step (cl : clConfig) (w : world) (a : action) : option world :=
  match a with
  | ACommit tp offset =>
      let k := toKafkaRecord (commitRecord cl tp offset) in
      Some (append (k_partition k) k w)
  | AStartSync id tp mark =>
      if decide (w_syncs w !! id = None /\ mark ∉ w_marks w) then
        Some (mkWorld (w_logs w) (w_pos w)
          (mkCl (watermarks (w_cl w)) (pendingSyncs (w_cl w) ∪ {[mark]}) (released (w_cl w)))
          (<[id := mkSync tp mark Registered]> (w_syncs w))
          (w_marks w ∪ {[mark]}))
      else None
  | ASendMarker id =>
      match w_syncs w !! id with
      | Some (mkSync tp mark Registered) =>
          let cp := commitRecordPartition cl tp in
          let w' := append cp (markerRecord (cl_topic cl) cp mark) w in
          Some (mkWorld (w_logs w') (w_pos w') (w_cl w')
                        (<[id := mkSync tp mark Waiting]> (w_syncs w)) (w_marks w'))
      | _ => None
      end
  | AForeignMarker cp mark =>
      if decide (mark ∉ w_marks w) then
        let w' := append cp (markerRecord (cl_topic cl) cp mark) w in
        Some (mkWorld (w_logs w') (w_pos w') (w_cl w') (w_syncs w') (w_marks w' ∪ {[mark]}))
      else None
  | AMarkerLost id =>
      match w_syncs w !! id with
      | Some (mkSync tp mark Registered) =>
          Some (mkWorld (w_logs w) (w_pos w) (w_cl w) (<[id := mkSync tp mark Waiting]> (w_syncs w)) (w_marks w))
      | _ => None
      end
  | ASkip cp =>
      match w_log w cp !! w_position w cp with
      | Some k =>
          if decide (Exists (fun k' => k_key k' = k_key k) (drop (S (w_position w cp)) (w_log w cp))) then
            Some (mkWorld (w_logs w) (<[cp := S (w_position w cp)]> (w_pos w)) (w_cl w) (w_syncs w) (w_marks w))
          else None
      | None => None
      end
  | AConsume cp =>
      match w_log w cp !! w_position w cp with
      | Some k =>
          match ReceiveChange (newIncomingRecord k) (w_cl w) with
          | Ok s' => Some (mkWorld (w_logs w) (<[cp := S (w_position w cp)]> (w_pos w)) s' (w_syncs w) (w_marks w))
          | _ => None
          end
      | None => None
      end
  | AReadWatermark id =>
      match w_syncs w !! id with
      | Some (mkSync tp mark Waiting) =>
          if decide (mark ∈ released (w_cl w)) then
            Some (mkWorld (w_logs w) (w_pos w) (w_cl w)
                   (<[id := mkSync tp mark (Returned (Watermark tp (w_cl w)))]> (w_syncs w)) (w_marks w))
          else None
      | _ => None
      end
  end.

Fixpoint run (cl : clConfig) (w : world) (acts : list action) : option world :=
  match acts with
  | [] => Some w
  | a :: acts' => match step cl w a with Some w' => run cl w' acts' | None => None end
  end.
