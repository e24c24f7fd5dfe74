(** Model of topic resolution and creation: streams/topics.go:130-282. *)
From Coq Require Import Strings.Byte ZArith List Bool.
From Verif.Base Require Import Bytes.
From Verif.Record Require Import Model.
From Verif.Config Require Import Model.
Import ListNotations.
Open Scope Z_scope.

(** error values: network errors (a *net.OpError somewhere in the chain) and all others *)
Inductive error := NetError | OtherError.

(** The parts of a Kafka cluster the code looks at: partition count and replica count per topic.
    The source cluster holds the source topic, the state cluster the commit log and the change log. *)
Record topicInfo := mkTopic { t_partitions : Z; t_replicas : Z }.
Record clusters := mkClusters {
  c_source : option topicInfo; c_commitLog : option topicInfo; c_changeLog : option topicInfo }.

(** kadm.CreateTopics answers with a request error or with one result per topic.
    [topicCreated None] = the topic exists now as requested; [topicCreated (Some i)] = it was rejected for this
    topic (already exists, invalid replication factor, ...) and its true state is [i]. *)
Inductive createAnswer :=
| requestFailed (e : error)
| topicCreated (rejected : option (option topicInfo)).

(** the answers of the admin clients during one attempt *)
Record admin := mkAdmin {
  ad_listSource : option error;
  ad_createSource : createAnswer;
  ad_listEos : option error;
  ad_createCommitLog : createAnswer;
  ad_createChangeLog : createAnswer }.

(** topics.go:130-145 createTopic: only the request error is looked at, per-topic errors are logged and
    dropped.  The conversions to int32 and int16 are omitted (counts fit). *)
Definition createTopic (a : createAnswer) (partitions replicas : Z) : option error * option topicInfo :=
  match a with
  | requestFailed e => (Some e, None)
  | topicCreated None => (None, Some (mkTopic partitions replicas))
  | topicCreated (Some actual) => (None, actual)
  end.

(** source.go:43-62: setters for the config fields rewritten below *)
Definition setPartitions (c : sourceConfig) (n rf : Z) : sourceConfig :=
  mkSC (GroupId c) (Topic c) (StateStoreTopic c) n rf (MinInSync c) (CommitLogPartitions c).
Definition setCommitLogPartitions (c : sourceConfig) (n : Z) : sourceConfig :=
  mkSC (GroupId c) (Topic c) (StateStoreTopic c) (NumPartitions c) (ReplicationFactor c) (MinInSync c) n.

(** topics.go:229-282 [resolveOrCreateTopics]; the result is an error or the corrected config, and the
    clusters afterwards.  The mismatch error of line 270 is an OtherError. *)
Definition resolveOrCreateTopics (ad : admin) (c : sourceConfig) (w : clusters) : (error + sourceConfig) * clusters :=
  match ad_listSource ad with
  | Some e => (inl e, w)
  | None =>
    let after1 :=
      match c_source w with
      | Some i => inr (setPartitions c (t_partitions i) (t_replicas i), w)
      | None =>
          match createTopic (ad_createSource ad) (NumPartitions c) (replicationFactorConfig c) with
          | (Some e, _) => inl (e, w)
          | (None, i) => inr (c, mkClusters i (c_commitLog w) (c_changeLog w))
          end
      end in
    match after1 with
    | inl (e, w1) => (inl e, w1)
    | inr (c1, w1) =>
      match ad_listEos ad with
      | Some e => (inl e, w1)
      | None =>
        let after2 :=
          match c_commitLog w1 with
          | Some i => inr (setCommitLogPartitions c1 (t_partitions i), w1)
          | None =>
              match createTopic (ad_createCommitLog ad) (commitLogPartitionsConfig c1) (replicationFactorConfig c1) with
              | (Some e, _) => inl (e, w1)
              | (None, i) => inr (c1, mkClusters (c_source w1) i (c_changeLog w1))
              end
          end in
        match after2 with
        | inl (e, w2) => (inl e, w2)
        | inr (c2, w2) =>
          if (0 <? length (StateStoreTopicName c2))%nat then
            match c_changeLog w2 with
            | Some i => if negb (t_partitions i =? NumPartitions c2) then (inl OtherError, w2) else (inr c2, w2)
            | None =>
                match createTopic (ad_createChangeLog ad) (NumPartitions c2) (replicationFactorConfig c2) with
                | (Some e, _) => (inl e, w2)
                | (None, i) => (inr c2, mkClusters (c_source w2) (c_commitLog w2) i)
                end
            end
          else (inr c2, w2)
        end
      end
    end
  end.

(** topics.go:189-201 [isNetworkError]: for any other error opError is nil and opError.Op on line 198 is
    a nil dereference *)
Inductive verdict := Yes | No | Crash.
Definition isNetworkError (err : option error) : verdict :=
  match err with
  | None => No
  | Some NetError => Yes
  | Some OtherError => Crash
  end.

(** outcome of CreateSource / CreateDestination *)
Inductive outcome (A : Type) := Returned (err : option error) (a : A) | Crashed.
Arguments Returned {A}. Arguments Crashed {A}.

(** topics.go:207-227 [CreateSource]: [attempt n] is the result of the n-th call of createSource
    (line 170-187), which is NewClient errors or resolveOrCreateTopics; at most 15 attempts *)
Fixpoint createSourceLoop (fuel n : nat) (attempt : nat -> option error * Z) (last : option error * Z) : outcome Z :=
  match fuel with
  | O => Returned (fst last) (snd last)
  | S fuel' =>
      let r := attempt n in
      match isNetworkError (fst r) with
      | Crash => Crashed
      | Yes => createSourceLoop fuel' (S n) attempt r
      | No => Returned (fst r) (snd r)
      end
  end.
Definition CreateSource (cfg_ok : bool) (attempt : nat -> option error * Z) : outcome Z :=
  if negb cfg_ok then Returned (Some OtherError) 0
  else createSourceLoop 15 0 attempt (None, 0).

(** topics.go:147-158 [createDestination]: no topic name is passed to CreateTopics, which therefore does
    nothing, and its error is dropped; only the NewClient error counts.  The destination's topic is a
    boolean: exists or not. *)
Definition createDestination (newClientErr : option error) (exists_ : bool) : option error * bool :=
  (newClientErr, exists_).
(** topics.go:160-168 [CreateDestination]: always 15 attempts *)
Fixpoint createDestinationLoop (fuel n : nat) (clientErr : nat -> option error) (err : option error) (exists_ : bool) : outcome bool :=
  match fuel with
  | O => Returned err exists_
  | S fuel' =>
      let '(err', ex') := createDestination (clientErr n) exists_ in
      match isNetworkError err' with
      | Crash => Crashed
      | _ => createDestinationLoop fuel' (S n) clientErr err' ex'
      end
  end.
Definition CreateDestination (clientErr : nat -> option error) (exists_ : bool) : outcome bool :=
  createDestinationLoop 15 0 clientErr None exists_.
