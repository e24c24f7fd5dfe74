(** Model of DeleteSource: streams/topics.go:284-304. *)
From Coq Require Import Strings.Byte ZArith List Bool.
From Verif.Base Require Import Bytes.
From Verif.Record Require Import Model.
From Verif.Config Require Import Model.
From Verif.Topics Require Import Model.
Import ListNotations.

(** the topics of all clusters; clusters are numbers *)
Definition world := nat -> bytes -> bool.
Definition sameName (a b : bytes) : bool := if list_eq_dec Byte.byte_eq_dec a b then true else false.
(** kadm.DeleteTopics: the request fails, or there is an answer for each topic: [true] says that it has been deleted *)
Inductive deleteAnswer := deleteFailed (e : error) | deleted (answers : list bool).
Definition DeleteTopics (a : deleteAnswer) (cluster : nat) (names : list bytes) (w : world) : world :=
  match a with
  | deleteFailed _ => w
  | deleted l => fun k n => w k n && negb (Nat.eqb k cluster && existsb (fun x => snd x && sameName (fst x) n) (combine names l))
  end.
(** what goes wrong during a call: the two clients cannot be made (lines 288-295), the two requests *)
Record deleteAdmin := mkDel { d_sourceClient : option error; d_eosClient : option error; d_source : deleteAnswer; d_eos : deleteAnswer }.
(** source.go:208-214 stateCluster: [state] is None if StateCluster is nil *)
Definition stateCluster (source : nat) (state : option nat) : nat := match state with Some k => k | None => source end.
(** topics.go:286-304; the results of both requests are dropped (lines 299-302). Newly made clients are not closed by the code. *)
Definition DeleteSource (ad : deleteAdmin) (source : nat) (state : option nat) (c : sourceConfig) (w : world) : option error * world :=
  match d_sourceClient ad with
  | Some e => (Some e, w)
  | None =>
    match d_eosClient ad with
    | Some e => (Some e, w)
    | None =>
      let w1 := DeleteTopics (d_source ad) source [Topic c] w in
      (None, DeleteTopics (d_eos ad) (stateCluster source state) [CommitLogTopicNameForGroupId c; StateStoreTopicName c] w1)
    end
  end.
