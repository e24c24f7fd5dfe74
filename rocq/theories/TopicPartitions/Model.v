(** Model of TopicPartitionSet: streams/topics.go:31-91. *)
From Coq Require Import Strings.Byte ZArith List Bool.
From Verif.Base Require Import Bytes GoInt.
From Verif.CommitLog Require Import Model.
From Verif.BTree Require Import Model StringOrder.
Import ListNotations.
Open Scope Z_scope.

(** topics.go:52-58; the subtraction is in int32 *)
Definition topicPartitionLess (a b : TopicPartition) : bool :=
  let res := s32 (tp_partition a - tp_partition b) in
  if negb (res =? 0) then res <? 0 else strLess (tp_topic a) (tp_topic b).

Definition TopicPartitionSet := tree TopicPartition.
(** topics.go:61-63 *)
Definition NewTopicPartitionSet : TopicPartitionSet := [].
(** topics.go:66-69 *)
Definition Insert (s : TopicPartitionSet) (tp : TopicPartition) : bool * TopicPartitionSet :=
  let '(old, s') := ReplaceOrInsert topicPartitionLess s tp in
  (match old with Some _ => false | None => true end, s').
(** topics.go:72-75 *)
Definition Contains (s : TopicPartitionSet) (tp : TopicPartition) : bool :=
  match Get topicPartitionLess s tp with Some _ => true | None => false end.
(** topics.go:78-81 *)
Definition Remove (s : TopicPartitionSet) (tp : TopicPartition) : bool * TopicPartitionSet :=
  let '(old, s') := Delete topicPartitionLess s tp in
  (match old with Some _ => true | None => false end, s').
(** topics.go:84-91 *)
Definition Items (s : TopicPartitionSet) : list TopicPartition := Ascend s.

Inductive op := OIns (tp : TopicPartition) | ORem (tp : TopicPartition) | OCont (tp : TopicPartition).
Definition step (s : TopicPartitionSet) (o : op) : bool * TopicPartitionSet :=
  match o with
  | OIns tp => Insert s tp
  | ORem tp => Remove s tp
  | OCont tp => (Contains s tp, s)
  end.
Fixpoint run (s : TopicPartitionSet) (os : list op) : list bool * TopicPartitionSet :=
  match os with
  | [] => ([], s)
  | o :: os' => let '(b, s1) := step s o in let '(bs, s2) := run s1 os' in (b :: bs, s2)
  end.
