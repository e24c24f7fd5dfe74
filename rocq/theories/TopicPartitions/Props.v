(** Property C47. *)
From Coq Require Import Strings.String Strings.Byte ZArith List Bool Lia Sorting.Sorted.
From Verif.Base Require Import Bytes GoInt.
From Verif.Record Require Import Model.
From Verif.CommitLog Require Import Model.
From Verif.BTree Require Import Model Proofs StringOrder.
From Verif.TopicPartitions Require Import Model Proofs.
Import ListNotations.
Open Scope Z_scope.

(** C47 for the partition numbers Kafka uses (0 .. 2^31-1): every answer and the final contents are those of
    a mathematical set, and Items is the ascending list of its members.
    Missing: negative partition numbers, for which it fails (below). *)
Theorem c47_behaves_as_a_set_partial :
  forall os bs s, Forall op_valid os -> run NewTopicPartitionSet os = (bs, s) ->
  exists S, spec_run (fun _ => false) os = (bs, S) /\
    (forall x, In x (Items s) <-> S x = true) /\ NoDup (Items s) /\ StronglySorted before (Items s).
Proof. exact set_ok. Qed.
Print Assumptions c47_behaves_as_a_set_partial.

Definition tp (p : Z) (t : string) := ntp p (str t).
Example c47_example :
  Forall op_valid [OIns (tp 2 "a"); OIns (tp 1 "b"); OIns (tp 2 "a"); ORem (tp 1 "b"); OCont (tp 1 "b"); OIns (tp 1 "a")] /\
  run NewTopicPartitionSet [OIns (tp 2 "a"); OIns (tp 1 "b"); OIns (tp 2 "a"); ORem (tp 1 "b"); OCont (tp 1 "b"); OIns (tp 1 "a")]
    = ([true; true; false; true; false; true], [tp 1 "a"; tp 2 "a"]).
Proof. split; [|vm_compute; reflexivity]. repeat constructor; vm_compute; discriminate. Qed.

(** with a negative partition number (AutoAssign is -1) the int32 subtraction overflows: an inserted
    partition is not found any more, and Items is not ascending *)
Theorem c47_negative_partition_refuted :
  exists os bs s x, Forall (fun o => match o with OIns t | ORem t | OCont t => in_int32 (tp_partition t) end) os /\
  run NewTopicPartitionSet os = (bs, s) /\ In (OIns x) os /\ (forall y, ~ In (ORem y) os) /\
  Contains s x = false /\ ~ StronglySorted before (Items s).
Proof.
  exists [OIns (tp (-1) "t"); OIns (tp 2147483647 "t"); OIns (tp 5 "t"); OIns (tp 6 "t")].
  eexists _, _, (tp 2147483647 "t"). split; [|split; [vm_compute; reflexivity|split; [|split; [|split]]]].
  - repeat constructor; vm_compute; discriminate.
  - cbn. auto.
  - intros y H. cbn in H. intuition discriminate.
  - vm_compute. reflexivity.
  - intros H. inversion H as [|? ? _ F]. inversion F as [|? ? B]. destruct B as [B|(B & _)]; vm_compute in B; discriminate.
Qed.
Print Assumptions c47_negative_partition_refuted.
