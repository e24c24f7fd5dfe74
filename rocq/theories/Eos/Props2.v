(** C20: a partition moves between two running consumers. *)
From stdpp Require Import prelude list sorting.
From Coq Require Import ZArith.
From Verif.Eos Require Import Model Base Step1 Spec Joint Props.
Open Scope nat_scope.

(** C20, when each commit record for the partition in a committed transaction of the old owner was sent before the marker of the new owner's sync: no offset is in
    committed transactions of both. [wm0]: the resume offset before. Missing: the window after the marker, see the refutation. *)
Theorem c20_marker_order_partial :
  forall cA cB p wA wm0 xs j, valid cA -> valid cB -> Forall jok xs -> jrun cA cB p wA wm0 (jstart cA cB) xs = Some j ->
  StronglySorted lt (offs (accepted p (trace (ja j)))) ->
  (forall n t e w, jmark j = Some n -> EvEnd t true ∈ trace (ja j) -> EvSend t e (Mark w) ∈ trace (ja j) -> e_p e = p -> EvSend t e (Mark w) ∈ take n (trace (ja j))) ->
  forall o, o ∈ committedOffs p (trace (ja j)) -> o ∉ committedOffs p (trace (jb j)).
Proof. intros cA cB p wA wm0 xs j VA VB. exact (no_double cA cB p wA wm0 VA VB xs j). Qed.
Print Assumptions c20_marker_order_partial.
(** so it is when the new owner's sync starts after the old owner's worker has stopped, which nothing in the code makes sure *)
Theorem c20_stopped_partial :
  forall cA cB p wA wm0 xs j, valid cA -> valid cB -> Forall jok xs -> jrun cA cB p wA wm0 (jstart cA cB) xs = Some j ->
  StronglySorted lt (offs (accepted p (trace (ja j)))) -> (forall q, oneWorker q (trace (ja j))) ->
  (forall e, e ∈ arrived p (trace (ja j)) -> e_w e = wA) -> (forall n, jmark j = Some n -> EvStop wA ∈ take n (trace (ja j))) ->
  forall o, o ∈ committedOffs p (trace (ja j)) -> o ∉ committedOffs p (trace (jb j)).
Proof. intros cA cB p wA wm0 xs j VA VB. exact (stopped_no_double cA cB p wA wm0 VA VB xs j). Qed.
Print Assumptions c20_stopped_partial.

Definition open5 : list action := [AArrive 0 7 (Some 5); FTake; FAdd; FOwn; FSend; FTry].
Definition commit5 (i o : nat) : list action := [HDone 0 (E i o); FTick; FDo; FSwap; KStart; KPick 7; KWait; KEnd].
(** A: 5 is in an open transaction, in which the commit record is not yet sent, when the partition is revoked *)
Definition late : list jact := map JA (open5 ++ [ARevoke 0]) ++ [JMark; JSync 4] ++ map JB (open5 ++ commit5 0 5) ++ map JA (commit5 0 5).
Definition early : list jact := map JA (open5 ++ [ARevoke 0; AClose 0] ++ commit5 0 5 ++ [AStop 0]) ++ [JMark; JSync 9] ++ map JB (take1 0 6 ++ commit5 0 6).
Example c20_example : option_map (fun j => (trace (ja j), jmark j, jwm j, committedOffs 7 (trace (jb j)))) (jrun c3 c3 7 0 5 (jstart c3 c3) early) =
  Some ([EvArr (E 0 5); EvTake (E 0 5); EvAdd 0 (E 0 5); EvRevoke 0; EvDone (E 0 5); EvCall 0 (E 0 5) (Mark 6); EvSend 0 (E 0 5) (Mark 6); EvEnd 0 true; EvStop 0], Some 9, Some 6, [6])
.
Proof. vm_compute. reflexivity. Qed.
(** C20 is false: revokePartitions returns with the transaction open, the marker gets into the commit log before the commit record, so the new owner does not wait for
    it and starts at 5; both commit 5 *)
Theorem c20_refuted : exists xs j o, Forall jok xs /\ jrun c3 c3 7 0 5 (jstart c3 c3) xs = Some j /\
  offs (arrived 7 (trace (ja j))) = [5] /\ offs (arrived 7 (trace (jb j))) = [5] /\ o ∈ committedOffs 7 (trace (ja j)) /\ o ∈ committedOffs 7 (trace (jb j)).
Proof.
  exists late. destruct (jrun c3 c3 7 0 5 (jstart c3 c3) late) as [j|] eqn:R; [|vm_compute in R; discriminate].
  assert (H : option_map (fun j => (offs (arrived 7 (trace (ja j))), offs (arrived 7 (trace (jb j))), committedOffs 7 (trace (ja j)), committedOffs 7 (trace (jb j)))) (jrun c3 c3 7 0 5 (jstart c3 c3) late) = Some ([5], [5], [5], [5])) by (vm_compute; reflexivity).
  rewrite R in H. cbn [option_map] in H. injection H as H1 H2 H3 H4. exists j, 5. split; [vm_compute; repeat constructor; discriminate|]. split; [reflexivity|]. split; [exact H1|]. split; [exact H2|]. rewrite H3, H4. split; left.
Qed.
Print Assumptions c20_refuted.
