(** * C114, C115: Produce and ProduceAsync *)
From stdpp Require Import prelude list.
From Verif.Producer Require Import Model Proofs.
Open Scope nat_scope.

(** ** C114: a record goes to the topic that the user has set, else to the default of the producer that it is given to *)
(** Refuted for a record that has been given to another producer before: its default topic has been written into the record. *)
Theorem c114_topic_refuted : ~ forall D l1 j r b l2 s d t p,
  Model.run D init (l1 ++ Call j r b :: l2) = Some s -> D !! j = Some d -> EvWire (length (callsOf l1)) t p ∈ trace s -> t = if userTopic r l1 =? 0 then d else userTopic r l1.
Proof.
  intros H. specialize (H [7; 8] [New; Call 0 0 true; Wire 0 3; Promise 0 None; Return 0] 1 0 true [Wire 1 4] _ 8 7 3 eq_refl eq_refl).
  enough (7 = 8) by discriminate. apply H. cbn. right. right. left.
Qed.
Print Assumptions c114_topic_refuted.
(** ... and the partition chosen once stays: the partitioner is not asked again. *)
Theorem c114_partition_refuted : ~ forall D l1 i k l2 s j r b t p,
  Model.run D init (l1 ++ Wire i k :: l2) = Some s -> callsOf l1 !! i = Some (j, r, b) -> EvWire i t p ∈ trace s -> p = match userPart r l1 with Some q => q | None => k end.
Proof.
  intros H. specialize (H [7] [New; Call 0 0 true; Wire 0 3; Promise 0 None; Return 0; Call 0 0 true] 1 4 [] _ 0 0 true 7 3 eq_refl eq_refl).
  enough (3 = 4) by discriminate. apply H. cbn. right. right. left.
Qed.
Print Assumptions c114_partition_refuted.
(** What holds: if the producers that have had the record before have the same default topic. *)
Theorem c114_topic_partial D l1 j r b l2 s d t p :
  Model.run D init (l1 ++ Call j r b :: l2) = Some s -> D !! j = Some d ->
  (forall j' b', Call j' r b' ∈ l1 -> D !! j' = D !! j) ->
  EvWire (length (callsOf l1)) t p ∈ trace s -> t = if userTopic r l1 =? 0 then d else userTopic r l1.
Proof. exact (topic_ok D l1 j r b l2 s d t p). Qed.
Print Assumptions c114_topic_partial.
(** What holds: if the record has not been sent before. *)
Theorem c114_partition_partial D l1 i k l2 s j r b t p :
  Model.run D init (l1 ++ Wire i k :: l2) = Some s -> callsOf l1 !! i = Some (j, r, b) ->
  (forall i' k' j' b', Wire i' k' ∈ l1 -> callsOf l1 !! i' <> Some (j', r, b')) ->
  EvWire i t p ∈ trace s -> p = match userPart r l1 with Some q => q | None => k end.
Proof. exact (part_ok D l1 i k l2 s j r b t p). Qed.
Print Assumptions c114_partition_partial.
(** two records, one with its own topic and partition, given to two producers *)
Definition ex : list action := [New; New; SetTopic 1 5; SetPart 1 (Some 2); Call 0 0 false; Call 1 1 true; Wire 1 9; Wire 0 3; Promise 0 None; Promise 1 (Some 4); Return 1].
Example c114_nonvacuous : exists s, Model.run [7; 8] init ex = Some s /\ trace s = [EvWire 1 5 2; EvWire 0 7 3; EvCallback 0 None; EvReturn 1 (Some 4)] /\
  ex = take 4 ex ++ Call 0 0 false :: drop 5 ex /\ userTopic 0 (take 4 ex) = 0 /\ userTopic 1 (take 4 ex) = 5 /\ callsOf (take 7 ex) !! 0 = Some (0, 0, false) /\ userPart 0 (take 7 ex) = None.
Proof. eexists. repeat split. Qed.

(** ** C115: the callback of ProduceAsync is called once, with the outcome of its own record; Produce returns the outcome of its own record *)
(** [outs i]: the callbacks and returns of call i.  None as long as the client has not answered; then exactly one, with the error that the client has given for this record. *)
Theorem c115_own_outcome_once D acts s i j r (b : bool) :
  Model.run D init acts = Some s -> callsOf acts !! i = Some (j, r, b) ->
  (outs i (trace s) = [] /\ if b then Return i ∉ acts else forall e, Promise i e ∉ acts) \/
  (exists e, (forall e', Promise i e' ∈ acts <-> e' = e) /\ outs i (trace s) = [if b then EvReturn i e else EvCallback i e]).
Proof. exact (answered D acts s i j r b). Qed.
Print Assumptions c115_own_outcome_once.
(** Produce returns when the client has answered. *)
Theorem c115_produce_returns D acts s i j r e :
  Model.run D init acts = Some s -> callsOf acts !! i = Some (j, r, true) -> Promise i e ∈ acts -> Return i ∉ acts ->
  exists s', Model.run D init (acts ++ [Return i]) = Some s' /\ outs i (trace s') = [EvReturn i e].
Proof. exact (returns D acts s i j r e). Qed.
Print Assumptions c115_produce_returns.
(** A call sends one record at most. *)
Theorem c115_sent_once D acts s i : Model.run D init acts = Some s -> length (wires i (trace s)) <= 1.
Proof. exact (sent_once D acts s i). Qed.
Print Assumptions c115_sent_once.
(** calls whose answers come in another order; one record has never been sent *)
Example c115_nonvacuous : exists s, Model.run [7; 8] init [New; New; New; Call 0 0 false; Call 1 1 true; Call 0 2 false; Promise 2 (Some 6); Wire 1 9; Wire 0 3; Promise 1 (Some 4); Promise 0 None] = Some s /\
  trace s = [EvCallback 2 (Some 6); EvWire 1 8 9; EvWire 0 7 3; EvCallback 0 None] /\ outs 1 (trace s) = [] /\
  callsOf [New; New; New; Call 0 0 false; Call 1 1 true; Call 0 2 false] !! 1 = Some (1, 1, true).
Proof. eexists. repeat split. Qed.
