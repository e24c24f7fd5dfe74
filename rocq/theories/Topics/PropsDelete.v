(** Property C116: DeleteSource. *)
From Coq Require Import Strings.String Strings.Byte ZArith Bool Lia List.
From Verif.Base Require Import Bytes.
From Verif.Record Require Import Model.
From Verif.Config Require Import Model Proofs Props.
From Verif.Topics Require Import Model Delete.
Import ListNotations.

(** what belongs to a source, apart from the model: its topic, the commit log of its group, its change log *)
Definition changeLog (c : sourceConfig) : bytes := match StateStoreTopic c with [] => str "gkes_change_log_" ++ Topic c ++ str "_" ++ GroupId c | t => t end.
Definition owns (source : nat) (state : option nat) (c : sourceConfig) (k : nat) (n : bytes) : Prop :=
  (k = source /\ n = Topic c) \/
  (k = match state with Some k' => k' | None => source end /\ (n = str "gkes_commit_log_" ++ GroupId c \/ n = changeLog c)).
Lemma changeLog_ok c : changeLog c = StateStoreTopicName c.
Proof. unfold changeLog, StateStoreTopicName. destruct (StateStoreTopic c); reflexivity. Qed.
Lemma sameName_true a b : sameName a b = true <-> a = b.
Proof. unfold sameName. destruct (list_eq_dec _ a b); split; congruence. Qed.
Lemma kept a k ns w k' n : DeleteTopics a k ns w k' n = true -> w k' n = true.
Proof. destruct a; cbn; [auto|]. intros H. apply andb_true_iff in H. tauto. Qed.
Lemma others a k ns w k' n : w k' n = true -> (k' = k -> ~ In n ns) -> DeleteTopics a k ns w k' n = true.
Proof.
  destruct a as [e|l]; cbn; [auto|]. intros -> H. cbn. apply negb_true_iff, andb_false_iff. destruct (Nat.eqb_spec k' k) as [->|]; [right|left; reflexivity].
  destruct (existsb _ _) eqn:E; [|reflexivity]. apply existsb_exists in E as ([x b] & I & S). apply andb_true_iff in S as [_ S]. apply sameName_true in S. cbn in S. subst x. apply in_combine_l in I. destruct (H eq_refl I).
Qed.
Lemma gone l k ns w n : Forall (fun b => b = true) l -> length l = length ns -> In n ns -> DeleteTopics (deleted l) k ns w k n = false.
Proof.
  intros F L I. cbn. apply andb_false_iff. right. apply negb_false_iff. rewrite Nat.eqb_refl. cbn. apply existsb_exists.
  revert l F L. induction ns as [|x ns IH]; intros l F L; [destruct I|]. destruct l as [|b l]; [discriminate|]. inversion F; subst. destruct I as [->|I].
  - exists (n, true). split; [left; reflexivity|]. cbn. apply sameName_true. reflexivity.
  - destruct (IH I l) as (y & Y & S); [assumption|cbn in L; lia|]. exists y. split; [right; exact Y|exact S].
Qed.

(** it deletes what belongs to the source if the clusters answer so *)
Theorem c116_deletes_its_topics : forall ad source state c w w' k n,
  DeleteSource ad source state c w = (None, w') -> d_source ad = deleted [true] -> d_eos ad = deleted [true; true] -> owns source state c k n -> w' k n = false.
Proof.
  intros ad source state c w w' k n H S E O. unfold DeleteSource in H. destruct (d_sourceClient ad); [discriminate|]. destruct (d_eosClient ad); [discriminate|]. rewrite S, E in H. apply (f_equal snd) in H. cbn [snd] in H. subst w'.
  destruct O as [[-> ->]|[-> O]].
  - destruct (DeleteTopics (deleted [true; true]) (stateCluster source state) [CommitLogTopicNameForGroupId c; StateStoreTopicName c] (DeleteTopics (deleted [true]) source [Topic c] w) source (Topic c)) eqn:D; [|reflexivity].
    apply kept in D. rewrite gone in D; [discriminate| |reflexivity|left; reflexivity]. repeat constructor.
  - change (match state with Some k' => k' | None => source end) with (stateCluster source state). apply gone; [repeat constructor|reflexivity|]. rewrite changeLog_ok in O. unfold CommitLogTopicNameForGroupId. cbn. intuition.
Qed.
Print Assumptions c116_deletes_its_topics.
(** it returns an error exactly if one of the two clients cannot be made, and that error *)
Theorem c116_error_without_client : forall ad source state c w,
  (d_sourceClient ad = None /\ d_eosClient ad = None -> fst (DeleteSource ad source state c w) = None) /\
  (forall e, d_sourceClient ad = Some e -> fst (DeleteSource ad source state c w) = Some e) /\
  (forall e, d_sourceClient ad = None -> d_eosClient ad = Some e -> fst (DeleteSource ad source state c w) = Some e).
Proof. intros ad source state c w. unfold DeleteSource. split; [intros [-> ->]; reflexivity|]. split; [intros e ->; reflexivity|intros e -> ->; reflexivity]. Qed.
Print Assumptions c116_error_without_client.
(** it deletes nothing else, whatever the clusters answer, and nothing at all if it returns an error *)
Theorem c116_deletes_nothing_else : forall ad source state c w r w' k n,
  DeleteSource ad source state c w = (r, w') -> w k n = true -> w' k n = false -> owns source state c k n /\ r = None.
Proof.
  intros ad source state c w r w' k n H B A. unfold DeleteSource in H.
  destruct (d_sourceClient ad); [injection H as <- <-; congruence|]. destruct (d_eosClient ad); [injection H as <- <-; congruence|]. injection H as <- <-. split; [|reflexivity].
  destruct (DeleteTopics (d_source ad) source [Topic c] w k n) eqn:D.
  - right. destruct (Nat.eq_dec k (stateCluster source state)) as [->|N].
    + split; [reflexivity|]. rewrite changeLog_ok. change (str "gkes_commit_log_" ++ GroupId c) with (CommitLogTopicNameForGroupId c).
      destruct (list_eq_dec Byte.byte_eq_dec n (CommitLogTopicNameForGroupId c)) as [|N1]; [auto|]. destruct (list_eq_dec Byte.byte_eq_dec n (StateStoreTopicName c)) as [|N2]; [auto|].
      rewrite others in A; [discriminate|exact D|]. intros _ [I|[I|[]]]; congruence.
    + rewrite others in A; [discriminate|exact D|congruence].
  - left. destruct (Nat.eq_dec k source) as [->|N]; [|rewrite others in D; [discriminate|exact B|congruence]].
    split; [reflexivity|]. destruct (list_eq_dec Byte.byte_eq_dec n (Topic c)) as [|N1]; [auto|]. rewrite others in D; [discriminate|exact B|]. intros _ [I|[]]; congruence.
Qed.
Print Assumptions c116_deletes_nothing_else.
(** Refuted: a failed deletion is not reported.  For every source, whatever exists. *)
Theorem c116_failure_is_reported_refuted : forall source state c w, exists ad, (exists e, d_source ad = deleteFailed e) /\ (exists e, d_eos ad = deleteFailed e) /\
  DeleteSource ad source state c w = (None, w).
Proof. intros. exists (mkDel None None (deleteFailed NetError) (deleteFailed OtherError)). cbn. eauto. Qed.
Print Assumptions c116_failure_is_reported_refuted.
(** Refuted: the commit log of the group is deleted though every other source of the same group needs it. *)
Theorem c116_spares_other_sources_refuted : forall ad source state c c2 w w',
  DeleteSource ad source state c w = (None, w') -> d_eos ad = deleted [true; true] -> GroupId c2 = GroupId c ->
  exists k n, owns source state c2 k n /\ w' k n = false.
Proof.
  intros ad source state c c2 w w' H E G. exists (stateCluster source state), (CommitLogTopicNameForGroupId c2). split.
  - right. split; [reflexivity|left; reflexivity].
  - unfold DeleteSource in H. destruct (d_sourceClient ad); [discriminate|]. destruct (d_eosClient ad); [discriminate|]. rewrite E in H. apply (f_equal snd) in H. cbn [snd] in H. subst w'.
    apply gone; [repeat constructor|reflexivity|]. left. unfold CommitLogTopicNameForGroupId. congruence.
Qed.
Print Assumptions c116_spares_other_sources_refuted.
(** What holds: a source of another group with another topic loses nothing, if both have generated change log names and topic names without underscores *)
Theorem c116_spares_other_sources_partial : forall ad source state c w r w' source2 state2 c2 k n,
  DeleteSource ad source state c w = (r, w') -> GroupId c2 <> GroupId c -> Topic c2 <> Topic c -> StateStoreTopic c = [] -> StateStoreTopic c2 = [] ->
  ~ In "_"%byte (Topic c) -> ~ In "_"%byte (Topic c2) ->
  owns source2 state2 c2 k n -> w k n = true -> w' k n = true.
Proof.
  intros ad source state c w r w' source2 state2 c2 k n H G T S1 S2 U1 U2 O B. destruct (w' k n) eqn:A; [reflexivity|exfalso].
  destruct (c116_deletes_nothing_else _ _ _ _ _ _ _ _ _ H B A) as [O1 _]. unfold owns in O, O1. rewrite !changeLog_ok in *.
  assert (Us : forall x, In "_"%byte (str "gkes_commit_log_" ++ x)) by (intros x; apply in_or_app; left; cbn; tauto).
  assert (Ut : forall d, StateStoreTopic d = [] -> In "_"%byte (StateStoreTopicName d)).
  { intros d D. rewrite <- changeLog_ok. unfold changeLog. rewrite D. apply in_or_app. left. cbn. tauto. }
  change (str "gkes_commit_log_" ++ GroupId c) with (CommitLogTopicNameForGroupId c) in O1. change (str "gkes_commit_log_" ++ GroupId c2) with (CommitLogTopicNameForGroupId c2) in O.
  destruct O as [[_ O]|[_ [O|O]]], O1 as [[_ O1]|[_ [O1|O1]]]; rewrite O in O1.
  - congruence.
  - apply U2. rewrite O1. apply Us.
  - apply U2. rewrite O1. apply Ut. exact S1.
  - apply U1. rewrite <- O1. apply Us.
  - apply commit_log_name_inj in O1. congruence.
  - exact (commit_change_distinct _ _ S1 O1).
  - apply U1. rewrite <- O1. apply Ut. exact S2.
  - exact (commit_change_distinct _ _ S2 (eq_sym O1)).
  - apply state_topic_no_underscore in O1; auto. tauto.
Qed.
Print Assumptions c116_spares_other_sources_partial.
(** two sources on one cluster, another cluster for the state of the first one *)
Example c116_example :
  let c := mkSC (str "g") (str "orders") [] 1 1 1 1 in let c2 := mkSC (str "h") (str "users") [] 1 1 1 1 in let c3 := mkSC (str "g") (str "users") [] 1 1 1 1 in
  let ok := mkDel None None (deleted [true]) (deleted [true; true]) in
  let w' := snd (DeleteSource ok 0 None c (fun _ _ => true)) in
  map (w' 0%nat) [str "orders"; str "gkes_commit_log_g"; str "gkes_change_log_orders_g"; str "users"; str "gkes_commit_log_h"; str "gkes_change_log_users_h"; str "gkes_change_log_users_g"] = [false; false; false; true; true; true; true] /\
  w' 1%nat (str "orders") = true /\ owns 0%nat None c3 0%nat (str "gkes_commit_log_g") /\ owns 0%nat None c2 0%nat (str "gkes_change_log_users_h") /\
  fst (DeleteSource (mkDel (Some NetError) None (deleted [true]) (deleted [true; true])) 0 None c (fun _ _ => true)) = Some NetError.
Proof. split; [vm_compute; reflexivity|]. split; [vm_compute; reflexivity|]. split; [right; split; [reflexivity|left; reflexivity]|]. split; [right; split; [reflexivity|right; reflexivity]|reflexivity]. Qed.
