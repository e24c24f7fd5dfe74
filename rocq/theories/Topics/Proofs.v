From Coq Require Import Strings.String Strings.Byte ZArith List Bool Lia.
From Verif.Base Require Import Bytes.
From Verif.Record Require Import Model.
From Verif.Config Require Import Model Proofs.
From Verif.Topics Require Import Model.
Import ListNotations.
Open Scope Z_scope.

(** no create request was rejected for its topic *)
Definition not_rejected (a : createAnswer) : Prop :=
  match a with topicCreated (Some _) => False | _ => True end.
Definition no_rejections (ad : admin) : Prop :=
  not_rejected (ad_createSource ad) /\ not_rejected (ad_createCommitLog ad) /\ not_rejected (ad_createChangeLog ad).

(** what a successful resolution promises *)
Definition agree (c : sourceConfig) (w : clusters) : Prop :=
  exists s cl ch, c_source w = Some s /\ c_commitLog w = Some cl /\ c_changeLog w = Some ch /\
  t_partitions s = NumPartitions c /\ t_partitions ch = t_partitions s /\
  commitLogPartitionsConfig c = t_partitions cl.

Lemma state_name_nonempty c : (0 <? length (StateStoreTopicName c))%nat = true.
Proof.
  unfold StateStoreTopicName. destruct (0 <? length (StateStoreTopic c))%nat eqn:E; auto.
Qed.

(** the existing commit log has at least one partition *)
Definition sane (w : clusters) : Prop :=
  match c_commitLog w with Some i => 1 <= t_partitions i | None => True end.

Ltac cfg := unfold commitLogPartitionsConfig, replicationFactorConfig, setPartitions, setCommitLogPartitions in *; cbn in *.

Lemma resolve_ok ad c w c' w' :
  no_rejections ad -> sane w ->
  resolveOrCreateTopics ad c w = (inr c', w') -> agree c' w'.
Proof.
  intros (R1 & R2 & R3) S. unfold resolveOrCreateTopics, sane, agree in *.
  destruct w as [ws wc wh]. cbn [c_source c_commitLog c_changeLog] in *.
  destruct (ad_listSource ad); [discriminate|].
  destruct ws as [is|].
  - destruct (ad_listEos ad); [discriminate|]. cbn [c_source c_commitLog c_changeLog].
    destruct wc as [ic|].
    + rewrite state_name_nonempty. cbn [c_source c_commitLog c_changeLog].
      destruct wh as [ih|].
      * destruct (t_partitions ih =? _) eqn:E; cbn; [|discriminate]. apply Z.eqb_eq in E.
        intros [= <- <-]. exists is, ic, ih. cfg. repeat split; auto. destruct (t_partitions ic <=? 0) eqn:L; [|auto].
        apply Z.leb_le in L. lia.
      * destruct (ad_createChangeLog ad) as [e|[r|]]; cbn in *; try discriminate; try contradiction.
        intros [= <- <-]. eexists is, ic, _. cfg. repeat split; auto. destruct (t_partitions ic <=? 0) eqn:L; [|auto].
        apply Z.leb_le in L. lia.
    + destruct (ad_createCommitLog ad) as [e|[r|]]; cbn [createTopic not_rejected] in *; try discriminate; try contradiction.
      rewrite state_name_nonempty. cbn [c_source c_commitLog c_changeLog].
      destruct wh as [ih|].
      * destruct (t_partitions ih =? _) eqn:E; cbn; [|discriminate]. apply Z.eqb_eq in E.
        intros [= <- <-]. eexists is, _, ih. cfg. repeat split; auto.
      * destruct (ad_createChangeLog ad) as [e|[r|]]; cbn in *; try discriminate; try contradiction.
        intros [= <- <-]. eexists is, _, _. cfg. repeat split; auto.
  - destruct (ad_createSource ad) as [e|[r|]]; cbn [createTopic not_rejected] in *; try discriminate; try contradiction.
    destruct (ad_listEos ad); [discriminate|]. cbn [c_source c_commitLog c_changeLog].
    destruct wc as [ic|].
    + rewrite state_name_nonempty. cbn [c_source c_commitLog c_changeLog].
      destruct wh as [ih|].
      * destruct (t_partitions ih =? _) eqn:E; cbn; [|discriminate]. apply Z.eqb_eq in E.
        intros [= <- <-]. eexists _, ic, ih. cfg. repeat split; auto. destruct (t_partitions ic <=? 0) eqn:L; [|auto].
        apply Z.leb_le in L. lia.
      * destruct (ad_createChangeLog ad) as [e|[r|]]; cbn in *; try discriminate; try contradiction.
        intros [= <- <-]. eexists _, ic, _. cfg. repeat split; auto. destruct (t_partitions ic <=? 0) eqn:L; [|auto].
        apply Z.leb_le in L. lia.
    + destruct (ad_createCommitLog ad) as [e|[r|]]; cbn [createTopic not_rejected] in *; try discriminate; try contradiction.
      rewrite state_name_nonempty. cbn [c_source c_commitLog c_changeLog].
      destruct wh as [ih|].
      * destruct (t_partitions ih =? _) eqn:E; cbn; [|discriminate]. apply Z.eqb_eq in E.
        intros [= <- <-]. eexists _, _, ih. cfg. repeat split; auto.
      * destruct (ad_createChangeLog ad) as [e|[r|]]; cbn in *; try discriminate; try contradiction.
        intros [= <- <-]. eexists _, _, _. cfg. repeat split; auto.
Qed.

(** existing topics with different counts are refused, whatever the cluster answers *)
Lemma resolve_mismatch ad c s ch wc :
  t_partitions ch <> t_partitions s ->
  exists e w', resolveOrCreateTopics ad c (mkClusters (Some s) wc (Some ch)) = (inl e, w').
Proof.
  intros N. unfold resolveOrCreateTopics. cbn [c_source c_commitLog c_changeLog].
  destruct (ad_listSource ad); [eauto|].
  destruct (ad_listEos ad); [eauto|].
  assert (NE : (t_partitions ch =? t_partitions s) = false) by (apply Z.eqb_neq; auto).
  destruct wc as [ic|]; cbn [c_source c_commitLog c_changeLog].
  - rewrite state_name_nonempty. cbn. rewrite NE. cbn. eauto.
  - destruct (ad_createCommitLog ad) as [e|[r|]]; cbn [createTopic]; [eauto| |];
      cbn [c_source c_commitLog c_changeLog]; rewrite state_name_nonempty; cbn; rewrite NE; cbn; eauto.
Qed.

(** ** CreateSource *)
Lemma loop_no_other fuel n attempt last :
  (forall i, fst (attempt i) <> Some OtherError) ->
  exists err a, createSourceLoop fuel n attempt last = Returned err a.
Proof.
  revert n last. induction fuel as [|fuel IH]; intros n last H; cbn; [eauto|].
  destruct (fst (attempt n)) as [[]|] eqn:E; cbn; [apply IH; auto| |eauto].
  exfalso. exact (H n E).
Qed.

Lemma loop_success fuel n attempt last k :
  (n <= k)%nat -> (k < n + fuel)%nat ->
  (forall i, (n <= i < k)%nat -> fst (attempt i) = Some NetError) ->
  fst (attempt k) = None ->
  createSourceLoop fuel n attempt last = Returned None (snd (attempt k)).
Proof.
  revert n last. induction fuel as [|fuel IH]; intros n last L1 L2 H E; cbn; [lia|].
  destruct (Nat.eq_dec n k) as [->|N].
  - rewrite E. reflexivity.
  - rewrite (H n) by lia. cbn. apply IH; auto; try lia. intros. apply H. lia.
Qed.

Lemma loop_all_network fuel n attempt last :
  (forall i, (n <= i < n + fuel)%nat -> fst (attempt i) = Some NetError) -> (0 < fuel)%nat ->
  exists a, createSourceLoop fuel n attempt last = Returned (Some NetError) a.
Proof.
  revert n last. induction fuel as [|fuel IH]; intros n last H P; [lia|]. cbn.
  rewrite (H n) by lia. cbn. destruct fuel as [|fuel].
  - cbn. exists (snd (attempt n)). rewrite (H n) by lia. reflexivity.
  - apply IH; [|lia]. intros. apply H. lia.
Qed.

Lemma loop_crash fuel n attempt last k :
  (n <= k)%nat -> (k < n + fuel)%nat ->
  (forall i, (n <= i < k)%nat -> fst (attempt i) = Some NetError) ->
  fst (attempt k) = Some OtherError ->
  createSourceLoop fuel n attempt last = Crashed.
Proof.
  revert n last. induction fuel as [|fuel IH]; intros n last L1 L2 H E; cbn; [lia|].
  destruct (Nat.eq_dec n k) as [->|N].
  - rewrite E. reflexivity.
  - rewrite (H n) by lia. cbn. apply IH; auto; try lia. intros. apply H. lia.
Qed.

(** ** CreateDestination *)
Lemma dest_loop_exists fuel n ce err ex :
  forall e b, createDestinationLoop fuel n ce err ex = Returned e b -> b = ex.
Proof.
  revert n err. induction fuel as [|fuel IH]; intros n err e b; cbn; [congruence|].
  destruct (isNetworkError (ce n)); [apply IH|apply IH|discriminate].
Qed.

Lemma dest_loop_err fuel n ce err ex :
  (0 < fuel)%nat -> (forall i, ce i <> Some OtherError) ->
  createDestinationLoop fuel n ce err ex = Returned (ce (n + fuel - 1)%nat) ex.
Proof.
  revert n err. induction fuel as [|fuel IH]; intros n err P H; [lia|]. cbn [createDestinationLoop createDestination].
  assert (Hc : isNetworkError (ce n) <> Crash).
  { specialize (H n). destruct (ce n) as [[]|]; cbn; congruence. }
  destruct fuel as [|fuel].
  - cbn [createDestinationLoop]. replace (n + 1 - 1)%nat with n by lia.
    destruct (isNetworkError (ce n)); auto. congruence.
  - specialize (IH (S n) (ce n) ltac:(lia) H). replace (n + S (S fuel) - 1)%nat with (S n + S fuel - 1)%nat by lia.
    destruct (isNetworkError (ce n)); auto. congruence.
Qed.
