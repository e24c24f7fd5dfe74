From Coq Require Import Strings.Byte ZArith List Bool Lia Sorting.Sorted.
From Verif.Base Require Import Bytes GoInt.
From Verif.CommitLog Require Import Model.
From Verif.BTree Require Import Model Proofs StringOrder.
From Verif.TopicPartitions Require Import Model.
Import ListNotations.
Open Scope Z_scope.

(** ** Specification: sets of topic partitions as boolean functions *)
Definition tp_eqb (a b : TopicPartition) : bool :=
  (tp_partition a =? tp_partition b) && bytes_eqb (tp_topic a) (tp_topic b).
Lemma tp_eqb_spec a b : tp_eqb a b = true <-> a = b.
Proof.
  unfold tp_eqb. rewrite andb_true_iff, Z.eqb_eq, bytes_eqb_spec.
  destruct a, b; cbn. split; [intros (-> & ->); auto|intros [= -> ->]; auto].
Qed.
Definition set := TopicPartition -> bool.
Definition spec_step (S : set) (o : op) : bool * set :=
  match o with
  | OIns tp => (negb (S tp), fun x => tp_eqb x tp || S x)
  | ORem tp => (S tp, fun x => negb (tp_eqb x tp) && S x)
  | OCont tp => (S tp, S)
  end.
Fixpoint spec_run (S : set) (os : list op) : list bool * set :=
  match os with
  | [] => ([], S)
  | o :: os' => let '(b, S1) := spec_step S o in let '(bs, S2) := spec_run S1 os' in (b :: bs, S2)
  end.
(** ascending: by partition, then by topic *)
Definition before (a b : TopicPartition) : Prop :=
  tp_partition a < tp_partition b \/ (tp_partition a = tp_partition b /\ strLess (tp_topic a) (tp_topic b) = true).

Definition valid (tp : TopicPartition) : Prop := 0 <= tp_partition tp <= 2147483647.
Definition op_valid (o : op) : Prop := match o with OIns tp | ORem tp | OCont tp => valid tp end.

(** ** The order without overflow *)
Definition less' (a b : TopicPartition) : bool :=
  if tp_partition a <? tp_partition b then true
  else if tp_partition b <? tp_partition a then false else strLess (tp_topic a) (tp_topic b).

Lemma less_valid a b : valid a -> valid b -> topicPartitionLess a b = less' a b.
Proof.
  unfold valid, topicPartitionLess, less'. intros A B.
  rewrite s32_id by (unfold in_int32; lia).
  destruct (Z.eqb_spec (tp_partition a - tp_partition b) 0); cbn [negb].
  - destruct (Z.ltb_spec (tp_partition a) (tp_partition b)), (Z.ltb_spec (tp_partition b) (tp_partition a)); auto; lia.
  - destruct (Z.ltb_spec (tp_partition a - tp_partition b) 0),
      (Z.ltb_spec (tp_partition a) (tp_partition b)), (Z.ltb_spec (tp_partition b) (tp_partition a)); auto; lia.
Qed.

Lemma less'_before a b : less' a b = true <-> before a b.
Proof.
  unfold less', before.
  destruct (Z.ltb_spec (tp_partition a) (tp_partition b)), (Z.ltb_spec (tp_partition b) (tp_partition a));
    split; intros X; auto; try lia; try discriminate.
  - right. split; auto. lia.
  - destruct X as [X|(_ & X)]; auto; lia.
Qed.

Lemma less'_order : weak_order less'.
Proof.
  apply total_weak; unfold less'.
  - intros a. rewrite Z.ltb_irrefl. apply strLess_irrefl.
  - intros a b c. destruct (Z.ltb_spec (tp_partition a) (tp_partition b)), (Z.ltb_spec (tp_partition b) (tp_partition a)),
      (Z.ltb_spec (tp_partition b) (tp_partition c)), (Z.ltb_spec (tp_partition c) (tp_partition b)),
      (Z.ltb_spec (tp_partition a) (tp_partition c)), (Z.ltb_spec (tp_partition c) (tp_partition a));
      try discriminate; try lia; auto. apply strLess_trans.
  - intros a b. destruct (Z.ltb_spec (tp_partition a) (tp_partition b)), (Z.ltb_spec (tp_partition b) (tp_partition a));
      try discriminate; try lia. intros A B. destruct a, b; cbn in *. f_equal; [lia|apply strLess_total; auto].
Qed.

Lemma eqv_tp a b : eqv less' a b = tp_eqb a b.
Proof.
  apply eq_true_iff_eq. rewrite tp_eqb_spec, eqv_spec. split.
  - unfold less'. destruct (Z.ltb_spec (tp_partition a) (tp_partition b)), (Z.ltb_spec (tp_partition b) (tp_partition a));
      intros (A & B); try discriminate; try lia. destruct a, b; cbn in *. f_equal; [lia|apply strLess_total; auto].
  - intros ->. split; apply (wo_irrefl _ less'_order).
Qed.

(** ** The two orders give the same operations on valid items *)
Lemma searchLoop_ext f g : forall fuel i j, (forall k, f k = g k) -> searchLoop fuel f i j = searchLoop fuel g i j.
Proof.
  induction fuel as [|n IH]; intros i j H; cbn [searchLoop]; auto.
  destruct (Nat.ltb i j); auto. rewrite H, !(IH _ _ H). auto.
Qed.
Lemma find_agree s x : Forall valid s -> valid x -> find_ topicPartitionLess s x = find_ less' s x.
Proof.
  intros F V. rewrite Forall_forall in F. unfold find_, sortSearch.
  rewrite (searchLoop_ext _ (fun k => match nth_error s k with Some y => less' x y | None => true end)).
  - destruct (searchLoop _ _ _ _) as [|i]; auto. destruct (nth_error s i) eqn:E; auto.
    rewrite less_valid; auto. apply F. eapply nth_error_In; eauto.
  - intros k. destruct (nth_error s k) eqn:E; auto. apply less_valid; auto. apply F. eapply nth_error_In; eauto.
Qed.

Definition refines (s : TopicPartitionSet) (S : set) : Prop :=
  sorted less' s /\ Forall valid s /\ forall x, S x = match lookup less' s x with Some _ => true | None => false end.

Lemma Forall_firstn {A} (P : A -> Prop) n l : Forall P l -> Forall P (firstn n l).
Proof. rewrite <- (firstn_skipn n l) at 1. rewrite Forall_app. tauto. Qed.
Lemma Forall_skipn {A} (P : A -> Prop) n l : Forall P l -> Forall P (skipn n l).
Proof. rewrite <- (firstn_skipn n l) at 1. rewrite Forall_app. tauto. Qed.

Lemma step_ok s S o b s' : refines s S -> op_valid o -> step s o = (b, s') ->
  exists S', spec_step S o = (b, S') /\ refines s' S'.
Proof.
  intros (So & F & L) V E. destruct o as [tp|tp|tp]; cbn in *.
  - unfold Insert in E. destruct (ReplaceOrInsert topicPartitionLess s tp) as [old s1] eqn:R.
    injection E as <- <-. unfold ReplaceOrInsert in R. rewrite find_agree in R by auto.
    assert (F' : Forall valid s1).
    { destruct (find_ less' s tp) as [i []]; injection R as <- <-; apply Forall_app; split;
        auto using Forall_firstn; constructor; auto using Forall_skipn. }
    apply (insert_ok less' less'_order) in R as (S1 & -> & L1 & _); auto.
    exists (fun x => tp_eqb x tp || S x). split.
    + rewrite L. destruct (lookup less' s tp); auto.
    + split; [|split]; auto. intros x. rewrite L1, eqv_tp, L. destruct (tp_eqb x tp); auto.
  - unfold Remove in E. destruct (Delete topicPartitionLess s tp) as [old s1] eqn:R.
    injection E as <- <-. unfold Delete in R. rewrite find_agree in R by auto.
    assert (F' : Forall valid s1).
    { destruct (find_ less' s tp) as [i []]; injection R as <- <-; auto; apply Forall_app; split;
        auto using Forall_firstn, Forall_skipn. }
    apply (delete_ok less' less'_order) in R as (S1 & -> & L1 & _); auto.
    exists (fun x => negb (tp_eqb x tp) && S x). split.
    + rewrite L. auto.
    + split; [|split]; auto. intros x. rewrite L1, eqv_tp, L. destruct (tp_eqb x tp); auto.
  - injection E as <- <-. exists S. split; [|split; auto].
    f_equal. unfold Contains, Get. rewrite find_agree by auto.
    change (S tp = match Get less' s tp with Some _ => true | None => false end).
    rewrite (get_ok less' less'_order) by auto. auto.
Qed.

Lemma run_ok os : forall s S bs s', refines s S -> Forall op_valid os -> run s os = (bs, s') ->
  exists S', spec_run S os = (bs, S') /\ refines s' S'.
Proof.
  induction os as [|o os IH]; intros s S bs s' R V E; cbn in *.
  - injection E as <- <-. eauto.
  - inversion V; subst. destruct (step s o) as [b s1] eqn:E1. destruct (run s1 os) as [bs1 s2] eqn:E2.
    injection E as <- <-. destruct (step_ok _ _ _ _ _ R H1 E1) as (S1 & -> & R1).
    destruct (IH _ _ _ _ R1 H2 E2) as (S2 & -> & R2). eauto.
Qed.

Lemma refines0 : refines [] (fun _ => false).
Proof. split; [constructor|]. split; auto. Qed.

Lemma set_ok os bs s : Forall op_valid os -> run NewTopicPartitionSet os = (bs, s) ->
  exists S, spec_run (fun _ => false) os = (bs, S) /\
    (forall x, In x (Items s) <-> S x = true) /\ NoDup (Items s) /\ StronglySorted before (Items s).
Proof.
  intros V R. destruct (run_ok os _ _ _ _ refines0 V R) as (S & E & So & F & L). exists S. split; auto.
  unfold Items, Ascend. split; [|split].
  - intros x. rewrite L. split.
    + intros I. rewrite (lookup_in less' less'_order); auto.
    + destruct (lookup less' s x) as [y|] eqn:Lk; [|discriminate]. intros _.
      apply lookup_some in Lk as (I & Q). rewrite eqv_tp in Q. apply tp_eqb_spec in Q. subst. auto.
  - apply (sorted_NoDup less' less'_order); auto.
  - clear - So. induction So; constructor; auto. eapply Forall_impl; [|apply H]. intros b. apply less'_before.
Qed.
