(** List facts for the scheduler proofs. *)
From stdpp Require Import prelude list.
From Verif.ItemQueue Require Model Proofs.
From Verif.Scheduler Require Import Model.

Notation contents := ItemQueue.Proofs.contents.

Section Sums.
Context {A : Type}.
Implicit Types (f : A -> nat) (l : list A).
Fixpoint lsum f l : nat := match l with [] => 0 | x :: l' => f x + lsum f l' end.
Lemma lsum_app f l1 l2 : lsum f (l1 ++ l2) = lsum f l1 + lsum f l2.
Proof. induction l1 as [|x l1 IH]; cbn; lia. Qed.
Lemma lsum_insert f l i x y : l !! i = Some x -> lsum f (<[i := y]> l) + f x = lsum f l + f y.
Proof.
  revert i. induction l as [|z l IH]; intros [|i] H; simpl in *; try discriminate.
  - injection H as ->. lia.
  - specialize (IH i H). lia.
Qed.
Lemma lsum_elem f l i x : l !! i = Some x -> f x <= lsum f l.
Proof.
  revert i. induction l as [|z l IH]; intros [|i] H; simpl in *; try discriminate.
  - injection H as ->. lia.
  - specialize (IH i H). lia.
Qed.
Lemma lsum_two f l i i' x x' : l !! i = Some x -> l !! i' = Some x' -> i <> i' -> f x + f x' <= lsum f l.
Proof.
  intros H H' N. pose proof (lsum_insert f l i x x H) as E. rewrite list_insert_id in E by auto.
  revert i i' H H' N E. induction l as [|z l IH]; intros [|i] [|i'] H H' N E; simpl in *; try discriminate; try congruence.
  - injection H as ->. pose proof (lsum_elem f l i' x' H'). lia.
  - injection H' as ->. pose proof (lsum_elem f l i x H). lia.
  - specialize (IH i i' H H' ltac:(congruence) ltac:(lia)). lia.
Qed.
Lemma lsum_zero f l : lsum f l = 0 <-> forall i x, l !! i = Some x -> f x = 0.
Proof.
  split.
  - intros E i x H. pose proof (lsum_elem f l i x H). lia.
  - induction l as [|z l IH]; intros H; [reflexivity|]. cbn. rewrite (H 0 z eq_refl). apply IH. intros i x Hx. apply (H (S i) x Hx).
Qed.
Lemma lsum_repeat f x n : f x = 0 -> lsum f (repeat x n) = 0.
Proof. intros E. induction n as [|n IH]; cbn; [reflexivity|]. rewrite E. exact IH. Qed.
Lemma lsum_pos f l : 0 < lsum f l -> exists i x, l !! i = Some x /\ 0 < f x.
Proof.
  induction l as [|z l IH]; cbn; [lia|]. intros H. destruct (f z) eqn:E.
  - destruct IH as (i & x & Hx & P); [lia|]. exists (S i), x. auto.
  - exists 0, z. split; [reflexivity|lia].
Qed.

Definition fm {B} (f : A -> list B) (l : list A) : list B := flat_map f l.
Lemma fm_others {B} (f : A -> list B) l i x y : l !! i = Some x -> (forall i' x', i' <> i -> l !! i' = Some x' -> f x' = []) ->
  fm f (<[i := y]> l) = f y /\ fm f l = f x.
Proof.
  revert i. induction l as [|z l IH]; intros [|i] H O; simpl in *; try discriminate.
  - injection H as ->. assert (E : fm f l = []).
    { clear IH. assert (forall i' x', l !! i' = Some x' -> f x' = []) as O' by (intros i' x' H'; apply (O (S i') x'); auto). clear O.
      induction l as [|z' l IH]; [reflexivity|]. unfold fm in *. cbn. rewrite (O' 0 z' eq_refl). apply IH. intros i' x' H'. apply (O' (S i') x' H'). }
    unfold fm in *. rewrite E. rewrite !app_nil_r. auto.
  - assert (E : f z = []) by (apply (O 0 z); auto). rewrite E. cbn. apply (IH i H). intros i' x' N H'. apply (O (S i') x'); auto.
Qed.
Lemma fm_same {B} (f : A -> list B) l i x y : l !! i = Some x -> f x = f y -> fm f (<[i := y]> l) = fm f l.
Proof.
  revert i. induction l as [|z l IH]; intros [|i] H E; simpl in *; try discriminate.
  - injection H as ->. congruence.
  - unfold fm in *. f_equal. auto.
Qed.
Lemma fm_nil {B} (f : A -> list B) l : (forall i x, l !! i = Some x -> f x = []) -> fm f l = [].
Proof.
  induction l as [|z l IH]; intros H; [reflexivity|]. unfold fm in *. cbn. rewrite (H 0 z eq_refl). apply IH. intros i x Hx. apply (H (S i) x Hx).
Qed.
End Sums.

(** occurrences *)
Definition cnt (w : nat) (l : list nat) : nat := lsum (fun x => if decide (x = w) then 1 else 0) l.
Lemma cnt_app w l1 l2 : cnt w (l1 ++ l2) = cnt w l1 + cnt w l2.
Proof. apply lsum_app. Qed.
Lemma cnt_cons w x l : cnt w (x :: l) = (if decide (x = w) then 1 else 0) + cnt w l.
Proof. reflexivity. Qed.
Lemma cnt_pos w l : 0 < cnt w l <-> w ∈ l.
Proof.
  induction l as [|x l IH]; [cbn; split; [lia|intros H; inversion H]|]. rewrite cnt_cons, elem_of_cons. case_decide; subst; split; try lia; auto.
  - intros H'. right. apply IH. lia.
  - intros [?|H']; [congruence|]. apply IH in H'. lia.
Qed.
Lemma cnt_NoDup l : (forall w, cnt w l <= 1) -> NoDup l.
Proof.
  induction l as [|x l IH]; intros H; constructor.
  - intros E. apply cnt_pos in E. specialize (H x). rewrite cnt_cons in H. rewrite decide_True in H by auto. lia.
  - apply IH. intros w. specialize (H w). rewrite cnt_cons in H. lia.
Qed.
Lemma cnt_delete w l i x : l !! i = Some x -> cnt w (delete i l) + (if decide (x = w) then 1 else 0) = cnt w l.
Proof.
  unfold cnt. revert i. induction l as [|y l IH]; intros [|i] H; simpl in *; try discriminate.
  - injection H as ->. lia.
  - specialize (IH i H). lia.
Qed.
Lemma cnt_take_drop w n l : cnt w (take n l) + cnt w (drop n l) = cnt w l.
Proof. rewrite <- cnt_app, take_drop. reflexivity. Qed.

(** jobs *)
Definition jof (P : job -> bool) (l : list job) : list job := List.filter P l.
Lemma jof_app P l1 l2 : jof P (l1 ++ l2) = jof P l1 ++ jof P l2.
Proof. apply List.filter_app. Qed.
Definition keyis (k : nat) (j : job) : bool := jkey j =? k.
Definition callis (c : nat) (j : job) : bool := jcaller j =? c.
Definition jn (P : job -> bool) (l : list job) : nat := length (jof P l).
Lemma jn_app P l1 l2 : jn P (l1 ++ l2) = jn P l1 + jn P l2.
Proof. unfold jn. rewrite jof_app, app_length. reflexivity. Qed.
Lemma jof_all P l : (forall j, j ∈ l -> P j = true) -> jof P l = l.
Proof.
  induction l as [|x l IH]; intros H; [reflexivity|]. cbn. rewrite (H x) by set_solver. f_equal. apply IH. set_solver.
Qed.
Lemma jof_none P l : (forall j, j ∈ l -> P j = false) -> jof P l = [].
Proof.
  induction l as [|x l IH]; intros H; [reflexivity|]. cbn. rewrite (H x) by set_solver. apply IH. set_solver.
Qed.

(** the map *)
Lemma mlookup_In k m w : NoDup m.*1 -> mlookup k m = Some w <-> (k, w) ∈ m.
Proof.
  induction m as [|[k' w'] m IH]; cbn; intros ND.
  - split; [discriminate|]. intros H; inversion H.
  - inversion ND as [|? ? Nx ND']; subst. rewrite elem_of_cons. case_decide as D.
    + subst. split; [intros [= ->]; auto|]. intros [[= <-]|H]; auto. exfalso. apply Nx. apply elem_of_list_fmap. exists (k', w). auto.
    + rewrite IH by auto. split; auto. intros [[= -> ->]|H]; [congruence|auto].
Qed.
Lemma mlookup_None k m : mlookup k m = None <-> k ∉ m.*1.
Proof.
  induction m as [|[k' w'] m IH]; cbn; [split; auto; intros _ H; inversion H|]. rewrite elem_of_cons. case_decide as D; subst.
  - split; [discriminate|tauto].
  - rewrite IH. tauto.
Qed.
Lemma mdelete_In k m k' w : (k', w) ∈ mdelete k m <-> (k', w) ∈ m /\ k' <> k.
Proof.
  induction m as [|[k0 w0] m IH]; cbn; [split; [intros H; inversion H|intros [H _]; inversion H]|].
  case_decide as D; subst; rewrite ?elem_of_cons, IH; rewrite ?elem_of_cons; intuition congruence.
Qed.
Lemma mdelete_keys k m k' : k' ∈ (mdelete k m).*1 -> k' ∈ m.*1.
Proof. rewrite !elem_of_list_fmap. intros ((k1 & w) & -> & H). apply mdelete_In in H as (H & _). eauto. Qed.
Lemma mdelete_ND k m : NoDup m.*1 -> NoDup (mdelete k m).*1.
Proof.
  induction m as [|[k0 w0] m IH]; cbn; intros ND; [constructor|]. inversion ND as [|? ? Nx ND']; subst. case_decide; auto. cbn. constructor; auto.
  intros H'. apply Nx. apply (mdelete_keys k). auto.
Qed.
Lemma mdelete_lookup k m k' : mlookup k' (mdelete k m) = if decide (k' = k) then None else mlookup k' m.
Proof.
  induction m as [|[k0 w0] m IH]; cbn; [case_decide; auto|]. destruct (decide (k = k0)) as [->|D].
  - rewrite IH. destruct (decide (k' = k0)); auto.
  - cbn. rewrite IH. destruct (decide (k' = k0)), (decide (k' = k)); subst; auto; congruence.
Qed.
Lemma mdelete_notin k m : k ∉ m.*1 -> mdelete k m = m.
Proof.
  induction m as [|[k2 w2] m IH]; cbn; auto. rewrite elem_of_cons. intros H. destruct (decide (k = k2)); [tauto|]. f_equal. apply IH. tauto.
Qed.
Lemma mdelete_cnt w k m w0 : NoDup m.*1 -> (k, w0) ∈ m -> cnt w (mdelete k m).*2 + (if decide (w0 = w) then 1 else 0) = cnt w m.*2.
Proof.
  induction m as [|[k1 w1] m IH]; intros ND H; [inversion H|]. rewrite fmap_cons in ND. inversion ND as [|? ? Nx ND']; subst. rewrite elem_of_cons in H.
  cbn [mdelete]. destruct (decide (k = k1)) as [->|D].
  - assert (w0 = w1) as ->.
    { destruct H as [E|H]; [congruence|]. exfalso. apply Nx. apply elem_of_list_fmap. exists (k1, w0). auto. }
    rewrite mdelete_notin by auto. rewrite fmap_cons, cnt_cons. cbn [snd]. lia.
  - destruct H as [E|H]; [congruence|]. specialize (IH ND' H). rewrite !fmap_cons, !cnt_cons. cbn [snd]. lia.
Qed.
Lemma mdelete_length k m w : NoDup m.*1 -> (k, w) ∈ m -> S (length (mdelete k m)) = length m.
Proof.
  induction m as [|[k1 w1] m IH]; cbn; intros ND H; [inversion H|]. inversion ND as [|? ? Nx ND']; subst. rewrite elem_of_cons in H.
  destruct (decide (k = k1)) as [->|D].
  - rewrite mdelete_notin by auto. auto.
  - destruct H as [E|H]; [congruence|]. cbn. f_equal. auto.
Qed.
