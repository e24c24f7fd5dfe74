(** The sorted member lists. *)
From Verif.Balancer Require Export Model.
From stdpp Require Export prelude list gmap sorting.
Open Scope nat_scope.

Definition leA (a b : nat * mem) : Prop := lessA b a = false.
Definition leI (a b : nat * mem) : Prop := lessI b a = false.
Local Ltac crunch := repeat (case_decide || case_bool_decide); simplify_eq; try done; try lia.
Lemma leA_trans a b c : leA a b -> leA b c -> leA a c.
Proof. unfold leA, lessA. crunch. Qed.
Lemma leI_trans a b c : leI a b -> leI b c -> leI a c.
Proof. unfold leI, lessI. crunch. Qed.
Lemma lessA_asym a b : lessA a b = true -> leA a b.
Proof. unfold leA, lessA. crunch. Qed.
Lemma lessI_asym a b : lessI a b = true -> leI a b.
Proof. unfold leI, lessI. crunch. Qed.
Lemma leA_load a b : leA a b -> load a.2 <= load b.2.
Proof. unfold leA, lessA. crunch. Qed.
Lemma leI_left a b : leI a b -> (mleft a.2 < mleft b.2)%Z \/ (mleft a.2 = mleft b.2 /\ a.1 <= b.1).
Proof. unfold leI, lessI. crunch. Qed.

Section sort.
  Context (less : nat * mem -> nat * mem -> bool).
  Context (TR : forall a b c, less b a = false -> less c b = false -> less c a = false) (AS : forall a b, less a b = true -> less b a = false).
  Let le a b : Prop := less b a = false.
  Lemma ins_perm x l : ins less x l ≡ₚ x :: l.
  Proof using. induction l as [|y l IH]; simpl; [done|]. destruct (less x y); [done|]. rewrite IH. solve_Permutation. Qed.
  Lemma isort_perm l : isort less l ≡ₚ l.
  Proof using. induction l as [|x l IH]; simpl; [done|]. by rewrite ins_perm, IH. Qed.
  Lemma ins_sorted x l : StronglySorted le l -> StronglySorted le (ins less x l).
  Proof using TR AS.
    induction l as [|y l IH]; simpl; intros H; [repeat constructor|]. apply StronglySorted_inv in H as [H1 H2]. destruct (less x y) eqn:E.
    - constructor; [by constructor|]. constructor; [by apply AS|]. rewrite Forall_forall in *. intros z Z. eapply (TR x y z); [by apply AS|by apply H2].
    - constructor; [by apply IH|]. rewrite Forall_forall in *. intros z. rewrite ins_perm, elem_of_cons. intros [->|Z]; [done|by apply H2].
  Qed.
  Lemma isort_sorted l : StronglySorted le (isort less l).
  Proof using TR AS. induction l as [|x l IH]; simpl; [constructor|]. by apply ins_sorted. Qed.
End sort.
Section ends.
  Context (le : nat * mem -> nat * mem -> Prop).
  Lemma head_le l x y : StronglySorted le l -> head l = Some x -> y ∈ l -> y = x \/ le x y.
  Proof. destruct l as [|z l]; [done|]. intros H E. injection E as ->. apply StronglySorted_inv in H as [_ H2]. rewrite elem_of_cons, Forall_forall in *. intros [->|Y]; [by left|right; by apply H2]. Qed.
  Lemma last_le l x y : StronglySorted le l -> last l = Some x -> y ∈ l -> y = x \/ le y x.
  Proof.
    induction l as [|z l IH]; [done|]. intros H L Y. apply StronglySorted_inv in H as [H1 H2]. destruct l as [|w l].
    - injection L as <-. left. by apply elem_of_list_singleton in Y.
    - change (last (w :: l) = Some x) in L. apply elem_of_cons in Y as [->|Y]; [|by apply IH]. right. rewrite Forall_forall in H2. apply H2.
      apply last_Some in L as [l' ->]. set_solver.
  Qed.
  Lemma find_le (P : nat * mem -> Prop) `{!forall x, Decision (P x)} l k x y : StronglySorted le l -> list_find P l = Some (k, x) -> y ∈ l -> P y -> y = x \/ le x y.
  Proof.
    revert k. induction l as [|z l IH]; [done|]. intros k HS L Y Py. apply StronglySorted_inv in HS as [H1 H2]. simpl in L. case_decide as D.
    - injection L as <- <-. apply elem_of_cons in Y as [->|Y]; [by left|]. right. rewrite Forall_forall in H2. by apply H2.
    - apply fmap_Some in L as [[k' x'] [L E]]. injection E as -> ->. apply elem_of_cons in Y as [->|Y]; [done|]. by apply (IH k').
  Qed.
End ends.

Lemma actives_sorted g : StronglySorted leA (actives g).
Proof. apply isort_sorted; [intros a b c; apply leA_trans|apply lessA_asym]. Qed.
Lemma inactives_sorted g : StronglySorted leI (inactives g).
Proof. apply isort_sorted; [intros a b c; apply leI_trans|apply lessI_asym]. Qed.
Lemma elem_actives g i m : (i, m) ∈ actives g <-> mems g !! i = Some m /\ mstat m <> Inactive.
Proof. unfold actives. rewrite isort_perm, elem_of_list_filter, elem_of_map_to_list. naive_solver. Qed.
Lemma elem_inactives g i m : (i, m) ∈ inactives g <-> mems g !! i = Some m /\ mstat m = Inactive.
Proof. unfold inactives. rewrite isort_perm, elem_of_list_filter, elem_of_map_to_list. naive_solver. Qed.
Lemma NoDup_filter_fst (P : nat * mem -> Prop) `{!forall x, Decision (P x)} (M : gmap nat mem) : NoDup (filter P (map_to_list M)).*1.
Proof.
  generalize (NoDup_fst_map_to_list M). generalize (map_to_list M). intros l. induction l as [|x l IH]; [done|]. rewrite fmap_cons, NoDup_cons. intros [N D].
  rewrite filter_cons. case_decide; [|by apply IH]. rewrite fmap_cons. constructor; [|by apply IH]. intros F. apply N. apply elem_of_list_fmap in F as (y & -> & Y).
  apply elem_of_list_filter in Y as [_ Y]. by apply elem_of_list_fmap_1.
Qed.
Lemma NoDup_actives g : NoDup (actives g).*1.
Proof. unfold actives. rewrite isort_perm. apply NoDup_filter_fst. Qed.
Lemma NoDup_inactives g : NoDup (inactives g).*1.
Proof. unfold inactives. rewrite isort_perm. apply NoDup_filter_fst. Qed.
Lemma actives_nonempty g : actives g <> [] <-> exists i m, mems g !! i = Some m /\ mstat m <> Inactive.
Proof.
  split.
  - destruct (actives g) as [|[i m] l] eqn:E; [done|]. intros _. exists i, m. apply elem_actives. rewrite E. left.
  - intros (i & m & H). apply elem_actives in H. by destruct (actives g); [apply elem_of_nil in H|].
Qed.
