(** Preservation of the invariant. *)
From stdpp Require Import prelude list.
From Verif.StateStore Require Import Model Inv.
Open Scope nat_scope.

Section omaps.
  Context {A : Type} (f : A -> option nat).
  Lemma omap_insert_same (l : list A) i y y' : l !! i = Some y -> f y' = f y -> omap f (<[i := y']> l) = omap f l.
  Proof. revert i. induction l as [|a l IH]; intros [|i] H E; try discriminate; simpl in *; [injection H as ->; rewrite E; reflexivity|]. specialize (IH i H E). destruct (f a); [f_equal|]; exact IH. Qed.
  Lemma omap_insert_new (l : list A) i y y' m : l !! i = Some y -> f y = None -> f y' = Some m -> omap f (<[i := y']> l) ≡ₚ m :: omap f l.
  Proof.
    revert i. induction l as [|a l IH]; intros [|i] H E E'; try discriminate; simpl in *; [injection H as ->; rewrite E, E'; reflexivity|].
    specialize (IH i H E E'). destruct (f a) as [z|]; [|exact IH]. etransitivity; [apply perm_skip, IH|apply perm_swap].
  Qed.
  Lemma omap_elem (l : list A) i y m : l !! i = Some y -> f y = Some m -> m ∈ omap f l.
  Proof. intros H E. apply elem_of_list_omap. exists y. split; [eapply elem_of_list_lookup_2, H|exact E]. Qed.
  Lemma omap_inj (l : list A) i j y z m : NoDup (omap f l) -> l !! i = Some y -> l !! j = Some z -> f y = Some m -> f z = Some m -> i = j.
  Proof.
    revert i j. induction l as [|a l IH]; intros [|i] [|j] N Hi Hj Ei Ej; try discriminate; simpl in *; auto.
    - injection Hi as ->. rewrite Ei in N. apply NoDup_cons in N as [N _]. destruct N. eapply omap_elem; eauto.
    - injection Hj as ->. rewrite Ej in N. apply NoDup_cons in N as [N _]. destruct N. eapply omap_elem; eauto.
    - f_equal. eapply IH; eauto. destruct (f a); [apply NoDup_cons in N as [_ N]|]; exact N.
  Qed.
End omaps.

Lemma ownIn_ext o o' l : (forall m, m ∈ l -> m ∈ o <-> m ∈ o') -> ownIn o l = ownIn o' l.
Proof.
  unfold ownIn. induction l as [|a l IH]; intros H; [reflexivity|]. rewrite !filter_cons. rewrite IH by (intros m Hm; apply H; right; exact Hm).
  destruct (decide (a ∈ o)) as [E|E], (decide (a ∈ o')) as [E'|E']; try reflexivity; exfalso; apply (H a) in E || apply (H a) in E'; auto; left.
Qed.
Lemma ownIn_app o a b : ownIn o (a ++ b) = ownIn o a ++ ownIn o b.
Proof. apply filter_app. Qed.

(** frame: [base] looks at these only *)
Lemma base_frame s s' : log s' = log s -> nextMark s' = nextMark s -> syncs s' = syncs s -> base s -> base s'.
Proof. intros E1 E2 E3 [A B C D E]. split; unfold own; rewrite ?E1, ?E2, ?E3; assumption. Qed.

Lemma cancel_frame s : log (cancel s) = log s /\ nextMark (cancel s) = nextMark s /\ syncs (cancel s) = syncs s.
Proof. unfold cancel, pause, closeCh; cbn. destruct (buf s); cbn; [destruct (chans s !! n); cbn|]; auto. Qed.
Lemma handle_frame x r s : log (snd (handleRecord x r s)) = log s /\ nextMark (snd (handleRecord x r s)) = nextMark s /\ syncs (snd (handleRecord x r s)) = syncs s.
Proof.
  destruct r as [n|m]; cbn; [auto|]. unfold isCompletionMarker. destruct (decide (m ∈ waiters s)); cbn; [|auto]. destruct (state s); cbn; auto.
  unfold cancel, pause, closeCh; cbn. destruct (buf s) as [c|]; cbn; [destruct (chans s !! c); cbn|]; auto.
Qed.

Lemma base_addSync k x s : base s -> base (addSync k x s).
Proof.
  intros [A B C D E]. assert (Q : own (addSync k x s) = own s) by (unfold own, addSync; cbn; rewrite omap_app; cbn; apply app_nil_r).
  split; rewrite ?Q; cbn; try assumption. intros i k' x' m H. apply lookup_app_Some in H as [H|[_ H]]; [eapply E, H|]. apply list_lookup_singleton_Some in H as [_ [=]].
Qed.

Lemma base_same s i k x g g' : syncs s !! i = Some (mkSync k x g) -> mark_of g' = mark_of g -> (forall m, g' <> SReg m) -> base s -> base (setSync i k x g' s).
Proof.
  intros H E R [A B C D F]. assert (Q : own (setSync i k x g' s) = own s) by (unfold own, setSync; cbn; apply (omap_insert_same (fun y => mark_of (sy_stage y)) _ _ (mkSync k x g)); [exact H|exact E]).
  split; rewrite ?Q; cbn; try assumption. intros j k' x' m Hj. apply list_lookup_insert_Some in Hj as [(-> & [= -> -> ->] & _)|[_ Hj]]; [exfalso; eapply R; reflexivity|]. eapply F, Hj.
Qed.

Lemma step_base s a s' : base s -> step s a = Some s' -> base s'.
Proof.
  intros Bs H. pose proof Bs as [A B C D E]. destruct a as [n| | | | | |i|i|i|i|n| | | |j|j]; cbn [step] in H.
  - injection H as <-. split; cbn; unfold marks; rewrite ?flat_map_app; cbn; rewrite ?app_nil_r; assumption.
  - injection H as <-. split; cbn.
    + intros m Hm. rewrite marks_app in Hm. apply elem_of_app in Hm as [Hm|Hm]; [apply A in Hm; lia|]. cbn in Hm. apply elem_of_list_singleton in Hm. lia.
    + rewrite marks_app. apply NoDup_app. split; [exact B|]. split; [|apply NoDup_singleton]. intros m Hm Q. cbn in Q. apply elem_of_list_singleton in Q as ->. apply A in Hm. lia.
    + intros m Hm. apply C in Hm. lia.
    + exact D.
    + intros i k x m Hi. rewrite marks_app. intros Q. apply elem_of_app in Q as [Q|Q]; [eapply E; eauto|]. cbn in Q. apply elem_of_list_singleton in Q as ->.
      assert (nextMark s ∈ own s) as U by (apply (omap_elem (fun y => mark_of (sy_stage y)) _ i (mkSync k x (SReg (nextMark s)))); [exact Hi|reflexivity]). apply C in U. lia.
  - destruct (prepping s); [injection H as <-; exact Bs|]. unfold assignStore in H. destruct (store s); injection H as <-; apply base_addSync; (eapply base_frame; [..|exact Bs]; reflexivity).
  - injection H as <-. destruct (prepping s); [|exact Bs]. destruct (cancel_frame s) as (E1 & E2 & E3). eapply base_frame; [..|exact Bs]; cbn; assumption.
  - unfold assignStore in H. destruct (store s); cbn in H; destruct (prepping s); try (destruct (worker s)); injection H as <-; try apply base_addSync; (eapply base_frame; [..|exact Bs]; reflexivity).
  - injection H as <-. eapply base_frame; [..|exact Bs]; reflexivity.
  - destruct (syncs s !! i) as [[k x g]|] eqn:Ei; [|discriminate]. destruct g; try discriminate. injection H as <-.
    assert (P : own (setSync i k x (SReg (nextMark s)) s) ≡ₚ nextMark s :: own s) by (unfold own, setSync; cbn; apply (omap_insert_new (fun y => mark_of (sy_stage y)) _ _ (mkSync k x SNew)); [exact Ei|reflexivity..]).
    split; cbn.
    + intros m Hm. apply A in Hm. lia.
    + exact B.
    + intros m Hm. change (m ∈ own (setSync i k x (SReg (nextMark s)) s)) in Hm. apply (elem_of_Permutation_proper m _ _ P) in Hm. apply elem_of_cons in Hm as [->|Hm]; [lia|]. apply C in Hm. lia.
    + change (NoDup (own (setSync i k x (SReg (nextMark s)) s))). rewrite P. apply NoDup_cons. split; [|exact D]. intros Q. apply C in Q. lia.
    + intros j k' x' m Hj. apply list_lookup_insert_Some in Hj as [(-> & [= _ _ <-] & _)|[_ Hj]]; [|eapply E, Hj]. intros Q. apply A in Q. lia.
  - destruct (syncs s !! i) as [[k x g]|] eqn:Ei; [|discriminate]. destruct g as [|m|m|m]; try discriminate. injection H as <-.
    assert (B1 : base (setSync i k x (SSent m) s)) by (eapply base_same; [exact Ei|reflexivity|discriminate|exact Bs]).
    assert (Om : m ∈ own s) by (apply (omap_elem (fun y => mark_of (sy_stage y)) _ i (mkSync k x (SReg m))); [exact Ei|reflexivity]).
    destruct B1 as [A1 B1 C1 D1 E1]. split; cbn in *.
    + intros m' Hm. rewrite marks_app in Hm. apply elem_of_app in Hm as [Hm|Hm]; [apply A in Hm; lia|]. cbn in Hm. apply elem_of_list_singleton in Hm as ->. apply C, Om.
    + rewrite marks_app. apply NoDup_app. split; [exact B|]. split; [|apply NoDup_singleton]. intros m' Hm Q. cbn in Q. apply elem_of_list_singleton in Q as ->. eapply E; eauto.
    + exact C1.
    + exact D1.
    + intros j k' x' m' Hj. rewrite marks_app. intros Q. apply elem_of_app in Q as [Q|Q]; [eapply E1; eauto|]. cbn in Q. apply elem_of_list_singleton in Q as ->.
      apply list_lookup_insert_Some in Hj as [(-> & [=] & _)|[N Hj]]. apply N.
      eapply (omap_inj (fun y => mark_of (sy_stage y)) (syncs s)); [exact D|exact Ei|exact Hj|reflexivity|reflexivity].
  - destruct (syncs s !! i) as [[k x g]|] eqn:Ei; [|discriminate]. destruct g as [|m|m|m]; try discriminate. injection H as <-. eapply base_same; [exact Ei|reflexivity|discriminate|exact Bs].
  - destruct (syncs s !! i) as [[k x g]|] eqn:Ei; [|discriminate]. destruct g as [|m|m|m]; try discriminate. destruct (decide (m ∈ released (trace s))); [|discriminate]. injection H as <-.
    eapply base_same; [exact Ei|reflexivity|discriminate|exact Bs].
  - destruct (con s); try discriminate. destruct (fpaused s); [discriminate|]. destruct (decide _); [|discriminate]. injection H as <-. eapply base_frame; [..|exact Bs]; reflexivity.
  - destruct (con s); try discriminate. injection H as <-. destruct (state s); (eapply base_frame; [..|exact Bs]; reflexivity).
  - destruct (con s); try discriminate. injection H as <-. eapply base_frame; [..|exact Bs]; reflexivity.
  - destruct (con s) as [| | |b [c|]|]; try discriminate. destruct (chans s !! c) as [ch|]; [|discriminate]. destruct (c_closed ch); [injection H as <-; eapply base_frame; [..|exact Bs]; reflexivity|].
    destruct (length (c_q ch) <? bufferSize); [|discriminate]. injection H as <-. eapply base_frame; [..|exact Bs]; reflexivity.
  - destruct (pops s !! j) as [[c x [|r b] [] dn]|]; try discriminate. destruct (chans s !! c) as [[[|b q] []]|]; try discriminate; injection H as <-; (eapply base_frame; [..|exact Bs]; reflexivity).
  - destruct (pops s !! j) as [[c x [|r b] [] dn]|]; try discriminate. pose proof (handle_frame x r s) as (E1 & E2 & E3). destruct (handleRecord x r s) as [complete s1]. cbn in E1, E2, E3. injection H as <-.
    eapply base_frame; [..|exact Bs]; assumption.
Qed.
