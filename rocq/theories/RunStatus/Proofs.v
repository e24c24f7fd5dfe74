From Coq Require Import List Bool Arith Lia.
From Verif.RunStatus Require Import Model.
Import ListNotations.

(** ** Specification: a forest of run statuses, numbered in order of creation *)
Inductive origin := Root | ForkOf (h : nat) | ValueOf (h : nat).

Inductive stopped (es : list origin) (halted : list nat) : nat -> Prop :=
| st_halted i : In i halted -> stopped es halted i
| st_fork i h : nth_error es i = Some (ForkOf h) -> stopped es halted h -> stopped es halted i
| st_value i h : nth_error es i = Some (ValueOf h) -> stopped es halted h -> stopped es halted i
| st_value_up i h : nth_error es i = Some (ValueOf h) -> stopped es halted i -> stopped es halted h.

Fixpoint spec_of (es : list origin) (halted : list nat) (os : list op) : list origin * list nat :=
  match os with
  | [] => (es, halted)
  | ONew :: os' => spec_of (es ++ [Root]) halted os'
  | OFork h :: os' => spec_of (es ++ [ForkOf h]) halted os'
  | OWithValue h :: os' => spec_of (es ++ [ValueOf h]) halted os'
  | OHalt h :: os' => spec_of es (h :: halted) os'
  end.

(** ** Contexts *)
Definition E (cs : contexts) (i : nat) : bool := ctxErr cs (Some i).
Definition Ep (cs : contexts) (p : option nat) : bool := ctxErr cs p.

#[local] Arguments E : simpl never.
#[local] Arguments Ep : simpl never.

Definition wf (cs : contexts) : Prop :=
  forall i p, i < length cs -> n_parent (node cs i) = Some p -> p < i.

Lemma node_app1 cs cs' i : i < length cs -> node (cs ++ cs') i = node cs i.
Proof. intros. unfold node. apply app_nth1; auto. Qed.
Lemma node_last cs n : node (cs ++ [n]) (length cs) = n.
Proof. unfold node. rewrite app_nth2, Nat.sub_diag by lia. auto. Qed.

(** fuel does not matter once it exceeds the index *)
Lemma errF_fuel cs : wf cs -> forall i, i < length cs -> forall f, i < f ->
  errF f cs (Some i) = E cs i.
Proof.
  intros W i. induction i as [i IH] using lt_wf_ind. intros L f F.
  unfold E, ctxErr. destruct f as [|f]; [lia|]. cbn [errF].
  destruct (n_kind (node cs i)); auto.
  destruct (n_parent (node cs i)) as [p|] eqn:P.
  - assert (p < i) by (eapply W; eauto). rewrite (IH p) by lia.
    destruct i; [lia|]. rewrite (IH p) by lia. auto.
  - destruct f, i; auto.
Qed.

Lemma E_rec cs i : wf cs -> i < length cs ->
  E cs i = match n_kind (node cs i) with
           | Cancel => n_cancelled (node cs i)
           | Value => Ep cs (n_parent (node cs i))
           end.
Proof.
  intros W L. unfold E at 1, ctxErr. cbn [errF]. destruct (n_kind (node cs i)) eqn:K; auto.
  destruct (n_parent (node cs i)) as [p|] eqn:P; cbn [Ep ctxErr].
  - assert (p < i) by (eapply W; eauto). apply errF_fuel; auto; lia.
  - destruct i; auto.
Qed.

Lemma wf_app cs n : wf cs -> (forall p, n_parent n = Some p -> p < length cs) -> wf (cs ++ [n]).
Proof.
  intros W H i p L P. rewrite app_length in L. cbn in L.
  destruct (Nat.eq_dec i (length cs)) as [->|N].
  - rewrite node_last in P. auto.
  - rewrite node_app1 in P by lia. apply (W i p); auto. lia.
Qed.
Lemma wf_prefix cs n : wf (cs ++ [n]) -> wf cs.
Proof.
  intros W i p L P. apply (W i p); [rewrite app_length; cbn; lia|]. rewrite node_app1; auto.
Qed.

Lemma E_app cs n i : wf cs -> wf (cs ++ [n]) -> i < length cs -> E (cs ++ [n]) i = E cs i.
Proof.
  intros W W2. induction i as [i IH] using lt_wf_ind. intros L.
  rewrite !E_rec by (auto; rewrite ?app_length; cbn; lia). rewrite node_app1 by auto.
  destruct (n_kind (node cs i)); auto. destruct (n_parent (node cs i)) as [p|] eqn:P; auto.
  assert (p < i) by (eapply W; eauto). unfold Ep. apply IH; lia.
Qed.

(** ** cancelling *)
Definition same_shape (a b : contexts) : Prop :=
  length a = length b /\
  forall i, n_kind (node a i) = n_kind (node b i) /\ n_parent (node a i) = n_parent (node b i).

Lemma markChild_shape acc n s : n_kind (markChild acc n s) = n_kind n /\ n_parent (markChild acc n s) = n_parent n.
Proof. unfold markChild. destruct (n_kind n) eqn:K; cbn; auto. Qed.

(** characterisation of the state after cancelling [c], valid for prefixes *)
Definition after (cs cs' : contexts) (c : nat) : Prop :=
  forall i, i < length cs' ->
    n_kind (node cs' i) = n_kind (node cs i) /\ n_parent (node cs' i) = n_parent (node cs i) /\
    (n_kind (node cs i) = Cancel ->
       n_cancelled (node cs' i) = n_cancelled (node cs i) || (i =? c) || Ep cs' (n_parent (node cs i))).

Lemma cancelFrom_ok cs c : wf cs -> forall rest acc, length acc + length rest = length cs ->
  (forall k, node rest k = node cs (length acc + k)) -> wf acc -> after cs acc c ->
  wf (cancelFrom acc rest c) /\ after cs (cancelFrom acc rest c) c /\ length (cancelFrom acc rest c) = length cs.
Proof.
  intros W. induction rest as [|n rest IH]; intros acc L R WA A; cbn.
  - cbn in L. repeat split; auto; try lia.
    + apply A; auto. + apply A; auto. + apply A; auto.
  - assert (Rn : n = node cs (length acc)) by (specialize (R 0); cbn in R; rewrite Nat.add_0_r in R; auto).
    destruct (markChild_shape acc n (length acc =? c)) as (K & P).
    assert (Hp : forall p, n_parent n = Some p -> p < length acc).
    { intros p Pp. apply (W (length acc) p); [cbn in L; lia|]. rewrite <- Rn; auto. }
    assert (WA' : wf (acc ++ [markChild acc n (length acc =? c)])) by (apply wf_app; auto; rewrite P; auto).
    apply IH; auto.
    + rewrite app_length. cbn in *. lia.
    + intros k. specialize (R (S k)). cbn in R. rewrite app_length. cbn.
      replace (length acc + 1 + k) with (length acc + S k) by lia. auto.
    + intros i Li. rewrite app_length in Li. cbn in Li.
      destruct (Nat.eq_dec i (length acc)) as [->|N].
      * rewrite node_last, K, P, <- Rn. repeat split. intros KC.
        assert (X : Ep (acc ++ [markChild acc n (length acc =? c)]) (n_parent n) = ctxErr acc (n_parent n)).
        { destruct (n_parent n) as [p|] eqn:Pp; auto. unfold Ep. apply E_app; auto. }
        rewrite X. unfold markChild. rewrite KC. reflexivity.
      * rewrite node_app1 by lia. destruct (A i) as (A1 & A2 & A3); [lia|]. repeat split; auto.
        intros KC. rewrite A3 by auto. f_equal.
        destruct (n_parent (node cs i)) as [p|] eqn:Pp; auto. unfold Ep. symmetry. apply E_app; auto.
        assert (p < i) by (apply (WA i p); [lia|congruence]). lia.
Qed.

Lemma doCancel_ok cs c : wf cs -> wf (doCancel cs c) /\ after cs (doCancel cs c) c /\ length (doCancel cs c) = length cs.
Proof.
  intros W. apply cancelFrom_ok; auto.
  - intros i p L. cbn in L. lia.
  - intros i L. cbn in L. lia.
Qed.

(** ** Owners: which context the CancelFunc of a status cancels *)
Inductive owner (es : list origin) : nat -> nat -> Prop :=
| ow_root i : nth_error es i = Some Root -> owner es i i
| ow_fork i h : nth_error es i = Some (ForkOf h) -> owner es i i
| ow_value i h o : nth_error es i = Some (ValueOf h) -> owner es h o -> owner es i o.

Lemma nth_app_some {A} (l l' : list A) i x : nth_error l i = Some x -> nth_error (l ++ l') i = Some x.
Proof. intros H. rewrite nth_error_app1; auto. apply nth_error_Some. congruence. Qed.

Lemma owner_app es e i o : owner es i o -> owner (es ++ e) i o.
Proof. induction 1; eauto using ow_root, ow_fork, ow_value, nth_app_some. Qed.

Lemma stopped_mono es e hal hal' i : (forall x, In x hal -> In x hal') -> stopped es hal i -> stopped (es ++ e) hal' i.
Proof.
  intros M. induction 1.
  - apply st_halted; auto.
  - eapply st_fork; eauto using nth_app_some.
  - eapply st_value; eauto using nth_app_some.
  - eapply st_value_up; eauto using nth_app_some.
Qed.
Lemma stopped_mono' es hal hal' i : (forall x, In x hal -> In x hal') -> stopped es hal i -> stopped es hal' i.
Proof. intros M S. rewrite <- (app_nil_r es). eapply stopped_mono; eauto. Qed.

Lemma owner_stopped es hal i o : owner es i o -> stopped es hal i -> stopped es hal o.
Proof. induction 1; auto. intros S. apply IHowner. eapply st_value_up; eauto. Qed.

(** ** The invariant *)
Definition node_matches (e : origin) (n : ctxNode) : Prop :=
  match e with
  | Root => n_kind n = Cancel /\ n_parent n = None
  | ForkOf h => n_kind n = Cancel /\ n_parent n = Some h
  | ValueOf h => n_kind n = Value /\ n_parent n = Some h
  end.

Record inv (es : list origin) (hal : list nat) (w : world) : Prop := {
  i_wf : wf (w_ctxs w);
  i_len1 : length (w_ctxs w) = length es;
  i_len2 : length (w_rs w) = length es;
  i_rs : forall i r, nth_error (w_rs w) i = Some r -> rs_ctx r = i /\ owner es i (rs_cancel r);
  i_match : forall i e, nth_error es i = Some e -> node_matches e (node (w_ctxs w) i);
  i_closed : forall i h, nth_error es i = Some (ForkOf h) -> E (w_ctxs w) h = true -> E (w_ctxs w) i = true;
  i_sound : forall i, In i hal -> i < length es /\ E (w_ctxs w) i = true;
  i_complete : forall i, i < length es -> E (w_ctxs w) i = true -> stopped es hal i }.

Lemma inv_parent_lt es hal w i h : inv es hal w -> nth_error es i = Some (ForkOf h) \/ nth_error es i = Some (ValueOf h) -> h < i /\ i < length es.
Proof.
  intros I H. assert (L : i < length es) by (apply nth_error_Some; destruct H; congruence).
  split; auto. apply (i_wf _ _ _ I); [rewrite (i_len1 _ _ _ I); auto|].
  destruct H as [H|H]; apply (i_match _ _ _ I) in H; apply H.
Qed.

Lemma E_value es hal w i h : inv es hal w -> nth_error es i = Some (ValueOf h) -> E (w_ctxs w) i = E (w_ctxs w) h.
Proof.
  intros I H. destruct (inv_parent_lt _ _ _ _ _ I (or_intror H)) as (L1 & L2).
  pose proof (i_match _ _ _ I _ _ H) as (K & P).
  rewrite E_rec; [|apply I|rewrite (i_len1 _ _ _ I); auto]. rewrite K, P. reflexivity.
Qed.

Lemma stopped_sound es hal w i : inv es hal w -> stopped es hal i -> E (w_ctxs w) i = true.
Proof.
  intros I. induction 1.
  - apply (i_sound _ _ _ I); auto.
  - eapply i_closed; eauto.
  - rewrite (E_value _ _ _ _ _ I H). auto.
  - rewrite <- (E_value _ _ _ _ _ I H). auto.
Qed.

Lemma inv0 : inv [] [] world0.
Proof.
  split; cbn; auto.
  - intros i p L. cbn in L. lia.
  - intros i r H. destruct i; discriminate.
  - intros i e H. destruct i; discriminate.
  - intros i h H. destruct i; discriminate.
  - intros i [].
  - intros i L. lia.
Qed.

(** adding one status *)
Lemma inv_add es hal w e n r :
  inv es hal w ->
  node_matches e n ->
  (forall h, e = ForkOf h \/ e = ValueOf h -> h < length es) ->
  (n_kind n = Cancel -> n_cancelled n = Ep (w_ctxs w) (n_parent n)) ->
  rs_ctx r = length es -> owner (es ++ [e]) (length es) (rs_cancel r) ->
  inv (es ++ [e]) hal (mkW (w_ctxs w ++ [n]) (w_rs w ++ [r])).
Proof.
  intros I M H C R O.
  assert (W : wf (w_ctxs w ++ [n])).
  { apply wf_app; [apply I|]. intros p P. rewrite (i_len1 _ _ _ I). destruct e; cbn in M; destruct M as (M1 & M2).
    - congruence.
    - apply H. left. congruence.
    - apply H. right. congruence. }
  assert (EA : forall i, i < length es -> E (w_ctxs w ++ [n]) i = E (w_ctxs w) i).
  { intros i L. apply E_app; auto; [apply I|]. rewrite (i_len1 _ _ _ I); auto. }
  assert (EL : E (w_ctxs w ++ [n]) (length es) = match n_parent n with Some p => E (w_ctxs w) p | None => false end).
  { rewrite <- (i_len1 _ _ _ I). rewrite E_rec; [|auto|rewrite app_length; cbn; lia]. rewrite node_last.
    destruct (n_kind n) eqn:K.
    - rewrite C by auto. destruct (n_parent n) as [p|]; auto.
    - destruct (n_parent n) as [p|] eqn:P; auto. unfold Ep. rewrite <- EA; auto.
      destruct e; cbn in M; destruct M as (M1 & M2); try congruence. apply H. right. congruence. }
  split; cbn [w_ctxs w_rs]; auto.
  - rewrite !app_length, (i_len1 _ _ _ I). auto.
  - rewrite !app_length, (i_len2 _ _ _ I). auto.
  - intros i r' Hr. destruct (Nat.lt_ge_cases i (length es)) as [L|G].
    + rewrite nth_error_app1 in Hr by (rewrite (i_len2 _ _ _ I); auto).
      destruct (i_rs _ _ _ I _ _ Hr). split; auto. apply owner_app; auto.
    + rewrite nth_error_app2 in Hr by (rewrite (i_len2 _ _ _ I); auto). rewrite (i_len2 _ _ _ I) in Hr.
      destruct (i - length es) as [|d] eqn:D; cbn in Hr.
      * injection Hr as <-. assert (i = length es) by lia. subst. auto.
      * destruct d; discriminate.
  - intros i e' He. destruct (Nat.lt_ge_cases i (length es)) as [L|G].
    + rewrite nth_error_app1 in He by auto. rewrite node_app1 by (rewrite (i_len1 _ _ _ I); auto).
      apply (i_match _ _ _ I); auto.
    + rewrite nth_error_app2 in He by auto. destruct (i - length es) as [|d] eqn:D; cbn in He.
      * injection He as <-. assert (i = length es) by lia. subst. rewrite <- (i_len1 _ _ _ I), node_last. auto.
      * destruct d; discriminate.
  - intros i h He EE. destruct (Nat.lt_ge_cases i (length es)) as [L|G].
    + rewrite nth_error_app1 in He by auto. destruct (inv_parent_lt _ _ _ _ _ I (or_introl He)).
      rewrite EA by lia. rewrite EA in EE by lia. eapply i_closed; eauto.
    + rewrite nth_error_app2 in He by auto. destruct (i - length es) as [|d] eqn:D; cbn in He.
      * injection He as ->. assert (i = length es) by lia. subst. rewrite EL. destruct M as (M1 & ->).
        rewrite EA in EE by auto. auto.
      * destruct d; discriminate.
  - intros i Hi. destruct (i_sound _ _ _ I _ Hi) as (L & EE). rewrite app_length. cbn. rewrite EA by auto. split; auto. lia.
  - intros i L EE. rewrite app_length in L. cbn in L. destruct (Nat.eq_dec i (length es)) as [->|N].
    + rewrite EL in EE. assert (Z : nth_error (es ++ [e]) (length es) = Some e).
      { rewrite nth_error_app2, Nat.sub_diag by auto. auto. }
      destruct e as [|h|h]; destruct M as (M1 & M2); rewrite M2 in EE; [discriminate| |].
      * eapply st_fork; eauto. eapply stopped_mono; [|apply (i_complete _ _ _ I)]; auto.
      * eapply st_value; eauto. eapply stopped_mono; [|apply (i_complete _ _ _ I)]; auto.
    + rewrite EA in EE by lia. eapply stopped_mono; [|apply (i_complete _ _ _ I)]; auto. lia.
Qed.

Lemma owner_lt es hal w i o : inv es hal w -> owner es i o -> o <= i /\ i < length es.
Proof.
  intros I. induction 1.
  - split; auto. apply nth_error_Some. congruence.
  - split; auto. apply nth_error_Some. congruence.
  - destruct (inv_parent_lt _ _ _ _ _ I (or_intror H)). lia.
Qed.
Lemma owner_cancel es hal w i o : inv es hal w -> owner es i o -> n_kind (node (w_ctxs w) o) = Cancel.
Proof.
  intros I. induction 1; auto; apply (i_match _ _ _ I) in H; apply H.
Qed.
Lemma owner_E es hal w i o : inv es hal w -> owner es i o -> E (w_ctxs w) i = E (w_ctxs w) o.
Proof. intros I. induction 1; auto. rewrite <- IHowner. eapply E_value; eauto. Qed.

Lemma inv_halt es hal w h r :
  inv es hal w -> nth_error (w_rs w) h = Some r ->
  inv es (h :: hal) (mkW (Halt (w_ctxs w) r) (w_rs w)).
Proof.
  intros I Hr. destruct (i_rs _ _ _ I _ _ Hr) as (_ & O).
  unfold Halt. destruct (doCancel_ok (w_ctxs w) (rs_cancel r) (i_wf _ _ _ I)) as (W & A & L).
  set (cs' := doCancel _ _) in *. set (c := rs_cancel r) in *.
  pose proof (i_len1 _ _ _ I) as L1.
  assert (M : forall i e, nth_error es i = Some e -> node_matches e (node cs' i)).
  { intros i e He. assert (i < length es) by (apply nth_error_Some; congruence).
    destruct (A i) as (K & P & _); [lia|]. pose proof (i_match _ _ _ I _ _ He) as X.
    destruct e; cbn in *; rewrite K, P; auto. }
  assert (Rec : forall i, i < length es -> E cs' i =
     match n_kind (node (w_ctxs w) i) with
     | Cancel => n_cancelled (node (w_ctxs w) i) || (i =? c) || Ep cs' (n_parent (node (w_ctxs w) i))
     | Value => Ep cs' (n_parent (node (w_ctxs w) i)) end).
  { intros i Li. rewrite E_rec; [|auto|fold cs'; lia]. destruct (A i) as (K & P & X); [lia|]. rewrite K, P.
    destruct (n_kind (node (w_ctxs w) i)) eqn:KK; auto. }
  assert (Keep : forall i, i < length es -> E (w_ctxs w) i = true -> E cs' i = true).
  { intros i. induction i as [i IH] using lt_wf_ind. intros Li EE.
    rewrite Rec by auto. rewrite E_rec in EE by first [exact (i_wf _ _ _ I) | lia].
    destruct (n_kind (node (w_ctxs w) i)) eqn:KK; [rewrite EE; auto|].
    destruct (n_parent (node (w_ctxs w) i)) as [p|] eqn:P; [|discriminate].
    assert (p < i) by (apply (i_wf _ _ _ I i p); auto; lia). unfold Ep. apply IH; auto. lia. }
  destruct (owner_lt _ _ _ _ _ I O) as (Oc & Oh).
  assert (Ec : E cs' c = true).
  { rewrite Rec by lia. rewrite (owner_cancel _ _ _ _ _ I O), Nat.eqb_refl, orb_true_r. auto. }
  split; cbn [w_ctxs w_rs]; try apply I; auto.
  - lia.
  - intros i h' He EE. destruct (inv_parent_lt _ _ _ _ _ I (or_introl He)). rewrite Rec by auto.
    pose proof (i_match _ _ _ I _ _ He) as (-> & ->). unfold Ep. fold (E cs' h'). rewrite EE. apply orb_true_r.
  - intros i [<-|Hi].
    + split; auto. clear - O Ec M W L L1 I. induction O; auto.
      destruct (inv_parent_lt _ _ _ _ _ I (or_intror H)).
      pose proof (M _ _ H) as (K & P). rewrite E_rec; [|auto|lia]. rewrite K, P. apply IHO; auto.
    + destruct (i_sound _ _ _ I _ Hi). split; auto.
  - intros i. induction i as [i IH] using lt_wf_ind. intros Li EE. rewrite Rec in EE by auto.
    assert (X : Ep cs' (n_parent (node (w_ctxs w) i)) = true -> stopped es (h :: hal) i).
    { destruct (n_parent (node (w_ctxs w) i)) as [p|] eqn:P; [|discriminate]. intros Ex.
      assert (p < i) by (apply (i_wf _ _ _ I i p); auto; lia).
      assert (stopped es (h :: hal) p) by (apply IH; auto; lia).
      destruct (nth_error es i) as [e|] eqn:He; [|apply nth_error_None in He; lia].
      pose proof (i_match _ _ _ I _ _ He) as Mi. destruct e; destruct Mi as (Mk & Mp).
      - congruence.
      - rewrite P in Mp. injection Mp as <-. eapply st_fork; eauto.
      - rewrite P in Mp. injection Mp as <-. eapply st_value; eauto. }
    destruct (n_kind (node (w_ctxs w) i)) eqn:KK; auto.
    apply orb_prop in EE as [EE|EE]; auto. apply orb_prop in EE as [EE|EE].
    + eapply stopped_mono'; [|apply (i_complete _ _ _ I i)]; cbn; auto.
      rewrite E_rec by first [exact (i_wf _ _ _ I) | lia]. rewrite KK. auto.
    + apply Nat.eqb_eq in EE. subst i. eapply owner_stopped; eauto. apply st_halted. cbn; auto.
Qed.

Lemma nth_rs_lt es hal w h r : inv es hal w -> nth_error (w_rs w) h = Some r -> h < length es.
Proof. intros I H. rewrite <- (i_len2 _ _ _ I). apply nth_error_Some. congruence. Qed.

Lemma inv_step es hal w o w' : inv es hal w -> step w o = Some w' ->
  let '(es', hal') := spec_of es hal [o] in inv es' hal' w'.
Proof.
  intros I S.
  assert (Last : forall e, nth_error (es ++ [e]) (length es) = Some e).
  { intros e. rewrite nth_error_app2, Nat.sub_diag by auto. auto. }
  destruct o as [|h|h|h]; cbn in *.
  - injection S as <-. rewrite (i_len1 _ _ _ I). apply inv_add; auto; cbn; auto.
    + intros h [H|H]; discriminate.
    + apply ow_root; auto.
  - destruct (nth_error (w_rs w) h) as [r|] eqn:Hr; [|discriminate]. injection S as <-.
    destruct (i_rs _ _ _ I _ _ Hr) as (-> & O). rewrite (i_len1 _ _ _ I). apply inv_add; auto; cbn; auto.
    + intros h' [[= <-]|H]; [|discriminate]. eapply nth_rs_lt; eauto.
    + eapply ow_fork; auto.
  - destruct (nth_error (w_rs w) h) as [r|] eqn:Hr; [|discriminate]. injection S as <-.
    destruct (i_rs _ _ _ I _ _ Hr) as (Rc & O). rewrite (i_len1 _ _ _ I), Rc.
    apply inv_add; auto; cbn; auto.
    + intros h' [H|[= <-]]; [discriminate|]. eapply nth_rs_lt; eauto.
    + discriminate.
    + eapply ow_value; [apply Last|]. apply owner_app; auto.
  - destruct (nth_error (w_rs w) h) as [r|] eqn:Hr; [|discriminate]. injection S as <-.
    apply inv_halt; auto.
Qed.

Lemma spec_cons es hal o os : spec_of es hal (o :: os) = let '(es', hal') := spec_of es hal [o] in spec_of es' hal' os.
Proof. destruct o; auto. Qed.

Lemma inv_run os : forall es hal w w', inv es hal w -> run w os = Some w' ->
  let '(es', hal') := spec_of es hal os in inv es' hal' w'.
Proof.
  induction os as [|o os IH]; intros es hal w w' I R.
  - cbn in *. injection R as <-. auto.
  - rewrite spec_cons. cbn [run] in R. destruct (step w o) as [w1|] eqn:S; [|discriminate].
    pose proof (inv_step _ _ _ _ _ I S) as I1. destruct (spec_of es hal [o]) as [es1 hal1].
    apply (IH es1 hal1 w1 w'); auto.
Qed.

Lemma running_ok os w i r :
  run world0 os = Some w -> nth_error (w_rs w) i = Some r ->
  (Running (w_ctxs w) r = false <-> stopped (fst (spec_of [] [] os)) (snd (spec_of [] [] os)) i).
Proof.
  intros R Hr. pose proof (inv_run os _ _ _ _ inv0 R) as I. destruct (spec_of [] [] os) as [es hal]. cbn [fst snd].
  destruct (i_rs _ _ _ I _ _ Hr) as (Rc & _). unfold Running. rewrite Rc. fold (E (w_ctxs w) i).
  rewrite negb_false_iff. split.
  - apply (i_complete _ _ _ I). eapply nth_rs_lt; eauto.
  - apply stopped_sound; auto.
Qed.

(** halting a status affects only it, the statuses it shares its CancelFunc with, and their descendants *)
Inductive below (es : list origin) (h : nat) : nat -> Prop :=
| be_self : below es h h
| be_fork i p : nth_error es i = Some (ForkOf p) -> below es h p -> below es h i
| be_value i p : nth_error es i = Some (ValueOf p) -> below es h p -> below es h i
| be_up i p : nth_error es i = Some (ValueOf p) -> below es h i -> below es h p.

Lemma stopped_cons es h hal i : stopped es (h :: hal) i -> stopped es hal i \/ below es h i.
Proof.
  induction 1 as [i [<-|I]|i p E_ S [IH|IH]|i p E_ S [IH|IH]|i p E_ S [IH|IH]];
    eauto using st_halted, st_fork, st_value, st_value_up, below.
Qed.

(** a fork is never above its origin *)
Lemma halt_local os h w w' i r : run world0 os = Some w -> step w (OHalt h) = Some w' ->
  nth_error (w_rs w) i = Some r -> Running (w_ctxs w) r = true ->
  ~ below (fst (spec_of [] [] os)) h i -> Running (w_ctxs w') r = true.
Proof.
  intros R S Hr Run NB. destruct (Running (w_ctxs w') r) eqn:E'; auto. exfalso.
  assert (R' : run world0 (os ++ [OHalt h]) = Some w').
  { clear - R S. revert R. generalize world0. induction os as [|o os IH]; intros w0; cbn [run app].
    - intros [= ->]. rewrite S. auto.
    - destruct (step w0 o); auto. discriminate. }
  assert (SP : spec_of [] [] (os ++ [OHalt h]) = (fst (spec_of [] [] os), h :: snd (spec_of [] [] os))).
  { clear. generalize (@nil origin) (@nil nat). induction os as [|o os IH]; intros a b; cbn; auto.
    destruct o; apply IH. }
  assert (Hr' : nth_error (w_rs w') i = Some r).
  { cbn in S. destruct (nth_error (w_rs w) h); [|discriminate]. injection S as <-. auto. }
  apply (running_ok _ _ _ _ R' Hr') in E'. rewrite SP in E'. cbn [fst snd] in E'.
  destruct (stopped_cons _ _ _ _ E') as [X|X]; auto.
  apply (running_ok _ _ _ _ R Hr) in X. congruence.
Qed.
