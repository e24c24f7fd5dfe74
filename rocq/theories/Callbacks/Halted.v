(** Every worker of a partition has been told when OnPartitionRevoked is called *)
From stdpp Require Import prelude list.
From Coq Require Import Lia.
From Verif.Callbacks Require Import Model Proofs.
Open Scope nat_scope.

(** the partitions in the order in which workers are made for them, from the calls of the group alone *)
Definition made (acts : list action) : list nat := flat_map (fun a => match a with GAssign ps => ps | _ => [] end) acts.
Definition creates (l : list micro) : list nat := flat_map (fun m => match m with MCreate p => [p] | _ => [] end) l.
Definition isRev (m : micro) : bool := match m with MRevoked _ => true | _ => false end.
Fixpoint shape (l : list micro) : Prop := match l with [] => True | m :: l' => (isRev m = true -> forallb isRev l' = true) /\ shape l' end.
Lemma shape_app l1 l2 : (forall m, m ∈ l1 -> isRev m = false) -> shape l2 -> shape (l1 ++ l2).
Proof.
  induction l1 as [|m l IH]; intros H S; [exact S|]. split; [rewrite (H m) by left; discriminate|]. apply IH; [intros k K; apply H; now right|exact S].
Qed.
Lemma shape_rev l : forallb isRev l = true -> shape l.
Proof. induction l as [|m l IH]; intros H; [exact I|]. cbn in H. apply andb_true_iff in H as [_ H]. split; auto. Qed.
Lemma creates_app l1 l2 : creates (l1 ++ l2) = creates l1 ++ creates l2. Proof. apply flat_map_app. Qed.
Lemma creates_in p l : p ∈ creates l <-> MCreate p ∈ l.
Proof.
  unfold creates. rewrite elem_of_list_In, in_flat_map. split.
  - intros (m & M & P). destruct m; try destruct P as []; subst; try contradiction. apply elem_of_list_In; exact M.
  - intros H. exists (MCreate p). split; [apply elem_of_list_In; exact H|left; reflexivity].
Qed.
Record invH (acts : list action) (s : st) : Prop := {
  h_made : map part (ws s) ++ creates (cur s) = made acts;
  h_all : forall w x, ws s !! w = Some x -> EvHalt w ∈ trace s \/ (part x, w) ∈ live s;
  h_live : forall p w, (p, w) ∈ live s -> exists x, ws s !! w = Some x;
  h_one : NoDup (map fst (live s) ++ creates (cur s));
  h_own : forall p, p ∈ map fst (live s) -> p ∈ owned s \/ MHalt p ∈ cur s;
  h_new : forall p, p ∈ creates (cur s) -> p ∈ owned s;
  h_rev : forall p, MRevoked p ∈ cur s -> p ∉ owned s;
  h_shape : shape (cur s)
}.
Lemma invH_init : invH [] init.
Proof. split; cbn; try (intros; set_solver). 1: constructor. Qed.
Lemma find_one p w l : NoDup (map fst l) -> (p, w) ∈ l -> find p l = Some w.
Proof.
  unfold find. induction l as [|[q v] l IH]; intros N H; [inversion H|]. cbn in N. apply NoDup_cons in N as [N1 N2]. cbn. apply elem_of_cons in H as [H|H].
  - injection H as <- <-. rewrite Nat.eqb_refl. reflexivity.
  - destruct (Nat.eqb_spec q p) as [->|Ne]; [|apply IH; auto]. destruct N1. change p with (fst (p, w)). apply (elem_of_list_fmap_1 fst). exact H.
Qed.
Lemma drop_in p q w l : (q, w) ∈ drop p l <-> q <> p /\ (q, w) ∈ l.
Proof. unfold drop. rewrite !elem_of_list_In, filter_In. cbn. destruct (Nat.eqb_spec q p); cbn; naive_solver. Qed.
Lemma drop_fst p q l : q ∈ map fst (drop p l) <-> q <> p /\ q ∈ map fst l.
Proof.
  change (map ?f ?l) with (f <$> l). rewrite !elem_of_list_fmap. split.
  - intros ([a b] & -> & H). apply drop_in in H as [H1 H2]. eauto.
  - intros [H ([a b] & -> & K)]. exists (a, b). split; [reflexivity|]. apply drop_in. auto.
Qed.
Lemma drop_nodup p l k : NoDup (map fst l ++ k) -> NoDup (map fst (drop p l) ++ k).
Proof.
  induction l as [|[q v] l IH]; intros N; [exact N|]. cbn in N. apply NoDup_cons in N as [N1 N2]. cbn. destruct (Nat.eqb q p); cbn; [auto|]. apply NoDup_cons. split; [|auto].
  intros H. apply N1. apply elem_of_app in H as [H|H]; apply elem_of_app; [left|right; exact H]. apply drop_fst in H as [_ H]. exact H.
Qed.
(** a worker moves *)
Lemma invH_upd acts a s w x x' es : invH acts s -> ws s !! w = Some x -> part x' = part x -> made [a] = [] -> invH (acts ++ [a]) (upd w x' es s).
Proof.
  intros [H1 H2 H3 H4 H5 H8 H6 H7] X P M. assert (Mp : map part (<[w := x']> (ws s)) = map part (ws s)).
  { change (map ?f ?l) with (f <$> l). rewrite list_fmap_insert. apply list_insert_id. rewrite list_lookup_fmap, X. cbn. now rewrite P. }
  split; cbn [upd ws live owned cur trace]; auto.
  - unfold made in *. rewrite flat_map_app, M, app_nil_r, Mp. exact H1.
  - intros v y Y. destruct (decide (v = w)) as [->|N].
    + rewrite list_lookup_insert in Y by (eapply lookup_lt_Some; eauto). injection Y as <-. rewrite P. destruct (H2 _ _ X); [left; apply elem_of_app|]; auto.
    + rewrite list_lookup_insert_ne in Y by auto. destruct (H2 _ _ Y); [left; apply elem_of_app|]; auto.
  - intros p v L. destruct (H3 _ _ L) as [y Y]. destruct (decide (v = w)) as [->|N]; [exists x'; apply list_lookup_insert; eapply lookup_lt_Some; eauto|exists y; rewrite list_lookup_insert_ne; auto].
Qed.
Lemma made_snoc acts a : made (acts ++ [a]) = made acts ++ made [a]. Proof. apply flat_map_app. Qed.
Lemma creates_assign ps : creates (map MCreate ps ++ map MAssigned ps) = ps.
Proof. rewrite creates_app. assert (A : creates (map MAssigned ps) = []) by (induction ps; auto). rewrite A, app_nil_r. induction ps as [|p ps IH]; [reflexivity|]. cbn. f_equal. apply IH. clear IH A. induction ps; auto. Qed.
Lemma creates_revoke ps : creates (flat_map (fun p => [MWill p; MHalt p; MStore p]) ps ++ map MRevoked ps) = [].
Proof. rewrite creates_app. assert (A : creates (map MRevoked ps) = []) by (induction ps; auto). rewrite A, app_nil_r. induction ps as [|p ps IH]; [reflexivity|]. cbn. apply IH. clear IH A. induction ps; auto. Qed.
Lemma invH_step acts s a s' : invH acts s -> step s a = Some s' -> invH (acts ++ [a]) s'.
Proof.
  intros Iv E. destruct a as [ps|ps| |w|w|w n|w|w|w|w|w|w]; cbn [step] in E.
  4-12: destruct (ws s !! w) as [x|] eqn:X; [|discriminate].
  4: case_decide; [|discriminate]; injection E as <-; eapply invH_upd; eauto.
  4: case_decide; [|discriminate]; injection E as <-; eapply invH_upd; eauto.
  4: case_decide; [|discriminate]; injection E as <-; eapply invH_upd; eauto.
  4, 5: destruct (batch x); [discriminate|]; injection E as <-; eapply invH_upd; eauto.
  4: destruct (look _ _) as [[c l]|]; [|discriminate]; injection E as <-; eapply invH_upd; eauto.
  4: { destruct (q x) as [|[c [b|]] l]; try discriminate. destruct (busy x); [discriminate|]. case_decide; [|discriminate]; injection E as <-; eapply invH_upd; eauto. }
  4: destruct (busy x); [|discriminate]; injection E as <-; eapply invH_upd; eauto.
  4: case_decide; [|discriminate]; injection E as <-; eapply invH_upd; eauto.
  - destruct (cur s) as [|m l] eqn:C; [|discriminate]. case_decide as Q; [|discriminate]. injection E as <-. destruct Q as [N F]. destruct Iv as [H1 H2 H3 H4 H5 H8 H6 H7]. rewrite C in *. cbn in H1, H4, H5, H8. rewrite app_nil_r in *.
    split; cbn [ws live owned cur trace]; auto.
    + rewrite made_snoc, creates_assign, H1. cbn. rewrite app_nil_r. reflexivity.
    + rewrite creates_assign. apply NoDup_app. split; [exact H4|]. split; [|exact N]. intros p P1 P2. rewrite Forall_forall in F. destruct (H5 p P1) as [O|O]; [exact (F p P2 O)|inversion O].
    + intros p P. left. apply elem_of_app. destruct (H5 p P) as [O|O]; [auto|inversion O].
    + intros p P. rewrite creates_assign in P. apply elem_of_app. auto.
    + intros p P. apply elem_of_app in P as [P|P]; apply elem_of_list_fmap in P as (? & ? & _); discriminate.
    + apply shape_app; [intros m P; apply elem_of_list_fmap in P as (? & -> & _); reflexivity|]. rewrite <- (app_nil_r (map MAssigned ps)). apply shape_app; [intros m P; apply elem_of_list_fmap in P as (? & -> & _); reflexivity|exact I].
  - destruct (cur s) as [|m l] eqn:C; [|discriminate]. case_decide as Q; [|discriminate]. injection E as <-. destruct Q as [N F]. destruct Iv as [H1 H2 H3 H4 H5 H8 H6 H7]. rewrite C in *. cbn in H1, H4, H5, H8. rewrite app_nil_r in *.
    split; cbn [ws live owned cur trace]; auto.
    + rewrite made_snoc, creates_revoke, app_nil_r, H1. cbn. rewrite app_nil_r. reflexivity.
    + rewrite creates_revoke, app_nil_r. exact H4.
    + intros p P. destruct (H5 p P) as [O|O]; [|inversion O]. destruct (decide (p ∈ ps)) as [K|K].
      * right. apply elem_of_app. left. apply elem_of_list_In, in_flat_map. exists p. split; [apply elem_of_list_In; exact K|cbn; auto].
      * left. apply elem_of_list_In, filter_In. split; [apply elem_of_list_In; exact O|]. rewrite bool_decide_eq_false_2; auto.
    + intros p P. rewrite creates_revoke in P. inversion P.
    + intros p P O. apply elem_of_list_In, filter_In in O as [_ O]. apply elem_of_app in P as [P|P].
      * apply elem_of_list_In, in_flat_map in P as (? & _ & P). cbn in P. naive_solver.
      * apply elem_of_list_fmap in P as (y & Ey & P). injection Ey as <-. rewrite bool_decide_eq_true_2 in O by exact P. discriminate.
    + apply shape_app; [intros m P; apply elem_of_list_In, in_flat_map in P as (? & _ & P); cbn in P; naive_solver|]. apply shape_rev. clear. induction ps; auto.
  - destruct (cur s) as [|m l] eqn:C; [discriminate|]. injection E as <-. destruct Iv as [H1 H2 H3 H4 H5 H8 H6 H7]. rewrite C in *. destruct H7 as [S1 S2].
    assert (R : forall p, MRevoked p ∈ l -> p ∉ owned s) by (intros p P; apply H6; now right).
    rewrite <- (app_nil_r (made acts)) in H1. change [] with (made [GStep]) in H1. rewrite <- made_snoc in H1.
    destruct m as [p|p|p|p|p|p]; cbn [micro_step].
    2, 3, 5, 6: split; cbn [ws live owned cur trace]; auto;
        [ intros w x X; destruct (H2 _ _ X); [left; apply elem_of_app|]; auto
        | intros p' P; destruct (H5 p' P) as [O|O]; [auto|]; apply elem_of_cons in O as [O|O]; [discriminate|auto] ].
    + split; cbn [ws live owned cur trace]; auto.
      * rewrite map_app, <- app_assoc. exact H1.
      * intros w x X. apply lookup_app_Some in X as [X|[L X]].
        -- destruct (H2 _ _ X); [auto|right; now right].
        -- apply list_lookup_singleton_Some in X as [L' <-]. right. cbn. assert (w = length (ws s)) by lia. subst w. left.
      * intros p' w L. apply elem_of_cons in L as [L|L].
        -- injection L as -> ->. eexists. apply list_lookup_middle. reflexivity.
        -- destruct (H3 _ _ L) as [y Y]. exists y. apply lookup_app_l_Some. exact Y.
      * cbn in H4 |- *. rewrite <- Permutation_middle in H4. exact H4.
      * intros p' P. apply elem_of_cons in P as [->|P]; [left; apply H8; left|]. destruct (H5 p' P) as [O|O]; [auto|apply elem_of_cons in O as [O|O]; [discriminate|auto]].
      * intros p' P. apply H8. now right.
    + assert (Hd : forall p', p' <> p -> p' ∈ map fst (live s) -> p' ∈ owned s \/ MHalt p' ∈ l).
      { intros p' Np P. destruct (H5 p' P) as [O|O]; [auto|]. apply elem_of_cons in O as [O|O]; [congruence|auto]. }
      destruct (find p (live s)) as [w|] eqn:Fi.
      * assert (L : (p, w) ∈ live s).
        { unfold find in Fi. destruct (List.filter _ _) as [|[a b] k] eqn:K; [discriminate|]. injection Fi as ->.
          assert (T : In (a, w) (List.filter (fun x => Nat.eqb (fst x) p) (live s))) by (rewrite K; left; reflexivity). apply filter_In in T as [T1 T2]. cbn in T2. apply Nat.eqb_eq in T2. subst a. apply elem_of_list_In. exact T1. }
        destruct (H3 _ _ L) as [x X]. rewrite X.
        assert (Mp : map part (<[w := mkW (part x) (stg x) true (batch x) (q x) (next x) (busy x)]> (ws s)) = map part (ws s)).
        { change (map ?f ?l) with (f <$> l). rewrite list_fmap_insert. apply list_insert_id. rewrite list_lookup_fmap, X. reflexivity. }
        split; cbn [ws live owned cur trace]; auto.
        -- rewrite Mp. exact H1.
        -- intros v y Y. destruct (decide (v = w)) as [->|Ne]; [left; apply elem_of_app; right; left|]. rewrite list_lookup_insert_ne in Y by auto.
           destruct (H2 _ _ Y) as [T|T]; [left; apply elem_of_app; auto|]. right. apply drop_in. split; [|exact T]. intros Ep.
           rewrite Ep in T. apply NoDup_app in H4 as [H4 _]. pose proof (find_one _ _ _ H4 T). congruence.
        -- intros p' v T. apply drop_in in T as [_ T]. destruct (H3 _ _ T) as [y Y]. destruct (decide (v = w)) as [->|Ne]; [eexists; apply list_lookup_insert; eapply lookup_lt_Some; eauto|exists y; rewrite list_lookup_insert_ne; auto].
        -- apply drop_nodup. exact H4.
        -- intros p' P. apply drop_fst in P as [P1 P2]. auto.
      * split; cbn [ws live owned cur trace]; auto. intros p' P. apply Hd; [|exact P]. intros ->. change (map ?f ?l) with (f <$> l) in P. apply elem_of_list_fmap in P as ([a b] & -> & P).
        apply NoDup_app in H4 as [H4 _]. pose proof (find_one _ _ _ H4 P). cbn in Fi. congruence.
Qed.
Lemma invH_run acts s : run init acts = Some s -> invH acts s.
Proof.
  revert s. induction acts as [|a l IH] using rev_ind; intros s H; [injection H as <-; exact invH_init|].
  rewrite run_app in H. destruct (run init l) as [s1|]; [|discriminate]. cbn in H. destruct (step s1 a) as [s2|] eqn:E; [|discriminate]. injection H as <-. eapply invH_step; eauto.
Qed.
Lemma all_told acts a s s' p w : run init acts = Some s -> step s a = Some s' -> trace s' = trace s ++ [EvRevoked p] -> made acts !! w = Some p -> EvHalt w ∈ trace s.
Proof.
  intros R E T M. pose proof (invH_run _ _ R) as [H1 H2 H3 H4 H5 H8 H6 H7].
  assert (C : exists l, cur s = MRevoked p :: l).
  { destruct a as [ps|ps| |v|v|v n|v|v|v|v|v|v]; cbn [step] in E.
    4-12: destruct (ws s !! v) as [x|] eqn:X; [|discriminate]; exfalso; 
      repeat match type of E with context [match ?y with _ => _ end] => destruct y; try discriminate E end; injection E as <-; cbn [upd trace] in T; apply app_inv_head in T; discriminate.
    1, 2: destruct (cur s) as [|m l]; [|discriminate]; case_decide; [|discriminate]; injection E as <-; cbn [trace] in T; rewrite <- (app_nil_r (trace s)) in T at 1; apply app_inv_head in T; discriminate.
    destruct (cur s) as [|m l]; [discriminate|]. injection E as <-. exists l. f_equal. destruct m as [k|k|k|k|k|k]; cbn [micro_step trace] in T;
     repeat match type of T with context [match ?y with _ => _ end] => destruct y end; cbn [trace] in T;
     first [apply app_inv_head in T|rewrite <- (app_nil_r (trace s)) in T at 1; apply app_inv_head in T]; congruence. }
  destruct C as [l C]. rewrite C in *. destruct H7 as [S1 _]. specialize (S1 eq_refl).
  assert (Cl : creates (MRevoked p :: l) = []). { cbn. clear - S1. induction l as [|m l IH]; [reflexivity|]. cbn in S1. apply andb_true_iff in S1 as [S1 S2]. destruct m; try discriminate. cbn. auto. }
  rewrite Cl, app_nil_r in H1. rewrite <- H1 in M. change (map ?f ?l) with (f <$> l) in M. rewrite list_lookup_fmap in M. destruct (ws s !! w) as [x|] eqn:X; [|discriminate]. injection M as <-.
  destruct (H2 _ _ X) as [T'|T']; [exact T'|exfalso]. destruct (H5 (part x)) as [O|O].
  - change (part x) with (fst (part x, w)). apply (elem_of_list_fmap_1 fst). exact T'.
  - apply (H6 (part x)); [left|exact O].
  - apply elem_of_cons in O as [O|O]; [discriminate|]. clear - S1 O. induction l as [|m l IH]; [inversion O|]. cbn in S1. apply andb_true_iff in S1 as [S1 S2]. apply elem_of_cons in O as [<-|O]; [discriminate|auto].
Qed.
