(** The plan and the instructions. *)
From Verif.Balancer Require Export Final.
From stdpp Require Export prelude list gmap sorting.
Open Scope nat_scope.

Definition planned (o : orc) (n t : nat) (cs : list claim) (p i : nat) : Prop := exists ps, (i, ps) ∈ plan o n t cs /\ p ∈ ps.

Lemma NoDup_bind_disjoint {A B} (f : nat * A -> list B) (l : list (nat * A)) : NoDup l.*1 -> (forall x, x ∈ l -> NoDup (f x)) ->
  (forall x y b, x ∈ l -> y ∈ l -> b ∈ f x -> b ∈ f y -> x.1 = y.1) -> NoDup (x ← l; f x).
Proof.
  induction l as [|x l IH]; [intros; constructor|]. rewrite fmap_cons, NoDup_cons. intros [N1 N2] H1 H2. rewrite bind_cons. apply NoDup_app. split_and!.
  - apply H1. left.
  - intros b B1 B2. apply elem_of_list_bind in B2 as (y & B2 & Y). apply N1. rewrite (H2 x y b); [by apply elem_of_list_fmap_1|left|by right|done|done].
  - apply IH; [done|intros y Y; apply H1; by right|]. intros y z b Y Z. apply H2; by right.
Qed.

Section one.
  Context (o : orc) (n t : nat) (cs : list claim) (O : orc_ok o) (N : NoDup (cid <$> cs)) (A : exists c, c ∈ cs /\ cstat c <> Inactive).
  Lemma some_active : actives (newGroupState n t cs) <> [].
  Proof using O N A. by apply actives_new. Qed.
  Lemma still_active : actives (balanced o n t cs) <> [].
  Proof using O N A.
    pose proof some_active as H. destruct (owner_final o n t cs O N H) as (l1 & l2 & L & F). apply actives_nonempty in H as (i & m & Hm & Sm). specialize (F i). rewrite Hm in F.
    destruct F as (m' & Hm' & S' & _). apply actives_nonempty. exists i, m'. split; [done|congruence].
  Qed.
  Lemma elem_plan i ps : (i, ps) ∈ plan o n t cs <-> exists m, mems (balanced o n t cs) !! i = Some m /\ ps = elements (masg m).
  Proof using O N A.
    unfold plan. rewrite decide_False by apply still_active. rewrite elem_of_list_fmap. setoid_rewrite elem_of_app. split.
    - intros ([j m] & [= -> ->] & [H|H]); [apply elem_inactives in H|apply elem_actives in H]; exists m; naive_solver.
    - intros (m & Hm & ->). exists (i, m). split; [done|]. rewrite elem_inactives, elem_actives. destruct (decide (mstat m = Inactive)); [by left|by right].
  Qed.
  Lemma claim_mem i : (exists m, mems (newGroupState n t cs) !! i = Some m) <-> exists c, c ∈ cs /\ cid c = i.
  Proof using O N A.
    destruct (Init_new n t cs N) as [C _]. split.
    - intros (m & Hm). apply (i_mem _ _ _ _ C) in Hm. naive_solver.
    - intros (c & Cc & <-). destruct (i_all _ _ _ _ C c Cc) as [m Hm]. eauto.
  Qed.
  Lemma owner_claim p i : firstOwner t cs p i -> exists c, c ∈ cs /\ cid c = i.
  Proof using O N A. intros (a & c & b & -> & E & _). exists c. set_solver. Qed.
  Theorem planned_iff : exists l1 l2, Log n t cs l1 l2 /\
    forall p i, planned o n t cs p i <-> (p, i) ∈ l1 \/ (exists d, (p, d, i) ∈ l2) \/ (firstOwner t cs p i /\ forall d r, (p, d, r) ∉ l2).
  Proof using O N A.
    pose proof some_active as H. destruct (owner_final o n t cs O N H) as (l1 & l2 & L & F). exists l1, l2. split; [done|]. intros p i. specialize (F i). unfold planned.
    setoid_rewrite elem_plan. destruct (mems (newGroupState n t cs) !! i) as [m0|] eqn:E.
    - destruct F as (m & Hm & _ & _ & _ & F). rewrite <- F. split.
      + intros (ps & (m' & Hm' & ->) & P). rewrite Hm in Hm'. injection Hm' as <-. by apply elem_of_elements in P.
      + intros P. exists (elements (masg m)). split; [eauto|by apply elem_of_elements].
    - assert (X : ~ exists c, c ∈ cs /\ cid c = i) by (intros X; apply claim_mem in X as [m X]; congruence). split.
      + intros (ps & (m' & Hm' & ->) & P). congruence.
      + intros [G|[[d G]|[G _]]]; destruct X.
        * destruct (Dist_active _ _ _ _ _ (l_dist _ _ _ _ _ L) G) as (m & Hm & _). congruence.
        * apply (l_mv _ _ _ _ _ L) in G as (_ & c & Cc & Ec & _). eauto.
        * by apply (owner_claim p).
  Qed.
  Theorem planned_fun p i j : planned o n t cs p i -> planned o n t cs p j -> i = j.
  Proof using O N A.
    destruct planned_iff as (l1 & l2 & L & F). rewrite !F. destruct L as [LD LU N1 N2 LM LA].
    assert (U1 : forall i j, (p, i) ∈ l1 -> (p, j) ∈ l1 -> i = j).
    { clear -N1. intros i j. induction l1 as [|[q k] l IH]; [set_solver|]. rewrite fmap_cons, NoDup_cons in N1. destruct N1 as [X N1]. rewrite !elem_of_cons. intros [[= -> ->]|H] [K|K]; [by injection K| | |by apply IH].
      - destruct X. by apply (elem_of_list_fmap_1 fst l (q, j)).
      - injection K as -> ->. destruct X. by apply (elem_of_list_fmap_1 fst l (q, i)). }
    assert (U2 : forall d d' i j, (p, d, i) ∈ l2 -> (p, d', j) ∈ l2 -> i = j).
    { clear -N2. intros d d' i j. induction l2 as [|[[q k] r] l IH]; [set_solver|]. rewrite !fmap_cons, NoDup_cons in N2. destruct N2 as [X N2]. rewrite !elem_of_cons. intros [[= -> -> ->]|H] [K|K]; [by injection K| | |by apply IH].
      - destruct X. apply (elem_of_list_fmap_1 fst _ (q, d')). by apply (elem_of_list_fmap_1 fst l (q, d', j)).
      - injection K as -> -> ->. destruct X. apply (elem_of_list_fmap_1 fst _ (q, d)). by apply (elem_of_list_fmap_1 fst l (q, d, i)). }
    assert (U3 : forall i j, (p, i) ∈ l1 -> ~ firstOwner t cs p j).
    { intros i' j' H K. assert (p ∈ l1.*1) as [_ Q]%LU by (by apply (elem_of_list_fmap_1 fst l1 (p, i'))).
      assert (exists i, firstOwner t cs p i) as (c & Cc & P)%firstOwner_ex by eauto. by apply (Q c). }
    intros [H|[[d H]|[H H']]] [K|[[d' K]|[K K']]].
    - by apply U1.
    - apply LM in K as [K _]. by destruct (U3 _ _ H K).
    - by destruct (U3 _ _ H K).
    - apply LM in H as [H _]. by destruct (U3 _ _ K H).
    - by apply (U2 d d').
    - by destruct (K' _ _ H).
    - by destruct (U3 _ _ K H).
    - by destruct (H' _ _ K).
    - by apply (firstOwner_fun t cs p).
  Qed.
  Theorem planned_all p : p < n -> exists i, planned o n t cs p i.
  Proof using O N A.
    intros P. destruct planned_iff as (l1 & l2 & L & F). destruct (decide (Exists (fun c => p ∈ owned t c) cs)) as [E|E].
    - apply Exists_exists in E. apply firstOwner_ex in E as [i Hi]. destruct (decide (p ∈ l2.*1.*1)) as [X|X].
      + apply elem_of_list_fmap in X as ([q d] & -> & X). apply elem_of_list_fmap in X as ([[q' d'] r] & [= -> ->] & X). exists r. apply F. right. left. eauto.
      + exists i. apply F. right. right. split; [done|]. intros d r Y. apply X. apply (elem_of_list_fmap_1 fst _ (p, d)). by apply (elem_of_list_fmap_1 fst l2 (p, d, r)).
    - assert (Q : p ∈ l1.*1). { apply (l_un _ _ _ _ _ L). split; [done|]. intros c Cc Pc. apply E, Exists_exists. eauto. }
      apply elem_of_list_fmap in Q as ([q i] & -> & Q). exists i. apply F. by left.
  Qed.
  (** C40 *)
  Theorem plan_nodup : NoDup (mjoin (plan o n t cs).*2).
  Proof using O N A.
    assert (ND : NoDup (plan o n t cs).*1).
    { unfold plan. rewrite decide_False by apply still_active. rewrite <- list_fmap_compose. rewrite fmap_app. apply NoDup_app. split_and!; [apply NoDup_inactives| |apply NoDup_actives].
      intros i H K. apply elem_of_list_fmap in H as ([? m] & -> & H). apply elem_of_list_fmap in K as ([? m'] & E & K). simpl in *. subst. apply elem_inactives in H as [H1 H2]. apply elem_actives in K as [K1 K2]. congruence. }
    assert (E : mjoin (plan o n t cs).*2 = x ← plan o n t cs; snd x) by (clear; generalize (plan o n t cs); intros l; induction l as [|x l IH]; [done|]; change (x.2 ++ mjoin l.*2 = x.2 ++ (y ← l; y.2)); by rewrite IH).
    rewrite E. apply NoDup_bind_disjoint; [done| |].
    - intros [i ps] H. apply elem_plan in H as (m & _ & ->). apply NoDup_elements.
    - intros [i ps] [j qs] p H K P Q. simpl in *. apply (planned_fun p); [by exists ps|by exists qs].
  Qed.
  Theorem plan_all p : p < n -> p ∈ mjoin (plan o n t cs).*2.
  Proof using O N A.
    intros P. destruct (planned_all p P) as (i & ps & H & Q). apply elem_of_list_join. exists ps. split; [done|]. by apply (elem_of_list_fmap_1 snd _ (i, ps)).
  Qed.
  Theorem plan_only p : p ∈ mjoin (plan o n t cs).*2 -> p < n \/ exists c, c ∈ cs /\ p ∈ owned t c.
  Proof using O N A.
    intros H. apply elem_of_list_join in H as (ps & P & H). apply elem_of_list_fmap in H as ([i qs] & -> & H). destruct planned_iff as (l1 & l2 & L & F).
    assert (planned o n t cs p i) as K by (by exists qs). apply F in K as [K|[[d K]|[K _]]].
    - left. assert (p ∈ l1.*1) as Q by (by apply (elem_of_list_fmap_1 fst l1 (p, i))). by apply (l_un _ _ _ _ _ L).
    - right. apply (l_mv _ _ _ _ _ L) in K as [K _]. apply firstOwner_ex. eauto.
    - right. apply firstOwner_ex. eauto.
  Qed.
  Theorem plan_members i ps : (i, ps) ∈ plan o n t cs -> exists c, c ∈ cs /\ cid c = i.
  Proof using O N A.
    intros H. apply elem_plan in H as (m & Hm & _). apply claim_mem. destruct (owner_final o n t cs O N some_active) as (l1 & l2 & L & F). specialize (F i).
    destruct (mems (newGroupState n t cs) !! i); [eauto|congruence].
  Qed.
  (** C41 *)
  Theorem plan_stays p d : firstOwner t cs p d -> (forall c, c ∈ cs -> sound c -> (t, p) ∉ crdy c) -> planned o n t cs p d.
  Proof using O N A.
    intros F H. destruct planned_iff as (l1 & l2 & L & P). apply P. right. right. split; [done|]. intros d' r X. apply (l_mv _ _ _ _ _ L) in X as (_ & c & Cc & _ & Sc & Rc). by apply (H c).
  Qed.
  Theorem plan_goes p d c0 : firstOwner t cs p d -> c0 ∈ cs -> sound c0 -> (t, p) ∈ crdy c0 -> exists c, c ∈ cs /\ sound c /\ (t, p) ∈ crdy c /\ planned o n t cs p (cid c).
  Proof using O N A.
    intros F C0 S0 R0. destruct planned_iff as (l1 & l2 & L & P). destruct (l_all _ _ _ _ _ L _ _ _ F C0 S0 R0) as [r X]. destruct (l_mv _ _ _ _ _ L _ _ _ X) as (_ & c & Cc & Ec & Sc & Rc).
    exists c. split_and!; [done|done|done|]. apply P. right. left. exists d. by rewrite Ec.
  Qed.
  (** C43 for the status that the balancer looks for *)
  Theorem plan_inactive p c : c ∈ cs -> cstat c = Inactive -> planned o n t cs p (cid c) -> firstOwner t cs p (cid c).
  Proof using O N A.
    intros Cc Sc H. destruct planned_iff as (l1 & l2 & L & P). destruct (Init_new n t cs N) as [C _]. pose proof (proj1 (P _ _) H) as HP. clear H. destruct HP as [H|[[d H]|[H _]]]; [| |done].
    - destruct (Dist_active _ _ _ _ _ (l_dist _ _ _ _ _ L) H) as (m & Hm & Sm). apply (i_mem _ _ _ _ C) in Hm as (c' & C' & E & F). pose proof (claim_eq cs c' c N C' Cc E) as ->.
      destruct Sm. by rewrite (f_stat _ _ F).
    - apply (l_mv _ _ _ _ _ L) in H as (_ & c' & C' & E & Sc' & _). pose proof (claim_eq cs c' c N C' Cc E) as ->. destruct Sc'. congruence.
  Qed.
  Theorem forget_told c : c ∈ cs -> cok c = true -> cstat c <> Active -> forgets o n t cs (cid c) = cprep c ++ crdy c.
  Proof using O N A.
    intros Cc Oc Sc. destruct (owner_final o n t cs O N some_active) as (l1 & l2 & L & F). specialize (F (cid c)). destruct (Init_new n t cs N) as [C _]. destruct (i_all _ _ _ _ C c Cc) as [m0 Hm].
    rewrite Hm in F. destruct F as (m & Em & _ & _ & Fm & _). unfold forgets. rewrite Em, Fm. apply (i_mem _ _ _ _ C) in Hm as (c' & C' & E & G). pose proof (claim_eq cs c' c N C' Cc E) as ->.
    rewrite (f_forget _ _ G), Oc. by rewrite decide_False.
  Qed.

  (** Instructions. *)
  Lemma elem_prepares i x : (i, x) ∈ prepares o n t cs <-> exists m, mems (balanced o n t cs) !! i = Some m /\ x ∈ mto m.
  Proof using O N A.
    unfold prepares. rewrite elem_of_list_bind. split.
    - intros ([j m] & H & M). apply elem_of_map_to_list in M. apply elem_of_list_fmap in H as (y & [= -> ->] & H). simpl in *. eauto.
    - intros (m & M & X). exists (i, m). rewrite elem_of_map_to_list. split; [|done]. simpl. by apply elem_of_list_fmap_1.
  Qed.
  Lemma random_in b m : mdon m <> ∅ -> randomPartition o b m ∈ mdon m.
  Proof using O N A.
    intros H. unfold randomPartition. assert (size (mdon m) <> 0) by (intros Z; apply size_empty_inv in Z; set_solver).
    destruct (elements (mdon m) !! (oRnd o b mod size (mdon m))) as [p|] eqn:E; [by apply elem_of_list_lookup_2, elem_of_elements in E|].
    apply lookup_ge_None in E. unfold size, set_size in *. simpl in *. pose proof (Nat.mod_upper_bound (oRnd o b) (length (elements (mdon m)))). lia.
  Qed.
  Lemma choose_some g d r : pickMove n g = Some (d, r) -> r ∈ actives g /\ d.1 <> r.1 /\ mdon d.2 <> ∅ /\ mems g !! d.1 = Some d.2 /\ (forall y, y ∈ actives g -> load r.2 <= load y.2) /\
    ((d ∈ inactives g /\ forall y, y ∈ inactives g -> mdon y.2 <> ∅ -> y = d \/ leI d y) \/ ((forall y, y ∈ inactives g -> mdon y.2 = ∅) /\ isImbalanced n g = Some (d, r))).
  Proof using O N A.
    unfold pickMove. intros H.
    assert (Hm : forall r, head (actives g) = Some r -> r ∈ actives g /\ forall y, y ∈ actives g -> load r.2 <= load y.2).
    { intros r' Hr. split; [destruct (actives g); [done|injection Hr as ->; left]|]. intros y Y. destruct (head_le leA _ _ _ (actives_sorted g) Hr Y) as [->|LE]; [done|by apply leA_load]. }
    assert (K : list_find (fun x => mdon x.2 <> ∅) (inactives g) = None -> isImbalanced n g = Some (d, r) -> r ∈ actives g /\ d.1 <> r.1 /\ mdon d.2 <> ∅ /\ mems g !! d.1 = Some d.2 /\ (forall y, y ∈ actives g -> load r.2 <= load y.2) /\ (forall y, y ∈ inactives g -> mdon y.2 = ∅)).
    { intros F I. unfold isImbalanced in I. case_decide as LN; [done|]. destruct (last (actives g)) as [d'|] eqn:LA; [|done]. destruct (head (actives g)) as [r'|] eqn:HE; [|done].
      case_decide as D; [|done]. injection I as -> ->. destruct (Hm r eq_refl) as [H1 H2]. pose proof LA as LA'. apply last_Some in LA' as [l' EL].
      assert (d ∈ actives g) by (rewrite EL; set_solver). split_and!; [done| | | |done|].
      - pose proof (NoDup_actives g) as ND. rewrite EL in ND, HE. destruct l' as [|z l']; [rewrite EL in LN; simpl in LN; lia|]. injection HE as ->. rewrite fmap_app in ND. simpl in ND. rewrite NoDup_cons in ND. destruct ND as [ND _].
        intros E. apply ND. rewrite <- E. set_solver.
      - intros Z. rewrite Z, size_empty in D. lia.
      - destruct d as [di dm]. by apply elem_actives in H0 as [? _].
      - intros y Y. destruct (decide (mdon y.2 = ∅)) as [?|NE]; [done|]. apply list_find_None in F. rewrite Forall_forall in F. by destruct (F y Y). }
    destruct (list_find _ (inactives g)) as [[k d']|] eqn:F.
    - destruct (head (actives g)) as [r'|] eqn:HE.
      + injection H as -> ->. destruct (Hm r eq_refl) as [H1 H2]. pose proof F as F'. apply list_find_Some in F' as (F1 & F2 & _). apply elem_of_list_lookup_2 in F1. destruct d as [di dm], r as [ri rm]. simpl in *.
        pose proof F1 as F1'. pose proof H1 as H1'. apply elem_inactives in F1' as [M1 S1]. apply elem_actives in H1' as [M2 S2]. split_and!; [done| |done|done|done|].
        * intros ->. congruence.
        * left. split; [done|]. intros y Y D. by apply (find_le leI (fun x => mdon x.2 <> ∅) _ k _ _ (inactives_sorted g) F Y).
      + unfold isImbalanced in H. case_decide; [done|]. rewrite HE in H. by destruct (last (actives g)).
    - destruct (K eq_refl H) as (H1 & H2 & H3 & H4 & H5 & H6). split_and!; [done|done|done|done|done|]. right. done.
  Qed.
  (** with a log: what was instructed *)
  Definition quiet : Prop := (forall c, c ∈ cs -> sound c -> cprep c = [] /\ crdy c = []) /\ (forall p, p < n -> exists c, c ∈ cs /\ p ∈ owned t c).
  Lemma quiet_recv : (forall c, c ∈ cs -> sound c -> cprep c = [] /\ crdy c = []) <-> recv (newGroupState n t cs) = ∅.
  Proof using O N A.
    destruct (Init_new n t cs N) as [C _]. split.
    - intros H. apply set_eq. intros p. rewrite (i_recv _ _ _ _ C). split; [|set_solver]. intros (c & x & Cc & Sc & X & _). destruct (H c Cc Sc) as [E1 E2]. rewrite E1, E2 in X. set_solver.
    - intros H c Cc Sc. assert (K : forall x, x ∉ cprep c ++ crdy c).
      { intros x X. assert (x.2 ∈ recv (newGroupState n t cs)); [|set_solver]. apply (i_recv _ _ _ _ C). exists c, x. done. }
      destruct (cprep c) as [|x l]; [|destruct (K x); set_solver]. destruct (crdy c) as [|x l]; [done|destruct (K x); set_solver].
  Qed.
  Lemma to_empty i m : mems (newGroupState n t cs) !! i = Some m -> mto m = [].
  Proof using O N A. destruct (Init_new n t cs N) as [C _]. intros H. apply (i_mem _ _ _ _ C) in H as (c & _ & _ & F). apply (f_to _ _ F). Qed.
  Theorem prepares_cases : (~ quiet /\ prepares o n t cs = []) \/ (quiet /\ balanced o n t cs = schedule o n t 1 (newGroupState n t cs)).
  Proof using O N A.
    destruct (balanced_cases o n t cs O N some_active) as (l1 & l2 & L & [[R E]|(-> & -> & R & E)]); [left|right].
    - split.
      + intros [Q1 Q2]. apply R. rewrite recv_g2. apply quiet_recv in Q1 as Q1'. rewrite Q1'. apply set_eq. intros p. rewrite !elem_of_union, !elem_of_list_to_set. split; [|set_solver]. intros [[H|H]|H]; [| |set_solver].
        * apply elem_of_list_fmap in H as ([q d] & -> & H). apply elem_of_list_fmap in H as ([[q' d'] r] & [= -> ->] & H). apply (l_mv _ _ _ _ _ L) in H as (_ & c & Cc & _ & Sc & X). destruct (Q1 c Cc Sc) as [_ Q]. rewrite Q in X. set_solver.
        * apply (l_un _ _ _ _ _ L) in H as [H K]. destruct (Q2 p H) as (c & Cc & P). by destruct (K c Cc).
      + destruct (prepares o n t cs) as [|[i x] l] eqn:P; [done|]. assert ((i, x) ∈ prepares o n t cs) as X by (rewrite P; left). apply elem_prepares in X as (m & Hm & X). rewrite E, mems_g2 in Hm by done.
        apply fmap_Some in Hm as (m0 & Hm & ->). simpl in X. apply elem_withouts in X as [X _]. apply elem_withouts in X as [X _]. rewrite (to_empty _ _ Hm) in X. set_solver.
    - split; [|done]. split; [by apply quiet_recv|]. intros p P. destruct (decide (Exists (fun c => p ∈ owned t c) cs)) as [X|X]; [by apply Exists_exists in X|].
      assert (p ∈ ([] : list (nat * nat)).*1) as Q; [|set_solver]. apply (l_un _ _ _ _ _ L). split; [done|]. intros c Cc Pc. apply X, Exists_exists. eauto.
  Qed.
  Lemma prepares_quiet : quiet -> prepares o n t cs = match pickMove n (newGroupState n t cs) with Some (d, r) => [(r.1, (t, randomPartition o 1 d.2))] | None => [] end.
  Proof using O N A.
    intros Q. destruct prepares_cases as [[X _]|[_ E]]; [done|]. rewrite schedule_one in E. destruct (pickMove n (newGroupState n t cs)) as [[d r]|] eqn:CH.
    - apply choose_some in CH as (H1 & _). destruct r as [ri rm]. apply elem_actives in H1 as [H1 _]. simpl.
      assert (EQ : forall x, x ∈ prepares o n t cs <-> x = (ri, (t, randomPartition o 1 d.2))).
      { intros [i x]. rewrite elem_prepares, E. setoid_rewrite donate_mems. split.
        - intros (m & Hm & X). apply fmap_Some in Hm as (m0 & Hm & ->). simpl in X. rewrite (to_empty _ _ Hm) in X. case_decide; set_solver.
        - intros [= -> ->]. rewrite H1. eexists. split; [done|]. simpl. rewrite decide_True by done. set_solver. }
      apply Permutation_singleton_r. apply NoDup_Permutation; [|apply NoDup_singleton|intros x; rewrite EQ; set_solver].
      unfold prepares. rewrite E. apply NoDup_bind_disjoint; [apply NoDup_fst_map_to_list| |].
      + intros [i m] H. apply elem_of_map_to_list in H. rewrite donate_mems in H. apply fmap_Some in H as (m0 & Hm & ->). simpl. rewrite (to_empty _ _ Hm). case_decide; simpl; [apply NoDup_singleton|constructor].
      + intros [i m] [j m'] b _ _ H K. apply elem_of_list_fmap in H as (? & -> & _). by apply elem_of_list_fmap in K as (? & [= -> _] & _).
    - destruct (prepares o n t cs) as [|[i x] l] eqn:P; [done|]. assert ((i, x) ∈ prepares o n t cs) as X by (rewrite P; left). apply elem_prepares in X as (m & Hm & X). rewrite E in Hm. rewrite (to_empty _ _ Hm) in X. set_solver.
  Qed.
End one.
