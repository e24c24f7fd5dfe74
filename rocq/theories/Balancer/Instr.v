(** Prepare instructions, and who inherits what nobody owns. *)
From Verif.Balancer Require Export Proofs.
From stdpp Require Export prelude list gmap sorting.
Open Scope nat_scope.

  (** C44 *)
  Lemma heir_prepared t p g i j m : heir t p g = Some i -> (j, m) ∈ actives g -> prepOrReadyFor t p m = true -> exists m', mems g !! i = Some m' /\ prepOrReadyFor t p m' = true.
  Proof.
    unfold heir. intros H J P. destruct (list_find _ (actives g)) as [[k [i' m']]|] eqn:F.
    - injection H as <-. apply list_find_Some in F as (F1 & F2 & _). apply elem_of_list_lookup_2, elem_actives in F1 as [F1 _]. eauto.
    - apply list_find_None in F. rewrite Forall_forall in F. by destruct (F _ J).
  Qed.
  Lemma heir_least t p g i m' j m : heir t p g = Some i -> mems g !! i = Some m' -> (forall x, x ∈ actives g -> prepOrReadyFor t p x.2 = false) -> (j, m) ∈ actives g -> load m' <= load m.
  Proof.
    unfold heir. intros H M P J. destruct (list_find _ (actives g)) as [[k [i' m'']]|] eqn:F.
    - apply list_find_Some in F as (F1 & F2 & _). apply elem_of_list_lookup_2 in F1. rewrite (P _ F1) in F2. done.
    - apply fmap_Some in H as ([i' m''] & H & ->). destruct (head_le leA _ _ _ (actives_sorted g) H J) as [E|LE].
      + injection E as -> ->. assert ((i', m'') ∈ actives g) as K by (destruct (actives g); [done|injection H as ->; left]). apply elem_actives in K as [K _]. simpl in M. rewrite K in M. injection M as <-. done.
      + assert ((i', m'') ∈ actives g) as K by (destruct (actives g); [done|injection H as ->; left]). apply elem_actives in K as [K _]. simpl in M. rewrite K in M. injection M as <-. by apply leA_load in LE.
  Qed.

Section two.
  Context (o : orc) (n t : nat) (cs : list claim) (O : orc_ok o) (N : NoDup (cid <$> cs)) (A : exists c, c ∈ cs /\ cstat c <> Inactive).
  Notation g0 := (newGroupState n t cs).
  Lemma quiet_don i m : quiet n t cs -> mems g0 !! i = Some m -> mdon m = masg m /\ mdng m = ∅.
  Proof using O N A. intros [Q _] H. apply (quiet_recv o n t cs O N A) in Q. destruct (Init_new n t cs N) as [_ D]. destruct (D _ _ H) as [-> ->]. rewrite Q. set_solver. Qed.
  Lemma own_asg i m p : mems g0 !! i = Some m -> p ∈ masg m <-> firstOwner t cs p i.
  Proof using O N A. intros H. destruct (Init_new n t cs N) as [C _]. by rewrite (i_asg _ _ _ _ C i m H), (i_asgd _ _ _ _ C). Qed.
  Lemma from_claim c : c ∈ cs -> exists m, mems g0 !! cid c = Some m /\ From c m.
  Proof using O N A.
    intros Cc. destruct (Init_new n t cs N) as [C _]. destruct (i_all _ _ _ _ C c Cc) as [m Hm]. exists m. split; [done|]. apply (i_mem _ _ _ _ C) in Hm as (c' & C' & E & F).
    by pose proof (claim_eq cs c' c N C' Cc E) as ->.
  Qed.
  Lemma to_claim i m : mems g0 !! i = Some m -> exists c, c ∈ cs /\ cid c = i /\ From c m.
  Proof using O N A. intros Hm. destruct (Init_new n t cs N) as [C _]. by apply (i_mem _ _ _ _ C). Qed.

  (** C42 *)
  Theorem prep_none : ~ quiet n t cs -> prepares o n t cs = [].
  Proof using O N A. intros H. by destruct (prepares_cases o n t cs O N A) as [[_ E]|[Q _]]. Qed.
  Theorem prep_one : length (prepares o n t cs) <= 1.
  Proof using O N A.
    destruct (prepares_cases o n t cs O N A) as [[_ ->]|[Q _]]; [simpl; lia|]. rewrite prepares_quiet by done. destruct (pickMove n g0) as [[d r]|]; simpl; lia.
  Qed.
  Lemma prep_pick i x : (i, x) ∈ prepares o n t cs -> quiet n t cs /\ exists d m, pickMove n g0 = Some (d, (i, m)) /\ x = (t, randomPartition o 1 d.2).
  Proof using O N A.
    intros H. destruct (prepares_cases o n t cs O N A) as [[_ E]|[Q _]]; [rewrite E in H; set_solver|]. split; [done|]. rewrite prepares_quiet in H by done.
    destruct (pickMove n g0) as [[d [j m]]|]; [|set_solver]. apply elem_of_list_singleton in H as [= -> ->]. eauto.
  Qed.
  Theorem prep_ok i x : (i, x) ∈ prepares o n t cs -> exists p c d, x = (t, p) /\ c ∈ cs /\ cid c = i /\ cstat c <> Inactive /\ firstOwner t cs p d /\ d <> i.
  Proof using O N A.
    intros H. apply prep_pick in H as (Q & d & m & P & ->). apply (choose_some o n cs O N A) in P as (H1 & H2 & H3 & H4 & _). apply elem_actives in H1 as [H1 S1]. destruct (to_claim _ _ H1) as (c & Cc & Ec & F).
    exists (randomPartition o 1 d.2), c, d.1. split_and!; [done|done|done| | |done].
    - by rewrite <- (f_stat _ _ F).
    - apply (own_asg _ _ _ H4). rewrite <- (proj1 (quiet_don _ _ Q H4)). by apply (random_in o cs O N A).
  Qed.
  (** C46 *)
  Theorem drain_first i p c1 q : (i, (t, p)) ∈ prepares o n t cs -> c1 ∈ cs -> cstat c1 = Inactive -> firstOwner t cs q (cid c1) ->
    exists d, d ∈ cs /\ cstat d = Inactive /\ firstOwner t cs p (cid d) /\ ((cleft d < cleft c1)%Z \/ (cleft d = cleft c1 /\ cid d <= cid c1)).
  Proof using O N A.
    intros H C1 S1 F1. apply prep_pick in H as (Q & d & m & P & E). injection E as ->. apply (choose_some o n cs O N A) in P as (_ & _ & H3 & H4 & _ & P). destruct (from_claim c1 C1) as (m1 & M1 & G1).
    assert (I1 : (cid c1, m1) ∈ inactives g0) by (apply elem_inactives; by rewrite (f_stat _ _ G1)).
    assert (D1 : mdon m1 <> ∅). { rewrite (proj1 (quiet_don _ _ Q M1)). apply (own_asg _ _ _ M1) in F1. set_solver. }
    destruct P as [[DI MIN]|[Z _]]; [|by destruct (D1 (Z _ I1))]. destruct d as [di dm]. simpl in *. apply elem_inactives in DI as [_ DS]. destruct (to_claim _ _ H4) as (d & Dd & Ed & FD).
    exists d. split_and!; [done|by rewrite <- (f_stat _ _ FD)| |].
    - rewrite Ed. apply (own_asg _ _ _ H4). rewrite <- (proj1 (quiet_don _ _ Q H4)). by apply (random_in o cs O N A).
    - destruct (MIN _ I1 D1) as [E|LE].
      + injection E as E1 E2. right. rewrite <- (f_left _ _ FD), <- (f_left _ _ G1), Ed, E1, E2. lia.
      + apply leI_left in LE. simpl in LE. rewrite (f_left _ _ FD), (f_left _ _ G1) in LE. by rewrite Ed.
  Qed.
  Theorem drain_goes c1 q : quiet n t cs -> c1 ∈ cs -> cstat c1 = Inactive -> firstOwner t cs q (cid c1) -> exists i p, (i, (t, p)) ∈ prepares o n t cs.
  Proof using O N A.
    intros Q C1 S1 F1. destruct (from_claim c1 C1) as (m1 & M1 & G1). assert (I1 : (cid c1, m1) ∈ inactives g0) by (apply elem_inactives; by rewrite (f_stat _ _ G1)).
    assert (D1 : mdon m1 <> ∅). { rewrite (proj1 (quiet_don _ _ Q M1)). apply (own_asg _ _ _ M1) in F1. set_solver. }
    rewrite prepares_quiet by done. unfold pickMove. destruct (list_find _ (inactives g0)) as [[k d]|] eqn:F.
    - pose proof (some_active o n t cs O N A) as NE. destruct (actives g0) as [|r l]; [done|]. simpl. eexists _, _. left.
    - apply list_find_None in F. rewrite Forall_forall in F. by destruct (F _ I1).
  Qed.

End two.

(** The load of a member when the assignments [a] have been made: what it owns or was given, plus the preparations it reported for other partitions. *)
Definition LoadAt (t : nat) (cs : list claim) (a : list (nat * nat)) (c : claim) (k : nat) : Prop :=
  exists s : gset nat, (forall p, p ∈ s <-> firstOwner t cs p (cid c) \/ (p, cid c) ∈ a) /\ k = size s + length (filter (fun x => (x.2, cid c) ∉ a) (cprep c ++ crdy c)).
Lemma LoadAt_fun t cs a c k k' : LoadAt t cs a c k -> LoadAt t cs a c k' -> k = k'.
Proof. intros (s & H & ->) (s' & H' & ->). assert (s = s') as -> by (apply set_eq; intros p; by rewrite H, H'). done. Qed.

Section three.
  Context (n t : nat) (cs : list claim) (N : NoDup (cid <$> cs)) (A : exists c, c ∈ cs /\ cstat c <> Inactive).
  Notation g0 := (newGroupState n t cs).
  Lemma sizes m : mems g0 !! m.1 = Some m.2 -> size (mdon m.2) + size (mdng m.2) = size (masg m.2).
  Proof using n N A. intros H. destruct (Init_new n t cs N) as [_ D]. destruct (D _ _ H) as [-> ->]. rewrite <- size_union by set_solver. f_equal. apply set_eq. intros p. destruct (decide (p ∈ recv g0)); set_solver. Qed.
  (** a list of assignments of unowned partitions *)
  Definition orphaned (a : list (nat * nat)) : Prop := NoDup a.*1 /\ forall p, p ∈ a.*1 -> forall c, c ∈ cs -> p ∉ owned t c.
  Lemma load_give a c m : orphaned a -> c ∈ cs -> mems g0 !! cid c = Some m -> From c m -> LoadAt t cs a c (load (give (got a (cid c)) m)).
  Proof using n N A.
    intros [ND FR] Cc Hm F. exists (list_to_set (got a (cid c)) ∪ masg m). split.
    - intros p. destruct (Init_new n t cs N) as [C _]. rewrite elem_of_union, elem_of_list_to_set, elem_got, (i_asg _ _ _ _ C _ _ Hm), (i_asgd _ _ _ _ C). naive_solver.
    - unfold load. simpl. rewrite filter_app, app_length. assert (E : forall l, length (withouts l (got a (cid c))) = length (filter (fun x => (x.2, cid c) ∉ a) l)).
      { intros l. f_equal. apply list_filter_iff. intros x. by rewrite elem_got. }
      rewrite !E, (f_prep _ _ F), (f_rdy _ _ F). pose proof (sizes (cid c, m) Hm) as SZ. simpl in SZ. destruct (Init_new n t cs N) as [C D]. destruct (D _ _ Hm) as [Dn Dg].
      assert (DJ : forall p, p ∈ got a (cid c) -> p ∉ masg m).
      { intros p P Q. apply elem_got in P. assert (p ∈ a.*1) as P' by (by apply (elem_of_list_fmap_1 fst a (p, cid c))). apply (i_asg _ _ _ _ C _ _ Hm), (i_asgd _ _ _ _ C) in Q.
        assert (exists i, firstOwner t cs p i) as (c' & C' & Pc)%firstOwner_ex by eauto. by apply (FR p P' c'). }
      rewrite !size_union; [lia|set_solver|set_solver].
  Qed.
  Lemma Dist_split l a p i b : Dist t g0 l -> l = a ++ (p, i) :: b -> heir t p (assigns t a g0) = Some i.
  Proof using n N A.
    intros D. revert a p i b. induction D as [|l q j D IH H]; intros a p i b E; [by destruct a|].
    destruct (decide (b = [])) as [->|NE]; [apply app_inj_tail in E as [-> E]; by injection E as -> ->|]. apply exists_last in NE as [b' [y ->]]. rewrite app_comm_cons, app_assoc in E.
    apply app_inj_tail in E as [-> _]. by apply (IH a p i b').
  Qed.
  Lemma orphaned_prefix l a b : orphaned l -> l = a ++ b -> orphaned a.
  Proof using. intros [ND F] ->. rewrite fmap_app in ND, F. apply NoDup_app in ND as [ND _]. split; [done|]. intros p P. apply F. apply elem_of_app. by left. Qed.
  Lemma prep_give a p c m : p ∉ a.*1 -> From c m -> prepOrReadyFor t p (give (got a (cid c)) m) = true <-> (t, p) ∈ cprep c ++ crdy c.
  Proof using n N A.
    intros P F. unfold prepOrReadyFor, readyFor. rewrite orb_true_iff, !bool_decide_eq_true. simpl. rewrite !elem_withouts, (f_prep _ _ F), (f_rdy _ _ F), elem_of_app.
    assert (Q : p ∉ got a (cid c)) by (intros Q; apply elem_got in Q; apply P; by apply (elem_of_list_fmap_1 fst a (p, cid c))). simpl. naive_solver.
  Qed.
  (** who inherits *)
  Theorem inherit l a p i b : Dist t g0 l -> orphaned l -> l = a ++ (p, i) :: b -> exists c, c ∈ cs /\ cid c = i /\ cstat c <> Inactive /\
    ((exists c', c' ∈ cs /\ cstat c' <> Inactive /\ (t, p) ∈ cprep c' ++ crdy c') -> (t, p) ∈ cprep c ++ crdy c) /\
    ((forall c', c' ∈ cs -> cstat c' <> Inactive -> (t, p) ∉ cprep c' ++ crdy c') -> forall c' k k', c' ∈ cs -> cstat c' <> Inactive -> LoadAt t cs a c k -> LoadAt t cs a c' k' -> k <= k').
  Proof using n N A.
    intros D FR E. pose proof (Dist_split l a p i b D E) as H. assert (FA : orphaned a) by (by apply (orphaned_prefix l a ((p, i) :: b))).
    assert (PA : p ∉ a.*1). { destruct FR as [ND _]. rewrite E, fmap_app in ND. apply NoDup_app in ND as (_ & ND & _). intros X. apply (ND _ X). left. }
    pose proof (Init_new n t cs N) as [C _]. destruct (heir_active _ _ _ _ H) as (mi & Mi & Si). rewrite assigns_mems in Mi. apply fmap_Some in Mi as (m0 & M0 & ->).
    pose proof M0 as X. apply (i_mem _ _ _ _ C) in X as (c & Cc & Ec & F). exists c. assert (AC : forall c' m', c' ∈ cs -> cstat c' <> Inactive -> mems g0 !! cid c' = Some m' -> From c' m' -> (cid c', give (got a (cid c')) m') ∈ actives (assigns t a g0)).
    { intros c' m' C' S' M' F'. apply elem_actives. rewrite assigns_mems, M'. split; [done|]. simpl. by rewrite (f_stat _ _ F'). }
    assert (FC : forall c', c' ∈ cs -> exists m', mems g0 !! cid c' = Some m' /\ From c' m').
    { intros c' C'. destruct (i_all _ _ _ _ C c' C') as [m' M']. exists m'. split; [done|]. apply (i_mem _ _ _ _ C) in M' as (c'' & C'' & E' & F'). by pose proof (claim_eq cs c'' c' N C'' C' E') as ->. }
    split_and!; [done|done|by rewrite <- (f_stat _ _ F)| |].
    - intros (c' & C' & S' & P'). destruct (FC c' C') as (m' & M' & F'). destruct (heir_prepared t p _ _ _ _ H (AC c' m' C' S' M' F')) as (m2 & M2 & P2); [by apply (prep_give a p c' m' PA F')|].
      rewrite assigns_mems, M0 in M2. simpl in M2. injection M2 as <-. rewrite <- Ec in P2. by apply (prep_give a p c m0 PA F).
    - intros NP c' k k' C' S' K K'. destruct (FC c' C') as (m' & M' & F'). rewrite <- Ec in *. rewrite (LoadAt_fun _ _ _ _ _ _ K (load_give a c m0 FA Cc M0 F)), (LoadAt_fun _ _ _ _ _ _ K' (load_give a c' m' FA C' M' F')).
      apply (heir_least t p (assigns t a g0) (cid c) (give (got a (cid c)) m0) (cid c')); [done|by rewrite assigns_mems, M0| |by apply AC].
      intros [j mj] J. apply elem_actives in J as [J Sj]. rewrite assigns_mems in J. apply fmap_Some in J as (mj0 & J & ->). simpl. apply (i_mem _ _ _ _ C) in J as (cj & Cj & <- & Fj).
      apply not_true_is_false. intros X. apply (prep_give a p cj mj0 PA Fj) in X. apply (NP cj Cj); [|done]. by rewrite <- (f_stat _ _ Fj).
  Qed.
  Lemma load_step a p i c k : orphaned (a ++ [(p, i)]) -> NoDup (cprep c ++ crdy c).*2 -> LoadAt t cs a c k ->
    LoadAt t cs (a ++ [(p, i)]) c (if decide (i = cid c) then if decide (p ∈ (cprep c ++ crdy c).*2) then k else S k else k).
  Proof using n N A.
    intros [ND FR] NDL (s & HS & ->). rewrite fmap_app in ND, FR. simpl in *. apply NoDup_app in ND as (_ & ND & _). assert (PA : p ∉ a.*1) by (intros X; apply (ND _ X); left).
    assert (PA' : forall j, (p, j) ∉ a) by (intros j X; apply PA; by apply (elem_of_list_fmap_1 fst a (p, j))).
    destruct (decide (i = cid c)) as [->|NI].
    - assert (Ps : p ∉ s). { rewrite HS. intros [F|X]; [|by apply (PA' (cid c))]. assert (exists i, firstOwner t cs p i) as (c' & C' & Pc)%firstOwner_ex by eauto. apply (FR p) with c'; [set_solver|done|done]. }
      exists ({[p]} ∪ s). split.
      + intros q. rewrite elem_of_union, elem_of_singleton, HS, elem_of_app, elem_of_list_singleton. naive_solver.
      + rewrite size_union, size_singleton by set_solver.
        assert (E : forall l : list tp, NoDup l.*2 -> length (filter (fun x => (x.2, cid c) ∉ a) l) = length (filter (fun x => (x.2, cid c) ∉ a ++ [(p, cid c)]) l) + if decide (p ∈ l.*2) then 1 else 0).
        { clear -PA'. induction l as [|[u q] l IH]; [done|]. rewrite fmap_cons, NoDup_cons. intros [NQ NL]. specialize (IH NL). rewrite !filter_cons. cbn [snd] in *. destruct (decide (p = q)) as [<-|NP].
          - rewrite (decide_True _ _ (PA' (cid c))), decide_False by set_solver. rewrite decide_True by set_solver. rewrite decide_False in IH by done. simpl. lia.
          - destruct (decide (p ∈ q :: l.*2)), (decide (p ∈ l.*2)); try (exfalso; set_solver); (destruct (decide ((q, cid c) ∉ a)); [rewrite decide_True by (rewrite elem_of_app, elem_of_list_singleton; naive_solver)|rewrite decide_False by set_solver]); simpl; lia. }
        rewrite (E _ NDL). case_decide; lia.
    - exists s. split; [intros q; rewrite HS, elem_of_app, elem_of_list_singleton; naive_solver|]. f_equal. f_equal. apply list_filter_iff. intros x. rewrite elem_of_app, elem_of_list_singleton. naive_solver.
  Qed.
  Definition evenLoads (a : list (nat * nat)) : Prop := forall c c' k k', c ∈ cs -> c' ∈ cs -> cstat c <> Inactive -> cstat c' <> Inactive -> LoadAt t cs a c k -> LoadAt t cs a c' k' -> k <= k' + 1.
  Lemma load_ex a c : orphaned a -> c ∈ cs -> exists k, LoadAt t cs a c k.
  Proof using n N A.
    intros FA Cc. pose proof (Init_new n t cs N) as [C _]. destruct (i_all _ _ _ _ C c Cc) as [m M]. exists (load (give (got a (cid c)) m)). apply load_give; [done|done|done|].
    apply (i_mem _ _ _ _ C) in M as (c' & C' & E' & F'). by pose proof (claim_eq cs c' c N C' Cc E') as ->.
  Qed.
  Theorem stays_even l : Dist t g0 l -> orphaned l -> (forall c, c ∈ cs -> cstat c <> Inactive -> NoDup (cprep c ++ crdy c).*2) -> evenLoads [] -> evenLoads l.
  Proof using n N A.
    intros D FR NDL E0. induction D as [|l p i D IH H]; [done|]. assert (FL : orphaned l) by (by apply (orphaned_prefix (l ++ [(p, i)]) l [(p, i)])). specialize (IH FL).
    assert (D' : Dist t g0 (l ++ [(p, i)])) by (by constructor). destruct (inherit _ l p i [] D' FR eq_refl) as (r & Cr & Er & Sr & PR & LR).
    intros c c' k k' Cc C' Sc S' K K'. destruct (load_ex l c FL Cc) as [u U]. destruct (load_ex l c' FL C') as [u' U'].
    rewrite (LoadAt_fun _ _ _ _ _ _ K (load_step l p i c u FR (NDL c Cc Sc) U)), (LoadAt_fun _ _ _ _ _ _ K' (load_step l p i c' u' FR (NDL c' C' S') U')).
    pose proof (IH c c' u u' Cc C' Sc S' U U') as I1. destruct (decide (i = cid c)) as [->|N1]; [|destruct (decide (i = cid c')); [case_decide|]; lia].
    pose proof (claim_eq cs r c N Cr Cc Er) as ->. destruct (decide (cid c = cid c')) as [EE|NE].
    { pose proof (claim_eq cs c c' N Cc C' EE) as <-. rewrite (LoadAt_fun _ _ _ _ _ _ U U'). lia. }
    destruct (decide (p ∈ (cprep c ++ crdy c).*2)) as [X|X]; [lia|]. assert (NP : forall c', c' ∈ cs -> cstat c' <> Inactive -> (t, p) ∉ cprep c' ++ crdy c').
    { intros d Cd Sd Pd. apply X. apply (elem_of_list_fmap_1 snd _ (t, p)). apply PR. eauto. }
    pose proof (LR NP c' u u' C' S' U U'). lia.
  Qed.
End three.

(** a partition that nobody owns *)
Theorem plan_heir o n t cs p i : orc_ok o -> NoDup (cid <$> cs) -> (exists c, c ∈ cs /\ cstat c <> Inactive) -> (forall c, c ∈ cs -> p ∉ owned t c) -> planned o n t cs p i ->
  exists c, c ∈ cs /\ cid c = i /\ cstat c <> Inactive /\ ((exists c', c' ∈ cs /\ cstat c' <> Inactive /\ (t, p) ∈ cprep c' ++ crdy c') -> (t, p) ∈ cprep c ++ crdy c).
Proof.
  intros O N A U H. destruct (planned_iff o n t cs O N A) as (l1 & l2 & L & P).
  assert (NO : forall j, ~ firstOwner t cs p j) by (intros j F; assert (exists i, firstOwner t cs p i) as (c & Cc & Pc)%firstOwner_ex by eauto; by apply (U c)).
  pose proof (proj1 (P p i) H) as [K|[[d K]|[K _]]]; [|by apply (l_mv _ _ _ _ _ L) in K as [K _]; destruct (NO d)|by destruct (NO i)].
  apply elem_of_list_split in K as (a & b & E). destruct (inherit n t cs N A l1 a p i b (l_dist _ _ _ _ _ L)) as (c & Cc & Ec & Sc & PC & _); [|done|eauto 6].
  split; [apply L|]. intros q Q. by apply (l_un _ _ _ _ _ L).
Qed.
