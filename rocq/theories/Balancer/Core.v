(** Closed forms of distributeUnassigned and deliverScheduledPartitionMoves: the state after a list of assignments. *)
From Verif.Balancer Require Export Init.
From stdpp Require Export prelude list gmap sorting.
Open Scope nat_scope.

Definition withouts (l : list tp) (ps : list nat) : list tp := filter (fun x => snd x ∉ ps) l.
Lemma withouts_nil l : withouts l [] = l.
Proof. unfold withouts. induction l as [|x l IH]; [done|]. rewrite filter_cons, decide_True by set_solver. by rewrite IH. Qed.
Lemma without_withouts l ps p : without (withouts l ps) p = withouts l (ps ++ [p]).
Proof. unfold without, withouts. rewrite list_filter_filter. apply list_filter_iff. intros x. set_solver. Qed.
Lemma elem_withouts x l ps : x ∈ withouts l ps <-> x ∈ l /\ snd x ∉ ps.
Proof. unfold withouts. rewrite elem_of_list_filter. naive_solver. Qed.
Lemma withouts_le l ps : length (withouts l ps) <= length l.
Proof. apply filter_length. Qed.

(** Assignments one after another. *)
Definition assigns (t : nat) (l : list (nat * nat)) (g : gs) : gs := foldl (fun g x => assignTo t x.1 x.2 g) g l.
Definition got (l : list (nat * nat)) (i : nat) : list nat := (filter (fun x => x.2 = i) l).*1.
Definition give (ps : list nat) (m : mem) : mem :=
  mkMem (mstat m) (mleft m) (withouts (mprep m) ps) (withouts (mrdy m) ps) (list_to_set ps ∪ masg m) (list_to_set ps ∪ mdon m) (mdng m) (withouts (mto m) ps) (mforget m).
Lemma give_nil m : give [] m = m.
Proof. destruct m. unfold give. simpl. rewrite !withouts_nil. f_equal; set_solver. Qed.
Lemma elem_got l i p : p ∈ got l i <-> (p, i) ∈ l.
Proof. unfold got. rewrite elem_of_list_fmap. setoid_rewrite elem_of_list_filter. split; [intros ([q j] & -> & [E H]); simpl in *; by subst|intros H; by exists (p, i)]. Qed.
Lemma got_snoc l p i j : got (l ++ [(p, j)]) i = if decide (j = i) then got l i ++ [p] else got l i.
Proof.
  unfold got. rewrite filter_app, fmap_app. simpl. rewrite filter_cons, filter_nil. simpl. destruct (decide (j = i)); simpl; [done|by rewrite app_nil_r].
Qed.
Lemma assigns_snoc t l p i g : assigns t (l ++ [(p, i)]) g = assignTo t p i (assigns t l g).
Proof. unfold assigns. by rewrite foldl_app. Qed.
Lemma assigns_mems t l g i : mems (assigns t l g) !! i = give (got l i) <$> mems g !! i.
Proof.
  induction l as [|[p j] l IH] using rev_ind.
  - simpl. unfold got. simpl. destruct (mems g !! i) as [m|]; simpl; [by rewrite give_nil|done].
  - rewrite assigns_snoc, got_snoc. simpl. destruct (decide (j = i)) as [->|N].
    + rewrite lookup_alter, IH. destruct (mems g !! i) as [m|]; [|done]. simpl. f_equal. unfold give. simpl. rewrite !without_withouts. f_equal; rewrite list_to_set_app_L; set_solver.
    + by rewrite lookup_alter_ne, IH.
Qed.
Lemma assigns_asgd t l g : asgd (assigns t l g) = asgd g /\ unas (assigns t l g) = unas g.
Proof. induction l as [|[p j] l IH] using rev_ind; [done|]. by rewrite assigns_snoc. Qed.
Lemma assigns_recv t l g : recv (assigns t l g) = list_to_set l.*1 ∪ recv g /\ trans (assigns t l g) = list_to_set l.*1 ∪ trans g.
Proof.
  induction l as [|[p j] l [IH1 IH2]] using rev_ind; [set_solver|]. rewrite assigns_snoc, fmap_app, list_to_set_app_L. simpl. rewrite IH1, IH2. set_solver.
Qed.
Lemma assigns_rdym t l g x : x.1 <> t \/ x.2 ∉ l.*1 -> rdym (assigns t l g) !! x = rdym g !! x.
Proof.
  induction l as [|[p j] l IH] using rev_ind; [done|]. rewrite assigns_snoc, fmap_app. simpl. intros H. rewrite lookup_delete_ne; [apply IH; set_solver|].
  destruct x as [a b]. simpl in *. intros [= -> ->]. set_solver.
Qed.
Lemma assigns_rdym_some t l g x i : rdym (assigns t l g) !! x = Some i -> rdym g !! x = Some i.
Proof. induction l as [|[p j] l IH] using rev_ind; [done|]. rewrite assigns_snoc. simpl. rewrite lookup_delete_Some. naive_solver. Qed.

(** Sort keys: unassignFromDonor does not change the key of a member whose donating set has the partition already. *)
Lemma unassign_key p i g m : mems g !! i = Some m -> p ∈ mdng m -> p ∉ mdon m ->
  exists m', mems (unassignFrom p i g) !! i = Some m' /\ load m' = load m /\ size (mdon m') + size (mdng m') = size (mdon m) + size (mdng m) /\ mleft m' = mleft m.
Proof.
  intros H P Q. unfold unassignFrom. simpl. rewrite lookup_alter, H. simpl. eexists. split; [done|]. unfold load. simpl.
  replace (mdon m ∖ {[p]}) with (mdon m) by set_solver. replace ({[p]} ∪ mdng m) with (mdng m) by set_solver. done.
Qed.

(** distributeUnassigned: the list of assignments that it makes *)
Inductive Dist (t : nat) (g : gs) : list (nat * nat) -> Prop :=
  | Dist_nil : Dist t g []
  | Dist_snoc l p i : Dist t g l -> heir t p (assigns t l g) = Some i -> Dist t g (l ++ [(p, i)]).
Lemma assigns_actives t l g : actives g <> [] -> actives (assigns t l g) <> [].
Proof. rewrite !actives_nonempty. intros (i & m & H & S). exists i, (give (got l i) m). rewrite assigns_mems, H. done. Qed.
Lemma heir_active t p g i : heir t p g = Some i -> exists m, mems g !! i = Some m /\ mstat m <> Inactive.
Proof.
  unfold heir. destruct (list_find _ (actives g)) as [[k [j m]]|] eqn:F.
  - intros [= <-]. apply list_find_Some in F as (F & _). apply elem_of_list_lookup_2 in F. apply elem_actives in F. eauto.
  - intros H. apply fmap_Some in H as ([j m] & H & ->). exists m. apply elem_actives. destruct (actives g); [done|]. injection H as ->. left.
Qed.
Lemma heir_some t p g : actives g <> [] -> is_Some (heir t p g).
Proof. unfold heir. destruct (list_find _ (actives g)) as [[k [j m]]|]; [eauto|]. destruct (actives g); [done|simpl; eauto]. Qed.
Lemma distribute_log o t g : orc_ok o -> actives g <> [] -> exists l, distribute o t g = assigns t l g /\ l.*1 ≡ₚ elements (unas g) /\ Dist t g l.
Proof.
  intros [OU _ _] A. unfold distribute. pose proof (OU (elements (unas g))) as P0. set (us := oU o (elements (unas g))) in *. clearbody us.
  enough (exists l, foldl (distribute1 t) g us = assigns t l g /\ l.*1 ≡ₚ us /\ Dist t g l) as (l & E & P & D) by (exists l; split_and!; [done|by rewrite P|done]). clear P0.
  induction us as [|p us IH] using rev_ind; [exists []; split_and!; [done|done|constructor]|]. destruct IH as (l & E & P & D). rewrite foldl_app. simpl. rewrite E. unfold distribute1.
  destruct (heir_some t p (assigns t l g)) as [i Hi]; [by apply assigns_actives|]. rewrite Hi. exists (l ++ [(p, i)]). split_and!; [by rewrite assigns_snoc| |by constructor].
  rewrite fmap_app, P. done.
Qed.
Lemma Dist_active t g l p i : Dist t g l -> (p, i) ∈ l -> exists m, mems g !! i = Some m /\ mstat m <> Inactive.
Proof.
  induction 1 as [|l q j D IH HE]; [set_solver|]. rewrite elem_of_app, elem_of_list_singleton. intros [H|[= -> ->]]; [by apply IH|]. apply heir_active in HE as (m & Hm & Sm).
  rewrite assigns_mems in Hm. apply fmap_Some in Hm as (m0 & Hm & ->). eauto.
Qed.

(** deliverScheduledPartitionMoves: (partition, donor, recipient) *)
Notation move := (nat * nat * nat)%type.
Definition moves (t : nat) (l : list move) (g : gs) : gs := foldl (fun g x => assignTo t x.1.1 x.2 (unassignFrom x.1.1 x.1.2 g)) g l.
Definition lost (l : list move) (i : nat) : gset nat := list_to_set (filter (fun x => x.1.2 = i) l).*1.*1.
Definition won (l : list move) (i : nat) : list nat := (filter (fun x => x.2 = i) l).*1.*1.
Lemma elem_lost l i p : p ∈ lost l i <-> exists r, (p, i, r) ∈ l.
Proof.
  unfold lost. rewrite elem_of_list_to_set, elem_of_list_fmap. setoid_rewrite elem_of_list_fmap. setoid_rewrite elem_of_list_filter. split.
  - intros (? & -> & [[? ?] ?] & -> & E & H). simpl in *. subst. eauto.
  - intros [r H]. exists (p, i). split; [done|]. by exists (p, i, r).
Qed.
Lemma elem_won l i p : p ∈ won l i <-> exists d, (p, d, i) ∈ l.
Proof.
  unfold won. rewrite elem_of_list_fmap. setoid_rewrite elem_of_list_fmap. setoid_rewrite elem_of_list_filter. split.
  - intros (? & -> & [[? ?] ?] & -> & E & H). simpl in *. subst. eauto.
  - intros [r H]. exists (p, r). split; [done|]. by exists (p, r, i).
Qed.
Definition reown (a : gset nat) (ps : list nat) (m : mem) : mem :=
  mkMem (mstat m) (mleft m) (withouts (mprep m) ps) (withouts (mrdy m) ps) ((masg m ∖ a) ∪ list_to_set ps) ((mdon m ∖ a) ∪ list_to_set ps) (a ∪ mdng m) (withouts (mto m) ps) (mforget m).
Lemma reown_nil m : reown ∅ [] m = m.
Proof. destruct m. unfold reown. simpl. rewrite !withouts_nil. f_equal; set_solver. Qed.
Lemma moves_snoc t l p d r g : moves t (l ++ [(p, d, r)]) g = assignTo t p r (unassignFrom p d (moves t l g)).
Proof. unfold moves. by rewrite foldl_app. Qed.
Lemma lost_snoc l p d r i : lost (l ++ [(p, d, r)]) i = if decide (d = i) then {[p]} ∪ lost l i else lost l i.
Proof. unfold lost. rewrite filter_app, !fmap_app, list_to_set_app_L. simpl. rewrite filter_cons, filter_nil. simpl. destruct (decide (d = i)); set_solver. Qed.
Lemma won_snoc l p d r i : won (l ++ [(p, d, r)]) i = if decide (r = i) then won l i ++ [p] else won l i.
Proof. unfold won. rewrite filter_app, !fmap_app. simpl. rewrite filter_cons, filter_nil. simpl. destruct (decide (r = i)); simpl; [done|by rewrite app_nil_r]. Qed.
Lemma moves_mems t l g i : NoDup l.*1.*1 -> mems (moves t l g) !! i = reown (lost l i) (won l i) <$> mems g !! i.
Proof.
  induction l as [|[[p d] r] l IH] using rev_ind; intros ND.
  - simpl. unfold lost, won. simpl. destruct (mems g !! i) as [m|]; simpl; [by rewrite reown_nil|done].
  - rewrite !fmap_app in ND. simpl in ND. apply NoDup_app in ND as (N1 & N2 & _). specialize (IH N1). assert (P : p ∉ l.*1.*1) by (intros X; apply (N2 _ X); left).
    assert (P1 : p ∉ lost l i). { intros X. apply elem_lost in X as [r' X]. apply P. apply elem_of_list_fmap. exists (p, i). split; [done|]. apply elem_of_list_fmap. by exists (p, i, r'). }
    assert (P2 : p ∉ won l i). { intros X. apply elem_won in X as [d' X]. apply P. apply elem_of_list_fmap. exists (p, d'). split; [done|]. apply elem_of_list_fmap. by exists (p, d', i). }
    rewrite moves_snoc, lost_snoc, won_snoc. simpl.
    assert (E1 : alter (fun m => mkMem (mstat m) (mleft m) (mprep m) (mrdy m) (masg m ∖ {[p]}) (mdon m ∖ {[p]}) ({[p]} ∪ mdng m) (mto m) (mforget m)) d (mems (moves t l g)) !! i =
      reown (if decide (d = i) then {[p]} ∪ lost l i else lost l i) (won l i) <$> mems g !! i).
    { destruct (decide (d = i)) as [->|N].
      - rewrite lookup_alter, IH. destruct (mems g !! i) as [m|]; [|done]. simpl. f_equal. unfold reown. simpl. f_equal; set_solver.
      - by rewrite lookup_alter_ne, IH. }
    destruct (decide (r = i)) as [->|N]; [rewrite lookup_alter|by rewrite lookup_alter_ne]. rewrite E1. destruct (mems g !! i) as [m|]; [|done]. simpl. f_equal. unfold reown. simpl.
    rewrite !without_withouts. f_equal; rewrite list_to_set_app_L; set_solver.
Qed.
Lemma moves_asgd t l g : asgd (moves t l g) = asgd g /\ unas (moves t l g) = unas g.
Proof. induction l as [|[[p d] r] l IH] using rev_ind; [done|]. by rewrite moves_snoc. Qed.
Lemma moves_recv t l g : recv (moves t l g) = list_to_set l.*1.*1 ∪ recv g /\ trans (moves t l g) = list_to_set l.*1.*1 ∪ trans g.
Proof.
  induction l as [|[[p d] r] l [IH1 IH2]] using rev_ind; [set_solver|]. rewrite moves_snoc, !fmap_app, list_to_set_app_L. simpl. rewrite IH1, IH2. set_solver.
Qed.

(** fullyReady *)
Lemma fully_some t g l f p r : foldl (fully1 t g) f l !! p = Some r -> f !! p = Some r \/ exists x m, (x, r) ∈ l /\ x.2 = p /\ mems g !! r = Some m /\ (t, p) ∈ mrdy m.
Proof.
  revert f. induction l as [|[x j] l IH]; simpl; intros f; [by left|]. intros H. apply IH in H as [H|(y & m & Hy & R)]; [|right; exists y, m; set_solver].
  unfold fully1 in H. simpl in H. destruct (mems g !! j) as [m|] eqn:M; [|by left]. unfold readyFor in H. case_bool_decide as B; [|by left]. apply lookup_insert_Some in H as [[<- <-]|[_ H]]; [|by left].
  right. exists x, m. split_and!; [left|done|done|done].
Qed.
Lemma fully_mono t g l f p : is_Some (f !! p) -> is_Some (foldl (fully1 t g) f l !! p).
Proof.
  revert f. induction l as [|[x j] l IH]; simpl; intros f H; [done|]. apply IH. unfold fully1. simpl. destruct (mems g !! j); [|done]. case_match; [|done].
  destruct (decide (x.2 = p)) as [->|N]; [rewrite lookup_insert; eauto|by rewrite lookup_insert_ne].
Qed.
Lemma fully_in t g l f x r m : (x, r) ∈ l -> mems g !! r = Some m -> (t, x.2) ∈ mrdy m -> is_Some (foldl (fully1 t g) f l !! x.2).
Proof.
  revert f. induction l as [|[y j] l IH]; simpl; intros f H M R; [set_solver|]. apply elem_of_cons in H as [[= <- <-]|H]; [|by apply IH].
  apply fully_mono. unfold fully1. simpl. rewrite M. unfold readyFor. rewrite bool_decide_true by done. rewrite lookup_insert. eauto.
Qed.
Lemma deliver_log o t g : orc_ok o -> exists l, deliver o t g = moves t l g /\ NoDup l.*1.*1 /\
  forall p d r, (p, d, r) ∈ l <-> fullyReady o t g !! p = Some r /\ asgd g !! p = Some d.
Proof.
  intros [_ _ OF]. unfold deliver. pose proof (OF (map_to_list (fullyReady o t g))) as P. set (F := oF o (map_to_list (fullyReady o t g))) in *.
  assert (ND : NoDup F.*1) by (rewrite P; apply NoDup_fst_map_to_list).
  assert (EF : forall p r, (p, r) ∈ F <-> fullyReady o t g !! p = Some r) by (intros p r; by rewrite P, elem_of_map_to_list). clearbody F. clear P.
  enough (exists l, foldl (deliver1 t) g F = moves t l g /\ NoDup l.*1.*1 /\ forall p d r, (p, d, r) ∈ l <-> (p, r) ∈ F /\ asgd g !! p = Some d) as (l & E & N & H)
    by (exists l; split_and!; [done|done|]; intros p d r; by rewrite H, EF). clear EF.
  induction F as [|[p r] F IH] using rev_ind; [exists []; split_and!; [done|constructor|set_solver]|]. rewrite fmap_app in ND. simpl in ND. apply NoDup_app in ND as (N1 & N2 & _).
  destruct (IH N1) as (l & E & N & H). rewrite foldl_app. simpl. rewrite E. unfold deliver1. simpl. rewrite (proj1 (moves_asgd t l g)). destruct (asgd g !! p) as [d|] eqn:D.
  - exists (l ++ [(p, d, r)]). split_and!; [by rewrite moves_snoc| |].
    + rewrite !fmap_app. simpl. apply NoDup_app. split_and!; [done| |apply NoDup_singleton]. intros q Q. apply elem_of_list_fmap in Q as ([q' d'] & -> & Q).
      apply elem_of_list_fmap in Q as ([[q'' d''] r'] & [= -> ->] & Q). simpl. apply H in Q as [Q _]. intros X. apply elem_of_list_singleton in X as ->. apply (N2 p); [|left].
      apply elem_of_list_fmap. by exists (p, r').
    + intros p' d' r'. rewrite !elem_of_app, !elem_of_list_singleton, H. naive_solver.
  - exists l. split_and!; [done|done|]. intros p' d' r'. rewrite elem_of_app, elem_of_list_singleton, H. naive_solver.
Qed.
