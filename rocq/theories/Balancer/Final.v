(** The state after a balance. *)
From Verif.Balancer Require Export Core.
From stdpp Require Export prelude list gmap sorting.
Open Scope nat_scope.

(** schedulePartitionMoves with a budget of 1 *)
Definition pickMove (n : nat) (g : gs) : option ((nat * mem) * (nat * mem)) :=
  match list_find (fun x => mdon (snd x) <> ∅) (inactives g), head (actives g) with
  | Some (_, d), Some r => Some (d, r)
  | _, _ => isImbalanced n g
  end.
Lemma schedule_one o n t g : schedule o n t 1 g = match pickMove n g with Some (d, r) => donate o t 1 d r g | None => g end.
Proof. unfold schedule, pickMove. simpl. destruct (list_find _ (inactives g)) as [[k d]|]; [destruct (head (actives g))|]; simpl; by destruct (isImbalanced n g) as [[? ?]|]. Qed.
Lemma schedule_zero o n t g : schedule o n t 0 g = g.
Proof. done. Qed.

Record Log (n t : nat) (cs : list claim) (l1 : list (nat * nat)) (l2 : list move) : Prop := mkLog {
  l_dist : Dist t (newGroupState n t cs) l1;
  l_un : forall p, p ∈ l1.*1 <-> p < n /\ forall c, c ∈ cs -> p ∉ owned t c;
  l_nd1 : NoDup l1.*1;
  l_nd2 : NoDup l2.*1.*1;
  l_mv : forall p d r, (p, d, r) ∈ l2 -> firstOwner t cs p d /\ exists c, c ∈ cs /\ cid c = r /\ sound c /\ (t, p) ∈ crdy c;
  l_all : forall p d c, firstOwner t cs p d -> c ∈ cs -> sound c -> (t, p) ∈ crdy c -> exists r, (p, d, r) ∈ l2 }.
Notation g2 n t cs l1 l2 := (moves t l2 (assigns t l1 (newGroupState n t cs))).

Lemma none_owned n t cs p : NoDup (cid <$> cs) -> asgd (newGroupState n t cs) !! p = None <-> forall c, c ∈ cs -> p ∉ owned t c.
Proof.
  intros N. destruct (Init_new n t cs N) as [[A _ _ _ _ _ _ _ _] _]. split.
  - intros H c C P. assert (exists i, firstOwner t cs p i) as [i Hi] by (apply firstOwner_ex; eauto). apply A in Hi. congruence.
  - intros H. destruct (asgd _ !! p) as [i|] eqn:E; [|done]. apply A in E. assert (exists i, firstOwner t cs p i) as (c & C & P)%firstOwner_ex by eauto. by destruct (H c C).
Qed.
Lemma claim_eq cs c c' : NoDup (cid <$> cs) -> c ∈ cs -> c' ∈ cs -> cid c = cid c' -> c = c'.
Proof.
  intros N. induction cs as [|x cs IH]; [set_solver|]. rewrite fmap_cons, NoDup_cons in N. destruct N as [N1 N2]. rewrite !elem_of_cons. intros [->|H] [->|H'] E; [done| | |by apply IH].
  - destruct N1. rewrite E. by apply elem_of_list_fmap_1.
  - destruct N1. rewrite <- E. by apply elem_of_list_fmap_1.
Qed.
Lemma actives_new n t cs : NoDup (cid <$> cs) -> actives (newGroupState n t cs) <> [] <-> exists c, c ∈ cs /\ cstat c <> Inactive.
Proof.
  intros N. destruct (Init_new n t cs N) as [[_ _ M L _ _ _ _ _] _]. rewrite actives_nonempty. split.
  - intros (i & m & H & Sm). apply M in H as (c & C & <- & F). exists c. by rewrite <- (f_stat _ _ F).
  - intros (c & C & Sc). destruct (L c C) as [m Hm]. exists (cid c), m. split; [done|]. apply M in Hm as (c' & C' & E & F). pose proof (claim_eq cs c' c N C' C E) as ->. by rewrite (f_stat _ _ F).
Qed.
Theorem log_exists o n t cs : orc_ok o -> NoDup (cid <$> cs) -> actives (newGroupState n t cs) <> [] -> exists l1 l2, Log n t cs l1 l2 /\
  deliver o t (distribute o t (newGroupState n t cs)) = g2 n t cs l1 l2.
Proof.
  intros O N A. pose proof (Init_new n t cs N) as [C D]. pose proof (fun p => none_owned n t cs p N) as NO. set (g := newGroupState n t cs) in *. destruct (distribute_log o t g O A) as (l1 & E1 & P1 & D1).
  destruct (deliver_log o t (assigns t l1 g) O) as (l2 & E2 & N2 & M2). exists l1, l2. rewrite E1, E2. split; [|done].
  assert (U1 : forall p, p ∈ l1.*1 <-> p < n /\ forall c, c ∈ cs -> p ∉ owned t c) by (intros p; by rewrite P1, elem_of_elements, (i_unas _ _ _ _ C), NO).
  split; [done|done| |done| |].
  - rewrite P1. apply NoDup_elements.
  - intros p d r H. apply M2 in H as [H1 H2]. rewrite (proj1 (assigns_asgd t l1 g)), (i_asgd _ _ _ _ C) in H2. split; [done|].
    apply fully_some in H1 as [H1|(x & m & Hx & <- & Hm & Hr)]; [by rewrite lookup_empty in H1|]. destruct O as [_ OR _]. rewrite OR, elem_of_map_to_list in Hx. apply assigns_rdym_some in Hx.
    apply (i_rdy _ _ _ _ C) in Hx as (c & Cc & Ec & Sc & _). rewrite assigns_mems in Hm. apply fmap_Some in Hm as (m0 & Hm & ->). exists c. split_and!; [done|done|done|].
    apply (i_mem _ _ _ _ C) in Hm as (c' & C' & E' & F). rewrite <- Ec in E'. pose proof (claim_eq cs c' c N C' Cc E') as ->. rewrite <- (f_rdy _ _ F). apply elem_withouts in Hr as [Hr _]. done.
  - intros p d c H Cc Sc R. pose proof (proj2 (i_asgd _ _ _ _ C p d) H) as H'.
    destruct (i_rdy' _ _ _ _ C c (t, p) Cc Sc R) as [j Hj]. assert (Np : p ∉ l1.*1). { intros X. apply U1 in X as [_ X]. assert (exists i, firstOwner t cs p i) as (c' & C' & P')%firstOwner_ex by eauto. by apply (X c'). }
    assert (Hj' : rdym (assigns t l1 g) !! (t, p) = Some j) by (rewrite assigns_rdym; [done|by right]).
    destruct (i_rdy _ _ _ _ C _ _ Hj) as (c' & C' & E' & S' & R'). destruct (i_all _ _ _ _ C c' C') as [m Hm]. rewrite E' in Hm.
    pose proof Hm as Hm'. apply (i_mem _ _ _ _ C) in Hm' as (c'' & C'' & E'' & F). rewrite <- E' in E''. pose proof (claim_eq cs c'' c' N C'' C' E'') as ->.
    assert (K : is_Some (fullyReady o t (assigns t l1 g) !! p)).
    { unfold fullyReady. apply (fully_in t (assigns t l1 g) _ _ (t, p) j (give (got l1 j) m)); [|by rewrite assigns_mems, Hm|].
      - destruct O as [_ OR _]. by rewrite OR, elem_of_map_to_list.
      - simpl. apply elem_withouts. rewrite (f_rdy _ _ F). split; [done|]. simpl. intros X. apply elem_got in X. apply Np. apply elem_of_list_fmap. by exists (p, j). }
    destruct K as [r Hr]. exists r. apply M2. split; [done|]. by rewrite (proj1 (assigns_asgd t l1 g)).
Qed.
Lemma mems_g2 n t cs l1 l2 i : Log n t cs l1 l2 -> mems (g2 n t cs l1 l2) !! i = reown (lost l2 i) (won l2 i) ∘ give (got l1 i) <$> mems (newGroupState n t cs) !! i.
Proof. intros L. rewrite moves_mems by apply L. rewrite assigns_mems. by destruct (mems _ !! i). Qed.
Lemma recv_g2 n t cs l1 l2 : recv (g2 n t cs l1 l2) = list_to_set l2.*1.*1 ∪ list_to_set l1.*1 ∪ recv (newGroupState n t cs).
Proof. rewrite (proj1 (moves_recv _ _ _)), (proj1 (assigns_recv _ _ _)). set_solver. Qed.

(** The state after balance: either something is in receivership and nothing is scheduled, or nothing was moved. *)
Theorem balanced_cases o n t cs : orc_ok o -> NoDup (cid <$> cs) -> actives (newGroupState n t cs) <> [] -> exists l1 l2, Log n t cs l1 l2 /\
  ((recv (g2 n t cs l1 l2) <> ∅ /\ balanced o n t cs = g2 n t cs l1 l2) \/
   (l1 = [] /\ l2 = [] /\ recv (newGroupState n t cs) = ∅ /\ balanced o n t cs = schedule o n t 1 (newGroupState n t cs))).
Proof.
  intros O N A. destruct (log_exists o n t cs O N A) as (l1 & l2 & L & E). exists l1, l2. split; [done|]. unfold balanced. rewrite decide_False by done. unfold balance. rewrite E.
  destruct (decide (recv (g2 n t cs l1 l2) = ∅)) as [R|R]; [right|left].
  - assert (l1 = []) as ->. { destruct l1 as [|[p i] l]; [done|]. rewrite recv_g2 in R. simpl in R. set_solver. }
    assert (l2 = []) as ->. { destruct l2 as [|[[p d] i] l]; [done|]. rewrite recv_g2 in R. simpl in R. set_solver. }
    simpl in *. rewrite R. destruct (Init_new n t cs N) as [C _]. rewrite (i_trans _ _ _ _ C). done.
  - split; [done|]. replace (1 - _ - _) with 0; [done|]. assert (size (recv (g2 n t cs l1 l2)) <> 0); [|lia]. intros Z. apply size_empty_inv in Z. set_solver.
Qed.
(** schedule changes instructions only *)
Lemma donate_mems o t b d r g i : mems (donate o t b d r g) !! i =
  (fun m => mkMem (mstat m) (mleft m) (mprep m) (mrdy m) (masg m) (mdon m) (mdng m) (if decide (r.1 = i) then mto m ++ [(t, randomPartition o b d.2)] else mto m) (mforget m)) <$> mems g !! i.
Proof.
  unfold donate. simpl. destruct (decide (r.1 = i)) as [->|N]; [by rewrite lookup_alter|]. rewrite lookup_alter_ne by done. destruct (mems g !! i) as [[]|]; done.
Qed.
Definition like (m m' : mem) : Prop := mstat m' = mstat m /\ mleft m' = mleft m /\ masg m' = masg m /\ mforget m' = mforget m.
Lemma schedule_like o n t g i : exists f, mems (schedule o n t 1 g) !! i = f <$> mems g !! i /\ forall m, like m (f m).
Proof.
  rewrite schedule_one. destruct (pickMove n g) as [[d r]|]; [rewrite donate_mems; eexists; split; [done|done]|].
  exists id. split; [by destruct (mems g !! i)|done].
Qed.

(** Ownership after the balance. *)
Theorem owner_final o n t cs : orc_ok o -> NoDup (cid <$> cs) -> actives (newGroupState n t cs) <> [] -> exists l1 l2, Log n t cs l1 l2 /\
  forall i, match mems (newGroupState n t cs) !! i with
  | Some m0 => exists m, mems (balanced o n t cs) !! i = Some m /\ mstat m = mstat m0 /\ mleft m = mleft m0 /\ mforget m = mforget m0 /\
      forall p, p ∈ masg m <-> (p, i) ∈ l1 \/ (exists d, (p, d, i) ∈ l2) \/ (firstOwner t cs p i /\ forall d r, (p, d, r) ∉ l2)
  | None => mems (balanced o n t cs) !! i = None
  end.
Proof.
  intros O N A. destruct (balanced_cases o n t cs O N A) as (l1 & l2 & L & H). exists l1, l2. split; [done|]. intros i. destruct (Init_new n t cs N) as [C D].
  destruct (mems (newGroupState n t cs) !! i) as [m0|] eqn:M0.
  - assert (As : forall p, p ∈ masg m0 <-> firstOwner t cs p i) by (intros p; by rewrite (i_asg _ _ _ _ C i m0 M0), (i_asgd _ _ _ _ C)).
    destruct H as [[_ ->]|(-> & -> & _ & ->)].
    + rewrite mems_g2, M0 by done. eexists. split; [done|]. simpl. split_and!; [done|done|done|]. intros p.
      rewrite elem_of_union, elem_of_difference, elem_of_union, !elem_of_list_to_set, As, elem_got, elem_won, elem_lost. split.
      * intros [[[G|F] NL]|W]; [by left| |by right; left]. right. right. split; [done|]. intros d r X. pose proof (l_mv _ _ _ _ _ L _ _ _ X) as [F' _].
        rewrite (firstOwner_fun _ _ _ _ _ F F') in NL. eauto.
      * intros [G|[W|[F X]]]; [|by right|].
        -- left. split; [by left|]. intros [r X]. apply (l_mv _ _ _ _ _ L) in X as [F _]. assert (exists i, firstOwner t cs p i) as (c & Cc & P)%firstOwner_ex by eauto.
           assert (p ∈ l1.*1) as Q by (apply elem_of_list_fmap; by exists (p, i)). apply (l_un _ _ _ _ _ L) in Q as [_ Q]. by apply (Q c).
        -- left. split; [by right|]. intros [r Y]. by apply (X _ _ Y).
    + destruct (schedule_like o n t (newGroupState n t cs) i) as (f & -> & Lf). rewrite M0. exists (f m0). destruct (Lf m0) as (-> & -> & -> & ->). split_and!; [done|done|done|done|]. intros p.
      rewrite As. split; [|intros [X|[[d X]|[F _]]]; [set_solver|set_solver|done]]. intros F. right. right. split; [done|]. set_solver.
  - destruct H as [[_ ->]|(-> & -> & _ & ->)]; [by rewrite mems_g2, M0|]. destruct (schedule_like o n t (newGroupState n t cs) i) as (f & -> & Lf). by rewrite M0.
Qed.
