(** newGroupState. *)
From Verif.Balancer Require Export Lists.
From stdpp Require Export prelude list gmap sorting.
Open Scope nat_scope.

(** the owner of a partition: the first member that claims it *)
Definition firstOwner (t : nat) (cs : list claim) (p i : nat) : Prop :=
  exists cs1 c cs2, cs = cs1 ++ c :: cs2 /\ cid c = i /\ p ∈ owned t c /\ forall c', c' ∈ cs1 -> p ∉ owned t c'.
Definition sound (c : claim) : Prop := cok c = true /\ cstat c = Active.

Lemma claim1_fold i l u a s u' a' s' : foldl (claim1 i) (u, a, s) l = (u', a', s') ->
  (forall p, p ∈ u' <-> p ∈ u /\ p ∉ l) /\ (forall p, a' !! p = match a !! p with Some j => Some j | None => if decide (p ∈ l) then Some i else None end) /\
  (forall p, p ∈ s' <-> p ∈ s \/ (p ∈ l /\ a !! p = None)).
Proof.
  revert u a s. induction l as [|q l IH]; simpl; intros u a s.
  - intros [= <- <- <-]. split_and!; [set_solver|intros p; by destruct (a !! p)|set_solver].
  - intros H. apply IH in H as (H1 & H2 & H3). split_and!; [set_solver| |].
    + intros p. rewrite H2. destruct (a !! q) eqn:Q.
      * destruct (a !! p) eqn:P; [done|]. destruct (decide (p = q)) as [->|N]; [congruence|]. destruct (decide (p ∈ l)), (decide (p ∈ q :: l)); set_solver.
      * destruct (decide (p = q)) as [->|N].
        -- rewrite lookup_insert, Q, decide_True by left. done.
        -- rewrite lookup_insert_ne by done. destruct (a !! p); [done|]. destruct (decide (p ∈ l)), (decide (p ∈ q :: l)); set_solver.
    + intros p. rewrite H3. destruct (a !! q) eqn:Q; [destruct (decide (p = q)) as [->|N]; set_solver|].
      destruct (decide (p = q)) as [->|N]; [set_solver|]. rewrite lookup_insert_ne by done. set_solver.
Qed.
Lemma insert_all (i : nat) (l : list tp) (r : gmap tp nat) x : foldl (fun r x => <[x := i]> r) r l !! x = if decide (x ∈ l) then Some i else r !! x.
Proof.
  revert r. induction l as [|y l IH]; simpl; intros r; [done|]. rewrite IH. destruct (decide (x ∈ l)), (decide (x ∈ y :: l)); [done|set_solver| |].
  - assert (x = y) as -> by set_solver. by rewrite lookup_insert.
  - rewrite lookup_insert_ne; set_solver.
Qed.
Lemma firstOwner_snoc t cs c p i : firstOwner t (cs ++ [c]) p i <-> firstOwner t cs p i \/ ((forall c', c' ∈ cs -> p ∉ owned t c') /\ p ∈ owned t c /\ cid c = i).
Proof.
  split.
  - intros (l1 & d & l2 & E & Hi & Hp & Hn). destruct (decide (l2 = [])) as [->|N].
    + apply app_inj_tail in E as [-> ->]. right. naive_solver.
    + apply exists_last in N as [l3 [y ->]]. rewrite app_comm_cons, app_assoc in E. apply app_inj_tail in E as [-> ->]. left. exists l1, d, l3. naive_solver.
  - intros [(l1 & d & l2 & -> & Hi & Hp & Hn)|(Hn & Hp & Hi)]; [exists l1, d, (l2 ++ [c])|exists cs, c, []]; [rewrite <- app_assoc|]; naive_solver.
Qed.
Lemma firstOwner_fun t cs p i j : firstOwner t cs p i -> firstOwner t cs p j -> i = j.
Proof.
  induction cs as [|c cs IH] using rev_ind; [intros (l1 & ? & ? & E & _); by destruct l1|]. rewrite !firstOwner_snoc. intros [H|H] [K|K]; [by apply IH| | |naive_solver].
  - destruct H as (l1 & d & l2 & -> & ? & Hp & ?), K as [K _]. destruct (K d); set_solver.
  - destruct K as (l1 & d & l2 & -> & ? & Hp & ?), H as [H _]. destruct (H d); set_solver.
Qed.
Lemma firstOwner_ex t cs p : (exists i, firstOwner t cs p i) <-> exists c, c ∈ cs /\ p ∈ owned t c.
Proof.
  induction cs as [|c cs IH] using rev_ind; [split; [intros (? & l1 & ? & ? & E & _); by destruct l1|set_solver]|]. setoid_rewrite firstOwner_snoc. split.
  - intros [i [H|H]]; [assert (exists i, firstOwner t cs p i) as (d & D & P)%IH by eauto; exists d; set_solver|exists c; set_solver].
  - intros (d & D & P). destruct (decide (Forall (fun c' => p ∉ owned t c') cs)) as [F|F].
    + rewrite Forall_forall in F. exists (cid c). right. split_and!; [done| |done]. apply elem_of_app in D as [D|D]; [destruct (F d D P)|by apply elem_of_list_singleton in D as ->].
    + apply not_Forall_Exists in F; [|apply _]. apply Exists_exists in F as (d' & D' & P'). assert (exists i, firstOwner t cs p i) as [i Hi] by (apply IH; exists d'; split; [done|by apply dec_stable]). eauto.
Qed.

(** what a member's record has from its claim *)
Record From (c : claim) (m : mem) : Prop := mkFrom {
  f_stat : mstat m = cstat c; f_left : mleft m = cleft c; f_prep : mprep m = cprep c; f_rdy : mrdy m = crdy c; f_to : mto m = [];
  f_forget : mforget m = (if cok c then if decide (cstat c = Active) then [] else cprep c ++ crdy c else []) }.
Record Common (n t : nat) (cs : list claim) (g : gs) : Prop := mkCommon {
  i_asgd : forall p i, asgd g !! p = Some i <-> firstOwner t cs p i;
  i_unas : forall p, p ∈ unas g <-> p < n /\ asgd g !! p = None;
  i_mem : forall i m, mems g !! i = Some m -> exists c, c ∈ cs /\ cid c = i /\ From c m;
  i_all : forall c, c ∈ cs -> is_Some (mems g !! cid c);
  i_asg : forall i m, mems g !! i = Some m -> forall p, p ∈ masg m <-> asgd g !! p = Some i;
  i_rdy : forall x i, rdym g !! x = Some i -> exists c, c ∈ cs /\ cid c = i /\ sound c /\ x ∈ crdy c;
  i_rdy' : forall c x, c ∈ cs -> sound c -> x ∈ crdy c -> is_Some (rdym g !! x);
  i_recv : forall p, p ∈ recv g <-> exists c x, c ∈ cs /\ sound c /\ x ∈ cprep c ++ crdy c /\ snd x = p;
  i_trans : trans g = ∅ }.
Record Pre (n t : nat) (cs : list claim) (g : gs) : Prop := mkPre { p_common : Common n t cs g; p_don : forall i m, mems g !! i = Some m -> mdon m = masg m /\ mdng m = ∅ }.

Lemma Pre_step n t cs c g : cid c ∉ cid <$> cs -> Pre n t cs g -> Pre n t (cs ++ [c]) (addClaim t g c).
Proof.
  intros N [[A U M L G R R' V T] D]. unfold addClaim.
  destruct (if cok c then _ else _) as [[r v] f] eqn:Erv. destruct (foldl (claim1 (cid c)) (unas g, asgd g, ∅) (owned t c)) as [[u a] s] eqn:E.
  apply claim1_fold in E as (E1 & E2 & E3).
  assert (Nc : forall p, asgd g !! p <> Some (cid c)).
  { intros p P. apply A in P as (l1 & d & l2 & -> & Hd & _). apply N. rewrite <- Hd. apply elem_of_list_fmap_1. set_solver. }
  assert (Nn : mems g !! cid c = None).
  { destruct (mems g !! cid c) as [m|] eqn:Em; [|done]. apply M in Em as (d & Hd & Ed & _). exfalso. apply N. rewrite <- Ed. by apply elem_of_list_fmap_1. }
  assert (Nd : forall d, d ∈ cs -> cid d <> cid c) by (intros d Hd Ed; apply N; rewrite <- Ed; by apply elem_of_list_fmap_1).
  assert (Ha : forall p i, a !! p = Some i <-> asgd g !! p = Some i \/ (asgd g !! p = None /\ p ∈ owned t c /\ i = cid c)).
  { intros p i. rewrite E2. destruct (asgd g !! p); [naive_solver|]. destruct (decide (p ∈ owned t c)); naive_solver. }
  assert (Hn : forall p, asgd g !! p = None <-> forall c', c' ∈ cs -> p ∉ owned t c').
  { intros p. split.
    - intros H d Hd Pd. assert (exists i, firstOwner t cs p i) as [i Hi] by (apply firstOwner_ex; eauto). apply A in Hi. congruence.
    - intros H. destruct (asgd g !! p) as [i|] eqn:Ei; [|done]. apply A in Ei. assert (exists i, firstOwner t cs p i) as (d & Hd & Pd)%firstOwner_ex by eauto. by destruct (H d Hd). }
  assert (Hr : (forall x i, r !! x = Some i -> rdym g !! x = Some i \/ (sound c /\ x ∈ crdy c /\ i = cid c)) /\ (forall x, is_Some (rdym g !! x) \/ (sound c /\ x ∈ crdy c) -> is_Some (r !! x)) /\
    (forall p, p ∈ v <-> p ∈ recv g \/ (sound c /\ exists x, x ∈ cprep c ++ crdy c /\ snd x = p)) /\ f = (if cok c then if decide (cstat c = Active) then [] else cprep c ++ crdy c else [])).
  { unfold sound. destruct (cok c); [case_decide|]; injection Erv as <- <- <-; (split_and!; [| | |done]).
    - intros x i. rewrite insert_all. case_decide; naive_solver.
    - intros x. rewrite insert_all. case_decide; [eauto|naive_solver].
    - intros p. rewrite elem_of_union, elem_of_list_to_set, elem_of_list_fmap. naive_solver.
    - naive_solver.
    - naive_solver.
    - naive_solver.
    - naive_solver.
    - naive_solver.
    - naive_solver. }
  destruct Hr as (Hr1 & Hr2 & Hv & Hf). split; [split; simpl|simpl].
  - intros p i. rewrite Ha, firstOwner_snoc, A, Hn. naive_solver.
  - intros p. rewrite E1, U, E2. destruct (asgd g !! p); [naive_solver|]. destruct (decide (p ∈ owned t c)); naive_solver.
  - intros i m. rewrite lookup_insert_Some. intros [[<- <-]|[Hi Hm]].
    + exists c. split_and!; [set_solver|done|by split].
    + apply M in Hm as (d & Hd & Ed & F). exists d. split_and!; [set_solver|done|done].
  - intros d. rewrite elem_of_app, elem_of_list_singleton. intros [Hd| ->]; [|rewrite lookup_insert; eauto]. rewrite lookup_insert_ne by (by apply not_eq_sym, Nd). by apply L.
  - intros i m. rewrite lookup_insert_Some. intros [[<- <-]|[Hi Hm]] p; simpl.
    + rewrite E3, Ha. specialize (Nc p). set_solver.
    + rewrite (G i m Hm p), Ha. naive_solver.
  - intros x i Hx. apply Hr1 in Hx as [Hx|(S1 & Hx & ->)]; [|exists c; set_solver]. apply R in Hx as (d & Hd & Ed & Sd & Xd). exists d. set_solver.
  - intros d x. rewrite elem_of_app, elem_of_list_singleton. intros [Hd| ->] Sd Xd; apply Hr2; [left; by apply (R' d)|by right].
  - intros p. rewrite Hv, V. split.
    + intros [(d & x & Hd & Sd & Xd)|(Sc & x & Xc)]; [exists d, x|exists c, x]; (split; [|done]); set_solver.
    + intros (d & x & Hd & Sd & Xd). apply elem_of_app in Hd as [Hd|Hd]; [left; eauto|]. apply elem_of_list_singleton in Hd as ->. right. eauto.
  - done.
  - intros i m. rewrite lookup_insert_Some. intros [[<- <-]|[Hi Hm]]; [done|by apply D in Hm].
Qed.
Lemma Pre_fold n t cs : NoDup (cid <$> cs) -> Pre n t cs (foldl (addClaim t) (mkGs ∅ (list_to_set (seq 0 n)) ∅ ∅ ∅ ∅) cs).
Proof.
  induction cs as [|c cs IH] using rev_ind.
  - intros _. simpl. split; [split; simpl|]; try (intros *; rewrite ?lookup_empty; naive_solver).
    + intros p i. rewrite lookup_empty. split; [done|]. intros (l1 & ? & ? & E & _). by destruct l1.
    + intros p. rewrite elem_of_list_to_set, elem_of_seq, lookup_empty. naive_solver lia.
    + intros c. set_solver.
    + intros c x. set_solver.
    + intros p. set_solver.
  - rewrite fmap_app. simpl. intros N. apply NoDup_app in N as (N1 & N2 & _). rewrite foldl_app. simpl. apply Pre_step; [|by apply IH]. intros H. apply (N2 _ H). left.
Qed.

Record Init (n t : nat) (cs : list claim) (g : gs) : Prop := mkInit { n_common : Common n t cs g;
  n_don : forall i m, mems g !! i = Some m -> mdon m = masg m ∖ recv g /\ mdng m = masg m ∩ recv g }.

Lemma toDonating_fold n t cs g l : Common n t cs g -> (forall i m, mems g !! i = Some m -> mdon m = masg m /\ mdng m = ∅) ->
  let g' := foldl toDonating g l in
  Common n t cs g' /\ recv g' = recv g /\ forall i m, mems g' !! i = Some m -> mdon m = masg m ∖ list_to_set l /\ mdng m = masg m ∩ list_to_set l.
Proof.
  intros C D. induction l as [|p l IH] using rev_ind; simpl in *.
  - split_and!; [done|done|]. intros i m H. apply D in H as [-> ->]. set_solver.
  - rewrite foldl_app. simpl. destruct IH as (IC & IR & ID). set (h := foldl toDonating g l) in *. unfold toDonating. rewrite list_to_set_app_L. simpl. rewrite union_empty_r_L.
    destruct (asgd h !! p) as [i|] eqn:Ei.
    + destruct IC as [A U M L G R R' V T]. split_and!; [split; simpl; try done|done|]; simpl.
      * intros j m. rewrite lookup_alter_Some. intros [(<- & m' & Hm & ->)|[Hj Hm]]; [|by apply M]. apply M in Hm as (c & Hc & Ec & [? ? ? ? ? ?]). exists c. split_and!; [done|done|by split].
      * intros c Hc. destruct (decide (i = cid c)) as [->|Ni]; [rewrite lookup_alter, fmap_is_Some; by apply L|rewrite lookup_alter_ne by done; by apply L].
      * intros j m. rewrite lookup_alter_Some. intros [(<- & m' & Hm & ->)|[Hj Hm]]; simpl; by apply G.
      * intros j m. rewrite lookup_alter_Some. intros [(<- & m' & Hm & ->)|[Hj Hm]]; simpl.
        -- destruct (ID _ _ Hm) as [-> ->]. pose proof (proj2 (G _ _ Hm p) Ei). split; [|]; apply set_eq; intros q; destruct (decide (q = p)); set_solver.
        -- destruct (ID _ _ Hm) as [-> ->]. assert (p ∉ masg m) by (intros P; apply (G _ _ Hm) in P; congruence). set_solver.
    + split_and!; [done|done|]. intros j m Hm. destruct (ID _ _ Hm) as [-> ->]. assert (p ∉ masg m) by (intros P; apply (i_asg _ _ _ _ IC _ _ Hm) in P; congruence). set_solver.
Qed.
Theorem Init_new n t cs : NoDup (cid <$> cs) -> Init n t cs (newGroupState n t cs).
Proof.
  intros N. destruct (Pre_fold n t cs N) as [C D]. unfold newGroupState. set (g := foldl (addClaim t) _ cs) in *.
  destruct (toDonating_fold n t cs g (elements (recv g)) C D) as (C' & R' & D'). split; [done|]. intros i m Hm. rewrite R'. destruct (D' i m Hm) as [-> ->]. by rewrite list_to_set_elements_L.
Qed.
