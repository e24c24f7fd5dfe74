(** The group converges. *)
From Verif.Balancer Require Export Instr Group.
From stdpp Require Export prelude list gmap sorting.
Open Scope nat_scope.

Definition Owned (ps : list peer) (q : nat) : Prop := exists x, x ∈ ps /\ q ∈ pown x.
(** the partition in flight *)
Record Flight (n : nat) (ps : list peer) (r : peer) (p : nat) : Prop := mkFlight {
  fl_in : r ∈ ps; fl_act : pstat r = Active; fl_lt : p < n; fl_not : p ∉ pown r;
  fl_kind : (pprep r = {[p]} /\ prdy r = ∅ /\ Owned ps p) \/ (pprep r = ∅ /\ prdy r = {[p]});
  fl_others : forall x, x ∈ ps -> x <> r -> pprep x = ∅ /\ prdy x = ∅;
  fl_owned : forall q, q < n -> q <> p -> Owned ps q }.
Definition Calm (ps : list peer) : Prop := forall x, x ∈ ps -> pprep x = ∅ /\ prdy x = ∅.
Record Sane (n : nat) (ps : list peer) : Prop := mkSane {
  v_ids : NoDup (pid <$> ps); v_stat : forall x, x ∈ ps -> pstat x = Active \/ pstat x = Inactive; v_act : exists x, x ∈ ps /\ pstat x = Active;
  v_one : forall x y p, x ∈ ps -> y ∈ ps -> p ∈ pown x -> p ∈ pown y -> x = y; v_lt : forall x p, x ∈ ps -> p ∈ pown x -> p < n }.
Record Inv (n : nat) (ps : list peer) : Prop := mkInv { v_sane : Sane n ps; v_fl : Calm ps \/ exists r p, Flight n ps r p }.

Lemma pid_eq ps x y : NoDup (pid <$> ps) -> x ∈ ps -> y ∈ ps -> pid x = pid y -> x = y.
Proof.
  intros N. induction ps as [|z ps IH]; [set_solver|]. rewrite fmap_cons, NoDup_cons in N. destruct N as [N1 N2]. rewrite !elem_of_cons. intros [->|H] [->|H'] E; [done| | |by apply IH].
  - destruct N1. rewrite E. by apply elem_of_list_fmap_1.
  - destruct N1. rewrite <- E. by apply elem_of_list_fmap_1.
Qed.
Lemma owned_claim t x : owned t (claim_of t x) = elements (pown x).
Proof. unfold owned, claim_of. simpl. rewrite decide_True by done. done. Qed.

Section claims.
  Context (o : orc) (n t : nat) (ps : list peer) (O : orc_ok o) (V : Sane n ps).
  Notation cs := (claim_of t <$> ps).
  Lemma cs_ids : NoDup (cid <$> cs).
  Proof using O V. rewrite <- list_fmap_compose. apply V. Qed.
  Lemma cs_act : exists c, c ∈ cs /\ cstat c <> Inactive.
  Proof using O V. destruct (v_act _ _ V) as (x & X & E). exists (claim_of t x). split; [by apply elem_of_list_fmap_1|]. simpl. by rewrite E. Qed.
  Lemma cs_elem c : c ∈ cs <-> exists x, x ∈ ps /\ c = claim_of t x.
  Proof using O V. rewrite elem_of_list_fmap. naive_solver. Qed.
  Lemma cs_first p i : firstOwner t cs p i <-> exists x, x ∈ ps /\ pid x = i /\ p ∈ pown x.
  Proof using O V.
    split.
    - intros (a & c & b & E & Ec & P & _). assert (c ∈ cs) as H by (rewrite E; set_solver). apply cs_elem in H as (x & X & ->). exists x. rewrite owned_claim, elem_of_elements in P. done.
    - intros (x & X & <- & P). assert (exists i, firstOwner t cs p i) as [i Hi].
      { apply firstOwner_ex. exists (claim_of t x). rewrite owned_claim, elem_of_elements. split; [by apply elem_of_list_fmap_1|done]. }
      pose proof Hi as (a & c & b & E & Ec & Q & _). assert (c ∈ cs) as H by (rewrite E; set_solver). apply cs_elem in H as (y & Y & ->). rewrite owned_claim, elem_of_elements in Q.
      rewrite (v_one _ _ V x y p X Y P Q). simpl in Ec. by rewrite Ec.
  Qed.
  Lemma cs_owned p : (exists c, c ∈ cs /\ p ∈ owned t c) <-> Owned ps p.
  Proof using O V.
    split.
    - intros (c & H & P). apply cs_elem in H as (x & X & ->). rewrite owned_claim, elem_of_elements in P. by exists x.
    - intros (x & X & P). exists (claim_of t x). rewrite owned_claim, elem_of_elements. split; [by apply elem_of_list_fmap_1|done].
  Qed.
  Lemma cs_ready x p : (t, p) ∈ crdy (claim_of t x) <-> p ∈ prdy x.
  Proof using O V. simpl. rewrite elem_of_list_fmap. setoid_rewrite elem_of_elements. naive_solver. Qed.
  Lemma cs_prep x p : (t, p) ∈ cprep (claim_of t x) <-> p ∈ pprep x.
  Proof using O V. simpl. rewrite elem_of_list_fmap. setoid_rewrite elem_of_elements. naive_solver. Qed.
  Lemma cs_sound x : sound (claim_of t x) <-> pstat x = Active.
  Proof using O V. unfold sound. simpl. naive_solver. Qed.
  Lemma cs_empty x : cprep (claim_of t x) = [] /\ crdy (claim_of t x) = [] <-> pprep x = ∅ /\ prdy x = ∅.
  Proof using O V.
    simpl. split.
    - intros [H1 H2]. apply fmap_nil_inv, elements_empty_inv, leibniz_equiv in H1. apply fmap_nil_inv, elements_empty_inv, leibniz_equiv in H2. done.
    - intros [-> ->]. by rewrite elements_empty.
  Qed.
  Lemma cs_quiet : quiet n t cs <-> (forall x, x ∈ ps -> pstat x = Active -> pprep x = ∅ /\ prdy x = ∅) /\ forall q, q < n -> Owned ps q.
  Proof using O V.
    unfold quiet. setoid_rewrite cs_owned. split; intros [H1 H2]; (split; [|done]).
    - intros x X S. apply cs_empty. apply H1; [by apply elem_of_list_fmap_1|by apply cs_sound].
    - intros c H S1. apply cs_elem in H as (x & X & ->). apply cs_empty. exact (H1 x X (proj1 (cs_sound x) S1)).
  Qed.
  Notation PL := (planned o n t cs).
  Lemma pl_of x p : x ∈ ps -> p ∈ plan_of (plan o n t cs) (pid x) <-> PL p (pid x).
  Proof using O V.
    intros X. unfold plan_of, planned. destruct (list_find _ (plan o n t cs)) as [[k [i l]]|] eqn:F.
    - apply list_find_Some in F as (F1 & F2 & _). simpl in *. subst i. apply elem_of_list_lookup_2 in F1. rewrite elem_of_list_to_set. split; [eauto|]. intros (l' & H & P).
      apply (elem_plan o n t cs O cs_ids cs_act) in F1 as (m & M & ->). apply (elem_plan o n t cs O cs_ids cs_act) in H as (m' & M' & ->). congruence.
    - apply list_find_None in F. rewrite Forall_forall in F. split; [set_solver|]. intros (l & H & _). by destruct (F _ H).
  Qed.
  Lemma mv_iff p : p ∈ moved (plan o n t cs) ps <-> exists y, y ∈ ps /\ p ∈ pown y /\ ~ PL p (pid y).
  Proof using O V.
    unfold moved. rewrite elem_of_list_to_set, elem_of_list_bind. setoid_rewrite elem_of_elements. setoid_rewrite elem_of_difference. split.
    - intros (y & [H1 H2] & Y). exists y. by rewrite <- pl_of.
    - intros (y & Y & H1 & H2). exists y. by rewrite pl_of.
  Qed.
  Lemma stays p x : x ∈ ps -> p ∈ pown x -> (forall y, y ∈ ps -> pstat y = Active -> p ∉ prdy y) -> PL p (pid x).
  Proof using O V.
    intros X P H. apply plan_stays; [done|apply cs_ids|apply cs_act| |].
    - apply cs_first. eauto.
    - intros c C S1. apply cs_elem in C as (y & Y & ->). rewrite cs_ready. exact (H y Y (proj1 (cs_sound y) S1)).
  Qed.
  Lemma pl_fun p i j : PL p i -> PL p j -> i = j.
  Proof using O V. apply planned_fun; [done|apply cs_ids|apply cs_act]. Qed.
  Lemma pl_peer p i : PL p i -> exists x, x ∈ ps /\ pid x = i.
  Proof using O V.
    intros (l & H & _). apply (plan_members o n t cs O cs_ids cs_act) in H as (c & C & <-). apply cs_elem in C as (x & X & ->). by exists x.
  Qed.
  Notation R := (receive t (plan o n t cs) (prepares o n t cs) ps).
  Lemma own_R x p : x ∈ ps -> p ∈ pown (R x) <-> PL p (pid x) /\ (p ∈ pown x \/ ~ exists y, y ∈ ps /\ p ∈ pown y /\ ~ PL p (pid y)).
  Proof using O V. intros X. unfold receive. simpl. rewrite elem_of_difference, elem_of_difference, pl_of, mv_iff by done. destruct (decide (p ∈ pown x)); naive_solver. Qed.
  Lemma new_R x p : p ∈ (list_to_set (filter (fun y => fst y = pid x /\ fst (snd y) = t) (prepares o n t cs)).*2.*2 : gset nat) <-> (pid x, (t, p)) ∈ prepares o n t cs.
  Proof using O V.
    rewrite elem_of_list_to_set, elem_of_list_fmap. setoid_rewrite elem_of_list_fmap. setoid_rewrite elem_of_list_filter. split.
    - intros ([a b] & -> & [c [d e]] & [= -> ->] & [E1 E2] & H). simpl in *. by subst.
    - intros H. exists (t, p). split; [done|]. by exists (pid x, (t, p)).
  Qed.
  (** nobody is ready *)
  Lemma own_R_calm x : (forall y, y ∈ ps -> prdy y = ∅) -> x ∈ ps -> forall p, p ∈ pown (R x) <-> p ∈ pown x \/ (PL p (pid x) /\ ~ Owned ps p).
  Proof using O V.
    intros C X p. rewrite own_R by done. assert (S : forall y, y ∈ ps -> p ∈ pown y -> PL p (pid y)) by (intros y Y P; apply stays; [done|done|]; intros z Z _; rewrite C; set_solver). split.
    - intros [H K]. destruct (decide (p ∈ pown x)) as [?|NP]; [by left|]. right. split; [done|]. intros (y & Y & P). pose proof (pl_fun _ _ _ H (S y Y P)) as E.
      rewrite (pid_eq ps x y (v_ids _ _ V) X Y E) in NP. done.
    - intros [H|[H K]]; [split; [by apply S|by left]|]. split; [done|]. right. intros (y & Y & P & _). apply K. by exists y.
  Qed.
  Lemma all_planned q : q < n -> exists x, x ∈ ps /\ PL q (pid x).
  Proof using O V.
    intros Q. destruct (planned_all o n t cs O cs_ids cs_act q Q) as [i H]. destruct (pl_peer _ _ H) as (x & X & <-). by exists x.
  Qed.
  Lemma R_sane : (forall x y p, x ∈ ps -> y ∈ ps -> p ∈ pown (R x) -> p ∈ pown (R y) -> x = y) -> (forall x p, x ∈ ps -> p ∈ pown (R x) -> p < n) -> Sane n (rebalance o n t ps).
  Proof using O V.
    intros H1 H2. destruct V as [V1 V2 (x0 & X0 & A0) V4 V5]. unfold rebalance. split.
    - rewrite <- list_fmap_compose. done.
    - intros y Y. apply elem_of_list_fmap in Y as (x & -> & X). simpl. by apply V2.
    - exists (R x0). split; [by apply elem_of_list_fmap_1|done].
    - intros y y' p Y Y' P P'. apply elem_of_list_fmap in Y as (x & -> & X). apply elem_of_list_fmap in Y' as (x' & -> & X'). by rewrite (H1 x x' p X X' P P').
    - intros y p Y P. apply elem_of_list_fmap in Y as (x & -> & X). by apply (H2 x p).
  Qed.
  Lemma R_sane' : Sane n (rebalance o n t ps).
  Proof using O V.
    apply R_sane.
    - intros x y p X Y P Q. apply own_R in P as [P _], Q as [Q _]; [|done..]. apply (pid_eq ps); [apply V|done|done|by apply (pl_fun p)].
    - intros x p X P. apply own_R in P as [P _]; [|done]. destruct P as (l & H & P). destruct (plan_only o n t cs O cs_ids cs_act p) as [?|K]; [|done|].
      + apply elem_of_list_join. exists l. split; [done|]. by apply (elem_of_list_fmap_1 snd _ (pid x, l)).
      + apply cs_owned in K as (y & Y & K). by apply (v_lt _ _ V y).
  Qed.
  Lemma midway_one sel x y p : x ∈ midway sel o n t ps -> y ∈ midway sel o n t ps -> p ∈ pown x -> p ∈ pown y -> x = y.
  Proof using O V.
    assert (M : forall x y, x ∈ ps -> y ∈ ps -> p ∈ pown (R x) -> p ∈ pown y -> x = y).
    { intros x0 y0 X Y P Q. apply own_R in P as [P [K|K]]; [by apply (v_one _ _ V x0 y0 p)| |done]. apply (pid_eq ps); [apply V|done|done|]. apply (pl_fun p); [done|].
      apply (pl_of y0 p Y). apply dec_stable. intros N. apply K. exists y0. rewrite <- pl_of by done. done. }
    unfold midway. intros X' Y'. apply elem_of_list_fmap in X' as (x0 & -> & X). apply elem_of_list_fmap in Y' as (y0 & -> & Y). intros P Q. enough (E : x0 = y0) by (by rewrite E).
    destruct (sel x0), (sel y0).
    - apply own_R in P as [P _], Q as [Q _]; [|done..]. apply (pid_eq ps); [apply V|done|done|by apply (pl_fun p)].
    - by apply M.
    - symmetry. by apply M.
    - by apply (v_one _ _ V x0 y0 p).
  Qed.
  Lemma Owned_R q : Owned (rebalance o n t ps) q <-> exists x, x ∈ ps /\ q ∈ pown (R x).
  Proof using O V.
    unfold Owned, rebalance. split; [intros (y & Y & Q); apply elem_of_list_fmap in Y as (x & -> & X); by exists x|]. intros (x & X & Q). exists (R x). split; [by apply elem_of_list_fmap_1|done].
  Qed.
  Lemma new_none : ~ quiet n t cs -> forall x, (list_to_set (filter (fun y => fst y = pid x /\ fst (snd y) = t) (prepares o n t cs)).*2.*2 : gset nat) = ∅.
  Proof using O V. intros Q x. rewrite (prep_none o n t cs O cs_ids cs_act Q). done. Qed.

  (** A rebalance when nothing is in flight and something is not owned *)
  Lemma reb_orphans : Calm ps -> ~ (forall q, q < n -> Owned ps q) -> Calm (rebalance o n t ps) /\ forall q, q < n -> Owned (rebalance o n t ps) q.
  Proof using O V.
    intros C NO. assert (NQ : ~ quiet n t cs) by (rewrite cs_quiet; tauto). split.
    - intros y Y. apply elem_of_list_fmap in Y as (x & -> & X). unfold receive. simpl. rewrite new_none by done. destruct (C x X) as [-> ->]. case_decide; set_solver.
    - intros q Q. apply Owned_R. destruct (all_planned q Q) as (x & X & P). destruct (decide (Exists (fun y => q ∈ pown y) ps)) as [E|E].
      + apply Exists_exists in E as (y & Y & E). exists y. split; [done|]. apply own_R_calm; [by apply C|done|by left].
      + exists x. split; [done|]. apply own_R_calm; [by apply C|done|]. right. split; [done|]. intros (y & Y & H). apply E, Exists_exists. by exists y.
  Qed.
  (** ... and everything is owned *)
  Lemma reb_own_same : (forall y, y ∈ ps -> prdy y = ∅) -> (forall q, q < n -> Owned ps q) -> forall x, x ∈ ps -> pown (R x) = pown x.
  Proof using O V.
    intros C AO x X. apply set_eq. intros p. rewrite own_R_calm by done. split; [|by left]. intros [H|[H K]]; [done|]. destruct K. apply AO.
    destruct H as (l & H & P). destruct (plan_only o n t cs O cs_ids cs_act p) as [?|K]; [|done|].
    + apply elem_of_list_join. exists l. split; [done|]. by apply (elem_of_list_fmap_1 snd _ (pid x, l)).
    + apply cs_owned in K as (y & Y & K). by apply (v_lt _ _ V y).
  Qed.
  Lemma peer_eta x : x = mkPeer (pid x) (pstat x) (pleft x) (pown x) (pprep x) (prdy x).
  Proof using. by destruct x. Qed.
  Lemma map_same {B} (f : B -> B) (l : list B) : (forall x, x ∈ l -> f x = x) -> f <$> l = l.
  Proof using. intros H. rewrite <- (list_fmap_id l) at 2. apply Forall_fmap_ext. rewrite Forall_forall. done. Qed.
  Lemma reb_same : (forall y, y ∈ ps -> prdy y = ∅ /\ (pprep y = ∅ \/ pstat y = Active)) -> (forall q, q < n -> Owned ps q) -> prepares o n t cs = [] -> rebalance o n t ps = ps.
  Proof using O V.
    intros C AO NP. apply map_same. intros x X. rewrite (peer_eta x) at 2. pose proof (reb_own_same (fun y Y => proj1 (C y Y)) AO x X) as E. unfold receive in *. simpl in *. rewrite E, NP. destruct (C x X) as [-> C2]. simpl.
    f_equal; case_decide; [set_solver|destruct C2 as [->|?]; [set_solver|done]|set_solver|set_solver].
  Qed.

  (** A partition is in flight. *)
  Context (r : peer) (p : nat) (F : Flight n ps r p).
  Lemma fl_noisy : ~ quiet n t cs.
  Proof using O V F.
    rewrite cs_quiet. intros [H _]. destruct (H r (fl_in _ _ _ _ F) (fl_act _ _ _ _ F)) as [H1 H2]. destruct (fl_kind _ _ _ _ F) as [(K & _)|[_ K]]; set_solver.
  Qed.
  Lemma fl_rdy y q : y ∈ ps -> q ∈ prdy y -> y = r /\ q = p.
  Proof using O V F.
    intros Y Q. destruct (decide (y = r)) as [->|NE]; [split; [done|]; destruct (fl_kind _ _ _ _ F) as [(_ & K & _)|[_ K]]; set_solver|]. destruct (fl_others _ _ _ _ F y Y NE) as [_ K]. set_solver.
  Qed.
  Lemma fl_same : pprep r = {[p]} -> rebalance o n t ps = ps.
  Proof using O V F.
    intros P. destruct (fl_kind _ _ _ _ F) as [(_ & K & OW)|[K _]]; [|set_solver]. apply reb_same.
    - intros y Y. destruct (decide (y = r)) as [->|NE]; [split; [done|right; apply F]|]. destruct (fl_others _ _ _ _ F y Y NE) as [H1 H2]. auto.
    - intros q Q. destruct (decide (q = p)) as [->|NE]; [done|]. by apply F.
    - apply prep_none; [done|apply cs_ids|apply cs_act|apply fl_noisy].
  Qed.
  Lemma fl_other_stays x q : x ∈ ps -> q ∈ pown x -> q <> p -> PL q (pid x).
  Proof using O V F. intros X Q NE. apply stays; [done|done|]. intros y Y _ H. destruct (fl_rdy y q Y H). done. Qed.
  Lemma fl_goes : prdy r = {[p]} -> PL p (pid r).
  Proof using O V F.
    intros P. assert (Rr : (t, p) ∈ crdy (claim_of t r)) by (apply cs_ready; set_solver). assert (Cr : claim_of t r ∈ cs) by (apply elem_of_list_fmap_1, F).
    destruct (decide (Exists (fun y => p ∈ pown y) ps)) as [E|E].
    - apply Exists_exists in E as (d & D & E). destruct (plan_goes o n t cs O cs_ids cs_act p (pid d) (claim_of t r)) as (c & C & Sc & Rc & H); [apply cs_first; eauto|done|apply cs_sound, F|done|].
      apply cs_elem in C as (y & Y & ->). apply cs_ready in Rc. destruct (fl_rdy y p Y Rc) as [-> _]. done.
    - destruct (all_planned p (fl_lt _ _ _ _ F)) as (x & X & H). pose proof H as H'. apply (plan_heir o n t cs p (pid x) O cs_ids cs_act) in H as (c & C & Ec & Sc & K).
      + apply cs_elem in C as (y & Y & ->). simpl in Ec. pose proof (pid_eq ps y x (v_ids _ _ V) Y X Ec) as ->. assert (Z : (t, p) ∈ cprep (claim_of t x) ++ crdy (claim_of t x)).
        { apply K. exists (claim_of t r). split_and!; [done|simpl; rewrite (fl_act _ _ _ _ F); done|]. apply elem_of_app. by right. }
        apply elem_of_app in Z as [Z|Z].
        * apply cs_prep in Z. destruct (decide (x = r)) as [->|NE]; [done|]. destruct (fl_others _ _ _ _ F x X NE). set_solver.
        * apply cs_ready in Z. destruct (fl_rdy x p X Z) as [-> _]. done.
      + intros c C Pc. apply E. assert (exists c, c ∈ cs /\ p ∈ owned t c) as K by eauto. apply cs_owned in K as (y & Y & K). apply Exists_exists. by exists y.
  Qed.
  Definition flown (x : peer) : gset nat := if decide (Exists (fun y => p ∈ pown y) ps) then pown x ∖ {[p]} else if decide (x = r) then {[p]} ∪ pown x else pown x.
  Lemma fl_own : prdy r = {[p]} -> forall x, x ∈ ps -> pown (R x) = flown x.
  Proof using O V F.
    intros P x X. apply set_eq. intros q. rewrite own_R by done. unfold flown. pose proof (fl_goes P) as G. destruct (decide (q = p)) as [->|NE].
    - destruct (decide (Exists _ ps)) as [E|E].
      + split; [|set_solver]. intros [H K]. exfalso. pose proof (pl_fun _ _ _ H G) as EQ. apply (pid_eq ps x r (v_ids _ _ V) X (fl_in _ _ _ _ F)) in EQ as ->. destruct K as [K|K]; [by apply (fl_not _ _ _ _ F)|].
        apply K. apply Exists_exists in E as (d & D & E). exists d. split_and!; [done|done|]. intros H2. pose proof (pl_fun _ _ _ H2 G) as EQ. apply (pid_eq ps d r (v_ids _ _ V) D (fl_in _ _ _ _ F)) in EQ as ->. by apply (fl_not _ _ _ _ F).
      + assert (NO : forall y, y ∈ ps -> p ∉ pown y) by (intros y Y H; apply E, Exists_exists; by exists y). destruct (decide (x = r)) as [->|NR].
        * split; [set_solver|]. intros _. split; [done|]. right. intros (y & Y & H & _). by apply (NO y).
        * split; [|by intros H; destruct (NO x X)]. intros [H _]. destruct NR. apply (pid_eq ps); [apply V|done|apply F|by apply (pl_fun p)].
    - assert (EQ : PL q (pid x) /\ (q ∈ pown x \/ ~ exists y, y ∈ ps /\ q ∈ pown y /\ ~ PL q (pid y)) <-> q ∈ pown x).
      { split; [|intros H; split; [by apply fl_other_stays|by left]]. intros [H _]. assert (Q : q < n).
        { destruct H as (l & H & Q). destruct (plan_only o n t cs O cs_ids cs_act q) as [?|K]; [|done|].
          - apply elem_of_list_join. exists l. split; [done|]. by apply (elem_of_list_fmap_1 snd _ (pid x, l)).
          - apply cs_owned in K as (y & Y & K). by apply (v_lt _ _ V y). }
        destruct (fl_owned _ _ _ _ F q Q NE) as (y & Y & K). rewrite (pid_eq ps x y (v_ids _ _ V) X Y); [done|]. apply (pl_fun q); [done|]. by apply fl_other_stays. }
      rewrite EQ. destruct (decide (Exists _ ps)); [set_solver|]. destruct (decide (x = r)); set_solver.
  Qed.
  (** the two rebalances of the hand-over *)
  Lemma fl_revoke : prdy r = {[p]} -> Owned ps p -> rebalance o n t ps = (fun x => mkPeer (pid x) (pstat x) (pleft x) (pown x ∖ {[p]}) (pprep x) (prdy x)) <$> ps.
  Proof using O V F.
    intros P (d & D & E). unfold rebalance. apply Forall_fmap_ext. rewrite Forall_forall. intros x X. pose proof (fl_own P x X) as EO. unfold flown in EO.
    rewrite decide_True in EO by (apply Exists_exists; by exists d). unfold receive in *. simpl in *. rewrite EO. rewrite (new_none fl_noisy x). replace (pown x ∖ {[p]} ∖ pown x) with (∅ : gset nat) by set_solver.
    assert (K : pstat x = Active \/ (pprep x = ∅ /\ prdy x = ∅)). { destruct (decide (x = r)) as [->|NE]; [left; apply F|right; by apply F]. }
    f_equal; case_decide; try set_solver; destruct K as [?|[-> ->]]; try done; set_solver.
  Qed.
  Lemma fl_deliver : prdy r = {[p]} -> ~ Owned ps p -> rebalance o n t ps = (fun x => if decide (x = r) then mkPeer (pid x) (pstat x) (pleft x) ({[p]} ∪ pown x) ∅ ∅ else x) <$> ps.
  Proof using O V F.
    intros P NO. unfold rebalance. apply Forall_fmap_ext. rewrite Forall_forall. intros x X. pose proof (fl_own P x X) as EO. unfold flown in EO.
    rewrite decide_False in EO by (intros (y & Y & H)%Exists_exists; apply NO; by exists y). unfold receive in *. simpl in *. rewrite EO. rewrite (new_none fl_noisy x). destruct (decide (x = r)) as [->|NE].
    - destruct (fl_kind _ _ _ _ F) as [(_ & K & _)|[K _]]; [set_solver|]. rewrite K, P, (fl_act _ _ _ _ F). pose proof (fl_not _ _ _ _ F). f_equal; set_solver.
    - destruct (fl_others _ _ _ _ F x X NE) as [K1 K2]. etrans; [|symmetry; apply peer_eta]. rewrite K1, K2. f_equal; case_decide; set_solver.
  Qed.
End claims.
