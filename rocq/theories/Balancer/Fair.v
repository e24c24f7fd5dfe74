(** Under fair scheduling the group becomes balanced and stays so; loads after orphaned partitions have been given away. *)
From stdpp Require Export prelude list gmap sorting.
From Verif.Balancer Require Export Steps.
From Coq Require Import Lia.
Open Scope nat_scope.

(** the state after the first [m] actions of a schedule *)
Definition gat (n t : nat) (ps : list peer) (f : nat -> act) (m : nat) : list peer := grun n t ps (f <$> seq 0 m).
(** rebalances go on for ever, and every preparation is finished some time *)
Definition fair (n t : nat) (ps : list peer) (f : nat -> act) : Prop := (forall m, exists k o, m <= k /\ f k = Reb o) /\
  forall m x p, x ∈ gat n t ps f m -> p ∈ pprep x -> exists k, m <= k /\ f k = Prep (pid x) p.
Lemma gat_S n t ps f m : gat n t ps f (S m) = gstep n t (gat n t ps f m) (f m).
Proof. unfold gat, grun. by rewrite seq_S, fmap_app, foldl_app. Qed.
Section fair.
  Context (n t : nat) (ps : list peer) (f : nat -> act) (OK : forall k, act_ok (f k)) (I0 : Inv n ps) (F : fair n t ps f).
  Notation st := (gat n t ps f).
  Lemma st_inv m : Inv n (st m).
  Proof using OK I0 F. induction m as [|m IH]; [done|]. rewrite gat_S. by apply Inv_step. Qed.
  Lemma change_or m k : m <= k -> st k = st m \/ exists j, m <= j < k /\ st j = st m /\ st (S j) <> st j.
  Proof using OK I0 F.
    induction 1 as [|k LE [IH|(j & J & E & C)]]; [by left| |right; exists j; split_and!; [lia..|done|done]]. destruct (decide (st (S k) = st k)) as [E|NE]; [left; congruence|right]. exists k. split_and!; [lia..|done|done].
  Qed.
  Lemma bal_stays m : Balanced n (st m) -> (forall o, orc_ok o -> rebalance o n t (st m) = st m) -> forall k, m <= k -> st k = st m.
  Proof using OK I0 F.
    intros (_ & C & _) R k. induction 1 as [|k LE IH]; [done|]. rewrite gat_S, IH. pose proof (OK k) as A. destruct (f k) as [o|i p]; simpl; [by apply R|]. apply map_same. intros x X. rewrite decide_False; [done|]. destruct (C x X) as [-> _]. set_solver.
  Qed.
  Lemma fair_bal k : forall m, Meas n (st m) k -> exists N, forall j, N <= j -> Balanced n (st j) /\ st j = st N.
  Proof using OK I0 F.
    induction (lt_wf k) as [k _ IH]. intros m M. assert (STEP : forall j, st j = st m -> st (S j) <> st j -> exists N, forall j, N <= j -> Balanced n (st j) /\ st j = st N).
    { intros j E C. destruct (Inv_step n t (st j) (f j) (OK j) (st_inv j)) as [_ [D|D]]; rewrite <- gat_S in D; [done|]. rewrite <- E in M. destruct (D k M) as (k' & M' & LT). by apply (IH k' LT (S j)). }
    destruct (progress n t (st m) (st_inv m)) as [(x & p & X & P & C)|[C|[B R]]].
    - destruct F as [_ F2]. destruct (F2 m x p X P) as (j & J & E). destruct (change_or m j J) as [EQ|(i & _ & EQ & CH)]; [|by apply (STEP i)]. apply (STEP j EQ). rewrite gat_S, E, EQ. done.
    - destruct F as [F1 _]. destruct (F1 m) as (j & o & J & E). destruct (change_or m j J) as [EQ|(i & _ & EQ & CH)]; [|by apply (STEP i)]. apply (STEP j EQ). rewrite gat_S, E, EQ. apply C. pose proof (OK j) as OKj. by rewrite E in OKj.
    - exists m. intros j J. rewrite (bal_stays m B R j J). done.
  Qed.
  Theorem fair_balanced : exists N, forall j, N <= j -> Balanced n (st j) /\ st j = st N.
  Proof using OK I0 F. destruct (Meas_ex n (st 0) (st_inv 0)) as [k K]. by apply (fair_bal k 0). Qed.
End fair.

(** ** Orphaned partitions *)
Theorem orphans o n t cs : orc_ok o -> NoDup (cid <$> cs) -> (exists c, c ∈ cs /\ cstat c <> Inactive) -> exists l : list (nat * nat),
  NoDup l.*1 /\ (forall p, p ∈ l.*1 <-> p < n /\ forall c, c ∈ cs -> p ∉ owned t c) /\ (forall p i, (p, i) ∈ l -> planned o n t cs p i) /\
  (forall a p i b, l = a ++ (p, i) :: b -> exists c, c ∈ cs /\ cid c = i /\ cstat c <> Inactive /\
    ((exists c', c' ∈ cs /\ cstat c' <> Inactive /\ (t, p) ∈ cprep c' ++ crdy c') -> (t, p) ∈ cprep c ++ crdy c) /\
    ((forall c', c' ∈ cs -> cstat c' <> Inactive -> (t, p) ∉ cprep c' ++ crdy c') -> forall c' k k', c' ∈ cs -> cstat c' <> Inactive -> LoadAt t cs a c k -> LoadAt t cs a c' k' -> k <= k')) /\
  ((forall c, c ∈ cs -> cstat c <> Inactive -> NoDup (cprep c ++ crdy c).*2) -> evenLoads t cs [] -> evenLoads t cs l) /\
  (forall p i, planned o n t cs p i <-> (p, i) ∈ l \/ (firstOwner t cs p i /\ forall c, c ∈ cs -> sound c -> (t, p) ∉ crdy c) \/ (p ∉ l.*1 /\ planned o n t cs p i /\ exists c, c ∈ cs /\ sound c /\ (t, p) ∈ crdy c)).
Proof.
  intros O N A. destruct (planned_iff o n t cs O N A) as (l1 & l2 & L & P). exists l1. assert (FR : orphaned t cs l1). { split; [apply L|]. intros q Q. by apply (l_un _ _ _ _ _ L). }
  split_and!; [apply L|apply L|intros p i H; apply P; by left| | |].
  - intros a p i b E. by apply (inherit n t cs N A l1 a p i b (l_dist _ _ _ _ _ L)).
  - intros ND E. by apply (stays_even n t cs N A l1 (l_dist _ _ _ _ _ L)).
  - intros p i. split.
    + intros H. pose proof (proj1 (P p i) H) as [K|[[d K]|[K1 K2]]]; [by left| |].
      * right. right. pose proof (l_mv _ _ _ _ _ L _ _ _ K) as (FO & c & Cc & Ec & Sc & Rc). split_and!; [|done|eauto]. intros X. apply (l_un _ _ _ _ _ L) in X as [_ X]. assert (exists i, firstOwner t cs p i) as (c' & C' & Pc)%firstOwner_ex by eauto. by apply (X c').
      * right. left. split; [done|]. intros c Cc Sc Rc. destruct (l_all _ _ _ _ _ L p i c K1 Cc Sc Rc) as [r R]. by apply (K2 i r).
    + intros [H|[[H1 H2]|(_ & H & _)]]; [apply P; by left| |done]. apply P. right. right. split; [done|]. intros d r H. apply (l_mv _ _ _ _ _ L) in H as (_ & c & Cc & _ & Sc & Rc). by apply (H2 c).
Qed.
(** members without preparations: the numbers of partitions they own before and after *)
Theorem survivors o n t cs : orc_ok o -> NoDup (cid <$> cs) -> (exists c, c ∈ cs /\ cstat c <> Inactive) ->
  (forall c, c ∈ cs -> NoDup (owned t c)) -> (forall c c' p, c ∈ cs -> c' ∈ cs -> p ∈ owned t c -> p ∈ owned t c' -> c = c') ->
  (forall c, c ∈ cs -> cstat c <> Inactive -> cprep c = [] /\ crdy c = []) ->
  (forall c c', c ∈ cs -> c' ∈ cs -> cstat c <> Inactive -> cstat c' <> Inactive -> length (owned t c) <= length (owned t c') + 1) ->
  forall c c' ps ps', c ∈ cs -> c' ∈ cs -> cstat c <> Inactive -> cstat c' <> Inactive -> (cid c, ps) ∈ plan o n t cs -> (cid c', ps') ∈ plan o n t cs -> length ps <= length ps' + 1.
Proof.
  intros O N A ND DJ NP LE. destruct (orphans o n t cs O N A) as (l & _ & _ & _ & _ & EV & PL).
  assert (FO : forall c p, c ∈ cs -> firstOwner t cs p (cid c) <-> p ∈ owned t c).
  { intros c p Cc. split.
    - intros (a & c0 & b & E & Ec & P & _). assert (C0 : c0 ∈ cs) by (rewrite E; set_solver). by rewrite (claim_eq cs c c0 N Cc C0 (eq_sym Ec)).
    - intros P. apply elem_of_list_split in Cc as (a & b & E). exists a, c, b. split_and!; [done|done|done|]. intros c1 C1 P1. assert (c1 = c) as -> by (apply (DJ c1 c p); [rewrite E; set_solver..|done|done]).
      rewrite E, fmap_app in N. apply NoDup_app in N as (_ & N & _). apply (N (cid c)); [by apply elem_of_list_fmap_1|]. left. }
  assert (L0 : forall c, c ∈ cs -> cstat c <> Inactive -> LoadAt t cs [] c (length (owned t c))).
  { intros c Cc Sc. exists (list_to_set (owned t c)). split; [intros p; rewrite elem_of_list_to_set, FO by done; set_solver|]. destruct (NP c Cc Sc) as [-> ->]. rewrite size_list_to_set by (by apply ND). simpl. lia. }
  assert (E0 : evenLoads t cs []) by (intros c c' k k' Cc C' Sc S' K K'; rewrite (LoadAt_fun _ _ _ _ _ _ K (L0 c Cc Sc)), (LoadAt_fun _ _ _ _ _ _ K' (L0 c' C' S')); by apply LE).
  assert (E1 : evenLoads t cs l). { apply EV; [|done]. intros c Cc Sc. destruct (NP c Cc Sc) as [-> ->]. constructor. }
  assert (L1 : forall c ps, c ∈ cs -> cstat c <> Inactive -> (cid c, ps) ∈ plan o n t cs -> LoadAt t cs l c (length ps)).
  { intros c ps Cc Sc P. pose proof P as P'. apply (elem_plan o n t cs O N A) in P' as (m & M & ->). exists (masg m). split.
    - intros p. rewrite <- elem_of_elements. split.
      + intros H. assert (H' : planned o n t cs p (cid c)) by (eexists; eauto). apply PL in H' as [H'|[[H' _]|(_ & _ & c0 & C0 & [_ S0] & R0)]]; [by right|by left|]. destruct (NP c0 C0) as [_ Z]; [congruence|]. rewrite Z in R0. set_solver.
      + intros H. assert (H' : planned o n t cs p (cid c)). { apply PL. destruct H as [H|H]; [right; left; split; [done|]|by left]. intros c0 C0 [_ S0] R0. destruct (NP c0 C0) as [_ Z]; [congruence|]. rewrite Z in R0. set_solver. }
        destruct H' as (ps & H1 & H2). apply (elem_plan o n t cs O N A) in H1 as (m' & M' & ->). rewrite M in M'. by injection M' as <-.
    - destruct (NP c Cc Sc) as [-> ->]. simpl. rewrite Nat.add_0_r. done. }
  intros c c' ps ps' Cc C' Sc S' P P'. by apply (E1 c c' _ _ Cc C' Sc S'); apply L1.
Qed.
