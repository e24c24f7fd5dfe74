(** Properties of the incremental balancer: C40-C46, C48, C81-C84. In the statements, [firstOwner t cs p i]: member i is the first in the list of members whose claim for topic t
    contains p, which is what the leader takes for the owner; [planned o n t cs p i]: the plan gives p to i; [sound c]: the member's user data could be decoded and says active. *)
From stdpp Require Import prelude list gmap sorting.
From Verif.Balancer Require Import Fair MemberProofs.
From Coq Require Import Lia.
Open Scope nat_scope.

(** ** C40 *)
Theorem c40_plan_exactly_once o n t cs : orc_ok o -> NoDup (cid <$> cs) -> (exists c, c ∈ cs /\ cstat c <> Inactive) ->
  NoDup (mjoin (plan o n t cs).*2) /\ (forall p, p < n -> p ∈ mjoin (plan o n t cs).*2) /\
  (forall p, p ∈ mjoin (plan o n t cs).*2 -> p < n \/ exists c, c ∈ cs /\ p ∈ owned t c) /\ (forall i ps, (i, ps) ∈ plan o n t cs -> exists c, c ∈ cs /\ cid c = i).
Proof. intros O N A. split_and!; [by apply plan_nodup|by apply plan_all|by apply plan_only|by apply plan_members]. Qed.
Print Assumptions c40_plan_exactly_once.
Definition o0 : orc := mkOrc id id id id.
Lemma o0_ok : orc_ok o0.
Proof. done. Qed.
(** members 1 and 2 both claim partition 0, nobody claims 3, member 3 is ready for 1 *)
Definition cs0 : list claim := [mkClaim 1 [(7, [0; 1])] true Active 0 [] []; mkClaim 2 [(7, [0; 2])] true Inactive 5 [] []; mkClaim 3 [] true Active 0 [] [(7, 1)]].
Example c40_example : orc_ok o0 /\ NoDup (cid <$> cs0) /\ (exists c, c ∈ cs0 /\ cstat c <> Inactive) /\ plan o0 4 7 cs0 = [(2, [2]); (1, [0]); (3, [1; 3])].
Proof.
  split_and!; [apply o0_ok|by apply (bool_decide_unpack _); vm_compute|exists (mkClaim 1 [(7, [0; 1])] true Active 0 [] []); split; [left|done]|by vm_compute].
Qed.
(** with no active member there is no plan *)
Example c40_none : plan o0 4 7 [mkClaim 2 [(7, [0; 2])] true Inactive 5 [] []] = [].
Proof. by vm_compute. Qed.

(** [owned t c], here and below, is what the member reported for the topic: the partitions of the first entry for it *)
Theorem c40_owned_is_reported t c p : p ∈ owned t c <-> exists a ps b, cowned c = a ++ (t, ps) :: b /\ t ∉ a.*1 /\ p ∈ ps.
Proof.
  unfold owned. destruct (list_find _ _) as [[i [t' ps]]|] eqn:F.
  - apply list_find_Some in F as (L & E & K). simpl in E. subst t'. split.
    + intros P. exists (take i (cowned c)), ps, (drop (S i) (cowned c)). split_and!; [by rewrite take_drop_middle| |done]. intros ([t' qs] & -> & H)%elem_of_list_fmap.
      apply elem_of_take in H as (j & J & Lt). by apply (K j (t', qs) J Lt).
    + intros (a & qs & b & E & NA & P). simpl. rewrite E in L. destruct (lt_eq_lt_dec i (length a)) as [[Lt| ->]|Gt].
      * rewrite lookup_app_l in L by done. destruct NA. apply (elem_of_list_fmap_1 fst _ (t, ps)), elem_of_list_lookup. by exists i.
      * rewrite list_lookup_middle in L by done. by injection L as ->.
      * exfalso. apply (K (length a) (t, qs)); [by rewrite E, list_lookup_middle|done|done].
  - apply list_find_None in F. rewrite Forall_forall in F. split; [set_solver|]. intros (a & qs & b & E & _). destruct (F (t, qs)); [|done]. rewrite E. set_solver.
Qed.
Print Assumptions c40_owned_is_reported.
Example c40_owned_example : owned 7 (mkClaim 1 [(8, [5]); (7, [0; 1]); (7, [2])] true Active 0 [] []) = [0; 1].
Proof. reflexivity. Qed.

(** ** C41 *)
Theorem c41_stays o n t cs p d : orc_ok o -> NoDup (cid <$> cs) -> (exists c, c ∈ cs /\ cstat c <> Inactive) ->
  firstOwner t cs p d -> (forall c, c ∈ cs -> sound c -> (t, p) ∉ crdy c) -> planned o n t cs p d.
Proof. intros O N A. by apply plan_stays. Qed.
Print Assumptions c41_stays.
Theorem c41_goes o n t cs p d c0 : orc_ok o -> NoDup (cid <$> cs) -> (exists c, c ∈ cs /\ cstat c <> Inactive) ->
  firstOwner t cs p d -> c0 ∈ cs -> sound c0 -> (t, p) ∈ crdy c0 -> exists c, c ∈ cs /\ sound c /\ (t, p) ∈ crdy c /\ planned o n t cs p (cid c).
Proof. intros O N A. by apply plan_goes. Qed.
Print Assumptions c41_goes.
Theorem c41_one_place o n t cs p i j : orc_ok o -> NoDup (cid <$> cs) -> (exists c, c ∈ cs /\ cstat c <> Inactive) -> planned o n t cs p i -> planned o n t cs p j -> i = j.
Proof. intros O N A. by apply planned_fun. Qed.
Print Assumptions c41_one_place.
(** in [cs0], partition 0 belongs to 1 and stays; 1 belongs to 1 and goes to 3, which is ready *)
Example c41_example : firstOwner 7 cs0 0 1 /\ (forall c, c ∈ cs0 -> sound c -> (7, 0) ∉ crdy c) /\ firstOwner 7 cs0 1 1 /\ exists c0, c0 ∈ cs0 /\ sound c0 /\ (7, 1) ∈ crdy c0.
Proof.
  split_and!.
  - exists [], (mkClaim 1 [(7, [0; 1])] true Active 0 [] []), (drop 1 cs0). split_and!; [done|done|left|]. intros c H. set_solver.
  - intros c H _. unfold cs0 in H. rewrite !elem_of_cons, elem_of_nil in H. destruct H as [->|[->|[->|[]]]]; apply (bool_decide_unpack _); by vm_compute.
  - exists [], (mkClaim 1 [(7, [0; 1])] true Active 0 [] []), (drop 1 cs0). split_and!; [done|done|right; left|]. intros c H. set_solver.
  - exists (mkClaim 3 [] true Active 0 [] [(7, 1)]). split_and!; [right; right; left|done|left].
Qed.

(** ** C42 *)
Theorem c42_at_most_one o n t cs : orc_ok o -> NoDup (cid <$> cs) -> (exists c, c ∈ cs /\ cstat c <> Inactive) -> length (prepares o n t cs) <= 1.
Proof. intros O N A. by apply prep_one. Qed.
Print Assumptions c42_at_most_one.
Theorem c42_none_while_moving o n t cs : orc_ok o -> NoDup (cid <$> cs) -> (exists c, c ∈ cs /\ cstat c <> Inactive) ->
  (exists c, c ∈ cs /\ sound c /\ cprep c ++ crdy c <> []) \/ (exists p, p < n /\ forall c, c ∈ cs -> p ∉ owned t c) -> prepares o n t cs = [].
Proof.
  intros O N A H. apply prep_none; try done. intros [Q1 Q2]. destruct H as [(c & Cc & Sc & NE)|(p & P & U)].
  - destruct (Q1 c Cc Sc) as [E1 E2]. apply NE. by rewrite E1, E2.
  - destruct (Q2 p P) as (c & Cc & Pc). by apply (U c).
Qed.
Print Assumptions c42_none_while_moving.
Theorem c42_who_partial o n t cs i x : orc_ok o -> NoDup (cid <$> cs) -> (exists c, c ∈ cs /\ cstat c <> Inactive) -> (i, x) ∈ prepares o n t cs ->
  exists p c d, x = (t, p) /\ c ∈ cs /\ cid c = i /\ cstat c <> Inactive /\ firstOwner t cs p d /\ d <> i.
Proof. intros O N A. by apply prep_ok. Qed.
Print Assumptions c42_who_partial.
(** member 2, which says that it has left for good, is told to prepare *)
Definition cs1 : list claim := [mkClaim 1 [(7, [0; 1; 2])] true Active 0 [] []; mkClaim 2 [] true Defunct 5 [] []].
Theorem c42_instructed_is_active_refuted : orc_ok o0 /\ NoDup (cid <$> cs1) /\ (exists c, c ∈ cs1 /\ cstat c = Active) /\ (exists p, prepares o0 3 7 cs1 = [(2, (7, p))]) /\ exists c, c ∈ cs1 /\ cid c = 2 /\ cstat c = Defunct.
Proof.
  split_and!; [apply o0_ok|by apply (bool_decide_unpack _); vm_compute|eexists; split; [left|done]|eexists; by vm_compute|eexists; split; [right; left|done]].
Qed.
Print Assumptions c42_instructed_is_active_refuted.
(** member 2 is new; 1 shall give it a partition *)
Definition cs2 : list claim := [mkClaim 1 [(7, [0; 1; 2])] true Active 0 [] []; mkClaim 2 [] true Active 0 [] []].
Example c42_example : orc_ok o0 /\ NoDup (cid <$> cs2) /\ (exists c, c ∈ cs2 /\ cstat c <> Inactive) /\ exists p, prepares o0 3 7 cs2 = [(2, (7, p))].
Proof. split_and!; [apply o0_ok|by apply (bool_decide_unpack _); vm_compute|eexists; split; [left|done]|eexists; by vm_compute]. Qed.
Example c42_example_none : exists c, c ∈ cs0 /\ sound c /\ cprep c ++ crdy c <> [].
Proof. eexists. split; [right; right; left|done]. Qed.

(** ** C43 *)
Theorem c43_leaving_gets_nothing_partial o n t cs c : orc_ok o -> NoDup (cid <$> cs) -> (exists c, c ∈ cs /\ cstat c <> Inactive) -> c ∈ cs -> cstat c = Inactive ->
  (forall p, planned o n t cs p (cid c) -> firstOwner t cs p (cid c)) /\ (forall x, (cid c, x) ∉ prepares o n t cs).
Proof.
  intros O N A Cc Sc. split; [intros p; by apply plan_inactive|]. intros x H. apply (prep_ok o n t cs O N A) in H as (p & c' & d & _ & C' & E & S' & _). rewrite (claim_eq cs c' c N C' Cc E) in S'. done.
Qed.
Print Assumptions c43_leaving_gets_nothing_partial.
(** member 1 has crashed; of its partitions, member 2, which has left for good, gets some *)
Definition cs3 : list claim := [mkClaim 2 [] true Defunct 5 [] []; mkClaim 3 [(7, [2])] true Active 0 [] []].
Theorem c43_leaving_gets_nothing_refuted : orc_ok o0 /\ NoDup (cid <$> cs3) /\ (exists c, c ∈ cs3 /\ cstat c = Active) /\ (exists c, c ∈ cs3 /\ cid c = 2 /\ cstat c = Defunct /\ owned 7 c = []) /\
  exists p, planned o0 3 7 cs3 p 2.
Proof.
  split_and!; [apply o0_ok|by apply (bool_decide_unpack _); vm_compute|eexists; split; [right; left|done]|eexists; split_and!; [left|done|done|done]|].
  exists 0, [0; 1]. split; [|left]. apply (bool_decide_unpack _). by vm_compute.
Qed.
Print Assumptions c43_leaving_gets_nothing_refuted.
Example c43_example : exists c, c ∈ cs0 /\ cstat c = Inactive /\ cid c = 2 /\ planned o0 4 7 cs0 2 2.
Proof. eexists. split_and!; [right; left|done|done|]. exists [2]. split; [|left]. apply (bool_decide_unpack _). by vm_compute. Qed.

(** ** C44 *)
(** The orphaned partitions are given away one after the other, in the order of [l]; [LoadAt t cs a c k]: the load of member c is k when the pairs (partition, member) in [a] have been given:
    the number of partitions it owns or was given, plus the preparations it reported for others. *)
Theorem c44_orphans o n t cs : orc_ok o -> NoDup (cid <$> cs) -> (exists c, c ∈ cs /\ cstat c <> Inactive) -> exists l : list (nat * nat),
  NoDup l.*1 /\ (forall p, p ∈ l.*1 <-> p < n /\ forall c, c ∈ cs -> p ∉ owned t c) /\ (forall p i, (p, i) ∈ l -> planned o n t cs p i) /\
  forall a p i b, l = a ++ (p, i) :: b -> exists c, c ∈ cs /\ cid c = i /\ cstat c <> Inactive /\
    ((exists c', c' ∈ cs /\ cstat c' <> Inactive /\ (t, p) ∈ cprep c' ++ crdy c') -> (t, p) ∈ cprep c ++ crdy c) /\
    ((forall c', c' ∈ cs -> cstat c' <> Inactive -> (t, p) ∉ cprep c' ++ crdy c') -> forall c' k k', c' ∈ cs -> cstat c' <> Inactive -> LoadAt t cs a c k -> LoadAt t cs a c' k' -> k <= k').
Proof. intros O N A. destruct (orphans o n t cs O N A) as (l & H1 & H2 & H3 & H4 & _). by exists l. Qed.
Print Assumptions c44_orphans.
Theorem c44_loads_stay_even o n t cs : orc_ok o -> NoDup (cid <$> cs) -> (exists c, c ∈ cs /\ cstat c <> Inactive) -> (forall c, c ∈ cs -> cstat c <> Inactive -> NoDup (cprep c ++ crdy c).*2) ->
  (forall c c' k k', c ∈ cs -> c' ∈ cs -> cstat c <> Inactive -> cstat c' <> Inactive -> LoadAt t cs [] c k -> LoadAt t cs [] c' k' -> k <= k' + 1) -> exists l : list (nat * nat),
  (forall p, p ∈ l.*1 <-> p < n /\ forall c, c ∈ cs -> p ∉ owned t c) /\ (forall p i, (p, i) ∈ l -> planned o n t cs p i) /\
  forall c c' k k', c ∈ cs -> c' ∈ cs -> cstat c <> Inactive -> cstat c' <> Inactive -> LoadAt t cs l c k -> LoadAt t cs l c' k' -> k <= k' + 1.
Proof. intros O N A ND E. destruct (orphans o n t cs O N A) as (l & H1 & H2 & H3 & _ & H5 & _). exists l. split_and!; [done|done|]. by apply H5. Qed.
Print Assumptions c44_loads_stay_even.
Theorem c44_survivors o n t cs : orc_ok o -> NoDup (cid <$> cs) -> (exists c, c ∈ cs /\ cstat c <> Inactive) ->
  (forall c, c ∈ cs -> NoDup (owned t c)) -> (forall c c' p, c ∈ cs -> c' ∈ cs -> p ∈ owned t c -> p ∈ owned t c' -> c = c') ->
  (forall c, c ∈ cs -> cstat c <> Inactive -> cprep c = [] /\ crdy c = []) ->
  (forall c c', c ∈ cs -> c' ∈ cs -> cstat c <> Inactive -> cstat c' <> Inactive -> length (owned t c) <= length (owned t c') + 1) ->
  forall c c' ps ps', c ∈ cs -> c' ∈ cs -> cstat c <> Inactive -> cstat c' <> Inactive -> (cid c, ps) ∈ plan o n t cs -> (cid c', ps') ∈ plan o n t cs -> length ps <= length ps' + 1.
Proof. apply survivors. Qed.
Print Assumptions c44_survivors.
(** a member with three partitions has crashed, the others have two and one *)
Definition cs4 : list claim := [mkClaim 2 [(7, [0; 1])] true Active 0 [] []; mkClaim 3 [(7, [2])] true Active 0 [] []].
Example c44_example : orc_ok o0 /\ NoDup (cid <$> cs4) /\ (exists c, c ∈ cs4 /\ cstat c <> Inactive) /\ (forall c, c ∈ cs4 -> NoDup (owned 7 c)) /\
  (forall c c' p, c ∈ cs4 -> c' ∈ cs4 -> p ∈ owned 7 c -> p ∈ owned 7 c' -> c = c') /\ (forall c, c ∈ cs4 -> cstat c <> Inactive -> cprep c = [] /\ crdy c = []) /\
  (forall c c', c ∈ cs4 -> c' ∈ cs4 -> cstat c <> Inactive -> cstat c' <> Inactive -> length (owned 7 c) <= length (owned 7 c') + 1) /\
  exists ps ps', plan o0 6 7 cs4 = [(2, ps); (3, ps')] /\ length ps = 3 /\ length ps' = 3.
Proof.
  assert (E : forall c, c ∈ cs4 -> c = mkClaim 2 [(7, [0; 1])] true Active 0 [] [] \/ c = mkClaim 3 [(7, [2])] true Active 0 [] []) by (intros c; unfold cs4; rewrite !elem_of_cons, elem_of_nil; tauto).
  split_and!.
  - apply o0_ok.
  - apply (bool_decide_unpack _). by vm_compute.
  - eexists. split; [left|done].
  - intros c H. destruct (E c H) as [->| ->]; apply (bool_decide_unpack _); by vm_compute.
  - intros c c' p H H' P P'. destruct (E c H) as [->| ->], (E c' H') as [->| ->]; try done; vm_compute in P, P'; set_solver.
  - intros c H _. by destruct (E c H) as [->| ->].
  - intros c c' H H' _ _. destruct (E c H) as [->| ->], (E c' H') as [->| ->]; vm_compute; lia.
  - eexists _, _. split_and!; [by vm_compute|done|done].
Qed.

(** ** C45 *)
(** A group of members for one topic of n partitions, as between two rebalances; [Sane]: distinct ids, active or leaving, at least one active, no partition with two owners; [Calm]: no
    preparations reported. A schedule is any sequence of rebalances (with any map orders and random choices) and ends of preparations. *)
Theorem c45_converges_partial n t ps f : Sane n ps -> Calm ps -> (forall k, act_ok (f k)) -> fair n t ps f -> exists N, forall j, N <= j -> Balanced n (gat n t ps f j) /\ gat n t ps f j = gat n t ps f N.
Proof. intros V C OK F. apply fair_balanced; [done| |done]. split; [done|by left]. Qed.
Print Assumptions c45_converges_partial.
Theorem c45_finitely_many_changes n t ps : Sane n ps -> Calm ps -> exists K, forall l, Forall act_ok l -> changes n t ps l <= K.
Proof. intros V C. assert (I : Inv n ps) by (split; [done|by left]). destruct (Meas_ex n ps I) as [K M]. exists K. intros l. by apply changes_bound. Qed.
Print Assumptions c45_finitely_many_changes.
Theorem c45_never_stuck_partial n t ps l : Sane n ps -> Calm ps -> Forall act_ok l -> let ps' := grun n t ps l in
  (exists x p, x ∈ ps' /\ p ∈ pprep x /\ prepared (pid x) p ps' <> ps') \/ (forall o, orc_ok o -> rebalance o n t ps' <> ps') \/ (Balanced n ps' /\ forall o, orc_ok o -> rebalance o n t ps' = ps').
Proof. intros V C H. apply progress, Inv_run; [done|]. split; [done|by left]. Qed.
Print Assumptions c45_never_stuck_partial.
Theorem c45_owner_or_receiver n t ps l : Sane n ps -> Calm ps -> Forall act_ok l -> (forall q, q < n -> Owned ps q) \/ (exists o l', l = Reb o :: l') ->
  forall q, q < n -> Owned (grun n t ps l) q \/ exists x, x ∈ grun n t ps l /\ pstat x = Active /\ q ∈ prdy x.
Proof. intros V C H D. apply (Cared_run n t ps l H); [split; [done|by left]|]. destruct D as [D|D]; [left|by right]. intros q Q. left. by apply D. Qed.
Print Assumptions c45_owner_or_receiver.
Theorem c45_one_owner n t ps l : Sane n ps -> Calm ps -> Forall act_ok l -> forall x y p, x ∈ grun n t ps l -> y ∈ grun n t ps l -> p ∈ pown x -> p ∈ pown y -> x = y.
Proof. intros V C H. assert (I : Inv n (grun n t ps l)) by (apply Inv_run; [done|]; split; [done|by left]). destruct I as [[]]. done. Qed.
Print Assumptions c45_one_owner.
(** also while a rebalance is under way, when only some of the members have received what the leader decided *)
Theorem c45_one_owner_midway n t ps l o sel : Sane n ps -> Calm ps -> Forall act_ok l -> orc_ok o ->
  forall x y p, x ∈ midway sel o n t (grun n t ps l) -> y ∈ midway sel o n t (grun n t ps l) -> p ∈ pown x -> p ∈ pown y -> x = y.
Proof. intros V C H O. assert (I : Inv n (grun n t ps l)) by (apply Inv_run; [done|]; split; [done|by left]). destruct I as [V' _]. intros x y p. by apply midway_one. Qed.
Print Assumptions c45_one_owner_midway.
(** one member with three partitions and a new one: after a prepare and two more rebalances the new one has one *)
Definition ps0 : list peer := [mkPeer 1 Active 0 {[0; 1; 2]} ∅ ∅; mkPeer 2 Active 0 ∅ ∅ ∅].
Example c45_example : Sane 3 ps0 /\ Calm ps0 /\ (pown <$> grun 3 7 ps0 [Reb o0; Prep 2 1; Reb o0; Reb o0]) = [{[0; 2]}; {[1]}] /\ (pown <$> grun 3 7 ps0 [Reb o0; Prep 2 1; Reb o0]) = [{[0; 2]}; ∅].
Proof.
  assert (E : forall c, c ∈ ps0 -> c = mkPeer 1 Active 0 {[0; 1; 2]} ∅ ∅ \/ c = mkPeer 2 Active 0 ∅ ∅ ∅) by (intros c; unfold ps0; rewrite !elem_of_cons, elem_of_nil; tauto).
  split_and!.
  - split.
    + apply (bool_decide_unpack _). by vm_compute.
    + intros x X. destruct (E x X) as [->| ->]; left; reflexivity.
    + eexists. split; [left|reflexivity].
    + intros x y p X Y P P'. destruct (E x X) as [->| ->], (E y Y) as [->| ->]; cbn [pown] in *; [reflexivity|set_solver|set_solver|reflexivity].
    + intros x p X P. destruct (E x X) as [->| ->]; cbn [pown] in *; [|set_solver]. assert (p = 0 \/ p = 1 \/ p = 2) by set_solver. lia.
  - intros x X. destruct (E x X) as [->| ->]; split; reflexivity.
  - apply (bool_decide_unpack _). by vm_compute.
  - apply (bool_decide_unpack _). by vm_compute.
Qed.
(** the new member is ready for partition 1 and has received the plan, the old one has not: nobody but the old one has 1 *)
Example c45_midway_example : (pown <$> midway (fun x => pid x =? 2) o0 3 7 (grun 3 7 ps0 [Reb o0; Prep 2 1])) = [{[0; 1; 2]}; ∅] /\ (pown <$> midway (fun x => pid x =? 1) o0 3 7 (grun 3 7 ps0 [Reb o0; Prep 2 1])) = [{[0; 2]}; ∅].
Proof. split; apply (bool_decide_unpack _); by vm_compute. Qed.
(** a fair schedule: rebalance and finish every preparation, in turn *)
Example c45_fair_example : let f k := if Nat.even k then Reb o0 else Prep 2 1 in (forall k, act_ok (f k)) /\ (forall m, exists k o, m <= k /\ f k = Reb o) /\ Balanced 3 (gat 3 7 ps0 f 6).
Proof.
  simpl. split_and!.
  - intros k. by destruct (Nat.even k).
  - intros m. exists (2 * m), o0. split; [lia|]. by rewrite Nat.even_mul.
  - assert (G : gat 3 7 ps0 (fun k => if Nat.even k then Reb o0 else Prep 2 1) 6 = [mkPeer 1 Active 0 {[0; 2]} ∅ ∅; mkPeer 2 Active 0 {[1]} ∅ ∅]) by (apply (bool_decide_unpack _); by vm_compute). rewrite G. clear G.
    split_and!.
    + intros q Q. destruct (decide (q = 1)) as [->|]; [eexists; split; [right; left|cbn [pown]; set_solver]|]. eexists. split; [left|]. cbn [pown]. assert (q = 0 \/ q = 2) as [->| ->] by lia; set_solver.
    + intros x X. assert (x = mkPeer 1 Active 0 {[0; 2]} ∅ ∅ \/ x = mkPeer 2 Active 0 {[1]} ∅ ∅) as [->| ->] by (rewrite !elem_of_cons, elem_of_nil in X; tauto); try split; try intros ?; try reflexivity; discriminate.
    + intros x X. assert (x = mkPeer 1 Active 0 {[0; 2]} ∅ ∅ \/ x = mkPeer 2 Active 0 {[1]} ∅ ∅) as [->| ->] by (rewrite !elem_of_cons, elem_of_nil in X; tauto); try split; try intros ?; try reflexivity; discriminate.
    + intros x y X Y _ _. assert (x = mkPeer 1 Active 0 {[0; 2]} ∅ ∅ \/ x = mkPeer 2 Active 0 {[1]} ∅ ∅) as EX by (rewrite !elem_of_cons, elem_of_nil in X; tauto).
      assert (y = mkPeer 1 Active 0 {[0; 2]} ∅ ∅ \/ y = mkPeer 2 Active 0 {[1]} ∅ ∅) as EY by (rewrite !elem_of_cons, elem_of_nil in Y; tauto). destruct EX as [->| ->], EY as [->| ->]; vm_compute; lia.
Qed.

(** ** C46 *)
Theorem c46_earliest_first o n t cs i p c1 q : orc_ok o -> NoDup (cid <$> cs) -> (exists c, c ∈ cs /\ cstat c <> Inactive) -> (i, (t, p)) ∈ prepares o n t cs ->
  c1 ∈ cs -> cstat c1 = Inactive -> firstOwner t cs q (cid c1) -> exists d, d ∈ cs /\ cstat d = Inactive /\ firstOwner t cs p (cid d) /\ ((cleft d < cleft c1)%Z \/ (cleft d = cleft c1 /\ cid d <= cid c1)).
Proof. intros O N A. by apply drain_first. Qed.
Print Assumptions c46_earliest_first.
Theorem c46_goes_on o n t cs c1 q : orc_ok o -> NoDup (cid <$> cs) -> (exists c, c ∈ cs /\ cstat c <> Inactive) ->
  (forall c, c ∈ cs -> sound c -> cprep c = [] /\ crdy c = []) -> (forall p, p < n -> exists c, c ∈ cs /\ p ∈ owned t c) ->
  c1 ∈ cs -> cstat c1 = Inactive -> firstOwner t cs q (cid c1) -> exists i p, (i, (t, p)) ∈ prepares o n t cs.
Proof. intros O N A Q1 Q2. apply (drain_goes o n t cs O N A). by split. Qed.
Print Assumptions c46_goes_on.
(** members 1 and 2 are leaving, 2 since earlier; member 3 has much more than 4 *)
Definition cs5 : list claim := [mkClaim 1 [(7, [0])] true Inactive 9 [] []; mkClaim 2 [(7, [1])] true Inactive 5 [] []; mkClaim 3 [(7, [2; 3; 4; 5])] true Active 0 [] []; mkClaim 4 [] true Active 0 [] []].
Example c46_example : orc_ok o0 /\ NoDup (cid <$> cs5) /\ (exists c, c ∈ cs5 /\ cstat c <> Inactive) /\ prepares o0 6 7 cs5 = [(4, (7, 1))] /\ exists c1, c1 ∈ cs5 /\ cstat c1 = Inactive /\ firstOwner 7 cs5 0 (cid c1).
Proof.
  split_and!; [apply o0_ok|by apply (bool_decide_unpack _); vm_compute|eexists; split; [right; right; left|done]|by vm_compute|].
  eexists. split_and!; [left|done|]. exists [], (mkClaim 1 [(7, [0])] true Inactive 9 [] []), (drop 1 cs5). split_and!; [done|done|left|]. intros c H. set_solver.
Qed.

(** ** C48: histories of one member; [closes] counts the calls of close on the channel *)
Theorem c48_closed_at_most_once l : closes (mrun l) <= 1.
Proof. apply closed_once. Qed.
Print Assumptions c48_closed_at_most_once.
(** it is closed exactly when, after a leave call, an assignment arrived in which no topic has a partition *)
Theorem c48_closed_iff_drained l : closes (mrun l) = 1 <-> exists l1 now l2 a l3, l = l1 ++ ELeave now :: l2 ++ ESync (Some a) :: l3 /\ forall t ps, parsed a !! t = Some ps -> ps = [].
Proof. apply closed_iff. Qed.
Print Assumptions c48_closed_iff_drained.
Theorem c48_leaving_again_is_harmless l1 now l2 now' : let l := l1 ++ ELeave now :: l2 in mrun (l ++ [ELeave now']) = mrun l.
Proof. intros l. rewrite mrun_snoc. apply leave_again. by exists l1, now, l2. Qed.
Print Assumptions c48_leaving_again_is_harmless.
Definition asg (l : list (nat * list nat)) (p f : list tp) (g : nat -> nat) : event := ESync (Some (mkAsg l p f g)).
Example c48_example : closes (mrun [asg [(7, [])] [] [] id; ELeave 3; asg [(7, [1])] [] [] id; ELeave 4]) = 0 /\
  closes (mrun [asg [(7, [])] [] [] id; ELeave 3; asg [(7, [1])] [] [] id; ELeave 4; asg [(7, [])] [] [] id; asg [(7, [])] [] [] id; ELeave 5]) = 1 /\
  m_left (mrun [ELeave 3; ELeave 4]) = 3%Z.
Proof. by vm_compute. Qed.

(** ** C81: [work]: partitions the member has a worker for; [preping], [rdy]: what it reports as being prepared and prepared *)
Theorem c81_announced_is_not_owned_partial l : alltimely l -> forall x, x ∈ preping (mrun l) \/ x ∈ rdy (mrun l) -> x.2 ∉ work (mrun l).
Proof. apply not_both. Qed.
Print Assumptions c81_announced_is_not_owned_partial.
(** told to prepare partition 3, the member gets it assigned, as its owner has crashed, before the preparation ends *)
Definition late : list event := [asg [] [(7, 3)] [] id; EStart 0; EAssigned 7 [3]; ESynced 0].
Theorem c81_announced_is_not_owned_refuted : (7, 3) ∈ rdy (mrun late) /\ 3 ∈ work (mrun late).
Proof. split; apply (bool_decide_unpack _); by vm_compute. Qed.
Print Assumptions c81_announced_is_not_owned_refuted.
(** from then on, whatever happens (but another assignment of it, a forget instruction, or a call of PartitionPreparationFailed), as long as the member is active no leader tells anybody to
    prepare anything: no more moves in the group *)
Theorem c81_group_is_stuck_refuted l i own o n t cs : (forall e, e ∈ l -> ~ releases (7, 3) e) -> m_stat (mrun (late ++ l)) = Active ->
  orc_ok o -> NoDup (cid <$> cs) -> tells i own (mrun (late ++ l)) ∈ cs -> prepares o n t cs = [].
Proof.
  intros NR S1 O N H. apply prep_none; [exact O|exact N|eexists; split; [exact H|]; cbn [tells cstat]; rewrite S1; discriminate|]. intros [Q _]. destruct (Q _ H) as [_ E]; [split; [reflexivity|exact S1]|]. cbn [tells crdy] in E.
  assert (R : (7, 3) ∈ rdy (mrun (late ++ l))) by (apply ready_stays; [apply (bool_decide_unpack _); by vm_compute|done]). apply elem_of_elements in R. rewrite E in R. by apply elem_of_nil in R.
Qed.
Print Assumptions c81_group_is_stuck_refuted.
(** such a group: the member has everything, two others nothing *)
Example c81_stuck_example : let s := mrun (late ++ [asg [(7, [3])] [] [] id; EAssigned 7 [0; 1; 2]]) in m_stat s = Active /\ work s = {[0; 1; 2; 3]} /\
  prepares o0 4 7 [tells 1 [(7, [0; 1; 2; 3])] s; mkClaim 2 [] true Active 0 [] []; mkClaim 3 [] true Active 0 [] []] = [].
Proof. simpl. split_and!; [by vm_compute|apply (bool_decide_unpack _); by vm_compute|by vm_compute]. Qed.
Definition timely_history : list event := [asg [(7, [0])] [] [] id; EAssigned 7 [0]; asg [] [(7, 3)] [] id; EStart 0; ESynced 0; EAssigned 7 [3]].
Example c81_example : alltimely timely_history /\ rdy (mrun (take 5 timely_history)) = {[(7, 3)]} /\ work (mrun timely_history) = {[0; 3]}.
Proof.
  split_and!; [|apply (bool_decide_unpack _); by vm_compute..]. intros l1 e l2 E. unfold timely_history in E. destruct l1 as [|? l1]; [injection E as <- <-|injection E as <- E].
  { intros x X. simpl in X. set_solver. }
  destruct l1 as [|? l1]; [injection E as <- <-|injection E as <- E].
  { intros x [X|X]; apply elem_of_elements in X; vm_compute in X; by apply elem_of_nil in X. }
  destruct l1 as [|? l1]; [injection E as <- <-|injection E as <- E].
  { intros x X. simpl in X. apply elem_of_list_singleton in X as ->. apply (bool_decide_unpack _). by vm_compute. }
  destruct l1 as [|? l1]; [injection E as <- <-|injection E as <- E].
  { exact I. }
  destruct l1 as [|? l1]; [injection E as <- <-|injection E as <- E].
  { intros x X. vm_compute in X. injection X as <-. apply (bool_decide_unpack _). by vm_compute. }
  destruct l1 as [|? l1]; [injection E as <- <-|injection E as <- E].
  { intros x [X|X]; apply elem_of_elements in X; vm_compute in X; [by apply elem_of_nil in X|]. by apply elem_of_list_singleton in X as ->. }
  by destruct l1.
Qed.

(** ** C82: [sprep]: preparations the consumer has not given up *)
Theorem c82_nothing_else_is_given_up l a p : p ∈ sprep (mrun l) -> (forall t, (t, p) ∉ a_forget a) -> p ∈ sprep (mstep (mrun l) (ESync (Some a))).
Proof. apply forget_only. Qed.
Print Assumptions c82_nothing_else_is_given_up.
Theorem c82_forgotten_is_given_up_partial l a x : ~ (m_stat (mrun l) = Inactive /\ forall t ps, parsed a !! t = Some ps -> ps = []) -> x ∈ a_forget a -> x ∈ preping (mrun l) ∪ rdy (mrun l) ->
  (forall i, i < length (a_forget a) -> sees a i = i) -> x.2 ∉ sprep (mstep (mrun l) (ESync (Some a))).
Proof. apply forget_exact. Qed.
Print Assumptions c82_forgotten_is_given_up_partial.
(** two preparations are to be forgotten, both goroutines find the second one in the loop variable *)
Definition twoPreps : list event := [asg [] [(7, 3); (7, 4)] [] id; EStart 0; EStart 0; ELeave 5].
Definition forgetBoth : assignment := mkAsg [(7, [1])] [] [(7, 3); (7, 4)] (fun _ => 1).
Theorem c82_forgotten_is_given_up_refuted : sees_ok forgetBoth /\ {[(7, 3); (7, 4)]} = preping (mrun twoPreps) /\ sprep (mrun twoPreps) = {[3; 4]} /\
  preping (mrun (twoPreps ++ [ESync (Some forgetBoth)])) = ∅ /\ sprep (mrun (twoPreps ++ [ESync (Some forgetBoth)])) = {[3]}.
Proof. split_and!; [|apply (bool_decide_unpack _); by vm_compute..]. intros i I. simpl in *. lia. Qed.
Print Assumptions c82_forgotten_is_given_up_refuted.
Example c82_example : sprep (mrun (twoPreps ++ [asg [(7, [1])] [] [(7, 3); (7, 4)] id])) = ∅ /\ sprep (mrun (twoPreps ++ [asg [(7, [1])] [] [(7, 3)] id])) = {[4]}.
Proof. split; apply (bool_decide_unpack _); by vm_compute. Qed.

(** ** C83: [starting], [syncing]: goroutines that will prepare a partition, that are preparing one *)
Theorem c83_announced_is_in_progress_partial t l : Forall (plain t) l -> forall x, x ∈ preping (mrun l) -> x ∈ starting (mrun l) \/ x ∈ syncing (mrun l) \/ x ∈ rdy (mrun l).
Proof. intros H. apply (busy t l H). Qed.
Print Assumptions c83_announced_is_in_progress_partial.
Definition lost : list event := [asg [] [(7, 3)] [] id; EStart 0; ESynced 0; asg [] [(7, 4)] [] id; EStart 0; ESync (Some (mkAsg [(7, [1])] [] [(7, 3); (7, 4)] (fun _ => 1))); asg [] [(7, 3)] [] id; EStart 0].
Theorem c83_announced_is_in_progress_refuted : (7, 3) ∈ preping (mrun lost) /\ starting (mrun lost) = [] /\ syncing (mrun lost) = [(7, 4)] /\ rdy (mrun lost) = ∅.
Proof. split_and!; [apply (bool_decide_unpack _); by vm_compute..|]. apply (bool_decide_unpack _). by vm_compute. Qed.
Print Assumptions c83_announced_is_in_progress_refuted.
Example c83_example : Forall (plain 7) (take 5 lost) /\ preping (mrun (take 5 lost)) = {[(7, 4)]} /\ syncing (mrun (take 5 lost)) = [(7, 4)].
Proof. split_and!; [|apply (bool_decide_unpack _); by vm_compute..]. repeat constructor; simpl; try lia; set_solver. Qed.

(** ** C84: a consumer with the strategies [l] gets partitions assigned; None is a nil dereference *)
Theorem c84_assignment_works_partial l t ps s : l = [] \/ SIncremental ∈ l -> is_Some (assignWith l t ps s).
Proof.
  intros H. unfold assignWith, hasIncr. rewrite bool_decide_eq_true_2; [done|]. unfold effective. apply elem_of_list_filter. split; [done|]. destruct H as [->|H]; [left|]. destruct l; [by apply elem_of_nil in H|done].
Qed.
Print Assumptions c84_assignment_works_partial.
Theorem c84_assignment_works_refuted l t ps s : l <> [] -> SIncremental ∉ l -> assignWith l t ps s = None.
Proof. intros NE NI. unfold assignWith, hasIncr. rewrite bool_decide_eq_false_2; [done|]. unfold effective. rewrite elem_of_list_filter. intros [_ H]. by destruct l. Qed.
Print Assumptions c84_assignment_works_refuted.
Example c84_example : assignWith [SSticky] 7 [0] fresh_member = None /\ is_Some (assignWith [SSticky; SIncremental] 7 [0] fresh_member).
Proof. split; [by vm_compute|]. apply c84_assignment_works_partial. right. right. left. Qed.
