From stdpp Require Import prelude list.
From Coq Require Import Lia.
From Verif.InterjectAll Require Import Model Proofs.
Open Scope nat_scope.

(** ** What the history says: independent of the states of the model *)
(** the partitions for which a worker has been made, in this order: the number of a worker is its place in the list *)
Fixpoint made (acts : list action) : list nat :=
  match acts with [] => [] | Assign p :: l => p :: made l | _ :: l => made l end.
(** the worker of a partition: the last one made for it, unless the partition has been revoked since *)
Fixpoint owner' (n : nat) (cur : option nat) (p : nat) (acts : list action) : option nat :=
  match acts with
  | [] => cur
  | Assign q :: l => owner' (S n) (if Nat.eqb q p then Some n else cur) p l
  | Revoke q :: l => owner' n (if Nat.eqb q p then None else cur) p l
  | _ :: l => owner' n cur p l
  end.
Definition owner (p : nat) (acts : list action) : option nat := owner' 0 None p acts.

Lemma made_app l1 l2 : made (l1 ++ l2) = made l1 ++ made l2.
Proof. induction l1 as [|a l IH]; [reflexivity|]. destruct a; cbn; rewrite ?IH; reflexivity. Qed.
Lemma owner_snoc p l a : forall n c, owner' n c p (l ++ [a]) = match a with Assign q => if Nat.eqb q p then Some (n + length (made l)) else owner' n c p l | Revoke q => if Nat.eqb q p then None else owner' n c p l | _ => owner' n c p l end.
Proof.
  induction l as [|e l IH]; intros n c; [destruct a; cbn; rewrite ?Nat.add_0_r; reflexivity|].
  destruct e; cbn; rewrite IH; destruct a; try reflexivity; rewrite ?Nat.add_succ_r; reflexivity.
Qed.
Definition hist (acts : list action) (s : st) : Prop :=
  map part (ws s) = made acts /\ (forall p, find p (live s) = owner p acts) /\ (forall w x, ws s !! w = Some x -> (ready x = true <-> Ready w ∈ acts)).
Lemma map_part_upd (l : list worker) w x x' : l !! w = Some x -> part x' = part x -> map part (<[w := x']> l) = map part l.
Proof.
  revert w. induction l as [|a l IH]; intros w H P; [reflexivity|]. destruct w as [|w]; cbn in H; [injection H as ->; cbn; rewrite P; reflexivity|].
  change (map part (a :: <[w := x']> l) = map part (a :: l)). cbn. f_equal. apply IH; assumption.
Qed.
Lemma ready_snoc w a acts : (forall v, a <> Ready v) -> Ready w ∈ acts ++ [a] <-> Ready w ∈ acts.
Proof. intros N. rewrite elem_of_app, elem_of_list_singleton. split; [intros [H|H]; [exact H|destruct (N w); congruence]|auto]. Qed.
Lemma find_drop q p l : find p (drop q l) = if Nat.eqb q p then None else find p l.
Proof.
  unfold find, drop. induction l as [|[r v] l IH]; [destruct (Nat.eqb q p); reflexivity|]. cbn. destruct (Nat.eqb_spec r q) as [->|D]; cbn; [destruct (Nat.eqb q p) eqn:Z; exact IH|].
  destruct (Nat.eqb_spec r p) as [->|D']; cbn; [destruct (Nat.eqb_spec q p); [congruence|reflexivity]|exact IH].
Qed.
Lemma find_cons p q w l : find p ((q, w) :: l) = if Nat.eqb q p then Some w else find p l.
Proof. unfold find. cbn. destruct (Nat.eqb q p); reflexivity. Qed.
Lemma made_snoc l a : (forall p, a <> Assign p) -> made (l ++ [a]) = made l.
Proof. intros N. rewrite made_app. destruct a; cbn; rewrite ?app_nil_r; try reflexivity. destruct (N p); reflexivity. Qed.
Lemma hist_step b s a s' acts : step b s a = Some s' -> hist acts s -> (forall w, Ready w ∈ acts -> w < length (ws s)) -> hist (acts ++ [a]) s' /\ (forall w, Ready w ∈ acts ++ [a] -> w < length (ws s')).
Proof.
  intros E (M & O & R) L.
  assert (Hu : forall w x x' s'', ws s !! w = Some x -> ws s'' = <[w := x']> (ws s) -> part x' = part x -> ready x' = ready x -> live s'' = live s -> (forall p, a <> Assign p) -> (forall p, a <> Revoke p) -> (forall v, a <> Ready v) -> hist (acts ++ [a]) s'' /\ (forall w, Ready w ∈ acts ++ [a] -> w < length (ws s''))).
  { intros w x x' s'' X W P Q Lv N1 N2 N3. split; [split_and!|].
    - rewrite W, (map_part_upd _ _ x) by assumption. rewrite made_snoc by exact N1. exact M.
    - intros p. rewrite Lv, O. unfold owner. rewrite owner_snoc. destruct a; try reflexivity; [destruct (N1 p0)|destruct (N2 p0)]; reflexivity.
    - intros v y V. rewrite W in V. rewrite ready_snoc by exact N3. apply upd_lookup in V as [[-> ->]|[_ V]]; [rewrite Q|]; eauto.
    - intros v. rewrite ready_snoc by exact N3. rewrite W, insert_length. apply L. }
  assert (Hs : forall s'', live s'' = live s -> ws s'' = ws s -> (forall p, a <> Assign p) -> (forall p, a <> Revoke p) -> (forall v, a <> Ready v) -> hist (acts ++ [a]) s'' /\ (forall w, Ready w ∈ acts ++ [a] -> w < length (ws s''))).
  { intros s'' Lv W N1 N2 N3. split; [split_and!|].
    - rewrite W, made_snoc by exact N1. exact M.
    - intros p. rewrite Lv, O. unfold owner. rewrite owner_snoc. destruct a; try reflexivity; [destruct (N1 p0)|destruct (N2 p0)]; reflexivity.
    - intros v y V. rewrite W in V. rewrite ready_snoc by exact N3. eauto.
    - intros v. rewrite ready_snoc by exact N3. rewrite W. apply L. }
  destruct a as [q|q|w|w|w|w|w g|w|ps| | | |]; [..|apply call_case in E as (_ & _ & ->); apply Hs; auto; discriminate| | | |]; cases E.
  all: try (eapply Hu; [eassumption|reflexivity|..]; norm; try reflexivity; try congruence; discriminate).
  all: try (apply Hs; norm; auto; discriminate).
  - clear Hu Hs. assert (Ln : length (ws s) = length (made acts)) by (rewrite <- M, map_length; reflexivity). split; [split_and!|]; norm.
    + rewrite map_app, made_app, M. reflexivity.
    + intros p. rewrite find_cons. unfold owner. rewrite owner_snoc, Ln. destruct (Nat.eqb q p); [reflexivity|apply O].
    + intros v y V. rewrite ready_snoc by discriminate. apply lookup_app_Some in V as [V|[Ge V]]; [eauto|]. destruct (v - length (ws s)) as [|[]] eqn:Z; [|discriminate|discriminate]. injection V as <-. cbn. split; [discriminate|]. intros K. specialize (L _ K). lia.
    + intros v. rewrite ready_snoc by discriminate. intros K. specialize (L _ K). rewrite app_length. cbn. lia.
  - clear Hu Hs. rename n into w, w into x. split; [split_and!|]; norm.
    + rewrite (map_part_upd _ _ x) by (assumption || reflexivity). rewrite made_snoc by discriminate. exact M.
    + intros p. rewrite find_drop. unfold owner. rewrite owner_snoc. destruct (Nat.eqb q p); [reflexivity|apply O].
    + intros v y V. rewrite ready_snoc by discriminate. apply upd_lookup in V as [[-> ->]|[_ V]]; eauto. exact (R _ _ Heqo1).
    + intros v. rewrite ready_snoc by discriminate. rewrite insert_length. apply L.
  - clear Hu Hs. split; [split_and!|]; norm.
    + rewrite (map_part_upd _ _ w0) by (assumption || reflexivity). rewrite made_snoc by discriminate. exact M.
    + intros p. rewrite O. unfold owner. rewrite owner_snoc. reflexivity.
    + intros v y V. rewrite elem_of_app, elem_of_list_singleton. apply upd_lookup in V as [[-> ->]|[D V]]; [cbn; tauto|]. rewrite (R _ _ V). split; [auto|]. intros [K|K]; [exact K|congruence].
    + intros v. rewrite elem_of_app, elem_of_list_singleton, insert_length. intros [K|[= ->]]; [exact (L _ K)|eapply lookup_lt_Some; eassumption].
Qed.
Lemma hist_run b acts : forall s, run b init acts = Some s -> hist acts s /\ (forall w, Ready w ∈ acts -> w < length (ws s)).
Proof.
  induction acts as [|a l IH] using rev_ind; intros s R.
  - injection R as <-. split; [split_and!; [reflexivity|reflexivity|intros w x X; discriminate]|intros w H; inversion H].
  - rewrite run_snoc in R. destruct (run b init l) as [s0|]; [|discriminate]. destruct (IH s0 eq_refl) as [H L]. exact (hist_step _ _ _ _ _ R H L).
Qed.
Lemma inv_at b acts s : run b init acts = Some s -> inv b s.
Proof. intros R. exact (inv_run _ _ _ _ R (inv_init b)). Qed.
Lemma hist_at b acts s : run b init acts = Some s -> hist acts s.
Proof. intros R. apply (hist_run _ _ _ R). Qed.

(** ** The events one by one *)
Lemma trace_step b s a s' : step b s a = Some s' -> trace s' = trace s \/ exists e, trace s' = trace s ++ [e].
Proof.
  intros E. destruct a as [q|q|w|w|w|w|w g|w|ps| | | |]; [..|apply call_case in E as (_ & _ & ->); eauto| | | |]; cases E; norm; rewrite ?app_nil_r; eauto.
Qed.
Lemma trace_split b acts : forall s t1 e t2, run b init acts = Some s -> trace s = t1 ++ e :: t2 ->
  exists l1 a l2 s1 s2, acts = l1 ++ a :: l2 /\ run b init l1 = Some s1 /\ step b s1 a = Some s2 /\ trace s1 = t1 /\ trace s2 = t1 ++ [e].
Proof.
  induction acts as [|a l IH] using rev_ind; intros s t1 e t2 R T.
  - injection R as <-. destruct t1; discriminate.
  - rewrite run_snoc in R. destruct (run b init l) as [s0|] eqn:R0; [|discriminate]. destruct (trace_step _ _ _ _ R) as [Q|(e' & Q)].
    + rewrite Q in T. destruct (IH _ _ _ _ eq_refl T) as (l1 & a' & l2 & s1 & s2 & -> & P). exists l1, a', (l2 ++ [a]), s1, s2. rewrite <- app_assoc. auto.
    + destruct t2 as [|y t2 _] using rev_ind.
      * rewrite T in Q. apply app_inj_tail in Q as [-> ->]. exists l, a, [], s0, s. auto.
      * rewrite T in Q. rewrite app_comm_cons, app_assoc in Q. apply app_inj_tail in Q as [Q ->]. destruct (IH _ _ _ _ eq_refl (eq_sym Q)) as (l1 & a' & l2 & s1 & s2 & -> & P). exists l1, a', (l2 ++ [a]), s1, s2. rewrite <- app_assoc. auto.
Qed.
Lemma trace_mono b acts : forall s s' e, run b s acts = Some s' -> e ∈ trace s -> e ∈ trace s'.
Proof.
  induction acts as [|a l IH]; intros s s' e R H; [injection R as <-; exact H|]. cbn in R. destruct (step b s a) as [s1|] eqn:E; [|discriminate]. apply (IH s1 s' e R).
  destruct (trace_step _ _ _ _ E) as [->|(e' & ->)]; [exact H|apply elem_of_app; left; exact H].
Qed.
Lemma run_cut b l1 a l2 s : run b init (l1 ++ a :: l2) = Some s -> exists s1 s2, run b init l1 = Some s1 /\ step b s1 a = Some s2 /\ run b s2 l2 = Some s.
Proof. rewrite run_app. destruct (run b init l1) as [s1|]; [|discriminate]. cbn. destruct (step b s1 a) as [s2|] eqn:E; [|discriminate]. eauto. Qed.

(** ** C109 *)
Lemma live_find p l : p ∈ map fst l <-> find p l <> None.
Proof.
  unfold find. induction l as [|[q w] l IH]; [split; [intros H; inversion H|cbn; congruence]|]. cbn. destruct (Nat.eqb_spec q p) as [->|D]; [split; [cbn; discriminate|left]|]. rewrite elem_of_cons, <- IH. split; [intros [H|H]; [congruence|exact H]|auto].
Qed.
Lemma snapshot b l1 ps l2 s : run b init (l1 ++ Call ps :: l2) = Some s -> NoDup ps /\ (forall p, p ∈ ps <-> owner p l1 <> None) /\ EvCall ps ∈ trace s.
Proof.
  intros R. destruct (run_cut _ _ _ _ _ R) as (s1 & s2 & R1 & E & R2). pose proof (inv_at _ _ _ R1) as I. destruct (hist_at _ _ _ R1) as (_ & O & _). apply call_case in E as (_ & P & ->). split_and!.
  - rewrite P. apply I.
  - intros p. rewrite P, live_find, O. reflexivity.
  - eapply trace_mono; [exact R2|]. cbn. apply elem_of_app. right. left.
Qed.
Lemma occ_mid p t1 t2 : occ (isB p) (t1 ++ EvBegin p :: t2) = occ (isB p) t1 + 1 + occ (isB p) t2.
Proof. rewrite occ_app, occ_cons. cbn. rewrite Nat.eqb_refl. lia. Qed.
Lemma once b acts s t1 p t2 : run b init acts = Some s -> trace s = t1 ++ EvBegin p :: t2 -> EvBegin p ∉ t1 /\ EvBegin p ∉ t2 /\ EvErr p ∉ trace s.
Proof.
  intros R T. pose proof (inv_at _ _ _ R) as I. destruct (i_tot _ _ I) as (Z & _ & _). specialize (Z p). unfold total in Z. assert (Q : occ (isB p) (trace s) = occ (isB p) t1 + 1 + occ (isB p) t2) by (rewrite T; apply occ_mid).
  split_and!; intros H; [pose proof (occ_in (isB p) _ _ H (Nat.eqb_refl p)); lia..|]. apply (i_err _ _ I) in H.
  pose proof (occ_in (isF p) _ _ H) as F. unfold isF in F at 1. cbn in F. rewrite Nat.eqb_refl in F. specialize (F eq_refl). lia.
Qed.
Lemma occ_some p t : 1 <= occ (isB p) t -> EvBegin p ∈ t.
Proof.
  induction t as [|e t IH]; [rewrite occ_nil; lia|]. rewrite occ_cons. destruct (isB p e) eqn:B; [|intros H; right; apply IH; lia].
  intros _. destruct e; try discriminate. apply Nat.eqb_eq in B. subst. left.
Qed.
Lemma begun_before_ended b acts s t1 p t2 : run b init acts = Some s -> trace s = t1 ++ EvEnd p :: t2 -> EvBegin p ∈ t1 /\ EvEnd p ∉ t1 /\ EvEnd p ∉ t2.
Proof.
  intros R T. split.
  - destruct (trace_split _ _ _ _ _ _ R T) as (l1 & a & l2 & s1 & s2 & -> & R1 & E & T1 & T2). pose proof (inv_step _ _ _ _ E (inv_at _ _ _ R1)) as I.
    destruct (i_tot _ _ I) as (_ & B & _). specialize (B p). rewrite T2, !occ_app, !occ_cons, !occ_nil in B. cbn in B. rewrite Nat.eqb_refl in B. apply occ_some. lia.
  - destruct (i_tot _ _ (inv_at _ _ _ R)) as (Z & B & _). specialize (Z p). specialize (B p). unfold total in Z. rewrite T in B at 2. rewrite occ_app, occ_cons in B. cbn in B. rewrite Nat.eqb_refl in B.
    split; intros H; pose proof (occ_in (isE p) _ _ H (Nat.eqb_refl p)); lia.
Qed.
Lemma complete b acts s ps t1 t2 p : run b init acts = Some s -> EvCall ps ∈ trace s -> trace s = t1 ++ EvReturn :: t2 -> p ∈ ps -> EvEnd p ∈ t1 \/ EvErr p ∈ t1.
Proof.
  intros R C T P. destruct (trace_split _ _ _ _ _ _ R T) as (l1 & a & l2 & s1 & s2 & -> & R1 & E & T1 & T2). pose proof (inv_at _ _ _ R1) as I. subst t1.
  assert (C1 : EvCall ps ∈ trace s1).
  { assert (A : a = Return). { destruct a as [q|q|w|w|w|w|w g|w|qs| | | |]; [..|apply call_case in E as (_ & _ & ->); norm; apply app_inj_tail in T2 as [_ T2]; discriminate T2| | | |]; cases E; norm; rewrite ?app_nil_r in T2; try reflexivity;
        try (apply app_inj_tail in T2 as [_ T2]; discriminate T2); try (apply (f_equal length) in T2; rewrite app_length in T2; cbn in T2; lia). }
    subst a. pose proof (run_cut _ _ _ _ _ R) as (s1' & s2' & R1' & E' & R2). assert (s1' = s1) as -> by congruence. assert (s2' = s2) as -> by congruence.
    rewrite T in C. apply elem_of_app in C as [C|C]; [exact C|]. apply elem_of_cons in C as [C|C]; [discriminate|]. exfalso.
    pose proof (inv_step _ _ _ _ E I) as I2.
    assert (forall l s s', run b s l = Some s' -> started s = true -> inv b s -> EvCall ps ∈ trace s' -> EvCall ps ∈ trace s) as Back.
    { clear. induction l as [|a l IH]; intros s s' R St I H; [injection R as <-; exact H|]. cbn in R. destruct (step b s a) as [s1|] eqn:E; [|discriminate].
      assert (N : forall qs, a <> Call qs). { intros qs ->. apply call_case in E as (F & _). congruence. }
      assert (St1 : started s1 = true) by (destruct (started_step _ _ _ _ E) as [->|(qs & -> & _)]; [exact St|destruct (N qs); reflexivity]).
      eapply callev_step; [exact E|exact N|]. eapply IH; [exact R|exact St1|eapply inv_step; eassumption|exact H]. }
    assert (St : started s2 = true) by (apply (i_ret _ _ I2); rewrite T2; apply elem_of_app; right; left).
    assert (C2 : EvCall ps ∈ trace s2) by (eapply Back; [exact R2|exact St|exact I2|rewrite T; apply elem_of_app; right; right; exact C]).
    assert (Once : forall l s, run b init l = Some s -> forall x y z, trace s = x ++ EvCall ps :: y -> EvCall z ∉ y).
    { clear. intros l s R x y z T. destruct (trace_split _ _ _ _ _ _ R T) as (l1 & a & l2 & s1 & s2 & -> & R1 & E & T1 & T2).
      pose proof (run_cut _ _ _ _ _ R) as (s1' & s2' & R1' & E' & R2). assert (s1' = s1) as -> by congruence. assert (s2' = s2) as -> by congruence.
      pose proof (inv_step _ _ _ _ E (inv_at _ _ _ R1)) as I2. assert (St : started s2 = true) by (apply (i_snap _ _ I2 ps); rewrite T2; apply elem_of_app; right; left).
      assert (Q : forall l s s', run b s l = Some s' -> started s = true -> exists u, trace s' = trace s ++ u /\ EvCall z ∉ u).
      { clear. induction l as [|a l IH]; intros s s' R St; [injection R as <-; exists []; rewrite app_nil_r; split; [reflexivity|intros H; inversion H]|]. cbn in R. destruct (step b s a) as [s1|] eqn:E; [|discriminate].
        assert (N : forall qs, a <> Call qs). { intros qs ->. apply call_case in E as (F & _). congruence. }
        assert (St1 : started s1 = true) by (destruct (started_step _ _ _ _ E) as [->|(qs & -> & _)]; [exact St|destruct (N qs); reflexivity]).
        destruct (IH _ _ R St1) as (u & U & V). destruct (trace_step _ _ _ _ E) as [Q|(e & Q)]; rewrite Q in U; [eauto|]. exists (e :: u). rewrite <- app_assoc in U. split; [exact U|].
        rewrite elem_of_cons. intros [<-|H]; [|contradiction]. destruct a as [q|q|w|w|w|w|w g|w|qs| | | |]; [..|destruct (N qs); reflexivity| | | |]; cases E; norm; rewrite ?app_nil_r in Q; try (apply app_inj_tail in Q as [_ Q]; discriminate Q); apply (f_equal length) in Q; rewrite app_length in Q; cbn in Q; lia. }
      destruct (Q _ _ _ R2 St) as (u & U & V). rewrite U, T2, <- app_assoc in T. apply app_inv_head in T. injection T as ->. exact V. }
    rewrite T2 in C2. apply elem_of_app in C2 as [C2|C2]; [|el]. apply elem_of_list_split in C2 as (x & y & C2). rewrite C2, <- app_assoc in T. cbn in T.
    apply (Once _ _ R _ _ ps T). apply elem_of_app. right. right. exact C. }
  destruct (i_snap _ _ I ps C1) as (_ & Q & _). specialize (Q p P).
  assert (I2 : inv b s2) by (eapply inv_step; eassumption). destruct (i_ret _ _ I2) as (_ & D1 & D2 & D3); [rewrite T2; apply elem_of_app; right; left|].
  assert (W : todo s1 = [] /\ sending s1 = None /\ waiting s1 = []).
  { destruct a as [q|q|w|w|w|w|w g|w|qs| | | |]; [..|apply call_case in E as (_ & _ & ->); norm; apply app_inj_tail in T2 as [_ T2]; discriminate T2| | | |]; cases E; norm; rewrite ?app_nil_r in T2;
        try (apply app_inj_tail in T2 as [_ T2]; discriminate T2); try (apply (f_equal length) in T2; rewrite app_length in T2; cbn in T2; lia). auto. }
  destruct W as (W1 & W2 & W3). rewrite W1, W2, W3 in Q. destruct Q as [Q|[(v & Q)|[Q|Q]]]; [inversion Q|discriminate|inversion Q|exact Q].
Qed.
