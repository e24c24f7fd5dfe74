From Coq Require Import List Bool Arith Lia Permutation FinFun.
From Verif.BTree Require Import Proofs.
From Verif.Heap Require Import Model.
Import ListNotations.

(** ** Positions: [sub i k] = slot k is slot i or below it *)
Inductive sub (i : nat) : nat -> Prop :=
| sub_refl : sub i i
| sub_l k : sub i k -> sub i (k * 2 + 1)
| sub_r k : sub i k -> sub i (k * 2 + 2).

Lemma sub_le i k : sub i k -> i <= k.
Proof. induction 1; lia. Qed.
Lemma sub_trans i j k : sub i j -> sub j k -> sub i k.
Proof. induction 2; auto using sub. Qed.
Lemma sub_up i k k' : sub i k' -> k' = k * 2 + 1 \/ k' = k * 2 + 2 -> i = k' \/ sub i k.
Proof. intros H E. inversion H; subst; auto; right; replace k with k0 by lia; auto. Qed.
Lemma sub_case i k : sub i k -> k = i \/ sub (i * 2 + 1) k \/ sub (i * 2 + 2) k.
Proof.
  induction 1 as [|k H IH|k H IH]; auto; destruct IH as [->|[IH|IH]]; auto using sub.
Qed.
Lemma sub_case2 i k : sub i k ->
  k = i \/ k = i * 2 + 1 \/ k = i * 2 + 2 \/ exists g, i * 4 + 3 <= g <= i * 4 + 6 /\ sub g k.
Proof.
  intros H. apply sub_case in H as [H|[H|H]]; auto; apply sub_case in H as [H|[H|H]]; auto;
    right; right; right; eexists; (split; [|exact H]); lia.
Qed.
Lemma sub_chain a b k : sub a k -> sub b k -> sub a b \/ sub b a.
Proof.
  intros H. revert b. induction H as [|k H IH|k H IH]; intros b Hb; auto.
  - destruct (sub_up b k (k * 2 + 1) Hb (or_introl eq_refl)) as [->|Q]; auto using sub.
  - destruct (sub_up b k (k * 2 + 2) Hb (or_intror eq_refl)) as [->|Q]; auto using sub.
Qed.
Lemma sub_anti a b : sub a b -> sub b a -> a = b.
Proof. intros A B. apply sub_le in A, B. lia. Qed.
Lemma sub_root k : sub 0 k.
Proof.
  induction k as [k IH] using lt_wf_ind. destruct k as [|k]; [constructor|].
  destruct (Nat.Even_or_Odd k) as [[m E]|[m E]].
  - replace (S k) with (m * 2 + 1) by lia. constructor. apply IH. lia.
  - replace (S k) with (m * 2 + 2) by lia. constructor. apply IH. lia.
Qed.

Lemma level_l i : level (i * 2 + 1) = S (level i).
Proof. unfold level. replace (i * 2 + 1 + 1) with (2 * (i + 1)) by lia. apply Nat.log2_double. lia. Qed.
Lemma level_r i : level (i * 2 + 2) = S (level i).
Proof. unfold level. replace (i * 2 + 2 + 1) with (2 * (i + 1) + 1) by lia. apply Nat.log2_succ_double. lia. Qed.
Notation dir := isMinLevel.
Lemma dir_l i : dir (i * 2 + 1) = negb (dir i).
Proof. unfold dir. rewrite level_l, Nat.even_succ, <- Nat.negb_even. auto. Qed.
Lemma dir_r i : dir (i * 2 + 2) = negb (dir i).
Proof. unfold dir. rewrite level_r, Nat.even_succ, <- Nat.negb_even. auto. Qed.

Lemma parent_l i : parent (i * 2 + 1) = i.
Proof. unfold parent. replace (i * 2 + 1 - 1) with (i * 2) by lia. apply Nat.div_mul. lia. Qed.
Lemma parent_r i : parent (i * 2 + 2) = i.
Proof. unfold parent. replace (i * 2 + 2 - 1) with (1 + i * 2) by lia. rewrite Nat.div_add by lia. auto. Qed.

Lemma has_parent i : 0 < i -> exists q, parent i = q /\ (i = q * 2 + 1 \/ i = q * 2 + 2) /\ dir i = negb (dir q).
Proof.
  intros H. destruct i as [|k]; [lia|]. destruct (Nat.Even_or_Odd k) as [[m E]|[m E]].
  - exists m. replace (S k) with (m * 2 + 1) by lia. rewrite parent_l, dir_l. auto.
  - exists m. replace (S k) with (m * 2 + 2) by lia. rewrite parent_r, dir_r. auto.
Qed.

Section P.
  Context {P : Type} (lt : P -> P -> bool) (W : weak_order lt).
  Notation heap := (heap P).

  (** ** Directed comparison *)
  Definition dle (d : bool) (x y : P) : Prop := if d then lt y x = false else lt x y = false.
  Lemma asym x y : lt x y = true -> lt y x = false.
  Proof. apply wo_asym; auto. Qed.
  Lemma dle_refl d x : dle d x x.
  Proof. destruct d; cbn; apply W. Qed.
  Lemma ntrans x y z : lt x y = false -> lt y z = false -> lt x z = false.
  Proof.
    intros A B. exact (wo_neg _ W z y x B A).
  Qed.
  Lemma dle_trans d x y z : dle d x y -> dle d y z -> dle d x z.
  Proof. destruct d; cbn; intros A B; [eapply ntrans; [exact B|exact A]|eapply ntrans; [exact A|exact B]]. Qed.
  Lemma dle_neg d x y : dle (negb d) x y <-> dle d y x.
  Proof. destruct d; cbn; tauto. Qed.
  Lemma cmp_true d x y : eqb (lt x y) d = true -> dle d x y.
  Proof. intros H. apply eqb_prop in H. destruct d; cbn; auto using asym. Qed.
  Lemma cmp_false d x y : eqb (lt x y) d = false -> dle d y x.
  Proof. intros H. apply eqb_false_iff in H. destruct d, (lt x y) eqn:E; cbn; auto using asym; congruence. Qed.

  (** ** Heaps: what a sequence of swaps does *)
  Record rel (S : nat -> Prop) (h h' : heap) : Prop := {
    rel_len : len h' = len h; rel_value : value h' = value h; rel_maxed : maxed h' = maxed h;
    rel_perm : exists f g : nat -> nat, (forall k, g (f k) = k) /\ (forall k, f (g k) = k) /\
      (forall k, S k -> S (f k)) /\ (forall k, S k -> S (g k)) /\ (forall k, ~ S k -> f k = k) /\
      (forall k, arr h' k = arr h (f k)) }.

  Lemma rel_refl S h : rel S h h.
  Proof. split; auto. exists (fun k => k), (fun k => k). repeat split; auto. Qed.
  Lemma rel_trans S h1 h2 h3 : rel S h1 h2 -> rel S h2 h3 -> rel S h1 h3.
  Proof.
    intros [A1 A2 A3 (f & g & F1 & F2 & F3 & F4 & F5 & F6)] [B1 B2 B3 (f' & g' & G1 & G2 & G3 & G4 & G5 & G6)].
    split; try congruence. exists (fun k => f (f' k)), (fun k => g' (g k)). repeat split; auto.
    - intros k. rewrite F1. auto.
    - intros k. rewrite G2. auto.
    - intros k N. rewrite G5 by auto. auto.
    - intros k. rewrite G6, F6. auto.
  Qed.
  Lemma rel_weaken (S S' : nat -> Prop) h h' : (forall k, S k -> S' k) -> (forall k, {S k} + {~ S k}) -> rel S h h' -> rel S' h h'.
  Proof.
    intros Sub Dec [A1 A2 A3 (f & g & F1 & F2 & F3 & F4 & F5 & F6)]. split; auto. exists f, g. repeat split; auto.
    - intros k Hk. destruct (Dec k); auto. rewrite F5; auto.
    - intros k Hk. destruct (Dec k) as [Y|N]; auto. destruct (Dec (g k)) as [Y'|N']; [auto|].
      pose proof (F5 _ N') as Q. rewrite F2 in Q. rewrite <- Q. auto.
  Qed.

  Lemma swap_arr (h : heap) i j k : arr (swap h i j) k = if Nat.eqb k j then arr h i else if Nat.eqb k i then arr h j else arr h k.
  Proof. cbn. unfold upd. auto. Qed.
  Lemma swap_val (h : heap) i j k : val (swap h i j) k = if Nat.eqb k j then val h i else if Nat.eqb k i then val h j else val h k.
  Proof. unfold val. rewrite swap_arr. cbn. destruct (Nat.eqb k j), (Nat.eqb k i); auto. Qed.
  Lemma swap_rel (S : nat -> Prop) (h : heap) i j : S i -> S j -> rel S h (swap h i j).
  Proof.
    intros Si Sj. split; auto.
    set (f := fun k => if Nat.eqb k j then i else if Nat.eqb k i then j else k).
    assert (I : forall k, f (f k) = k).
    { intros k. unfold f. destruct (Nat.eqb_spec k j) as [->|].
      - destruct (Nat.eqb_spec i j); [auto|]. rewrite Nat.eqb_refl. auto.
      - destruct (Nat.eqb_spec k i) as [->|]; [rewrite Nat.eqb_refl; auto|].
        destruct (Nat.eqb_spec k j); [congruence|]. destruct (Nat.eqb_spec k i); congruence. }
    exists f, f. repeat split; auto.
    - intros k Hk. unfold f. destruct (Nat.eqb k j); auto. destruct (Nat.eqb k i); auto.
    - intros k Hk. unfold f. destruct (Nat.eqb k j); auto. destruct (Nat.eqb k i); auto.
    - intros k N. unfold f. destruct (Nat.eqb_spec k j) as [->|]; [contradiction|]. destruct (Nat.eqb_spec k i) as [->|]; [contradiction|auto].
    - intros k. rewrite swap_arr. unfold f. destruct (Nat.eqb k j); auto. destruct (Nat.eqb k i); auto.
  Qed.
  Lemma rel_in S h h' k : rel S h h' -> S k -> exists k', S k' /\ val h' k = val h k'.
  Proof.
    intros [A1 A2 A3 (f & g & F1 & F2 & F3 & F4 & F5 & F6)] Hk. exists (f k). split; auto. unfold val. rewrite A2, F6. auto.
  Qed.
  Lemma rel_out S h h' k : rel S h h' -> ~ S k -> val h' k = val h k.
  Proof. intros [A1 A2 A3 (f & g & F1 & F2 & F3 & F4 & F5 & F6)] Hk. unfold val. rewrite A2, F6, F5; auto. Qed.
  Lemma rel_out_arr S h h' k : rel S h h' -> ~ S k -> arr h' k = arr h k.
  Proof. intros [A1 A2 A3 (f & g & F1 & F2 & F3 & F4 & F5 & F6)] Hk. rewrite F6, F5; auto. Qed.

  Lemma rel_prefix h h' n : rel (fun k => k < n) h h' -> Permutation (map (arr h') (seq 0 n)) (map (arr h) (seq 0 n)).
  Proof.
    intros [A1 A2 A3 (f & g & F1 & F2 & F3 & F4 & F5 & F6)].
    replace (map (arr h') (seq 0 n)) with (map (arr h) (map f (seq 0 n))) by (rewrite map_map; apply map_ext; auto).
    apply Permutation_map. apply NoDup_Permutation.
    - apply FinFun.Injective_map_NoDup; [|apply seq_NoDup]. intros a b E. rewrite <- (F1 a), <- (F1 b). congruence.
    - apply seq_NoDup.
    - intros k. rewrite in_map_iff. split.
      + intros (x & <- & Hx). apply in_seq in Hx. apply in_seq. pose proof (F3 x). lia.
      + intros Hk. exists (g k). split; auto. apply in_seq in Hk. apply in_seq. pose proof (F4 k). lia.
  Qed.

  (** ** The min-max order *)
  Definition ok (h : heap) (j k : nat) : Prop := dle (dir j) (val h j) (val h k).
  Definition mm (h : heap) (n : nat) : Prop := forall j k, sub j k -> k < n -> ok h j k.
  Lemma ok_refl h j : ok h j j.
  Proof. apply dle_refl. Qed.

  (** ** best *)
  Definition cand (i n c : nat) : Prop := c < n /\ (c = i \/ c = i * 2 + 1 \/ c = i * 2 + 2 \/ i * 4 + 3 <= c <= i * 4 + 6).
  Lemma best_none h d i n : best lt h d i n = None -> n <= i * 2 + 1.
  Proof. unfold best, lchild. destruct (Nat.leb_spec n (i * 2 + 1)); [auto|discriminate]. Qed.
  Lemma best_some h d i n m : best lt h d i n = Some m -> cand i n m /\ forall c, cand i n c -> dle d (val h m) (val h c).
  Proof.
    unfold best, lchild, rchild. destruct (Nat.leb_spec n (i * 2 + 1)) as [|L]; [discriminate|]. intros [= <-].
    set (sel := fun m g => if (g <? n) && eqb (less lt h g m) d then g else m).
    assert (Step : forall m cs g, g = g -> (forall c, In c cs -> c < n -> dle d (val h m) (val h c)) ->
      forall c, In c (g :: cs) -> c < n -> dle d (val h (sel m g)) (val h c)).
    { intros m cs g _ H c Hc Lc. unfold sel. destruct (Nat.ltb_spec g n) as [Lg|Lg]; cbn [andb].
      - destruct (eqb (less lt h g m) d) eqn:E.
        + destruct Hc as [<-|Hc]; [apply dle_refl|]. eapply dle_trans; [apply (cmp_true _ _ _ E)|auto].
        + destruct Hc as [<-|Hc]; auto. apply (cmp_false _ _ _ E).
      - destruct Hc as [<-|Hc]; auto. lia. }
    assert (SelIn : forall m g, (sel m g = m) \/ (sel m g = g /\ g < n)).
    { intros m g. unfold sel. destruct (Nat.ltb_spec g n); cbn [andb]; auto. destruct (eqb (less lt h g m) d); auto. }
    assert (E0 : (if eqb (less lt h (i * 2 + 1) i) d then i * 2 + 1 else i) = sel i (i * 2 + 1)).
    { unfold sel. destruct (Nat.ltb_spec (i * 2 + 1) n); [auto|lia]. }
    rewrite E0.
    match goal with |- context [if (i * 2 + 2 <? n) && eqb ?x d then ?y else ?z] =>
      change (if (i * 2 + 2 <? n) && eqb x d then y else z) with (sel (sel i (i * 2 + 1)) (i * 2 + 2)) end.
    cbn [fold_left].
    assert (E1 : forall m k, k <= 3 -> (if ((i * 2 + 1) * 2 + 1 + k <? n) && ((i * 2 + 1) * 2 + 1 + k <=? (i * 2 + 2) * 2 + 2) && eqb (less lt h ((i * 2 + 1) * 2 + 1 + k) m) d
        then (i * 2 + 1) * 2 + 1 + k else m) = sel m (i * 4 + 3 + k)).
    { intros m k Hk. replace ((i * 2 + 1) * 2 + 1 + k) with (i * 4 + 3 + k) by lia.
      destruct (Nat.leb_spec (i * 4 + 3 + k) ((i * 2 + 2) * 2 + 2)); [|lia]. rewrite andb_true_r. auto. }
    pose proof (E1 (sel (sel i (i * 2 + 1)) (i * 2 + 2)) 0 ltac:(lia)) as Q0. rewrite !Nat.add_0_r in Q0. rewrite Q0.
    rewrite !E1 by lia. clear E0 E1 Q0.
    set (m1 := sel i (i * 2 + 1)). set (m2 := sel m1 (i * 2 + 2)). set (m3 := sel m2 (i * 4 + 3)).
    set (m4 := sel m3 (i * 4 + 3 + 1)). set (m5 := sel m4 (i * 4 + 3 + 2)). set (m6 := sel m5 (i * 4 + 3 + 3)).
    split.
    - assert (C1 : cand i n m1) by (destruct (SelIn i (i * 2 + 1)) as [Q|(Q & ?)]; unfold m1; rewrite Q; split; lia).
      assert (C2 : cand i n m2) by (destruct (SelIn m1 (i * 2 + 2)) as [Q|(Q & ?)]; unfold m2; rewrite Q; [exact C1|split; lia]).
      assert (C3 : cand i n m3) by (destruct (SelIn m2 (i * 4 + 3)) as [Q|(Q & ?)]; unfold m3; rewrite Q; [exact C2|split; lia]).
      assert (C4 : cand i n m4) by (destruct (SelIn m3 (i * 4 + 3 + 1)) as [Q|(Q & ?)]; unfold m4; rewrite Q; [exact C3|split; lia]).
      assert (C5 : cand i n m5) by (destruct (SelIn m4 (i * 4 + 3 + 2)) as [Q|(Q & ?)]; unfold m5; rewrite Q; [exact C4|split; lia]).
      destruct (SelIn m5 (i * 4 + 3 + 3)) as [Q|(Q & ?)]; unfold m6; rewrite Q; [exact C5|split; lia].
    - intros c (Lc & Hc).
      apply (Step m5 [i * 4 + 3 + 2; i * 4 + 3 + 1; i * 4 + 3; i * 2 + 2; i * 2 + 1; i] (i * 4 + 3 + 3) eq_refl); auto.
      + apply (Step m4 [i * 4 + 3 + 1; i * 4 + 3; i * 2 + 2; i * 2 + 1; i] _ eq_refl).
        apply (Step m3 [i * 4 + 3; i * 2 + 2; i * 2 + 1; i] _ eq_refl).
        apply (Step m2 [i * 2 + 2; i * 2 + 1; i] _ eq_refl).
        apply (Step m1 [i * 2 + 1; i] _ eq_refl).
        apply (Step i [i] _ eq_refl).
        intros x [<-|[]] _. apply dle_refl.
      + cbn. assert (c = i \/ c = i * 2 + 1 \/ c = i * 2 + 2 \/ c = i * 4 + 3 \/ c = i * 4 + 3 + 1 \/ c = i * 4 + 3 + 2 \/ c = i * 4 + 3 + 3) by lia.
        intuition.
  Qed.

  (** ** down *)
  Definition inside (i n : nat) : nat -> Prop := fun k => sub i k /\ k < n.
  Lemma sub_dec i k : {sub i k} + {~ sub i k}.
  Proof.
    induction k as [k IH] using lt_wf_rec.
    destruct (Nat.eq_dec k i) as [->|N]; [left; constructor|].
    destruct k as [|k']; [right; intros H; apply sub_le in H; lia|].
    destruct (IH (parent (S k'))) as [Y|Y].
    - unfold parent. apply Nat.lt_le_trans with (S ((S k' - 1) / 2)); [lia|]. pose proof (Nat.div_le_upper_bound (S k' - 1) 2 k'). lia.
    - left. destruct (has_parent (S k') ltac:(lia)) as (q & E & [Q|Q] & _); rewrite E in Y; rewrite Q; constructor; auto.
    - right. intros H. destruct (has_parent (S k') ltac:(lia)) as (q & E & Q & _).
      destruct (sub_up i q (S k') H Q) as [?|?]; [congruence|]. rewrite E in Y. contradiction.
  Qed.
  Lemma inside_dec i n k : {inside i n k} + {~ inside i n k}.
  Proof. unfold inside. destruct (sub_dec i k), (lt_dec k n); [left|right|right|right]; tauto. Qed.

  Lemma swap_rel' (h : heap) i j (S : nat -> Prop) : S i -> S j -> rel S h (swap h i j).
  Proof. apply swap_rel. Qed.

  Lemma dir_gc i c : i * 4 + 3 <= c <= i * 4 + 6 -> dir c = dir i /\
    exists p, parent c = p /\ (p = i * 2 + 1 \/ p = i * 2 + 2) /\ (c = p * 2 + 1 \/ c = p * 2 + 2) /\ dir p = negb (dir i).
  Proof.
    intros H. assert (E : c = (i * 2 + 1) * 2 + 1 \/ c = (i * 2 + 1) * 2 + 2 \/ c = (i * 2 + 2) * 2 + 1 \/ c = (i * 2 + 2) * 2 + 2) by lia.
    destruct E as [->|[->|[->| ->]]].
    - rewrite dir_l, dir_l, negb_involutive, parent_l. split; auto. exists (i * 2 + 1). rewrite dir_l. auto.
    - rewrite dir_r, dir_l, negb_involutive, parent_r. split; auto. exists (i * 2 + 1). rewrite dir_l. auto.
    - rewrite dir_l, dir_r, negb_involutive, parent_l. split; auto. exists (i * 2 + 2). rewrite dir_r. auto.
    - rewrite dir_r, dir_r, negb_involutive, parent_r. split; auto. exists (i * 2 + 2). rewrite dir_r. auto.
  Qed.
  Lemma sub_child i c : c = i * 2 + 1 \/ c = i * 2 + 2 -> sub i c.
  Proof. intros [->| ->]; repeat constructor. Qed.

  (** what is selected bounds the whole subtree *)
  Lemma best_bounds h i n m : (forall j k, sub i j -> j <> i -> sub j k -> k < n -> ok h j k) ->
    (forall c, cand i n c -> dle (dir i) (val h m) (val h c)) ->
    forall k, inside i n k -> dle (dir i) (val h m) (val h k).
  Proof.
    intros Pre B k (Hs & L). destruct (sub_case2 _ _ Hs) as [->|[->|[->|(g & G & Hg)]]]; try (apply B; split; lia).
    destruct (dir_gc _ _ G) as (D & p & _ & Hp & Hc & _).
    assert (Sg : sub i g) by (eapply sub_trans; apply sub_child; eauto).
    apply dle_trans with (val h g).
    - apply B. apply sub_le in Hg. split; lia.
    - rewrite <- D. apply Pre; auto. lia.
  Qed.

  Lemma downLoop_ok n : forall fuel h i, n < fuel + i ->
    (forall j k, sub i j -> j <> i -> sub j k -> k < n -> ok h j k) ->
    let h' := fst (downLoop lt fuel h (dir i) i n) in
    rel (inside i n) h h' /\ forall j k, sub i j -> sub j k -> k < n -> ok h' j k.
  Proof.
    induction fuel as [|fuel IH]; intros h i F Pre; cbn [downLoop fst].
    { split; [apply rel_refl|]. intros j k A B L. apply sub_le in A, B. lia. }
    destruct (best lt h (dir i) i n) as [m|] eqn:Eb.
    2:{ apply best_none in Eb. cbn [fst]. split; [apply rel_refl|]. intros j k A B L.
        assert (sub i k) by (eapply sub_trans; eauto).
        assert (k = i).
        { destruct (sub_case _ _ H) as [?|[Q|Q]]; auto; apply sub_le in Q; lia. }
        subst k. assert (j = i) by (apply sub_anti; auto). subst j. apply ok_refl. }
    apply best_some in Eb as (Cm & B). pose proof (best_bounds h i n m Pre B) as BB.
    destruct (Nat.eqb_spec m i) as [->|Nm].
    { cbn [fst]. split; [apply rel_refl|]. intros j k A S L. destruct (Nat.eq_dec j i) as [->|]; [|auto]. apply BB. split; auto. }
    assert (Ii : inside i n i) by (destruct Cm; split; [constructor|lia]).
    destruct Cm as (Lm & [Hm|Hm]); [congruence|].
    unfold lchild, rchild. destruct (Nat.eqb m (i * 2 + 1) || Nat.eqb m (i * 2 + 2)) eqn:Ch.
    - (* a child *)
      assert (Hc : m = i * 2 + 1 \/ m = i * 2 + 2) by (apply orb_prop in Ch as [C|C]; apply Nat.eqb_eq in C; auto).
      assert (Sm : sub i m) by (apply sub_child; auto).
      assert (Im : inside i n m) by (split; auto). clear Ch.
      assert (Dm : dir m = negb (dir i)) by (destruct Hc as [->| ->]; [apply dir_l|apply dir_r]).
      cbn [fst]. split; [apply swap_rel; auto|]. intros j k A S L. unfold ok.
      assert (Jm : forall x, val (swap h i m) x = if Nat.eqb x m then val h i else if Nat.eqb x i then val h m else val h x) by (intros; apply swap_val).
      destruct (Nat.eq_dec j i) as [->|Ni].
      + (* the root of the subtree *)
        rewrite (Jm i). destruct (Nat.eqb_spec i m); [congruence|]. rewrite Nat.eqb_refl. rewrite (Jm k).
        destruct (Nat.eqb k m); [apply BB; auto|]. destruct (Nat.eqb k i); [apply dle_refl|]. apply BB. split; auto.
      + destruct (Nat.eq_dec j m) as [->|Njm].
        * rewrite (Jm m), Nat.eqb_refl. rewrite (Jm k). destruct (Nat.eqb_spec k m); [apply dle_refl|].
          destruct (Nat.eqb_spec k i) as [->|]; [exfalso; apply Ni; apply sub_anti; auto|].
          rewrite Dm. apply dle_neg. apply dle_trans with (val h m).
          -- apply dle_neg. rewrite <- Dm. apply Pre; auto.
          -- apply BB; auto.
        * rewrite (Jm j). destruct (Nat.eqb_spec j m); [congruence|]. destruct (Nat.eqb_spec j i); [congruence|].
          rewrite (Jm k). destruct (Nat.eqb_spec k m) as [->|].
          { destruct (sub_up j i m S Hc) as [?|Q]; [congruence|]. exfalso. apply Ni. apply sub_anti; auto. }
          destruct (Nat.eqb_spec k i) as [->|]; [exfalso; apply Ni; apply sub_anti; auto|]. apply Pre; auto.
    - (* a grandchild *)
      assert (G : i * 4 + 3 <= m <= i * 4 + 6).
      { apply orb_false_iff in Ch as (C1 & C2). apply Nat.eqb_neq in C1, C2. lia. }
      clear Hm Ch. destruct (dir_gc _ _ G) as (Dm & p & -> & Hp & Hmp & Dp).
      assert (Sp : sub i p) by (apply sub_child; auto). assert (Spm : sub p m) by (apply sub_child; auto).
      assert (Sm : sub i m) by (eapply sub_trans; eauto).
      assert (Npm : p <> m) by lia. assert (Nip : p <> i) by lia.
      assert (Im : inside i n m) by (split; auto). assert (Ip : inside i n p) by (split; auto; lia).
      set (h1 := swap h i m).
      set (h2 := if eqb (less lt h1 p m) (dir i) then swap h1 m p else h1).
      assert (V1 : forall x, val h1 x = if Nat.eqb x m then val h i else if Nat.eqb x i then val h m else val h x) by (intros; apply swap_val).
      assert (R2 : rel (inside i n) h h2).
      { unfold h2. destruct (eqb (less lt h1 p m) (dir i)).
        - eapply rel_trans; apply swap_rel; auto.
        - apply swap_rel; auto. }
      (* values after the second exchange *)
      assert (V2 : (forall x, x <> m -> x <> p -> val h2 x = val h1 x) /\ dle (dir i) (val h2 m) (val h2 p) /\
                   dle (dir i) (val h p) (val h2 p)).
      { assert (P1 : val h1 p = val h p).
        { rewrite V1. destruct (Nat.eqb_spec p m); [congruence|]. destruct (Nat.eqb_spec p i); [congruence|auto]. }
        unfold h2. destruct (eqb (less lt h1 p m) (dir i)) eqn:E.
        - apply cmp_true in E. rewrite !swap_val. rewrite Nat.eqb_refl. destruct (Nat.eqb_spec m p); [congruence|]. rewrite Nat.eqb_refl.
          split; [|split; auto].
          + intros x N1 N2. rewrite swap_val. destruct (Nat.eqb_spec x p); [congruence|]. destruct (Nat.eqb_spec x m); [congruence|auto].
          + rewrite <- P1. auto.
        - apply cmp_false in E. split; [auto|]. split; auto. rewrite P1. apply dle_refl. }
      destruct V2 as (V2 & Vmp & Vp).
      (* descendants of m are as before *)
      assert (Below : forall x, sub m x -> x <> m -> val h2 x = val h x).
      { intros x Sx Nx. rewrite V2; auto.
        - rewrite V1. destruct (Nat.eqb_spec x m); [congruence|]. destruct (Nat.eqb_spec x i) as [->|]; auto.
          exfalso. apply sub_le in Sx. lia.
        - intros ->. apply sub_le in Sx. lia. }
      assert (Pre2 : forall j k, sub m j -> j <> m -> sub j k -> k < n -> ok h2 j k).
      { intros j k A N S L. unfold ok. rewrite (Below j) by auto. rewrite (Below k).
        - apply Pre; auto; [eapply sub_trans; eauto|]. intros ->. apply sub_le in A. lia.
        - eapply sub_trans; eauto.
        - intros ->. apply N. apply sub_anti; auto. }
      assert (F2 : n < fuel + m) by lia.
      destruct (IH h2 m F2 Pre2) as (R3 & O3). rewrite Dm in R3, O3. set (h3 := fst (downLoop lt fuel h2 (dir i) m n)) in *.
      assert (R3' : rel (inside i n) h2 h3).
      { eapply rel_weaken; [|apply inside_dec|exact R3]. intros k (A & L). split; auto. eapply sub_trans; eauto. }
      split; [eapply rel_trans; eauto|].
      intros j k A S L. unfold ok.
      (* slots outside the subtree of m are as in h2 *)
      assert (Out : forall x, ~ sub m x -> val h3 x = val h2 x).
      { intros x Nx. apply (rel_out _ _ _ x R3). intros (? & ?). contradiction. }
      assert (NSi : ~ sub m i) by (intros Q; apply sub_le in Q; lia).
      assert (NSp : ~ sub m p) by (intros Q; apply sub_le in Q; lia).
      destruct (Nat.eq_dec j i) as [->|Ni].
      + assert (Vi : val h3 i = val h m).
        { rewrite Out by auto. rewrite V2 by (auto; lia). rewrite V1. destruct (Nat.eqb_spec i m); [congruence|]. rewrite Nat.eqb_refl. auto. }
        rewrite Vi. destruct (rel_in _ _ _ k (rel_trans _ _ _ _ R2 R3')) as (k' & I' & ->); [split; auto|]. apply BB; auto.
      + destruct (sub_dec m j) as [Smj|Nmj]; [apply O3; auto|].
        destruct (Nat.eq_dec j p) as [->|Njp].
        * (* the parent of m *)
          rewrite Dp. apply dle_neg. rewrite (Out p) by auto.
          assert (All : forall x, sub p x -> x < n -> dle (dir i) (val h2 x) (val h2 p)).
          { intros x Sx Lx. destruct (Nat.eq_dec x m) as [->|Nxm]; [auto|]. destruct (Nat.eq_dec x p) as [->|Nxp]; [apply dle_refl|].
            rewrite (V2 x) by auto. rewrite V1. destruct (Nat.eqb_spec x m); [congruence|].
            destruct (Nat.eqb_spec x i) as [->|]; [exfalso; apply sub_le in Sx; lia|].
            apply dle_trans with (val h p); auto. apply dle_neg. rewrite <- Dp. apply Pre; auto. }
          destruct (sub_dec m k) as [Smk|Nmk].
          -- destruct (rel_in _ _ _ k R3) as (k' & (I1 & I2) & ->); [split; auto|]. apply All; auto. exact (sub_trans _ _ _ Spm I1).
          -- rewrite Out by auto. apply All; auto.
        * (* everything else is untouched *)
          assert (Njm : ~ sub j m).
          { intros Q. destruct (sub_up j p m Q Hmp) as [->|Q2]; [apply Nmj; constructor|].
            destruct (sub_up j i p Q2 Hp) as [?|Q3]; [congruence|]. apply Ni. apply sub_anti; auto. }
          assert (Nmk : ~ sub m k).
          { intros Q. destruct (sub_chain j m k S Q); contradiction. }
          rewrite !Out by auto.
          assert (Nkp : k <> p) by (intros ->; destruct (sub_up j i p S Hp) as [?|Q3]; [congruence|apply Ni, sub_anti; auto]).
          assert (Nki : k <> i) by (intros ->; apply Ni, sub_anti; auto).
          assert (Nkm : k <> m) by (intros ->; apply Nmk; constructor).
          assert (Njm' : j <> m) by (intros ->; apply Nmj; constructor).
          rewrite !V2 by auto. rewrite !V1. destruct (Nat.eqb_spec j m); [congruence|]. destruct (Nat.eqb_spec j i); [congruence|].
          destruct (Nat.eqb_spec k m); [congruence|]. destruct (Nat.eqb_spec k i); [congruence|]. apply Pre; auto.
  Qed.

  Lemma down_ok h i n :
    (forall j k, sub i j -> j <> i -> sub j k -> k < n -> ok h j k) ->
    let h' := fst (down lt h i n) in
    rel (inside i n) h h' /\ forall j k, sub i j -> sub j k -> k < n -> ok h' j k.
  Proof.
    intros Pre. unfold down. destruct (downLoop lt (S n) h (dir i) i n) as [h' j] eqn:E. cbn [fst].
    pose proof (downLoop_ok n (S n) h i ltac:(lia) Pre) as H. rewrite E in H. exact H.
  Qed.

  (** ** up *)
  Definition below (n : nat) : nat -> Prop := fun k => k < n.
  Lemma upLoop_ok n : forall fuel h i, i < fuel -> i < n ->
    (forall j k, sub j k -> k < n -> k <> i \/ dir j <> dir i \/ j = i -> ok h j k) ->
    let h' := upLoop lt fuel h (dir i) i in rel (below n) h h' /\ mm h' n.
  Proof.
    induction fuel as [|fuel IH]; intros h i F L Pre; cbn [upLoop]; [lia|].
    unfold hasGrandparent. destruct (Nat.ltb_spec 2 i) as [G|G].
    - destruct (has_parent i ltac:(lia)) as (q & Eq & Hq & Dq).
      destruct (has_parent q ltac:(lia)) as (g & Eg & Hg & Dg).
      unfold grandparent. rewrite Eq, Eg.
      assert (Dig : dir g = dir i) by (rewrite Dq, Dg, negb_involutive; auto).
      assert (Sgq : sub g q) by (apply sub_child; auto). assert (Sqi : sub q i) by (apply sub_child; auto).
      assert (Sgi : sub g i) by (eapply sub_trans; eauto).
      assert (Lgi : g < q /\ q < i) by lia.
      assert (Anc : forall j, sub j i -> j = i \/ j = q \/ sub j g).
      { intros j Sj. destruct (sub_up j q i Sj Hq) as [?|Q]; auto. destruct (sub_up j g q Q Hg); auto. }
      destruct (eqb (less lt h i g) (dir i)) eqn:C; cbn [negb].
      + apply cmp_true in C. set (h1 := swap h i g).
        assert (V1 : forall x, val h1 x = if Nat.eqb x g then val h i else if Nat.eqb x i then val h g else val h x) by (intros; apply swap_val).
        assert (Vg : val h1 g = val h i) by (rewrite V1, Nat.eqb_refl; auto).
        assert (Vi : val h1 i = val h g) by (rewrite V1; destruct (Nat.eqb_spec i g); [lia|rewrite Nat.eqb_refl; auto]).
        assert (Vo : forall x, x <> g -> x <> i -> val h1 x = val h x).
        { intros x A B. rewrite V1. destruct (Nat.eqb_spec x g); [congruence|]. destruct (Nat.eqb_spec x i); [congruence|auto]. }
        assert (Pre1 : forall j k, sub j k -> k < n -> k <> g \/ dir j <> dir g \/ j = g -> ok h1 j k).
        { intros j k S Lk Ex. unfold ok.
          destruct (Nat.eq_dec j g) as [->|Njg].
          - (* the grandparent slot holds the new value, which precedes the old one *)
            rewrite Vg, Dig. destruct (Nat.eq_dec k g) as [->|Nkg]; [rewrite Vg; apply dle_refl|].
            apply dle_trans with (val h g); auto. rewrite <- Dig. destruct (Nat.eq_dec k i) as [->|Nki]; [rewrite Vi; apply dle_refl|].
            rewrite Vo by auto. apply Pre; auto.
          - destruct (Nat.eq_dec k g) as [->|Nkg].
            + (* an ancestor of g of the other direction *)
              rewrite Vg. assert (j <> i) by (intros ->; apply sub_le in S; lia). rewrite Vo by auto.
              apply (Pre j i); [eapply sub_trans; eauto|auto|]. right. left. destruct Ex as [?|[?|?]]; congruence.
            + destruct (Nat.eq_dec k i) as [->|Nki].
              * rewrite Vi. destruct (Anc j S) as [->|[->|Sjg]].
                -- rewrite Vi. apply dle_refl.
                -- rewrite Vo by lia. assert (O : ok h g q) by (apply Pre; auto; lia). rewrite Dg. apply dle_neg. exact O.
                -- assert (j <> i) by (intros ->; apply sub_le in Sjg; lia). rewrite Vo by auto. apply Pre; auto. lia.
              * destruct (Nat.eq_dec j i) as [->|Nji].
                -- rewrite Vi. rewrite Vo by auto. rewrite <- Dig. apply Pre; auto. eapply sub_trans; eauto.
                -- rewrite !Vo by auto. apply Pre; auto. }
        rewrite <- Dig. destruct (IH h1 g ltac:(lia) ltac:(lia) Pre1) as (R & M). split; auto.
        eapply rel_trans; [|exact R]. apply swap_rel; unfold below; lia.
      + apply cmp_false in C. split; [apply rel_refl|]. intros j k S Lk.
        destruct (Nat.eq_dec k i) as [->|]; [|apply Pre; auto].
        destruct (Nat.eq_dec j i) as [->|Nji]; [apply ok_refl|].
        destruct (bool_dec (dir j) (dir i)) as [Dj|Dj]; [|apply Pre; auto].
        destruct (Anc j S) as [->|[->|Sjg]]; [apply ok_refl| |].
        * exfalso. rewrite Dq in Dj. destruct (dir q); discriminate.
        * unfold ok. rewrite Dj. apply dle_trans with (val h g); auto. rewrite <- Dj. apply Pre; [auto|lia|left; lia].
    - split; [apply rel_refl|]. intros j k S Lk. apply Pre; auto.
      destruct (Nat.eq_dec k i) as [->|]; auto. right. destruct (Nat.eq_dec j i) as [->|Nji]; auto. left.
      assert (j = 0 /\ (i = 1 \/ i = 2)).
      { assert (E : i = 0 \/ i = 0 * 2 + 1 \/ i = 0 * 2 + 2) by lia. destruct E as [->|E]; [apply sub_le in S; lia|].
        destruct (sub_up j 0 i S E) as [?|Q]; [congruence|]. apply sub_le in Q. lia. }
      destruct H as (-> & [->| ->]); cbn; discriminate.
  Qed.

  (** a slot without children *)
  Lemma up_leaf h i n : i < n -> n <= i * 2 + 1 -> (forall j k, sub j k -> k < n -> k <> i -> ok h j k) ->
    let h' := up lt h i in rel (below n) h h' /\ mm h' n.
  Proof.
    intros Lin Lf M. unfold up, hasParent.
    assert (Leaf : forall j k, sub j k -> k < n -> j = i -> k = i).
    { intros j k S L ->. destruct (sub_case _ _ S) as [?|[Q|Q]]; auto; apply sub_le in Q; lia. }
    destruct (Nat.ltb_spec 0 i) as [Pi|Pi].
    - destruct (has_parent i Pi) as (p & Ep & Hp & Dp). rewrite Ep.
      assert (Spi : sub p i) by (apply sub_child; auto). assert (Lp : p < i) by lia.
      assert (Anc : forall j, sub j i -> j = i \/ sub j p) by (intros j Q; apply (sub_up j p i Q Hp)).
      destruct (eqb (less lt h p i) (dir i)) eqn:C.
      + apply cmp_true in C. set (h1 := swap h i p).
        assert (V1 : forall x, val h1 x = if Nat.eqb x p then val h i else if Nat.eqb x i then val h p else val h x) by (intros; apply swap_val).
        assert (Vp : val h1 p = val h i) by (rewrite V1, Nat.eqb_refl; auto).
        assert (Vi : val h1 i = val h p) by (rewrite V1; destruct (Nat.eqb_spec i p); [lia|rewrite Nat.eqb_refl; auto]).
        assert (Vo : forall x, x <> p -> x <> i -> val h1 x = val h x).
        { intros x A B. rewrite V1. destruct (Nat.eqb_spec x p); [congruence|]. destruct (Nat.eqb_spec x i); [congruence|auto]. }
        assert (Dn : negb (dir i) = dir p) by (rewrite Dp, negb_involutive; auto). rewrite Dn.
        assert (C' : dle (dir p) (val h i) (val h p)) by (rewrite <- Dn; apply dle_neg; auto).
        destruct (upLoop_ok n (S i) h1 p) as (R & M'); try lia.
        * intros j k S Lk Ex. unfold ok. destruct (Nat.eq_dec j p) as [->|Njp].
          -- rewrite Vp. destruct (Nat.eq_dec k p) as [->|Nkp]; [rewrite Vp; apply dle_refl|].
             apply dle_trans with (val h p); auto. destruct (Nat.eq_dec k i) as [->|Nki]; [rewrite Vi; apply dle_refl|].
             rewrite Vo by auto. apply M; auto.
          -- destruct (Nat.eq_dec j i) as [->|Nji]; [rewrite (Leaf i k S Lk eq_refl); apply dle_refl|].
             rewrite (Vo j) by auto.
             destruct (Nat.eq_dec k p) as [->|Nkp].
             ++ rewrite Vp. assert (Dj : dir j = dir i).
                { destruct Ex as [?|[E|?]]; try congruence. rewrite Dp. destruct (dir j), (dir p); cbn in *; congruence. }
                rewrite Dj. apply dle_trans with (val h p); auto. rewrite <- Dj. apply M; auto; lia.
             ++ destruct (Nat.eq_dec k i) as [->|Nki].
                ** rewrite Vi. destruct (Anc j S) as [?|Sj]; [congruence|]. apply M; auto; lia.
                ** rewrite Vo by auto. apply M; auto.
        * split; auto. eapply rel_trans; [|exact R]. apply swap_rel; unfold below; lia.
      + apply cmp_false in C. apply upLoop_ok; try lia. intros j k S Lk Ex.
        destruct (Nat.eq_dec k i) as [->|Nki]; [|apply M; auto].
        destruct (Nat.eq_dec j i) as [->|Nji]; [apply ok_refl|].
        assert (Dj : dir j = dir p) by (destruct Ex as [?|[E|?]]; try congruence; rewrite Dp in E; destruct (dir j), (dir p); cbn in *; congruence).
        destruct (Anc j S) as [?|Sj]; [congruence|]. unfold ok. rewrite Dj. apply dle_trans with (val h p).
        * rewrite <- Dj. apply M; auto; lia.
        * apply (proj1 (dle_neg (dir p) _ _)). rewrite <- Dp. exact C.
    - apply upLoop_ok; try lia. intros j k S Lk Ex. assert (k = 0) by lia. assert (j = 0) by (apply sub_le in S; lia). subst. apply ok_refl.
  Qed.
  (** the new last element *)
  Lemma up_ok h i n : n = S i -> mm h i -> let h' := up lt h i in rel (below n) h h' /\ mm h' n.
  Proof. intros -> M. apply up_leaf; try lia. intros j k S L N. apply M; auto. lia. Qed.
End P.
