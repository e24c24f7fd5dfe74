From Coq Require Import List Bool Arith Lia Permutation FinFun.
From Verif.BTree Require Import Proofs.
From Verif.Heap Require Import Model Proofs Ops.
Import ListNotations.

Section P.
  Context {P : Type} (lt : P -> P -> bool).
  Notation heap := (heap P).
  Notation mm := (mm lt).
  Notation ok := (ok lt).
  Implicit Types h : heap.

  (** ** What holds of every down and up, whatever the order *)
  Section Inv.
    Context (Q : heap -> Prop) (n : nat) (QS : forall h i j, Q h -> i < n -> j < n -> Q (swap h i j)).
    Lemma best_lt h d i m : i < n -> best lt h d i n = Some m -> m < n.
    Proof.
      intros Li. unfold best. cbn [fold_left]. unfold lchild, rchild.
      destruct (Nat.leb_spec n (i * 2 + 1)) as [|Ll]; [discriminate|]. intros [= <-].
      repeat match goal with |- context [if ?b then _ else _] => destruct b eqn:? end;
        repeat match goal with H : _ && _ = true |- _ => apply andb_prop in H as (H & ?) end;
        repeat match goal with H : (_ <? _) = true |- _ => apply Nat.ltb_lt in H end; lia.
    Qed.
    Lemma downLoop_inv d fuel : forall h i, Q h -> i < n -> Q (fst (downLoop lt fuel h d i n)).
    Proof.
      induction fuel as [|fuel IH]; intros h i H Li; cbn [downLoop fst]; auto.
      destruct (best lt h d i n) as [m|] eqn:B; [|auto]. apply best_lt in B; auto.
      destruct (Nat.eqb m i); [auto|]. assert (H1 : Q (swap h i m)) by auto.
      destruct (Nat.eqb m (lchild i) || Nat.eqb m (rchild i)); [auto|].
      apply IH; auto. destruct (eqb _ d); auto. apply QS; auto.
      unfold parent. apply Nat.le_lt_trans with (m - 1); [apply Nat.div_le_upper_bound; lia|lia].
    Qed.
    Lemma down_inv h i : Q h -> i < n -> Q (fst (down lt h i n)).
    Proof.
      intros H Li. unfold down. pose proof (downLoop_inv (isMinLevel i) (S n) h i H Li) as R.
      destruct (downLoop lt (S n) h (isMinLevel i) i n). exact R.
    Qed.
    Lemma parent_lt i : i < n -> parent i < n.
    Proof. intros L. unfold parent. apply Nat.le_lt_trans with (i - 1); [apply Nat.div_le_upper_bound; lia|lia]. Qed.
    Lemma upLoop_inv d fuel : forall h i, Q h -> i < n -> Q (upLoop lt fuel h d i).
    Proof.
      induction fuel as [|fuel IH]; intros h i H Li; cbn [upLoop]; auto.
      destruct (hasGrandparent i); auto. destruct (negb _); auto.
      assert (grandparent i < n) by (unfold grandparent; auto using parent_lt). apply IH; auto.
    Qed.
    Lemma up_inv h i : Q h -> i < n -> Q (up lt h i).
    Proof.
      intros H Li. unfold up. destruct (hasParent i); [|apply upLoop_inv; auto].
      pose proof (parent_lt i Li). destruct (eqb _ _); apply upLoop_inv; auto.
    Qed.
    Lemma initLoop_inv k : forall h, Q h -> k <= n -> Q (initLoop lt k h n).
    Proof. induction k as [|k IH]; intros h H L; cbn [initLoop]; auto. apply IH; [apply down_inv; auto|lia]. Qed.
  End Inv.

  (** every slot's item knows its slot, and no item is in two slots *)
  Definition placed h (x : nat) : Prop := idx h x < len h /\ arr h (idx h x) = x.
  Definition indexed h : Prop := forall k, k < len h -> idx h (arr h k) = k.
  Lemma indexed_placed h : indexed h -> forall x, In x (items h) -> placed h x.
  Proof. intros I x Hx. apply items_in in Hx as (k & K & <-). unfold placed. rewrite I; auto. Qed.
  Lemma indexed_swap h i j : indexed h -> i < len h -> j < len h -> indexed (swap h i j).
  Proof.
    intros I Li Lj k K. change (len (swap h i j)) with (len h) in K. rewrite swap_arr. cbn [swap idx]. unfold upd.
    rewrite Nat.eqb_refl. destruct (Nat.eqb_spec k j) as [->|Nj].
    - rewrite Nat.eqb_refl. auto.
    - destruct (Nat.eqb_spec k i) as [->|Ni].
      + destruct (Nat.eqb_spec i j); [congruence|]. rewrite Nat.eqb_refl.
        destruct (Nat.eqb_spec (arr h j) (arr h i)) as [E|].
        * pose proof (I _ Li) as A. rewrite <- E, I in A; auto.
        * rewrite Nat.eqb_refl. auto.
      + destruct (Nat.eqb_spec i j) as [->|].
        * destruct (Nat.eqb_spec (arr h k) (arr h j)) as [E|]; auto.
          pose proof (I k K) as A. rewrite E, I in A; auto.
        * rewrite Nat.eqb_refl. destruct (Nat.eqb_spec (arr h k) (arr h i)) as [E|].
          -- pose proof (I k K) as A. rewrite E, I in A; auto. congruence.
          -- destruct (Nat.eqb_spec (arr h k) (arr h j)) as [E|]; auto. pose proof (I k K) as A. rewrite E, I in A; auto. congruence.
  Qed.
  Definition IQ (n : nat) h : Prop := len h = n /\ indexed h.
  Lemma IQ_swap n m h i j : m <= n -> IQ n h -> i < m -> j < m -> IQ n (swap h i j).
  Proof. intros L (E & I) A B. split; [exact E|]. apply indexed_swap; auto; lia. Qed.
  Definition RQ (n : nat) h0 h : Prop := rel (below n) h0 h.
  Lemma RQ_swap n m h0 h i j : m <= n -> RQ n h0 h -> i < m -> j < m -> RQ n h0 (swap h i j).
  Proof. intros L R A B. eapply rel_trans; [exact R|]. apply swap_rel; unfold below; lia. Qed.

  Ltac IQs := intros; eapply IQ_swap; [|eassumption|eassumption|eassumption]; lia.
  Ltac RQs := intros; eapply RQ_swap; [|eassumption|eassumption|eassumption]; lia.

  Lemma indexed_pop h : indexed h -> indexed (snd (pop_ h)).
  Proof. intros I k K. cbn in *. apply I. lia. Qed.
  Lemma indexed_init h : indexed h -> indexed (initHeap lt h) /\ len (initHeap lt h) = len h.
  Proof.
    intros I. assert (A : IQ (len h) (initLoop lt (len h / 2) h (len h))).
    { apply initLoop_inv.
      - IQs.
      - split; auto.
      - apply Nat.div_le_upper_bound; lia. }
    destruct A as (A & B). unfold initHeap. auto.
  Qed.
  Lemma indexed_setMax h : 0 < len h -> indexed h -> IQ (len h) (setMax lt h).
  Proof.
    intros L I. unfold setMax. set (n := len h) in *.
    match goal with |- context [swap h ?x (n - 1)] => set (i := x) end.
    assert (Hi : i < n).
    { subst i. unfold lchild, rchild. cbn [Nat.mul Nat.add]. destruct (Nat.ltb_spec 1 n), (Nat.ltb_spec 2 n); cbn [andb]; try lia;
        repeat match goal with |- context [if ?b then _ else _] => destruct b end; lia. }
    clearbody i.
    assert (A : IQ n (swap h i (n - 1))) by (eapply IQ_swap; [apply le_n|split; auto|auto|lia]).
    destruct (Nat.lt_ge_cases i (n - 1)) as [Q|Q].
    - apply down_inv; auto. IQs.
    - unfold down. assert (B : best lt (swap h i (n - 1)) (isMinLevel i) i (n - 1) = None).
      { unfold best, lchild. destruct (Nat.leb_spec (n - 1) (i * 2 + 1)); auto. lia. }
      cbn [downLoop]. rewrite B. exact A.
  Qed.

  (** operations other than Push keep the indexes right *)
  Lemma indexed_step h o : (forall x v, o <> OPush x v) -> indexed h -> indexed (snd (step lt h o)).
  Proof.
    intros N I. destruct o as [x p| | | |]; cbn [step snd]; auto.
    - destruct (N x p); auto.
    - unfold Max. destruct (Nat.eqb_spec (len h) 0); auto. destruct (maxed h); auto.
      apply (indexed_setMax h); auto. lia.
    - unfold PopMin. destruct (Nat.eqb_spec (len h) 0) as [|E]; auto. unfold popMin.
      set (h0 := setMaxed h false). change (len h0) with (len h). set (n := len h - 1).
      assert (A : IQ (len h) (swap h0 0 n)) by (eapply IQ_swap; [apply le_n|split; auto|lia|unfold n; lia]).
      assert (B : IQ (len h) (fst (down lt (swap h0 0 n) 0 n))).
      { destruct (Nat.eq_dec n 0) as [->|Nz].
        - unfold down. cbn [downLoop]. unfold best, lchild. cbn. exact A.
        - apply down_inv; auto; [|lia]. IQs. }
      destruct (fst (down lt (swap h0 0 n) 0 n)) eqn:Z. cbn [pop_ snd]. apply (indexed_pop _ (proj2 B)).
    - unfold PopMax. destruct (Nat.eqb_spec (len h) 0) as [|E]; auto. cbn [pop_ snd].
      apply (indexed_pop (setMaxed (if maxed h then h else setMax lt h) false)).
      destruct (maxed h); [exact I|]. apply (indexed_setMax h); auto. lia.
  Qed.

  (** Remove takes out exactly the item, whatever the order of the rest *)
  Lemma remove_rel h i : i < len h -> i <> len h - 1 ->
    exists h2, remove lt h i = Some (snd (pop_ h2)) /\ rel (below (len h - 1)) (swap h i (len h - 1)) h2 /\
      (indexed h -> indexed h2).
  Proof.
    intros Li Ni. unfold remove. destruct (Nat.leb_spec (len h) i); [lia|]. destruct (Nat.eqb_spec (len h - 1) i) as [?|_]; [congruence|].
    set (n := len h - 1) in *. assert (Hn : i < n) by lia.
    assert (R : RQ n (swap h i n) (fst (down lt (swap h i n) i n))).
    { apply down_inv; auto. - RQs. - apply rel_refl. }
    assert (I : indexed h -> IQ (len h) (fst (down lt (swap h i n) i n))).
    { intros I0. apply down_inv; auto. - IQs. - eapply IQ_swap; [apply le_n|split; auto|lia|lia]. }
    destruct (down lt (swap h i n) i n) as [h1 mv]. cbn [fst] in *.
    exists (if mv then h1 else up lt h1 i). split; auto. destruct mv; [split; auto; apply I|]. split.
    - apply (up_inv (RQ n (swap h i n)) n); auto. RQs.
    - intros I0. apply (up_inv (IQ (len h)) n); auto. IQs.
  Qed.
  Lemma Remove_items h x : placed h x ->
    exists h', Remove lt h x = Some h' /\ Permutation (items h) (x :: items h') /\ value h' = value h /\ maxed h' = false /\
      len h' = len h - 1 /\ (indexed h -> indexed h').
  Proof.
    intros (Li & Ex). unfold Remove. set (h0 := setMaxed h false). set (i := idx h x) in *.
    destruct (Nat.eq_dec i (len h - 1)) as [E|N].
    - unfold remove. change (len h0) with (len h). destruct (Nat.leb_spec (len h) i); [lia|]. rewrite <- E, Nat.eqb_refl.
      eexists. split; [reflexivity|]. split; [|repeat split; auto].
      + pose proof (pop_items h0 ltac:(cbn; lia)) as Q. cbn [pop_ fst] in Q. change (len h0) with (len h) in Q. rewrite <- E in Q.
        change (arr h0 i) with (arr h i) in Q. rewrite Ex in Q. exact Q.
      + intros I. apply (indexed_pop h0). exact I.
    - destruct (remove_rel h0 i Li N) as (h2 & -> & R & I). change (len h0) with (len h) in *. set (n := len h - 1) in *.
      pose proof (rel_len _ _ _ R) as EL. change (len (swap h0 i n)) with (len h) in EL.
      eexists. split; [reflexivity|].
      assert (R1 : rel (below (len h)) h0 h2).
      { eapply rel_trans; [apply swap_rel with (i := i) (j := n); unfold below, n; lia|].
        eapply rel_weaken; [| |exact R]; [unfold below, n; lia|intros k; apply lt_dec]. }
      split; [|split; [|split; [|split]]].
      + pose proof (pop_items h2 ltac:(lia)) as Q. unfold pop_ in *. cbn [fst snd] in *. rewrite EL in Q. fold n in Q.
        rewrite (rel_out_arr _ _ _ n R) in Q by (unfold below; lia). rewrite swap_arr, Nat.eqb_refl in Q.
        change (arr h0 i) with (arr h i) in Q. rewrite Ex in Q. rewrite EL. fold n. rewrite <- Q. change (items h) with (items h0).
        apply Permutation_sym. eapply rel_items; [exact R1|auto|]. intros k. apply lt_dec.
      + cbn. rewrite (rel_value _ _ _ R). reflexivity.
      + cbn. rewrite (rel_maxed _ _ _ R). reflexivity.
      + cbn. lia.
      + intros I0. apply indexed_pop. apply I. exact I0.
  Qed.
  Lemma Update_items h x : placed h x ->
    exists h', Update lt h x = Some h' /\ rel (below (len h)) (setMaxed h false) h' /\ (indexed h -> indexed h').
  Proof.
    intros (Li & Ex). unfold Update, fix_. set (h0 := setMaxed h false). set (i := idx h x) in *. change (len h0) with (len h).
    destruct (Nat.leb_spec (len h) i); [lia|]. cbn [andb].
    assert (R : RQ (len h) h0 (fst (down lt h0 i (len h)))).
    { apply down_inv; auto. - RQs. - apply rel_refl. }
    assert (I : indexed h -> IQ (len h) (fst (down lt h0 i (len h)))).
    { intros I0. apply down_inv; auto. - IQs. - split; auto. }
    destruct (down lt h0 i (len h)) as [h1 mv]. cbn [fst] in *. eexists. split; [reflexivity|].
    destruct mv; [split; auto; apply I|]. split.
    - apply (up_inv (RQ (len h) h0) (len h)); auto. RQs.
    - intros I0. apply (up_inv (IQ (len h)) (len h)); auto. IQs.
  Qed.

  (** ** Order *)
  Context (W : weak_order lt).
  Lemma up_mm h i n : i < n -> mm h n -> rel (below n) h (up lt h i) /\ mm (up lt h i) n.
  Proof.
    intros L M. unfold up, hasParent.
    destruct (Nat.ltb_spec 0 i) as [Pi|Pi]; [|apply upLoop_ok; auto; lia].
    destruct (has_parent i Pi) as (p & Ep & Hp & Dp). rewrite Ep.
    destruct (eqb (less lt h p i) (isMinLevel i)) eqn:C; [|apply upLoop_ok; auto; lia].
    apply (cmp_true lt W) in C. set (h1 := swap h i p).
    assert (Spi : sub p i) by (apply sub_child; auto).
    pose proof (M p i Spi L) as O. unfold Proofs.ok in O.
    replace (negb (isMinLevel i)) with (isMinLevel p) by (rewrite Dp, negb_involutive; auto).
    assert (C' : dle lt (isMinLevel p) (val h i) (val h p)).
    { apply (proj1 (dle_neg lt (isMinLevel p) _ _)). rewrite <- Dp. exact C. }
    assert (Eq : forall d x, dle lt d (val h1 x) (val h x) /\ dle lt d (val h x) (val h1 x)).
    { intros d x. unfold h1. rewrite swap_val. destruct (Nat.eqb_spec x p) as [->|]; [|destruct (Nat.eqb_spec x i) as [->|]].
      - destruct (bool_dec d (isMinLevel p)) as [->|N]; auto.
        replace d with (negb (isMinLevel p)) by (destruct d, (isMinLevel p); cbn; congruence). rewrite !dle_neg. auto.
      - destruct (bool_dec d (isMinLevel p)) as [->|N]; auto.
        replace d with (negb (isMinLevel p)) by (destruct d, (isMinLevel p); cbn; congruence). rewrite !dle_neg. auto.
      - split; apply dle_refl; auto. }
    destruct (upLoop_ok lt W n (S i) h1 p) as (R & M'); try lia.
    - intros j k S K _. unfold Proofs.ok. eapply dle_trans; [exact W|apply Eq|]. eapply dle_trans; [exact W|apply (M j k S K)|]. apply Eq.
    - split; auto. eapply rel_trans; [|exact R]. apply swap_rel; unfold below; lia.
  Qed.

  (** the new contents of slot i of n do not go beyond the parent, or the slot has no children *)
  Definition fits h (i n : nat) (v : P) : Prop :=
    n <= i * 2 + 1 \/ i = 0 \/ (if isMinLevel i then lt (val h (parent i)) v = false else lt v (val h (parent i)) = false).

  Lemma reposition h i n : i < n -> (forall j k, sub j k -> k < n -> j <> i -> k <> i -> ok h j k) -> fits h i n (val h i) ->
    let h' := let '(h1, mv) := down lt h i n in if mv then h1 else up lt h1 i in
    rel (below n) h h' /\ mm h' n.
  Proof.
    intros L Oth F. cbn zeta.
    assert (PreD : forall j k, sub i j -> j <> i -> sub j k -> k < n -> ok h j k).
    { intros j k A N S K. apply Oth; auto. apply sub_le in A, S. lia. }
    destruct (down_ok lt W h i n PreD) as (R & O).
    assert (CaseA : (forall j, sub j i -> j <> i -> ok h j i) ->
              let h' := let '(h1, mv) := down lt h i n in if mv then h1 else up lt h1 i in rel (below n) h h' /\ mm h' n).
    { intros Anc. destruct (down lt h i n) as [h1 mv]. cbn [fst] in *.
      assert (R1 : rel (below n) h h1) by (eapply below_of_inside; eauto).
      assert (M1 : mm h1 n).
      { intros j k S K. destruct (sub_dec i j) as [Y|N]; [apply O; auto|]. unfold Proofs.ok.
        rewrite (rel_out _ _ _ j R) by (intros (? & _); contradiction).
        assert (Nj : j <> i) by (intros ->; apply N; constructor).
        destruct (inside_dec i n k) as [Yk|Nk].
        - destruct (rel_in _ _ _ k R Yk) as (k' & (Sk' & Lk') & ->). destruct Yk as (Sk & _).
          assert (Sji : sub j i) by (destruct (sub_chain i j k Sk S) as [?|?]; [contradiction|auto]).
          destruct (Nat.eq_dec k' i) as [->|]; [apply Anc; auto|]. apply Oth; auto. eapply sub_trans; eauto.
        - rewrite (rel_out _ _ _ k R Nk). destruct (Nat.eq_dec k i) as [->|]; [apply Anc; auto|]. apply Oth; auto. }
      cbn zeta. destruct mv; [auto|]. destruct (up_mm h1 i n L M1) as (R2 & M2). split; auto. eapply rel_trans; eauto. }
    destruct F as [Lf|[->|F]].
    - (* no children *)
      assert (B : best lt h (isMinLevel i) i n = None) by (unfold best, lchild; destruct (Nat.leb_spec n (i * 2 + 1)); [auto|lia]).
      unfold down. cbn [downLoop]. rewrite B. rewrite Nat.ltb_irrefl. apply up_leaf; auto.
      intros j k S K N. apply Oth; auto. intros ->. apply N. destruct (sub_case _ _ S) as [?|[Q|Q]]; auto; apply sub_le in Q; lia.
    - apply CaseA. intros j S N. apply sub_le in S. lia.
    - destruct (Nat.eq_dec i 0) as [->|Nz]; [apply CaseA; intros j S N; apply sub_le in S; lia|].
      destruct (has_parent i ltac:(lia)) as (p & Ep & Hp & Dp). rewrite Ep in F.
      assert (Spi : sub p i) by (apply sub_child; auto).
      assert (Op : dle lt (isMinLevel p) (val h p) (val h i)).
      { replace (isMinLevel p) with (negb (isMinLevel i)) by (rewrite Dp, negb_involutive; auto).
        destruct (isMinLevel i); exact F. }
      assert (Opp : forall j, sub j i -> j <> i -> isMinLevel j = isMinLevel p -> ok h j i).
      { intros j S N D. destruct (sub_up j p i S Hp) as [?|Sj]; [congruence|]. unfold Proofs.ok. rewrite D.
        eapply dle_trans; [exact W| |exact Op]. rewrite <- D. apply Oth; auto; lia. }
      destruct (Nat.ltb_spec 2 i) as [G2|G2].
      + destruct (has_parent p ltac:(lia)) as (g & Eg & Hg & Dg).
        assert (Dig : isMinLevel g = isMinLevel i) by (rewrite Dp, Dg, negb_involutive; auto).
        assert (Sgp : sub g p) by (apply sub_child; auto).
        assert (Sgi : sub g i) by (eapply sub_trans; eauto).
        assert (Split : forall j, isMinLevel j = isMinLevel i \/ isMinLevel j = isMinLevel p)
          by (intros j; rewrite Dp; destruct (isMinLevel j), (isMinLevel p); auto).
        assert (Dec : {dle lt (isMinLevel i) (val h g) (val h i)} + {~ dle lt (isMinLevel i) (val h g) (val h i)}).
        { unfold dle. destruct (isMinLevel i); apply bool_dec. }
        destruct Dec as [Y|N].
        * apply CaseA. intros j S Nj. destruct (Split j) as [D|D]; [|auto]. unfold Proofs.ok. rewrite D.
          destruct (sub_up j p i S Hp) as [?|Sj]; [congruence|].
          destruct (sub_up j g p Sj Hg) as [->|Sj2].
          -- exfalso. rewrite Dp in D. destruct (isMinLevel p); discriminate.
          -- eapply dle_trans; [exact W| |exact Y]. rewrite <- D. apply Oth; auto; lia.
        * assert (Ng : g <> i) by lia. assert (Np : p <> i) by lia.
          assert (Gk : forall k, sub i k -> k < n -> k <> i -> dle lt (isMinLevel i) (val h g) (val h k)).
          { intros k S K Nk. rewrite <- Dig. apply Oth; auto. eapply sub_trans; eauto. }
          assert (B : downLoop lt (S n) h (isMinLevel i) i n = (h, i)).
          { cbn [downLoop]. destruct (best lt h (isMinLevel i) i n) as [m|] eqn:B; [|auto].
            apply best_some in B as ((Lm & Cm) & Bd); auto. destruct (Nat.eqb_spec m i) as [|Nm]; [auto|]. exfalso. apply N.
            assert (Sm : sub i m).
            { destruct Cm as [?|[C|[C|C]]]; [congruence| | |].
              - apply sub_child. auto. - apply sub_child. auto.
              - destruct (dir_gc _ _ C) as (_ & q & _ & Hq & Hc & _). eapply sub_trans; apply sub_child; eauto. }
            eapply dle_trans; [exact W|apply (Gk m); auto|]. apply Bd. split; auto. }
          unfold down. rewrite B. rewrite Nat.ltb_irrefl. unfold up, hasParent. destruct (Nat.ltb_spec 0 i); [|lia]. rewrite Ep.
          destruct (eqb (less lt h p i) (isMinLevel i)) eqn:C.
          { exfalso. apply N. apply (cmp_true lt W) in C. eapply dle_trans; [exact W| |exact C]. rewrite <- Dig. apply Oth; auto. lia. }
          apply upLoop_ok; auto. intros j k S K Ex.
          destruct (Nat.eq_dec k i) as [->|Nk].
          -- destruct (Nat.eq_dec j i) as [->|Nj]; [apply ok_refl; auto|]. apply Opp; auto.
             destruct (Split j) as [D|D]; auto. destruct Ex as [?|[?|?]]; congruence.
          -- destruct (Nat.eq_dec j i) as [->|Nj]; [|apply Oth; auto]. unfold Proofs.ok.
             apply dle_trans with (val h g); auto. unfold dle in N |- *. destruct (isMinLevel i).
             ++ apply asym; auto. destruct (lt (val h i) (val h g)); congruence.
             ++ apply asym; auto. destruct (lt (val h g) (val h i)); congruence.
      + apply CaseA. intros j S Nj. apply Opp; auto.
        assert (p = 0) by lia. destruct (sub_up j p i S Hp) as [?|Sj]; [congruence|]. apply sub_le in Sj. replace j with p by lia. auto.
  Qed.

  Lemma Remove_ok h x : good lt h -> maxed h = false -> placed h x ->
    (idx h x = len h - 1 \/ fits h (idx h x) (len h - 1) (val h (len h - 1))) ->
    exists h', Remove lt h x = Some h' /\ good lt h' /\ Permutation (items h) (x :: items h') /\ value h' = value h /\ maxed h' = false.
  Proof.
    intros G Mx Pl F. destruct (Remove_items h x Pl) as (h' & E & Pm & V & Mx' & Ln & _). exists h'. split; auto.
    assert (G' : good lt h'); [|auto]. unfold good in *. rewrite Mx in G. rewrite Mx'.
    destruct Pl as (Li & Ex). unfold Remove, remove in E. change (len (setMaxed h false)) with (len h) in E. set (i := idx h x) in *.
    destruct (Nat.leb_spec (len h) i); [lia|]. set (n := len h - 1) in *. set (h0 := setMaxed h false) in *.
    destruct (Nat.eqb_spec n i) as [Q|Q].
    - injection E as <-. cbn [pop_ snd len]. apply (mm_le lt h0 (len h)); [cbn; lia|exact G].
    - assert (F' : fits (swap h0 i n) i n (val (swap h0 i n) i)).
      { destruct F as [F|F]; [congruence|]. unfold fits in *. destruct F as [F|[F|F]]; auto. right. right.
        assert (Vi : val (swap h0 i n) i = val h n).
        { rewrite swap_val. destruct (Nat.eqb_spec i n); [congruence|]. rewrite Nat.eqb_refl. auto. }
        destruct (Nat.eq_dec i 0) as [Z|Z].
        { rewrite Z in *. change (parent 0) with 0 in *. destruct (isMinLevel 0); apply W. }
        destruct (has_parent i ltac:(lia)) as (p & Ep & Hp & Dp). rewrite Ep in *.
        assert (Vp : val (swap h0 i n) p = val h p).
        { rewrite swap_val. destruct (Nat.eqb_spec p n); [lia|]. destruct (Nat.eqb_spec p i); [lia|auto]. }
        rewrite Vi, Vp. exact F. }
      destruct (reposition (swap h0 i n) i n) as (R & M); auto; [lia| |].
      + intros j k S K Nj Nk. unfold Proofs.ok. rewrite !swap_val. pose proof (sub_le _ _ S).
        destruct (Nat.eqb_spec j n); [lia|]. destruct (Nat.eqb_spec j i); [congruence|].
        destruct (Nat.eqb_spec k n); [lia|]. destruct (Nat.eqb_spec k i); [congruence|]. apply G; auto. lia.
      + destruct (down lt (swap h0 i n) i n) as [h1 mv]. cbn zeta in R, M. injection E as <-. cbn [pop_ snd len].
        rewrite (rel_len _ _ _ R). exact M.
  Qed.

  Lemma Update_ok h x v : good lt h -> maxed h = false -> placed h x -> NoDup (items h) -> fits h (idx h x) (len h) v ->
    exists h', Update lt (setValue h x v) x = Some h' /\ good lt h' /\ Permutation (items h) (items h') /\
      value h' = upd (value h) x v /\ maxed h' = false.
  Proof.
    intros G Mx Pl ND F. set (h1 := setValue h x v).
    destruct (Update_items h1 x) as (h' & E & R & _); [exact Pl|]. exists h'. split; auto.
    pose proof (rel_len _ _ _ R) as EL. pose proof (rel_maxed _ _ _ R) as EM. cbn in EL, EM.
    split; [|split; [|split; [apply (rel_value _ _ _ R)|exact EM]]].
    - unfold good in *. rewrite Mx in G. rewrite EM, EL. destruct Pl as (Li & Ex).
      unfold Update, fix_ in E. change (len (setMaxed h1 false)) with (len h) in E. change (idx h1 x) with (idx h x) in E.
      set (i := idx h x) in *. set (h0 := setMaxed h1 false) in *. destruct (Nat.leb_spec (len h) i); [lia|]. cbn [andb] in E.
      assert (Inj : forall k, k < len h -> arr h k = x -> k = i).
      { intros k K Ek. unfold items in ND. rewrite (NoDup_nth _ 0) in ND. rewrite map_length, seq_length in ND.
        apply ND; auto. rewrite !(nth_indep _ 0 (arr h 0)) by (rewrite map_length, seq_length; auto). rewrite !map_nth, !seq_nth by auto. cbn. congruence. }
      assert (Vi : val h0 i = v). { unfold val. cbn. rewrite Ex. unfold upd. rewrite Nat.eqb_refl. auto. }
      assert (Vo : forall k, k < len h -> k <> i -> val h0 k = val h k).
      { intros k K N. unfold val. cbn. unfold upd. destruct (Nat.eqb_spec (arr h k) x); auto. destruct N; auto. }
      destruct (reposition h0 i (len h)) as (R2 & M); auto.
      + intros j k S K Nj Nk. pose proof (sub_le _ _ S). unfold Proofs.ok. rewrite !Vo by (auto; lia). apply G; auto.
      + rewrite Vi. unfold fits in *. destruct F as [F|[F|F]]; auto. right. destruct (Nat.eq_dec i 0) as [Z|Z]; auto. right.
        destruct (has_parent i ltac:(lia)) as (p & Ep & Hp & Dp). rewrite Ep in *. rewrite Vo by lia. exact F.
      + destruct (down lt h0 i (len h)) as [h2 mv]. cbn zeta in M. injection E as <-. exact M.
    - apply Permutation_sym. change (items h) with (items (setMaxed h1 false)). eapply rel_items; [exact R|cbn; auto|]. intros k. apply lt_dec.
  Qed.

  (** ** Heaps reached by all the operations, and those reached by all but Push *)
  Inductive reach (zero : P) : heap -> Prop :=
  | reach_new its : reach zero (NewMinMaxHeap lt zero its)
  | reach_step h o : reach zero h -> (forall x p, o = OPush x p -> ~ In x (items h) /\ maxed h = false) -> reach zero (snd (step lt h o))
  | reach_remove h x h' : reach zero h -> maxed h = false -> placed h x ->
      (idx h x = len h - 1 \/ fits h (idx h x) (len h - 1) (val h (len h - 1))) -> Remove lt h x = Some h' -> reach zero h'
  | reach_update h x v h' : reach zero h -> maxed h = false -> placed h x -> fits h (idx h x) (len h) v ->
      Update lt (setValue h x v) x = Some h' -> reach zero h'.

  Lemma reach_good zero h : reach zero h -> good lt h /\ NoDup (items h).
  Proof.
    induction 1 as [its|h o R (G & N) D|h x h' R (G & N) Mx Pl F E|h x v h' R (G & N) Mx Pl F E].
    - destruct (new_ok lt W zero its) as (G & Pm & _). split; auto. eapply Permutation_NoDup; [exact Pm|]. apply seq_NoDup.
    - pose proof (step_ok lt W h o G D) as Q. destruct (step lt h o) as [r h']. destruct Q as (G' & bag & Pm & S). split; auto. cbn [snd].
      eapply Permutation_NoDup; [exact Pm|]. destruct o as [x p| | | |]; cbn in S.
      + destruct S as (_ & -> & _). constructor; auto. apply (D x p eq_refl).
      + destruct S as (-> & _). auto.
      + destruct S as (-> & _). auto.
      + destruct S as (_ & S). destruct r; [|destruct S as (_ & ->); auto]. destruct S as (S & _).
        eapply Permutation_NoDup in S; eauto. inversion S; auto.
      + destruct S as (_ & S). destruct r; [|destruct S as (_ & ->); auto]. destruct S as (S & _).
        eapply Permutation_NoDup in S; eauto. inversion S; auto.
    - destruct (Remove_ok h x G Mx Pl F) as (h'' & E' & G' & Pm & _). rewrite E in E'. injection E' as <-. split; auto.
      eapply Permutation_NoDup in Pm; eauto. inversion Pm; auto.
    - destruct (Update_ok h x v G Mx Pl N F) as (h'' & E' & G' & Pm & _). rewrite E in E'. injection E' as <-. split; auto.
      eapply Permutation_NoDup; eauto.
  Qed.

  Lemma reach_remove_ok zero h x : reach zero h -> maxed h = false -> placed h x ->
    (idx h x = len h - 1 \/ fits h (idx h x) (len h - 1) (val h (len h - 1))) ->
    exists h', Remove lt h x = Some h' /\ Permutation (items h) (x :: items h') /\ value h' = value h /\
      forall os, proper (items h') false os (fst (run lt h' os)) -> exists bag, spec_run lt (items h') (value h) os (fst (run lt h' os)) bag /\
        Permutation bag (items (snd (run lt h' os))).
  Proof.
    intros R Mx Pl F. destruct (reach_good zero h R) as (G & N). destruct (Remove_ok h x G Mx Pl F) as (h' & E & G' & Pm & V & M').
    exists h'. repeat split; auto. intros os D. rewrite <- V. apply run_ok; auto. eapply proper_disciplined; eauto. rewrite M'. auto.
  Qed.
  Lemma reach_update_ok zero h x v : reach zero h -> maxed h = false -> placed h x -> fits h (idx h x) (len h) v ->
    exists h', Update lt (setValue h x v) x = Some h' /\ Permutation (items h) (items h') /\ value h' = upd (value h) x v /\
      forall os, proper (items h) false os (fst (run lt h' os)) -> exists bag, spec_run lt (items h) (upd (value h) x v) os (fst (run lt h' os)) bag /\
        Permutation bag (items (snd (run lt h' os))).
  Proof.
    intros R Mx Pl F. destruct (reach_good zero h R) as (G & N). destruct (Update_ok h x v G Mx Pl N F) as (h' & E & G' & Pm & V & M').
    exists h'. repeat split; auto. intros os D. rewrite <- V. apply run_ok; auto. eapply proper_disciplined; eauto. rewrite M'. auto.
  Qed.

  Inductive reach_np (zero : P) : heap -> Prop :=
  | np_new its : reach_np zero (NewMinMaxHeap lt zero its)
  | np_step h o : reach_np zero h -> (forall x v, o <> OPush x v) -> reach_np zero (snd (step lt h o))
  | np_remove h x h' : reach_np zero h -> In x (items h) -> Remove lt h x = Some h' -> reach_np zero h'
  | np_update h x v h' : reach_np zero h -> In x (items h) -> Update lt (setValue h x v) x = Some h' -> reach_np zero h'.
  Lemma np_indexed zero h : reach_np zero h -> indexed h.
  Proof.
    induction 1 as [its|h o R I N|h x h' R I Hx E|h x v h' R I Hx E].
    - unfold NewMinMaxHeap. apply indexed_init. intros k K. cbn [len arr idx] in *. destruct (Nat.ltb_spec k (length its)); auto. lia.
    - apply indexed_step; auto.
    - destruct (Remove_items h x (indexed_placed h I x Hx)) as (h'' & E' & _ & _ & _ & _ & J). rewrite E in E'. injection E' as <-. auto.
    - destruct (Update_items (setValue h x v) x (indexed_placed h I x Hx)) as (h'' & E' & _ & J). rewrite E in E'. injection E' as <-. apply J. exact I.
  Qed.
  Lemma np_remove_ok zero h x : reach_np zero h -> In x (items h) ->
    exists h', Remove lt h x = Some h' /\ Permutation (items h) (x :: items h') /\ value h' = value h.
  Proof.
    intros R Hx. destruct (Remove_items h x (indexed_placed h (np_indexed zero h R) x Hx)) as (h' & E & Pm & V & _). exists h'. auto.
  Qed.
  Lemma np_update_ok zero h x v : reach_np zero h -> In x (items h) ->
    exists h', Update lt (setValue h x v) x = Some h' /\ Permutation (items h) (items h') /\ value h' = upd (value h) x v.
  Proof.
    intros R Hx. destruct (Update_items (setValue h x v) x (indexed_placed h (np_indexed zero h R) x Hx)) as (h' & E & Rl & _). exists h'. split; auto.
    split; [|apply (rel_value _ _ _ Rl)]. apply Permutation_sym. change (items h) with (items (setMaxed (setValue h x v) false)).
    eapply rel_items; [exact Rl|cbn; auto|]. intros k. apply lt_dec.
  Qed.
End P.
