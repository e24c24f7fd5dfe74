From Coq Require Import List Bool Arith Lia Permutation FinFun.
From Verif.BTree Require Import Proofs.
From Verif.Heap Require Import Model Proofs.
Import ListNotations.

Section P.
  Context {P : Type} (lt : P -> P -> bool) (W : weak_order lt).
  Notation heap := (heap P).
  Notation mm := (mm lt).
  Notation ok := (ok lt).
  Implicit Types h : heap.

  (** ** Building *)
  Lemma below_of_inside h h' i n : rel (inside i n) h h' -> rel (below n) h h'.
  Proof. apply rel_weaken; [|apply inside_dec]. intros k (_ & L). exact L. Qed.

  Lemma down_inner h i n a : a <= i -> (forall j k, sub j k -> k < n -> i < j -> ok h j k) ->
    let h' := fst (down lt h i n) in rel (below n) h h' /\ forall j k, sub j k -> k < n -> i <= j -> ok h' j k.
  Proof.
    intros _ Pre. destruct (down_ok lt W h i n) as (R & O).
    - intros j k A N S L. apply Pre; auto. apply sub_le in A. lia.
    - split; [eapply below_of_inside; eauto|]. intros j k S L Ge.
      destruct (sub_dec i j) as [Y|N]; [apply O; auto|].
      assert (Lt : i < j) by (destruct (Nat.eq_dec i j) as [->|]; [destruct N; constructor|lia]).
      unfold Proofs.ok. rewrite (rel_out _ _ _ _ R) by (intros (? & _); contradiction).
      rewrite (rel_out _ _ _ k R); [apply Pre; auto|]. intros (Q & _).
      destruct (sub_chain i j k Q S) as [?|Q2]; [contradiction|]. apply sub_le in Q2. lia.
  Qed.

  Lemma initLoop_ok n k : forall h, (forall j x, sub j x -> x < n -> k <= j -> ok h j x) ->
    rel (below n) h (initLoop lt k h n) /\ mm (initLoop lt k h n) n.
  Proof.
    induction k as [|i IH]; intros h Pre; cbn [initLoop].
    - split; [apply rel_refl|]. intros j x S L. apply Pre; auto. lia.
    - destruct (down_inner h i n i (le_n _)) as (R & O).
      + intros j x S L Lt. apply Pre; auto.
      + destruct (IH _ O) as (R2 & M). split; auto. eapply rel_trans; eauto.
  Qed.
  Lemma initHeap_ok h : rel (below (len h)) h (initHeap lt h) /\ mm (initHeap lt h) (len h).
  Proof.
    apply initLoop_ok. intros j x S L Ge.
    assert (x = j).
    { destruct (sub_case _ _ S) as [?|[Q|Q]]; auto; apply sub_le in Q; pose proof (Nat.div_mod (len h) 2); pose proof (Nat.mod_upper_bound (len h) 2); lia. }
    subst. apply ok_refl; auto.
  Qed.

  (** ** The invariant between operations *)
  Definition maximal (h : heap) (i : nat) : Prop := forall k, k < len h -> lt (val h i) (val h k) = false.
  Definition minimal (h : heap) (i : nat) : Prop := forall k, k < len h -> lt (val h k) (val h i) = false.
  Definition good (h : heap) : Prop :=
    if maxed h then 0 < len h /\ mm h (len h - 1) /\ maximal h (len h - 1) else mm h (len h).

  Lemma mm_le h n n' : n' <= n -> mm h n -> mm h n'.
  Proof. intros L M j k S K. apply M; auto. lia. Qed.
  Lemma good_prefix h : good h -> mm h (len h - 1).
  Proof. unfold good. destruct (maxed h); [tauto|]. apply mm_le. lia. Qed.
  Lemma root_min h n : mm h n -> forall k, k < n -> lt (val h k) (val h 0) = false.
  Proof. intros M k L. exact (M 0 k (sub_root k) L). Qed.
  Lemma good_min h : good h -> minimal h 0.
  Proof.
    unfold good, minimal. destruct (maxed h).
    - intros (L & M & X) k Lk. destruct (Nat.eq_dec k (len h - 1)) as [->|N]; [apply X; auto|]. apply (root_min _ _ M). lia.
    - intros M k Lk. apply (root_min _ _ M); auto.
  Qed.

  Lemma rel_items S h h' : rel S h h' -> (forall k, S k -> k < len h) -> (forall k, {S k} + {~ S k}) -> Permutation (items h') (items h).
  Proof.
    intros R Sub Dec. unfold items. rewrite (rel_len _ _ _ R). apply rel_prefix. eapply rel_weaken; eauto.
  Qed.

  Lemma swap_mm_pre h i n : i < len h -> n = len h - 1 -> mm h n ->
    forall j k, sub i j -> j <> i -> sub j k -> k < n -> ok (swap h i n) j k.
  Proof.
    intros Li -> M j k A N S L. unfold Proofs.ok. rewrite !swap_val.
    pose proof (sub_le _ _ S). pose proof (sub_le _ _ A).
    destruct (Nat.eqb_spec j (len h - 1)); [lia|]. destruct (Nat.eqb_spec j i); [congruence|].
    destruct (Nat.eqb_spec k (len h - 1)); [lia|]. destruct (Nat.eqb_spec k i); [lia|]. apply M; auto.
  Qed.

  Lemma setMax_ok h : 0 < len h -> mm h (len h) ->
    rel (below (len h)) h (setMax lt h) /\ mm (setMax lt h) (len h - 1) /\ maximal (setMax lt h) (len h - 1).
  Proof.
    intros L M. unfold setMax. set (n := len h) in *.
    set (i1 := if (lchild 0 <? n) && negb (less lt h (lchild 0) 0) then lchild 0 else 0).
    set (i := if (rchild 0 <? n) && negb (less lt h (rchild 0) i1) then rchild 0 else i1).
    assert (Hi : i < n /\ (i = 0 -> n = 1) /\ (i = 0 \/ i = 1 \/ i = 2) /\ forall k, k < n -> lt (val h i) (val h k) = false).
    { unfold lchild, rchild in *. cbn [Nat.mul Nat.add] in *.
      assert (R0 : forall k, k < n -> lt (val h k) (val h 0) = false) by (apply root_min; auto).
      assert (B1 : forall k, sub 1 k -> k < n -> lt (val h 1) (val h k) = false) by (intros k S K; apply (M 1 k S K)).
      assert (B2 : forall k, sub 2 k -> k < n -> lt (val h 2) (val h k) = false) by (intros k S K; apply (M 2 k S K)).
      destruct (Nat.ltb_spec 1 n) as [L1|L1].
      - assert (E1 : i1 = 1).
        { unfold i1. unfold less. rewrite (R0 1 L1). auto. }
        assert (Case : forall x, (forall k, sub 1 k -> k < n -> lt x (val h k) = false) -> (forall k, sub 2 k -> k < n -> lt x (val h k) = false) ->
                  lt x (val h 0) = false -> forall k, k < n -> lt x (val h k) = false).
        { intros x A B C k K. destruct (sub_case 0 k (sub_root k)) as [->|[S|S]]; auto. }
        unfold i. rewrite E1. destruct (Nat.ltb_spec 2 n) as [L2|L2]; cbn [andb].
        + destruct (less lt h 2 1) eqn:C; cbn [negb]; repeat split; try lia.
          * apply Case; auto. intros k S K. eapply ntrans; [exact W| |apply B2; eauto]. unfold less in C. apply asym; auto.
          * apply Case; auto. intros k S K. eapply ntrans; [exact W|exact C|auto].
        + repeat split; try lia. apply Case; auto. intros k S K. apply sub_le in S. lia.
      - assert (E1 : i1 = 0) by (unfold i1; auto). unfold i. rewrite E1.
        destruct (Nat.ltb_spec 2 n); [lia|]. cbn [andb]. repeat split; try lia. intros k K. replace k with 0 by lia. apply W. }
    clearbody i. destruct Hi as (Hi & H0 & H012 & Mx).
    set (h1 := swap h i (n - 1)).
    assert (R1 : rel (below n) h h1) by (apply swap_rel; unfold below; lia).
    destruct (down_ok lt W h1 i (n - 1)) as (R2 & O2).
    { apply swap_mm_pre; auto. apply mm_le with n; auto. lia. }
    set (h2 := fst (down lt h1 i (n - 1))) in *.
    assert (R2' : rel (below n) h1 h2).
    { eapply rel_weaken; [|apply inside_dec|exact R2]. intros k (_ & K). unfold below. lia. }
    pose proof (rel_trans _ _ _ _ R1 R2') as R. split; auto.
    assert (Vmax : val h2 (n - 1) = val h i).
    { rewrite (rel_out _ _ _ _ R2) by (intros (_ & ?); lia). unfold h1. rewrite swap_val, Nat.eqb_refl. auto. }
    split.
    - intros j k S K. destruct (sub_dec i j) as [Y|N]; [apply O2; auto|].
      assert (Out : forall x, ~ sub i x -> x < n - 1 -> val h2 x = val h x).
      { intros x Nx Lx. rewrite (rel_out _ _ _ _ R2) by (intros (? & _); contradiction). unfold h1. rewrite swap_val.
        destruct (Nat.eqb_spec x (n - 1)); [lia|]. destruct (Nat.eqb_spec x i) as [->|]; [destruct Nx; constructor|auto]. }
      pose proof (sub_le _ _ S). destruct (sub_dec i k) as [Yk|Nk].
      + assert (j = 0).
        { destruct (sub_chain i j k Yk S) as [?|Q]; [contradiction|]. destruct H012 as [->|[->| ->]].
          - apply sub_le in Q. lia.
          - destruct (sub_up j 0 1 Q ltac:(lia)) as [->|Q2]; [destruct N; constructor|]. apply sub_le in Q2. lia.
          - destruct (sub_up j 0 2 Q ltac:(lia)) as [->|Q2]; [destruct N; constructor|]. apply sub_le in Q2. lia. }
        subst j. unfold Proofs.ok. rewrite (Out 0) by (auto; lia).
        destruct (rel_in _ _ _ k R) as (k' & K' & ->); [unfold below; lia|]. apply (M 0 k' (sub_root _) K').
      + unfold Proofs.ok. rewrite !Out by (auto; lia). apply M; auto. lia.
    - intros k K. rewrite Vmax. rewrite (rel_len _ _ _ R) in K. destruct (rel_in _ _ _ k R) as (k' & K' & ->); [exact K|]. apply Mx; auto.
  Qed.

  Lemma pop_items (h : heap) : 0 < len h -> Permutation (items h) (fst (pop_ h) :: items (snd (pop_ h))).
  Proof.
    intros L. unfold items, pop_. cbn [fst snd len arr]. destruct (len h) as [|n] eqn:E; [lia|].
    replace (S n - 1) with n by lia. rewrite seq_S, map_app. cbn. apply Permutation_sym. apply Permutation_cons_append.
  Qed.

  (** ** Specification: a bag of items with priorities *)
  Definition spec_step (bag : list nat) (v : nat -> P) (o : op P) (r : option nat) (bag' : list nat) (v' : nat -> P) : Prop :=
    match o with
    | OPush x p => r = None /\ bag' = x :: bag /\ v' = upd v x p
    | OMin => bag' = bag /\ v' = v /\
        match r with None => bag = [] | Some x => In x bag /\ forall y, In y bag -> lt (v y) (v x) = false end
    | OMax => bag' = bag /\ v' = v /\
        match r with None => bag = [] | Some x => In x bag /\ forall y, In y bag -> lt (v x) (v y) = false end
    | OPopMin => v' = v /\
        match r with None => bag = [] /\ bag' = bag
                   | Some x => Permutation bag (x :: bag') /\ forall y, In y bag -> lt (v y) (v x) = false end
    | OPopMax => v' = v /\
        match r with None => bag = [] /\ bag' = bag
                   | Some x => Permutation bag (x :: bag') /\ forall y, In y bag -> lt (v x) (v y) = false end
    end.
  Inductive spec_run : list nat -> (nat -> P) -> list (op P) -> list (option nat) -> list nat -> Prop :=
  | sr_nil bag v : spec_run bag v [] [] bag
  | sr_cons bag v o os r bag1 v1 rs bag2 : spec_step bag v o r bag1 v1 -> spec_run bag1 v1 os rs bag2 ->
      spec_run bag v (o :: os) (r :: rs) bag2.

  (** Push only of items that are not in the heap, and not between a Max and the next pop *)
  Fixpoint disciplined (h : heap) (os : list (op P)) : Prop :=
    match os with
    | [] => True
    | o :: os' => (forall x p, o = OPush x p -> ~ In x (items h) /\ maxed h = false) /\ disciplined (snd (step lt h o)) os'
    end.

  Lemma in_items (h : heap) k : k < len h -> In (arr h k) (items h).
  Proof. intros L. unfold items. apply in_map. apply in_seq. lia. Qed.
  Lemma items_in (h : heap) x : In x (items h) -> exists k, k < len h /\ arr h k = x.
  Proof. unfold items. rewrite in_map_iff. intros (k & E & H). apply in_seq in H. exists k. split; auto. lia. Qed.
  Lemma items_nil (h : heap) : len h = 0 -> items h = [].
  Proof. unfold items. intros ->. auto. Qed.

  (** one step, with the bag being the items in slot order *)
  Lemma popMin_ok h : 0 < len h -> mm h (len h - 1) -> minimal h 0 ->
    let '(x, h') := popMin lt h in
    Permutation (items h) (x :: items h') /\ value h' = value h /\ maxed h' = maxed h /\ len h' = len h - 1 /\
    x = arr h 0 /\ mm h' (len h').
  Proof.
    intros L M Mi. unfold popMin. set (n := len h - 1).
    destruct (down_ok lt W (swap h 0 n) 0 n) as (R & O). { apply swap_mm_pre; auto. }
    set (h2 := fst (down lt (swap h 0 n) 0 n)) in *.
    assert (R1 : rel (below (len h)) h (swap h 0 n)) by (apply swap_rel; unfold below, n; lia).
    assert (R' : rel (below (len h)) h h2).
    { eapply rel_trans; [exact R1|]. eapply rel_weaken; [|apply inside_dec|exact R]. intros k (_ & K). unfold below, n in *. lia. }
    pose proof (rel_len _ _ _ R') as E. pose proof (pop_items h2 ltac:(lia)) as Q. unfold pop_ in *. cbn [fst snd] in Q.
    split; [|split; [|split; [|split; [|split]]]].
    - rewrite <- Q. apply Permutation_sym. eapply rel_items; [exact R'|auto|]. intros k. apply lt_dec.
    - cbn. apply (rel_value _ _ _ R').
    - cbn. apply (rel_maxed _ _ _ R').
    - cbn. lia.
    - rewrite E. fold n. rewrite (rel_out_arr _ _ _ n R) by (intros (_ & ?); lia). rewrite swap_arr, Nat.eqb_refl. auto.
    - cbn [len]. rewrite E. fold n. intros j k S K. apply (O j k); auto. apply sub_root.
  Qed.

  Lemma step_ok h o : good h -> (forall x p, o = OPush x p -> ~ In x (items h) /\ maxed h = false) ->
    let '(r, h') := step lt h o in
    good h' /\ exists bag', Permutation bag' (items h') /\ spec_step (items h) (value h) o r bag' (value h').
  Proof.
    intros G D. destruct o as [x p| | | |]; cbn [step].
    - (* Push *)
      destruct (D x p eq_refl) as (Ni & Mx). unfold good in G. rewrite Mx in G.
      set (h1 := push_ (setMaxed (setValue h x p) false) x).
      assert (Val : forall k, k < len h -> val h1 k = val h k).
      { intros k K. unfold val, h1. cbn. unfold upd. destruct (Nat.eqb_spec k (len h)); [lia|].
        destruct (Nat.eqb_spec (arr h k) x) as [E|]; auto. exfalso. apply Ni. rewrite <- E. apply in_items; auto. }
      assert (M1 : mm h1 (len h)).
      { intros j k S K. unfold Proofs.ok. pose proof (sub_le _ _ S). rewrite !Val by lia. apply G; auto. }
      unfold Push, push. fold h1. assert (L1 : len h1 = S (len h)) by reflexivity.
      replace (len h1 - 1) with (len h) by lia.
      destruct (up_ok lt W h1 (len h) (S (len h)) eq_refl M1) as (R & M).
      set (h2 := up lt h1 (len h)) in *. split.
      + unfold good. rewrite (rel_maxed _ _ _ R). cbn [h1 push_ setMaxed maxed]. rewrite (rel_len _ _ _ R), L1. auto.
      + exists (x :: items h). split; [|repeat split; auto].
        * transitivity (items h1).
          -- unfold items. rewrite L1, seq_S, map_app. cbn [map]. rewrite Nat.add_0_l.
             replace (arr h1 (len h)) with x by (unfold h1; cbn; unfold upd; rewrite Nat.eqb_refl; auto).
             replace (map (arr h1) (seq 0 (len h))) with (map (arr h) (seq 0 (len h))).
             ++ apply Permutation_cons_append.
             ++ apply map_ext_in. intros k K. apply in_seq in K. unfold h1. cbn. unfold upd. destruct (Nat.eqb_spec k (len h)); [lia|auto].
          -- apply Permutation_sym. eapply rel_items; [exact R| |intros k; apply lt_dec]. intros k K. unfold below in K. lia.
        * rewrite (rel_value _ _ _ R). reflexivity.
    - (* Min *)
      split; auto. exists (items h). split; auto. cbn. split; auto. split; auto. unfold Min.
      destruct (Nat.eqb_spec (len h) 0) as [E|E]; [apply items_nil; auto|]. split; [apply in_items; lia|].
      intros y Hy. apply items_in in Hy as (k & K & <-). apply (good_min h G k K).
    - (* Max *)
      unfold Max. destruct (Nat.eqb_spec (len h) 0) as [E|E].
      + split; auto. exists (items h). split; auto. cbn. split; auto. split; auto. apply items_nil; auto.
      + destruct (maxed h) eqn:Mx.
        * split; auto. exists (items h). split; auto. cbn. split; auto. split; auto. split; [apply in_items; lia|].
          intros y Hy. apply items_in in Hy as (k & K & <-). unfold good in G. rewrite Mx in G. apply G; auto.
        * unfold good in G. rewrite Mx in G. destruct (setMax_ok h ltac:(lia) G) as (R & M & X).
          pose proof (rel_len _ _ _ R) as EL. pose proof (rel_value _ _ _ R) as EV. cbn [setMaxed arr len]. split.
          -- unfold good. cbn [setMaxed maxed len]. rewrite EL. split; [lia|]. split; auto.
          -- assert (Pm : Permutation (items h) (items (setMaxed (setMax lt h) true))).
             { apply Permutation_sym. change (items (setMaxed (setMax lt h) true)) with (items (setMax lt h)).
               eapply rel_items; [exact R|auto|]. intros k. apply lt_dec. }
             exists (items h). split; auto. cbn. split; auto. split; auto.
             split; [eapply Permutation_in; [apply Permutation_sym; exact Pm|]; apply in_items; cbn; lia|].
             intros y Hy. eapply Permutation_in in Hy; [|exact Pm]. apply items_in in Hy as (k & K & <-). cbn in K |- *.
             rewrite EL. rewrite <- EV. apply (X k); auto.
    - (* PopMin *)
      unfold PopMin. destruct (Nat.eqb_spec (len h) 0) as [E|E].
      + split; auto. exists (items h). split; auto. cbn. split; auto. split; auto. apply items_nil; auto.
      + pose proof (popMin_ok (setMaxed h false) ltac:(cbn; lia) (good_prefix h G) (good_min h G)) as Q.
        destruct (popMin lt (setMaxed h false)) as [x h'] eqn:Ep. destruct Q as (Pm & V & Mx & Ln & -> & M).
        split; [unfold good; rewrite Mx; exact M|]. exists (items h'). split; auto. cbn. split; auto. split; auto.
        intros y Hy. apply items_in in Hy as (k & K & <-). apply (good_min h G k K).
    - (* PopMax *)
      unfold PopMax. destruct (Nat.eqb_spec (len h) 0) as [E|E].
      + split; auto. exists (items h). split; auto. cbn. split; auto. split; auto. apply items_nil; auto.
      + set (h1 := if maxed h then h else setMax lt h).
        assert (Q : rel (below (len h)) h h1 /\ mm h1 (len h - 1) /\ maximal h1 (len h - 1)).
        { unfold h1, good in *. destruct (maxed h).
          - destruct G as (_ & A & B). split; [apply rel_refl|auto].
          - apply setMax_ok; auto. lia. }
        destruct Q as (R & M & X). pose proof (rel_len _ _ _ R) as EL. pose proof (rel_value _ _ _ R) as EV.
        assert (Pm : Permutation (items h) (items h1)).
        { apply Permutation_sym. eapply rel_items; [exact R|auto|]. intros k. apply lt_dec. }
        cbn [pop_ setMaxed arr len idx value maxed]. rewrite EL. split; [exact M|].
        exists (items (mkHeap (len h - 1) (arr h1) (idx h1) (value h1) false)). split; auto. cbn [spec_step value]. split; auto. split.
        * rewrite Pm. pose proof (pop_items h1 ltac:(lia)) as Q. unfold pop_ in Q. cbn in Q. rewrite EL in Q. exact Q.
        * intros y Hy. eapply Permutation_in in Hy; [|exact Pm]. apply items_in in Hy as (k & K & <-).
          rewrite <- EV. apply (X k); auto.
  Qed.

  Lemma spec_perm bag bag2 v o r bag' v' : Permutation bag bag2 -> spec_step bag v o r bag' v' ->
    exists bag2', Permutation bag' bag2' /\ spec_step bag2 v o r bag2' v'.
  Proof.
    intros Pm. assert (Inn : forall y, In y bag2 -> In y bag) by (intros y; apply Permutation_in, Permutation_sym; auto).
    assert (Inn2 : forall y, In y bag -> In y bag2) by (intros y; apply Permutation_in; auto).
    assert (Nil : bag = [] -> bag2 = []) by (intros ->; apply Permutation_nil; auto).
    destruct o as [x p| | | |]; cbn.
    - intros (-> & -> & ->). exists (x :: bag2). auto.
    - intros (-> & -> & H). exists bag2. split; auto. split; auto. split; auto. destruct r; auto. destruct H; auto.
    - intros (-> & -> & H). exists bag2. split; auto. split; auto. split; auto. destruct r; auto. destruct H; auto.
    - intros (-> & H). destruct r as [x|].
      + destruct H as (H1 & H2). exists bag'. split; auto. split; auto. split; auto. rewrite <- Pm. auto.
      + destruct H as (H1 & ->). exists bag2. auto.
    - intros (-> & H). destruct r as [x|].
      + destruct H as (H1 & H2). exists bag'. split; auto. split; auto. split; auto. rewrite <- Pm. auto.
      + destruct H as (H1 & ->). exists bag2. auto.
  Qed.

  Lemma run_ok os : forall h bag, good h -> disciplined h os -> Permutation bag (items h) ->
    exists bag', spec_run bag (value h) os (fst (run lt h os)) bag' /\ Permutation bag' (items (snd (run lt h os))).
  Proof.
    induction os as [|o os IH]; intros h bag G D Pm; cbn [run].
    - exists bag. split; auto. constructor.
    - destruct D as (D1 & D2). pose proof (step_ok h o G D1) as Q. destruct (step lt h o) as [r h1]. cbn [snd] in D2.
      destruct Q as (G1 & b1 & P1 & S1). destruct (spec_perm _ _ _ _ _ _ _ (Permutation_sym Pm) S1) as (b2 & P2 & S2).
      destruct (IH h1 b2 G1 D2) as (b3 & S3 & P3). { rewrite <- P2. auto. }
      destruct (run lt h1 os) as [rs h2]. cbn [fst snd] in *. exists b3. split; auto. econstructor; eauto.
  Qed.

  Lemma new_ok zero its : good (NewMinMaxHeap lt zero its) /\ Permutation (seq 0 (length its)) (items (NewMinMaxHeap lt zero its)) /\
    value (NewMinMaxHeap lt zero its) = (fun x => nth x its zero) /\ len (NewMinMaxHeap lt zero its) = length its.
  Proof.
    unfold NewMinMaxHeap. set (h0 := mkHeap _ _ _ _ _). destruct (initHeap_ok h0) as (R & M). split; [|split; [|split]].
    - unfold good. rewrite (rel_maxed _ _ _ R), (rel_len _ _ _ R). exact M.
    - apply Permutation_sym. transitivity (items h0).
      + eapply rel_items; [exact R|auto|]. intros k. apply lt_dec.
      + unfold items. cbn. rewrite map_id. auto.
    - rewrite (rel_value _ _ _ R). reflexivity.
    - apply (rel_len _ _ _ R).
  Qed.

  (** The caller's side of it, from the calls and their results alone: a pushed item is not among the items that were put in and have not
      been popped, and Max has not shown an item since the last Push or successful pop *)
  Fixpoint rem1 (x : nat) (l : list nat) : list nat :=
    match l with [] => [] | y :: l' => if Nat.eqb y x then l' else y :: rem1 x l' end.
  Fixpoint proper (bag : list nat) (shown : bool) (os : list (op P)) (rs : list (option nat)) : Prop :=
    match os, rs with
    | o :: os', r :: rs' =>
        match o, r with
        | OPush x _, _ => ~ In x bag /\ shown = false /\ proper (x :: bag) false os' rs'
        | OMin, _ => proper bag shown os' rs'
        | OMax, _ => proper bag (match r with Some _ => true | None => shown end) os' rs'
        | _, Some x => proper (rem1 x bag) false os' rs'
        | _, None => proper bag shown os' rs'
        end
    | _, _ => True
    end.
  Lemma rem1_perm x l l' : Permutation l (x :: l') -> Permutation (rem1 x l) l'.
  Proof.
    intros Pm. apply (Permutation_cons_inv (a := x)). rewrite <- Pm.
    assert (I : In x l) by (eapply Permutation_in; [apply Permutation_sym, Pm|left; auto]). clear Pm.
    induction l as [|y l IH]; [destruct I|]. cbn. destruct (Nat.eqb_spec y x) as [->|N]; auto.
    destruct I as [|I]; [congruence|]. rewrite perm_swap. constructor. auto.
  Qed.
  Lemma max_shown h : good h -> maxed (snd (Max lt h)) = match fst (Max lt h) with Some _ => true | None => maxed h end.
  Proof. intros _. unfold Max. destruct (Nat.eqb (len h) 0); auto. destruct (maxed h) eqn:M; cbn; auto. Qed.
  Lemma swap_maxed (h : heap) i j : maxed (swap h i j) = maxed h.
  Proof. reflexivity. Qed.
  Lemma popMin_maxed (h : heap) : maxed (snd (popMin lt h)) = maxed h.
  Proof.
    unfold popMin, pop_. cbn [snd maxed]. unfold down. destruct (downLoop _ _ _ _ _ _) as [h' j] eqn:E. cbn [fst].
    assert (Q : forall f h d i n, maxed (fst (downLoop lt f h d i n)) = maxed h).
    { clear. induction f as [|f IH]; intros h d i n; cbn [downLoop]; auto. destruct (best lt h d i n) as [m|]; auto.
      destruct (Nat.eqb m i); auto. destruct (_ || _); auto. rewrite IH. destruct (eqb _ _); auto. }
    pose proof (Q (S (len h - 1)) (swap h 0 (len h - 1)) (isMinLevel 0) 0 (len h - 1)) as X. rewrite E in X. exact X.
  Qed.
  Lemma up_maxed h i : maxed (up lt h i) = maxed h.
  Proof.
    assert (Q : forall f h d i, maxed (upLoop lt f h d i) = maxed h).
    { clear. induction f as [|f IH]; intros h d i; cbn [upLoop]; auto. destruct (hasGrandparent i); auto. destruct (negb _); auto. rewrite IH. auto. }
    unfold up. destruct (hasParent i); [destruct (eqb _ _)|]; rewrite Q; auto.
  Qed.
  Lemma proper_disciplined os : forall h bag, good h -> Permutation bag (items h) ->
    proper bag (maxed h) os (fst (run lt h os)) -> disciplined h os.
  Proof.
    induction os as [|o os IH]; intros h bag G Pm H; cbn [disciplined]; auto.
    assert (D : forall x p, o = OPush x p -> ~ In x (items h) /\ maxed h = false).
    { intros x p ->. cbn [run] in H. destruct (step lt h (OPush x p)) as [r h1]. destruct (run lt h1 os) as [rs h2]. cbn in H.
      destruct H as (A & B & _). split; auto. intros I. apply A. eapply Permutation_in; [apply Permutation_sym, Pm|exact I]. }
    split; auto. pose proof (step_ok h o G D) as Q. cbn [run] in H. destruct (step lt h o) as [r h1] eqn:Es.
    destruct (run lt h1 os) as [rs h2] eqn:Er. cbn [fst snd] in *. destruct Q as (G1 & bag' & P1 & S1).
    assert (Rs : rs = fst (run lt h1 os)) by (rewrite Er; auto). rewrite Rs in H.
    destruct o as [x p| | | |]; cbn [proper] in H; cbn [spec_step] in S1.
    - destruct S1 as (_ & -> & _). destruct H as (_ & _ & H). apply (IH h1 (x :: bag) G1).
      + rewrite <- P1. constructor. auto.
      + enough (E : maxed h1 = false) by (rewrite E; auto). cbn [step] in Es. injection Es as _ <-. unfold Push, push. rewrite up_maxed. reflexivity.
    - destruct S1 as (-> & _). apply (IH h1 bag G1); [rewrite <- P1; auto|]. cbn [step] in Es. injection Es as _ <-. exact H.
    - destruct S1 as (-> & _). apply (IH h1 bag G1); [rewrite <- P1; auto|]. cbn [step] in Es.
      pose proof (max_shown h G) as E. rewrite Es in E. cbn [fst snd] in E. rewrite E. exact H.
    - destruct S1 as (_ & S1). cbn [step] in Es. unfold PopMin in Es. destruct (Nat.eqb (len h) 0).
      + injection Es as <- <-. destruct S1 as (_ & ->). apply (IH h bag G); auto.
      + pose proof (popMin_maxed (setMaxed h false)) as E. destruct (popMin lt (setMaxed h false)) as [x h']. injection Es as <- <-.
        destruct S1 as (S1 & _). cbn in E. apply (IH h' (rem1 x bag) G1); [|rewrite E; auto].
        rewrite <- P1. apply rem1_perm. rewrite Pm. auto.
    - destruct S1 as (_ & S1). cbn [step] in Es. unfold PopMax in Es. destruct (Nat.eqb (len h) 0).
      + injection Es as <- <-. destruct S1 as (_ & ->). apply (IH h bag G); auto.
      + set (h0 := if maxed h then h else setMax lt h) in *. unfold pop_ in Es. injection Es as <- <-.
        destruct S1 as (S1 & _). eapply IH; [exact G1| |exact H]. rewrite <- P1. apply rem1_perm. rewrite Pm. exact S1.
  Qed.

  Lemma heap_ok zero its os : proper (seq 0 (length its)) false os (fst (run lt (NewMinMaxHeap lt zero its) os)) ->
    exists bag, spec_run (seq 0 (length its)) (fun x => nth x its zero) os (fst (run lt (NewMinMaxHeap lt zero its) os)) bag /\
      Permutation bag (items (snd (run lt (NewMinMaxHeap lt zero its) os))).
  Proof.
    intros D. destruct (new_ok zero its) as (G & Pm & V & _). rewrite <- V. apply run_ok; auto.
    eapply proper_disciplined; eauto. enough (E : maxed (NewMinMaxHeap lt zero its) = false) by (rewrite E; auto).
    unfold NewMinMaxHeap. set (h0 := mkHeap _ _ _ _ _). destruct (initHeap_ok h0) as (R & _). rewrite (rel_maxed _ _ _ R). reflexivity.
  Qed.
End P.
