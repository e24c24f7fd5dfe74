From Coq Require Import List Bool Arith Lia Sorting.Sorted.
From Verif.BTree Require Import Model.
Import ListNotations.

(** ** sort.Search *)
Lemma searchLoop_ok f n : (forall a b, a <= b -> b < n -> f a = true -> f b = true) ->
  forall fuel i j, i <= j -> j <= n -> j - i < fuel ->
  (forall k, k < i -> f k = false) -> (forall k, j <= k -> k < n -> f k = true) ->
  let r := searchLoop fuel f i j in
  r <= n /\ (forall k, k < r -> f k = false) /\ (forall k, r <= k -> k < n -> f k = true).
Proof.
  intros M. induction fuel as [|fuel IH]; intros i j L1 L2 L3 Lo Hi; [lia|]. cbn [searchLoop].
  destruct (Nat.ltb_spec i j) as [L|G].
  - assert (Hd : i <= Nat.div2 (i + j) < j).
    { rewrite Nat.div2_div. split.
      - apply Nat.div_le_lower_bound; lia.
      - apply Nat.div_lt_upper_bound; lia. }
    destruct (f (Nat.div2 (i + j))) eqn:F.
    + apply IH; try lia; auto. intros k K1 K2. destruct (Nat.lt_ge_cases k j); [|auto].
      apply (M (Nat.div2 (i + j)) k); auto.
    + apply IH; try lia; auto. intros k K. destruct (f k) eqn:Fk; auto.
      rewrite <- F. symmetry. apply (M k (Nat.div2 (i + j))); auto; lia.
  - repeat split; auto; try lia. intros k K1 K2. apply Hi; lia.
Qed.

Lemma sortSearch_ok f n : (forall a b, a <= b -> b < n -> f a = true -> f b = true) ->
  let r := sortSearch n f in
  r <= n /\ (forall k, k < r -> f k = false) /\ (forall k, r <= k -> k < n -> f k = true).
Proof. intros M. unfold sortSearch. apply searchLoop_ok; auto; lia. Qed.

(** ** Strict weak orders *)
Record weak_order {T} (less : T -> T -> bool) : Prop := {
  wo_irrefl : forall a, less a a = false;
  wo_trans : forall a b c, less a b = true -> less b c = true -> less a c = true;
  wo_neg : forall a b c, less b a = false -> less c b = false -> less c a = false }.

Section B.
  Context {T : Type} (less : T -> T -> bool) (W : weak_order less).
  Implicit Types (s : tree T) (x y z : T).

  Definition eqv x y : bool := negb (less x y) && negb (less y x).
  Lemma eqv_spec x y : eqv x y = true <-> less x y = false /\ less y x = false.
  Proof. unfold eqv. rewrite andb_true_iff, !negb_true_iff. tauto. Qed.
  Lemma eqv_refl x : eqv x x = true.
  Proof. apply eqv_spec. split; apply W. Qed.
  Lemma eqv_sym x y : eqv x y = eqv y x.
  Proof. unfold eqv. apply andb_comm. Qed.
  Lemma wo_asym x y : less x y = true -> less y x = false.
  Proof.
    intros E. destruct (less y x) eqn:F; auto. rewrite <- (wo_irrefl _ W x). symmetry. eapply wo_trans; eauto.
  Qed.
  Lemma less_eqv_l x y z : eqv x y = true -> less x z = less y z.
  Proof.
    intros E. apply eqv_spec in E as (E1 & E2). destruct (less x z) eqn:A, (less y z) eqn:B; auto; exfalso.
    - assert (less x z = false) by (eapply wo_neg; eauto). congruence.
    - assert (less y z = false) by (eapply wo_neg; eauto). congruence.
  Qed.
  Lemma less_eqv_r x y z : eqv x y = true -> less z x = less z y.
  Proof.
    intros E. apply eqv_spec in E as (E1 & E2). destruct (less z x) eqn:A, (less z y) eqn:B; auto; exfalso.
    - assert (less z x = false) by (eapply wo_neg; eauto). congruence.
    - assert (less z y = false) by (eapply wo_neg; eauto). congruence.
  Qed.
  Lemma eqv_trans x y z : eqv x y = true -> eqv y z = true -> eqv x z = true.
  Proof.
    intros A B. apply eqv_spec. rewrite (less_eqv_l _ _ _ A), (less_eqv_r _ _ _ A). apply eqv_spec; auto.
  Qed.
  Lemma eqv_cong x y z : eqv x y = true -> eqv x z = eqv y z.
  Proof. intros E. unfold eqv. rewrite (less_eqv_l _ _ _ E), (less_eqv_r _ _ _ E). auto. Qed.

  Definition sorted s : Prop := StronglySorted (fun a b => less a b = true) s.

  (** ** Specification: the items as a map from equivalence classes *)
  Definition lookup s x : option T := find (eqv x) s.

  Lemma lookup_app s1 s2 x : lookup (s1 ++ s2) x = match lookup s1 x with Some y => Some y | None => lookup s2 x end.
  Proof.
    unfold lookup. induction s1 as [|a s1 IH]; cbn; auto. destruct (eqv x a); auto.
  Qed.
  Lemma lookup_none s x : (forall y, In y s -> eqv x y = false) -> lookup s x = None.
  Proof.
    unfold lookup. induction s as [|a s IH]; cbn; auto. intros H. rewrite H by auto. auto.
  Qed.
  Lemma lookup_some s x y : lookup s x = Some y -> In y s /\ eqv x y = true.
  Proof. intros H. apply find_some in H. auto. Qed.

  Lemma sorted_app s1 s2 : sorted (s1 ++ s2) <-> sorted s1 /\ sorted s2 /\ forall a b, In a s1 -> In b s2 -> less a b = true.
  Proof.
    unfold sorted. induction s1 as [|a s1 IH]; cbn.
    - split; [intros H; repeat split; auto; try constructor; intros ? ? []|tauto].
    - split.
      + intros H. inversion H as [|? ? H1 H2]; subst. apply IH in H1 as (A & B & C).
        rewrite Forall_app in H2. destruct H2 as (H2 & H3). repeat split; auto.
        * constructor; auto.
        * intros a' b [<-|I] Ib; [|auto]. rewrite Forall_forall in H3. auto.
      + intros (A & B & C). inversion A as [|? ? A1 A2]; subst. constructor.
        * apply IH. repeat split; auto.
        * apply Forall_app. split; auto. apply Forall_forall. intros b Ib. apply C; auto.
  Qed.
  Lemma sorted_cons a s : sorted (a :: s) <-> sorted s /\ forall b, In b s -> less a b = true.
  Proof.
    unfold sorted. split.
    - intros H. inversion H; subst. rewrite Forall_forall in H3. auto.
    - intros (A & B). constructor; auto. apply Forall_forall. auto.
  Qed.

  Lemma nth_mono s i j a b : sorted s -> i < j -> nth_error s i = Some a -> nth_error s j = Some b -> less a b = true.
  Proof.
    revert i j. induction s as [|c s IH]; intros i j S L A B; [destruct i; discriminate|].
    apply sorted_cons in S as (S1 & S2). destruct j; [lia|]. cbn in B. destruct i; cbn in A.
    - injection A as ->. apply S2. eapply nth_error_In; eauto.
    - apply (IH i j); auto. lia.
  Qed.

  (** where [item] goes: everything in [s1] is at most, everything in [s2] above it *)
  Inductive located s item : nat -> bool -> Prop :=
  | loc_found s1 y s2 : s = s1 ++ y :: s2 -> eqv item y = true ->
      (forall a, In a s1 -> less a item = true) -> (forall b, In b s2 -> less item b = true) ->
      located s item (length s1) true
  | loc_absent s1 s2 : s = s1 ++ s2 ->
      (forall a, In a s1 -> less a item = true) -> (forall b, In b s2 -> less item b = true) ->
      located s item (length s1) false.

  Lemma find_located s item : sorted s -> let '(i, b) := find_ less s item in located s item i b.
  Proof.
    intros So. unfold find_.
    set (f := fun k => match nth_error s k with Some y => less item y | None => true end).
    destruct (sortSearch_ok f (length s)) as (L & Lo & Hi).
    { intros a b La Lb Fa. unfold f in *. destruct (nth_error s b) as [y|] eqn:B; auto.
      destruct (nth_error s a) as [x|] eqn:A.
      - destruct (Nat.eq_dec a b) as [->|N]; [congruence|]. eapply wo_trans; eauto. eapply (nth_mono s a b); eauto. lia.
      - apply nth_error_None in A. assert (b < length s) by (apply nth_error_Some; congruence). lia. }
    set (i := sortSearch (length s) f) in *.
    assert (Above : forall b, In b (skipn i s) -> less item b = true).
    { intros b Hb. apply In_nth_error in Hb as (k & Hk).
      assert (Q : nth_error s (i + k) = Some b).
      { rewrite <- (firstn_skipn i s), nth_error_app2 by (rewrite firstn_length; lia).
        rewrite firstn_length. replace (i + k - min i (length s)) with k by lia. auto. }
      assert (i + k < length s) by (apply nth_error_Some; congruence).
      specialize (Hi (i + k) ltac:(lia) H). unfold f in Hi. rewrite Q in Hi. auto. }
    assert (Below : forall a, In a (firstn i s) -> less item a = false).
    { intros a Ha. apply In_nth_error in Ha as (k & Hk).
      assert (k < length (firstn i s)) by (apply nth_error_Some; congruence). rewrite firstn_length in H.
      assert (Q : nth_error s k = Some a).
      { rewrite <- (firstn_skipn i s), nth_error_app1; auto. rewrite firstn_length. lia. }
      specialize (Lo k ltac:(lia)). unfold f in Lo. rewrite Q in Lo. auto. }
    destruct i as [|i'] eqn:Ei.
    - apply (loc_absent s item [] s); auto; intros ? [].
    - destruct (nth_error s i') as [y|] eqn:Y; [|apply nth_error_None in Y; lia].
      assert (Sp : s = firstn i' s ++ y :: skipn (S i') s).
      { rewrite <- (firstn_skipn i' s) at 1. f_equal. clear - Y. revert s Y.
        induction i' as [|k IH]; intros [|a s] Y; cbn in *; try discriminate; [congruence|]. apply IH; auto. }
      assert (Fi : firstn (S i') s = firstn i' s ++ [y]).
      { clear - Y. revert s Y. induction i' as [|k IH]; intros [|a s] Y; cbn [nth_error] in Y; try discriminate.
        - injection Y as ->. reflexivity.
        - cbn [firstn app]. f_equal. apply IH; auto. }
      assert (S2 : sorted (firstn i' s ++ y :: skipn (S i') s)) by (rewrite <- Sp; auto).
      apply sorted_app in S2 as (Sa & Sb & Sc). apply sorted_cons in Sb as (Sb & Sd).
      assert (Yn : less item y = false) by (apply Below; rewrite Fi; apply in_or_app; cbn; auto).
      assert (Len : length (firstn i' s) = i') by (rewrite firstn_length; lia).
      destruct (less y item) eqn:Z; cbn [negb].
      + replace (S i') with (length (firstn (S i') s)) by (rewrite firstn_length; lia).
        apply (loc_absent s item (firstn (S i') s) (skipn (S i') s)); auto.
        * symmetry. apply firstn_skipn.
        * rewrite Fi. intros a Ha. apply in_app_or in Ha as [Ha|[<-|[]]]; auto.
          apply (wo_trans _ W a y item); auto. apply Sc; cbn; auto.
      + rewrite <- Len. apply (loc_found s item (firstn i' s) y (skipn (S i') s)); auto.
        * apply eqv_spec. auto.
        * intros a Ha. rewrite (less_eqv_r item y); [apply Sc; cbn; auto|]. apply eqv_spec. auto.
  Qed.

  Lemma less_not_eqv x y : less x y = true -> eqv x y = false.
  Proof. intros H. unfold eqv. rewrite H. auto. Qed.
  Lemma less_not_eqv' x y : less y x = true -> eqv x y = false.
  Proof. intros H. unfold eqv. rewrite H. apply andb_false_r. Qed.

  Lemma nth_mid {A} (l1 l2 : list A) (y : A) : nth_error (l1 ++ y :: l2) (length l1) = Some y.
  Proof. rewrite nth_error_app2, Nat.sub_diag; auto. Qed.
  Lemma firstn_mid {A} (l1 l2 : list A) : firstn (length l1) (l1 ++ l2) = l1.
  Proof. rewrite firstn_app, Nat.sub_diag, firstn_all, app_nil_r. auto. Qed.
  Lemma skipn_mid {A} (l1 l2 : list A) : skipn (length l1) (l1 ++ l2) = l2.
  Proof. rewrite skipn_app, Nat.sub_diag, skipn_all. auto. Qed.
  Lemma skipn_mid1 {A} (l1 l2 : list A) (y : A) : skipn (S (length l1)) (l1 ++ y :: l2) = l2.
  Proof. rewrite skipn_app. rewrite skipn_all2 by lia. replace (S (length l1) - length l1) with 1 by lia. auto. Qed.

  Lemma get_ok s x : sorted s -> Get less s x = lookup s x.
  Proof.
    intros S. unfold Get. pose proof (find_located s x S) as L. destruct (find_ less s x) as [i b].
    destruct L as [s1 y s2 -> E A B|s1 s2 -> A B].
    - rewrite nth_mid, lookup_app, lookup_none; [|intros a Ha; apply less_not_eqv'; auto].
      unfold lookup. cbn. rewrite E. auto.
    - symmetry. apply lookup_none. intros a Ha. apply in_app_or in Ha as [Ha|Ha].
      + apply less_not_eqv'; auto. + apply less_not_eqv; auto.
  Qed.

  Lemma insert_ok s x old s' : sorted s -> ReplaceOrInsert less s x = (old, s') ->
    sorted s' /\ old = lookup s x /\
    (forall z, lookup s' z = if eqv z x then Some x else lookup s z) /\
    length s' = match old with Some _ => length s | None => S (length s) end.
  Proof.
    intros S. unfold ReplaceOrInsert. pose proof (find_located s x S) as L. destruct (find_ less s x) as [i b].
    destruct L as [s1 y s2 -> E A B|s1 s2 -> A B].
    - rewrite nth_mid, firstn_mid, skipn_mid1. intros [= <- <-].
      apply sorted_app in S as (Sa & Sb & Sc). apply sorted_cons in Sb as (Sb & Sd).
      repeat split.
      + apply sorted_app. repeat split; auto.
        * apply sorted_cons. auto.
        * intros a c Ha [<-|Hc]; auto. apply Sc; cbn; auto.
      + rewrite lookup_app, lookup_none; [|intros a Ha; apply less_not_eqv'; auto].
        unfold lookup. cbn. rewrite E. auto.
      + intros z. rewrite !lookup_app. unfold lookup. cbn.
        assert (Q : eqv z x = eqv z y) by (rewrite (eqv_sym z x), (eqv_sym z y); apply eqv_cong; auto).
        rewrite <- Q. destruct (eqv z x) eqn:Zx; auto.
        fold (lookup s1 z). rewrite lookup_none; auto. intros a Ha. rewrite (eqv_cong _ _ _ Zx). apply less_not_eqv'; auto.
      + rewrite !app_length. auto.
    - rewrite firstn_mid, skipn_mid. intros [= <- <-].
      apply sorted_app in S as (Sa & Sb & Sc). repeat split.
      + apply sorted_app. repeat split; auto.
        * apply sorted_cons. auto.
        * intros a c Ha [<-|Hc]; auto.
      + symmetry. apply lookup_none. intros a Ha. apply in_app_or in Ha as [Ha|Ha].
        * apply less_not_eqv'; auto. * apply less_not_eqv; auto.
      + intros z. rewrite !lookup_app. unfold lookup. cbn. destruct (eqv z x) eqn:Zx; auto.
        fold (lookup s1 z). rewrite lookup_none; auto. intros a Ha. rewrite (eqv_cong _ _ _ Zx). apply less_not_eqv'; auto.
      + rewrite !app_length. cbn. lia.
  Qed.

  Lemma delete_ok s x old s' : sorted s -> Delete less s x = (old, s') ->
    sorted s' /\ old = lookup s x /\
    (forall z, lookup s' z = if eqv z x then None else lookup s z) /\
    length s = match old with Some _ => S (length s') | None => length s' end.
  Proof.
    intros S. unfold Delete. pose proof (find_located s x S) as L. destruct (find_ less s x) as [i b].
    destruct L as [s1 y s2 -> E A B|s1 s2 -> A B].
    - rewrite nth_mid, firstn_mid, skipn_mid1. intros [= <- <-].
      apply sorted_app in S as (Sa & Sb & Sc). apply sorted_cons in Sb as (Sb & Sd).
      repeat split.
      + apply sorted_app. repeat split; auto. intros a c Ha Hc. apply Sc; cbn; auto.
      + rewrite lookup_app, lookup_none; [|intros a Ha; apply less_not_eqv'; auto].
        unfold lookup. cbn. rewrite E. auto.
      + intros z. rewrite !lookup_app. unfold lookup. cbn.
        assert (Q : eqv z x = eqv z y) by (rewrite (eqv_sym z x), (eqv_sym z y); apply eqv_cong; auto).
        rewrite <- Q. destruct (eqv z x) eqn:Zx; auto.
        fold (lookup s1 z). fold (lookup s2 z). rewrite !lookup_none; auto.
        * intros a Ha. rewrite (eqv_cong _ _ _ Zx). apply less_not_eqv; auto.
        * intros a Ha. rewrite (eqv_cong _ _ _ Zx). apply less_not_eqv'; auto.
      + rewrite !app_length. cbn. lia.
    - intros [= <- <-].
      assert (N : forall z, eqv z x = true -> lookup (s1 ++ s2) z = None).
      { intros z Zx. apply lookup_none. intros a Ha. rewrite (eqv_cong _ _ _ Zx). apply in_app_or in Ha as [Ha|Ha].
        - apply less_not_eqv'; auto. - apply less_not_eqv; auto. }
      repeat split; auto.
      + symmetry. apply N. apply eqv_refl.
      + intros z. destruct (eqv z x) eqn:Zx; auto.
  Qed.

  Lemma sorted_nil : sorted [].
  Proof. constructor. Qed.
  Lemma sorted_NoDup s : sorted s -> NoDup s.
  Proof.
    induction 1 as [|a s S IH F]; constructor; auto. intros I. rewrite Forall_forall in F.
    apply F in I. rewrite (wo_irrefl _ W) in I. discriminate.
  Qed.
  Lemma lookup_in s x : sorted s -> In x s -> lookup s x = Some x.
  Proof.
    intros S I. apply in_split in I as (s1 & s2 & ->). apply sorted_app in S as (Sa & Sb & Sc).
    rewrite lookup_app, lookup_none.
    - unfold lookup. cbn. rewrite eqv_refl. auto.
    - intros a Ha. apply less_not_eqv'. apply Sc; cbn; auto.
  Qed.
End B.

