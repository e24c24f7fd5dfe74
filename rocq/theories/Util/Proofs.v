From Coq Require Import ZArith List Bool Lia.
From stdpp Require Import gmap.
From Verif.Util Require Import Model.
Import ListNotations.
Open Scope Z_scope.

Lemma abs_ok w a : 1 <= w -> - 2 ^ (w - 1) < a < 2 ^ (w - 1) -> Abs w a = Z.abs a.
Proof.
  intros W R. unfold Abs, wrap. destruct (Z.ltb_spec a 0); [|lia].
  assert (E : 2 ^ w = 2 * 2 ^ (w - 1)) by (rewrite <- Z.pow_succ_r by lia; f_equal; lia).
  rewrite Z.mod_small by lia. lia.
Qed.

Lemma abs_min w : 1 <= w -> Abs w (- 2 ^ (w - 1)) = - 2 ^ (w - 1).
Proof.
  intros W. unfold Abs, wrap. assert (0 < 2 ^ (w - 1)) by (apply Z.pow_pos_nonneg; lia).
  assert (E : 2 ^ w = 2 * 2 ^ (w - 1)) by (rewrite <- Z.pow_succ_r by lia; f_equal; lia).
  destruct (Z.ltb_spec (- 2 ^ (w - 1)) 0); [|lia].
  replace (- - 2 ^ (w - 1) + 2 ^ (w - 1)) with (1 * 2 ^ w) by lia.
  rewrite Z.mod_mul by lia. lia.
Qed.

(** strict weak orders *)
Record weak_order {T} (lt : T -> T -> bool) : Prop := {
  wo_irrefl : forall a, lt a a = false;
  wo_trans : forall a b c, lt a b = true -> lt b c = true -> lt a c = true;
  wo_neg : forall a b c, lt b a = false -> lt c b = false -> lt c a = false }.

Lemma wo_asym {T} (lt : T -> T -> bool) (W : weak_order lt) a b : lt a b = true -> lt b a = false.
Proof.
  intros E. destruct (lt b a) eqn:E2; auto.
  rewrite <- (wo_irrefl lt W a). symmetry. eapply wo_trans; eauto.
Qed.

Lemma weak_order_Z : weak_order Z.ltb.
Proof.
  split; intros.
  - apply Z.ltb_irrefl.
  - apply Z.ltb_lt in H, H0. apply Z.ltb_lt. lia.
  - apply Z.ltb_ge in H, H0. apply Z.ltb_ge. lia.
Qed.

Section Ext.
  Context {T : Type} (lt : T -> T -> bool) (zero : T) (W : weak_order lt).

  Definition least (l : list T) (m : T) : Prop := In m l /\ forall x, In x l -> lt x m = false.
  Definition greatest (l : list T) (m : T) : Prop := In m l /\ forall x, In x l -> lt m x = false.

  Lemma min_ok a b : least [a; b] (Min lt a b).
  Proof.
    unfold Min, least. destruct (lt a b) eqn:E; split; cbn; auto; intros x [<-|[<-|[]]];
      auto using (wo_irrefl lt W), wo_asym.
  Qed.
  Lemma max_ok a b : greatest [a; b] (Max lt a b).
  Proof.
    unfold Max, greatest. destruct (lt b a) eqn:E; split; cbn; auto; intros x [<-|[<-|[]]];
      auto using (wo_irrefl lt W), wo_asym.
  Qed.

  Lemma minN_fold rest : forall seen m, least seen m ->
    least (seen ++ rest) (fold_left (fun m v => if lt v m then v else m) rest m).
  Proof.
    induction rest as [|v rest IH]; intros seen m (I & L); cbn; [rewrite app_nil_r; split; auto|].
    replace (seen ++ v :: rest) with ((seen ++ [v]) ++ rest) by (rewrite <- app_assoc; auto).
    apply IH. destruct (lt v m) eqn:E; split.
    - apply in_or_app; cbn; auto.
    - intros x [Ix|[<-|[]]]%in_app_or; [|apply (wo_irrefl lt W)].
      apply (wo_neg lt W v m x); auto. apply wo_asym; auto.
    - apply in_or_app; auto.
    - intros x [Ix|[<-|[]]]%in_app_or; auto.
  Qed.
  Lemma maxN_fold rest : forall seen m, greatest seen m ->
    greatest (seen ++ rest) (fold_left (fun m v => if lt m v then v else m) rest m).
  Proof.
    induction rest as [|v rest IH]; intros seen m (I & L); cbn; [rewrite app_nil_r; split; auto|].
    replace (seen ++ v :: rest) with ((seen ++ [v]) ++ rest) by (rewrite <- app_assoc; auto).
    apply IH. destruct (lt m v) eqn:E; split.
    - apply in_or_app; cbn; auto.
    - intros x [Ix|[<-|[]]]%in_app_or; [|apply (wo_irrefl lt W)].
      apply (wo_neg lt W x m v); auto. apply wo_asym; auto.
    - apply in_or_app; auto.
    - intros x [Ix|[<-|[]]]%in_app_or; auto.
  Qed.

  Lemma minN_ok l : l <> [] -> least l (MinN lt zero l).
  Proof.
    destruct l as [|v l]; [congruence|]. intros _.
    apply (minN_fold l [v] v). split; cbn; auto. intros x [<-|[]]. apply (wo_irrefl lt W).
  Qed.
  Lemma maxN_ok l : l <> [] -> greatest l (MaxN lt zero l).
  Proof.
    destruct l as [|v l]; [congruence|]. intros _.
    apply (maxN_fold l [v] v). split; cbn; auto. intros x [<-|[]]. apply (wo_irrefl lt W).
  Qed.
End Ext.

(** ** pointer slices *)
Lemma load_app {T} (m m' : memory T) p v : load m p = Some v -> load (m ++ m') p = Some v.
Proof.
  destruct p as [a|]; cbn; [|congruence]. intros E. rewrite nth_error_app1; auto.
  apply nth_error_Some. congruence.
Qed.

Lemma toptr_shape {T} (vs : list T) : forall m,
  ToPtrSlice m vs = (m ++ vs, map (fun i => Some i) (seq (length m) (length vs))).
Proof.
  induction vs as [|v vs IH]; intros m; cbn; [rewrite app_nil_r; auto|].
  rewrite IH, <- app_assoc, app_length. cbn. rewrite Nat.add_1_r. reflexivity.
Qed.

Lemma toptr_ok {T} (m : memory T) vs m' ps :
  ToPtrSlice m vs = (m', ps) ->
  length ps = length vs /\
  (forall i v, nth_error vs i = Some v -> exists p, nth_error ps i = Some p /\ load m' p = Some v) /\
  NoDup ps /\
  (forall p, In p ps -> p <> None /\ load m p = None) /\
  (forall p v, load m p = Some v -> load m' p = Some v).
Proof.
  rewrite toptr_shape. intros [= <- <-]. split; [now rewrite map_length, seq_length|].
  split; [|split; [|split]].
  - intros i v E. exists (Some (length m + i)%nat).
    assert (i < length vs)%nat by (apply nth_error_Some; congruence). split.
    + rewrite nth_error_map. rewrite (nth_error_nth' _ 0%nat) by (rewrite seq_length; lia).
      cbn. rewrite seq_nth; auto.
    + cbn. rewrite nth_error_app2 by lia. replace (_ + i - _)%nat with i by lia. auto.
  - apply NoDup_ListNoDup. apply FinFun.Injective_map_NoDup; [intros ?? [=]; auto|apply seq_NoDup].
  - intros p (i & <- & I)%in_map_iff. split; [congruence|]. apply in_seq in I. cbn. apply nth_error_None. lia.
  - intros p v E. apply load_app; auto.
Qed.

Lemma tostruct_toptr {T} (m : memory T) vs m' ps :
  ToPtrSlice m vs = (m', ps) -> ToStructSlice m' ps = Some vs.
Proof.
  rewrite toptr_shape. intros [= <- <-]. revert m. induction vs as [|v vs IH]; intros m; cbn; auto.
  rewrite nth_error_app2, Nat.sub_diag by lia. cbn.
  specialize (IH (m ++ [v])). rewrite app_length in IH. cbn in IH. rewrite Nat.add_1_r, <- app_assoc in IH.
  cbn in IH. rewrite IH. auto.
Qed.

Lemma tostruct_spec {T} (m : memory T) ps vs :
  ToStructSlice m ps = Some vs <-> Forall2 (fun p v => load m p = Some v) ps vs.
Proof.
  revert vs. induction ps as [|p ps IH]; intros vs; cbn.
  - split; [intros [= <-]; constructor|inversion 1; auto].
  - destruct (load m p) as [v|] eqn:E.
    + destruct (ToStructSlice m ps) as [vs'|] eqn:E'.
      * split.
        -- intros [= <-]. constructor; auto. apply IH; auto.
        -- inversion 1; subst. assert (v = y) by congruence. subst. f_equal. f_equal. apply IH in H4. congruence.
      * split; [congruence|]. inversion 1; subst. apply IH in H4. congruence.
    + split; [congruence|]. inversion 1; subst. congruence.
Qed.

(** ** maps *)
Section MapsP.
  Context {K T : Type} `{Countable K}.
  Implicit Types m : gmap K T.

  Lemma values_map (o : list (K * T)) : MapValuesToSlice o = map snd o.
  Proof.
    assert (G : forall a, fold_left (fun slice kv => slice ++ [snd kv]) o a = a ++ map snd o).
    { induction o as [|kv o IH]; intros a; cbn; [rewrite app_nil_r; auto|]. rewrite IH, <- app_assoc. auto. }
    exact (G []).
  Qed.
  Lemma keys_map (o : list (K * T)) : MapKeysToSlice o = map fst o.
  Proof.
    assert (G : forall a, fold_left (fun slice kv => slice ++ [fst kv]) o a = a ++ map fst o).
    { induction o as [|kv o IH]; intros a; cbn; [rewrite app_nil_r; auto|]. rewrite IH, <- app_assoc. auto. }
    exact (G []).
  Qed.

  Lemma keys_ok m o : iteration_of m o ->
    NoDup (MapKeysToSlice o) /\ forall k, k ∈ MapKeysToSlice o <-> is_Some (m !! k).
  Proof.
    unfold iteration_of. intros P. rewrite keys_map.
    assert (P2 : map fst o ≡ₚ map fst (map_to_list m)) by (apply Permutation_map; auto).
    split.
    - rewrite P2. apply NoDup_fst_map_to_list.
    - intros k. rewrite P2. change (map fst (map_to_list m)) with ((map_to_list m).*1).
      rewrite elem_of_list_fmap. split.
      + intros ((k' & v) & -> & I). apply elem_of_map_to_list in I. cbn. eauto.
      + intros (v & E). exists (k, v). split; auto. apply elem_of_map_to_list; auto.
  Qed.
  (** the slice has one entry per binding; entry i belongs to some key *)
  Lemma values_ok m o : iteration_of m o -> MapValuesToSlice o ≡ₚ (map_to_list m).*2.
  Proof. unfold iteration_of. intros P. rewrite values_map. apply Permutation_map; auto. Qed.

  Lemma copy_fold (o : list (K * T)) : forall c : gmap K T, NoDup (map fst o) ->
    forall k, fold_left (fun c kv => <[fst kv := snd kv]> c) o c !! k =
      match list_to_map (M := gmap K T) o !! k with Some v => Some v | None => c !! k end.
  Proof.
    induction o as [|[k0 v0] o IH]; intros c ND k; cbn in *; [rewrite lookup_empty; auto|].
    inversion ND; subst. rewrite IH by auto. destruct (decide (k0 = k)) as [->|N].
    - rewrite lookup_insert. rewrite (proj1 (not_elem_of_list_to_map o k)); [|auto].
      rewrite lookup_insert. auto.
    - rewrite !lookup_insert_ne by auto. auto.
  Qed.
  Lemma copy_ok m o : iteration_of m o -> MapCopy o = m.
  Proof.
    unfold iteration_of. intros P. apply map_eq. intros k. unfold MapCopy.
    assert (ND : NoDup (o.*1)) by (rewrite P; apply NoDup_fst_map_to_list).
    rewrite copy_fold by auto. rewrite lookup_empty.
    rewrite (list_to_map_proper o (map_to_list m)) by auto. rewrite list_to_map_to_list. destruct (m !! k); auto.
  Qed.
End MapsP.

Lemma must_ok {T E} (item : T) (err : option E) :
  Must item err = match err with None => Some item | Some _ => None end.
Proof. destruct err; auto. Qed.
