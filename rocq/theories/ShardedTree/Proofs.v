From Coq Require Import ZArith List Bool Lia.
From Verif.Base Require Import GoInt.
From Verif.BTree Require Import Model Proofs.
From Verif.ShardedTree Require Import Model.
Import ListNotations.
Open Scope Z_scope.

(** ** Specification: one map *)
Section Spec.
  Context {T : Type} (same : T -> T -> bool).
  Definition amap := T -> option T.
  Definition spec_step (m : amap) (o : op T) : option T * amap :=
    match o with
    | OInsert x => (m x, fun z => if same z x then Some x else m z)
    | ODelete x => (m x, fun z => if same z x then None else m z)
    | OGet x => (m x, m)
    end.
  Fixpoint spec_run (m : amap) (os : list (op T)) : list (option T) * amap :=
    match os with
    | [] => ([], m)
    | o :: os' => let '(r, m1) := spec_step m o in let '(rs, m2) := spec_run m1 os' in (r :: rs, m2)
    end.
  (** [n] distinct items are in the map *)
  Definition has_size (m : amap) (n : nat) : Prop :=
    exists l, length l = n /\ ForallOrdPairs (fun a b => same a b = false) l /\
              forall x y, m x = Some y <-> In y l /\ same x y = true.
End Spec.

Lemma fop_app {A} (R : A -> A -> Prop) l1 l2 :
  ForallOrdPairs R l1 -> ForallOrdPairs R l2 -> (forall a b, In a l1 -> In b l2 -> R a b) -> ForallOrdPairs R (l1 ++ l2).
Proof.
  induction 1 as [|a l1 F P IH]; intros P2 H; cbn; auto. constructor.
  - apply Forall_app. split; auto. apply Forall_forall. intros b Hb. apply H; cbn; auto.
  - apply IH; auto. intros x y Hx Hy. apply H; cbn; auto.
Qed.

Lemma land_ones_lt h n : 0 <= n -> 0 <= Z.land h (2 ^ n - 1) < 2 ^ n.
Proof.
  intros N. replace (2 ^ n - 1) with (Z.ones n) by (rewrite Z.ones_equiv; lia).
  rewrite Z.land_ones by auto. apply Z.mod_pos_bound. apply Z.pow_pos_nonneg; lia.
Qed.

Section P.
  Context {K T : Type} (hashFunc : K -> Z) (less : T -> T -> bool) (keyOf : T -> K).
  Context (W : weak_order less).
  (** items that the order does not separate have the same key *)
  Context (KO : forall a b, eqv less a b = true -> keyOf a = keyOf b).
  Notation ST := (ShardedTree T).

  Lemma new_ok e : 0 <= e <= 61 ->
    @NewShardedTree T e = Some (mkST (repeat [] (Z.to_nat (2 ^ (e + 1)))) (2 ^ (e + 1) - 1)).
  Proof.
    intros E. unfold NewShardedTree, shiftLeft. destruct (Z.ltb_spec e 0); [lia|].
    assert (P : 1 <= 2 ^ (e + 1) <= 2 ^ 62).
    { split; [|apply Z.pow_le_mono_r; lia]. pose proof (Z.pow_pos_nonneg 2 (e + 1)). lia. }
    rewrite Z.shiftl_mul_pow2 by lia. replace (2 * 2 ^ e) with (2 ^ (e + 1)) by (rewrite Z.pow_add_r by lia; lia).
    rewrite s64_id by (unfold in_int64, MinInt64, MaxInt64; lia).
    destruct (Z.ltb_spec (2 ^ (e + 1)) 0); [lia|].
    unfold u64. rewrite Z.mod_small by lia. auto.
  Qed.

  Definition wf_shape (st : ST) : Prop :=
    exists n, 0 <= n /\ mod_ st = 2 ^ n - 1 /\ Z.of_nat (length (trees st)) = 2 ^ n.

  Definition shard (st : ST) (k : K) : nat := Z.to_nat (Z.land (u64 (hashFunc k)) (mod_ st)).
  Lemma for_ok st k : wf_shape st -> For hashFunc st k = Some (shard st k) /\ (shard st k < length (trees st))%nat.
  Proof.
    intros (n & N & M & L). unfold For, shard. rewrite M. pose proof (land_ones_lt (u64 (hashFunc k)) n N).
    destruct (Z.ltb_spec (Z.land (u64 (hashFunc k)) (2 ^ n - 1)) (Z.of_nat (length (trees st)))); [|lia]. split; auto. lia.
  Qed.

  Record inv (st : ST) (m : amap) : Prop := {
    i_shape : wf_shape st;
    i_sorted : forall i t, nth_error (trees st) i = Some t -> sorted less t;
    i_home : forall i t x, nth_error (trees st) i = Some t -> In x t -> shard st (keyOf x) = i;
    i_map : forall i t x, nth_error (trees st) i = Some t -> shard st (keyOf x) = i -> lookup less t x = m x }.

  Lemma set_nth (st : ST) i t' j : (i < length (trees st))%nat ->
    nth_error (trees (set_tree st i t')) j = if Nat.eqb j i then Some t' else nth_error (trees st) j.
  Proof.
    intros L. cbn [set_tree trees]. assert (L1 : length (firstn i (trees st)) = i) by (rewrite firstn_length; lia).
    destruct (Nat.eqb_spec j i) as [->|N].
    - rewrite nth_error_app2 by lia. rewrite L1, Nat.sub_diag. auto.
    - destruct (Nat.lt_ge_cases j i) as [Lt|Ge].
      + rewrite nth_error_app1 by lia. rewrite <- (firstn_skipn i (trees st)) at 2. rewrite nth_error_app1 by lia. auto.
      + rewrite nth_error_app2 by lia. rewrite L1. destruct (j - i)%nat as [|d] eqn:D; [lia|]. cbn [nth_error].
        rewrite <- (firstn_skipn (S i) (trees st)) at 2. rewrite nth_error_app2 by (rewrite firstn_length; lia).
        f_equal. rewrite firstn_length. lia.
  Qed.
  Lemma set_len (st : ST) i t' : (i < length (trees st))%nat -> length (trees (set_tree st i t')) = length (trees st).
  Proof. intros L. cbn [set_tree trees]. rewrite app_length, firstn_length. cbn [length]. rewrite skipn_length. lia. Qed.

  Lemma upd_inv st m x t' m' :
    inv st m -> sorted less t' ->
    (forall y, In y t' -> y = x \/ exists t, nth_error (trees st) (shard st (keyOf x)) = Some t /\ In y t) ->
    (forall z, keyOf z <> keyOf x \/ eqv less z x = false -> m' z = m z) ->
    (forall z, shard st (keyOf z) = shard st (keyOf x) -> lookup less t' z = m' z) ->
    inv (set_tree st (shard st (keyOf x)) t') m'.
  Proof.
    intros I So H Mo Ml. destruct (for_ok st (keyOf x) (i_shape _ _ I)) as (_ & L).
    set (i := shard st (keyOf x)) in *.
    assert (Sh : forall k, shard (set_tree st i t') k = shard st k) by reflexivity.
    split.
    - destruct (i_shape _ _ I) as (n & A & B & C). exists n. rewrite set_len by auto. auto.
    - intros j t Hj. rewrite set_nth in Hj by auto. destruct (Nat.eqb_spec j i); [congruence|]. eapply i_sorted; eauto.
    - intros j t y Hj Hy. rewrite Sh. rewrite set_nth in Hj by auto. destruct (Nat.eqb_spec j i) as [->|N].
      + injection Hj as <-. destruct (H y Hy) as [->|(t0 & Ht & Hin)]; auto. eapply i_home; eauto.
      + eapply i_home; eauto.
    - intros j t y Hj Hy. rewrite Sh in Hy. rewrite set_nth in Hj by auto. destruct (Nat.eqb_spec j i) as [->|N].
      + injection Hj as <-. auto.
      + rewrite Mo; [eapply i_map; eauto|]. left. intros E. rewrite E in Hy. auto.
  Qed.

  Lemma in_insert (s : tree T) x y : In y (snd (ReplaceOrInsert less s x)) -> y = x \/ In y s.
  Proof.
    unfold ReplaceOrInsert. destruct (find_ less s x) as [i []]; cbn [snd]; intros H;
      apply in_app_or in H as [H|[H|H]]; auto; right;
      [rewrite <- (firstn_skipn i s)|rewrite <- (firstn_skipn (S i) s)|rewrite <- (firstn_skipn i s)|rewrite <- (firstn_skipn i s)];
      apply in_or_app; auto.
  Qed.
  Lemma in_delete (s : tree T) x y : In y (snd (Delete less s x)) -> In y s.
  Proof.
    unfold Delete. destruct (find_ less s x) as [i []]; cbn [snd]; intros H; auto.
    apply in_app_or in H as [H|H]; [rewrite <- (firstn_skipn i s)|rewrite <- (firstn_skipn (S i) s)]; apply in_or_app; auto.
  Qed.

  Lemma step_ok st m o : inv st m ->
    exists st', step hashFunc less keyOf st o = Some (fst (spec_step (eqv less) m o), st') /\
                inv st' (snd (spec_step (eqv less) m o)).
  Proof.
    intros I. set (x := match o with OInsert x | ODelete x | OGet x => x end).
    destruct (for_ok st (keyOf x) (i_shape _ _ I)) as (F & L).
    destruct (nth_error (trees st) (shard st (keyOf x))) as [t|] eqn:Nt; [|apply nth_error_None in Nt; lia].
    pose proof (i_sorted _ _ I _ _ Nt) as So.
    assert (Lk : forall z, shard st (keyOf z) = shard st (keyOf x) -> lookup less t z = m z) by (intros; eapply i_map; eauto).
    unfold step. fold x. rewrite F, Nt. destruct o as [x0|x0|x0]; subst x; rename x0 into x; cbn [spec_step fst snd].
    - destruct (ReplaceOrInsert less t x) as [old t'] eqn:R.
      destruct (insert_ok _ W _ _ _ _ So R) as (So' & -> & Lk' & _). rewrite Lk by auto.
      eexists. split; [reflexivity|]. eapply upd_inv; eauto.
      + intros y Hy. replace t' with (snd (lookup less t x, t')) in Hy by auto. rewrite <- R in Hy.
        apply in_insert in Hy as [->|Hy]; eauto.
      + intros z Hz. destruct (eqv less z x) eqn:E; auto. destruct Hz as [Hz|Hz]; [|discriminate]. apply KO in E. contradiction.
      + intros z Hz. rewrite Lk'. destruct (eqv less z x); auto.
    - destruct (Delete less t x) as [old t'] eqn:R.
      destruct (delete_ok _ W _ _ _ _ So R) as (So' & -> & Lk' & _). rewrite Lk by auto.
      eexists. split; [reflexivity|]. eapply upd_inv; eauto.
      + intros y Hy. right. exists t. split; auto. apply (in_delete t x). rewrite R. auto.
      + intros z Hz. destruct (eqv less z x) eqn:E; auto. destruct Hz as [Hz|Hz]; [|discriminate]. apply KO in E. contradiction.
      + intros z Hz. rewrite Lk'. destruct (eqv less z x); auto.
    - rewrite (get_ok _ W) by auto. rewrite Lk by auto. eexists. split; [reflexivity|auto].
  Qed.

  Lemma run_ok os : forall st m, inv st m ->
    exists st', run hashFunc less keyOf st os = Some (fst (spec_run (eqv less) m os), st') /\
                inv st' (snd (spec_run (eqv less) m os)).
  Proof.
    induction os as [|o os IH]; intros st m I; cbn; [eauto|].
    destruct (step_ok st m o I) as (st1 & S1 & I1). rewrite S1.
    destruct (spec_step (eqv less) m o) as [r m1]. cbn [fst snd] in *.
    destruct (IH st1 m1 I1) as (st2 & S2 & I2). rewrite S2.
    destruct (spec_run (eqv less) m1 os) as [rs m2]. cbn [fst snd] in *. eauto.
  Qed.

  Lemma new_inv e st : 0 <= e <= 61 -> NewShardedTree e = Some st -> inv st (fun _ => None).
  Proof.
    intros E H. rewrite new_ok in H by auto. injection H as <-.
    assert (R : forall i t, nth_error (repeat (@nil T) (Z.to_nat (2 ^ (e + 1)))) i = Some t -> t = []).
    { intros i t Hn. apply nth_error_In in Hn. eapply repeat_spec; eauto. }
    split; cbn.
    - exists (e + 1). cbn. rewrite repeat_length. repeat split; try lia.
    - intros i t H. apply R in H as ->. constructor.
    - intros i t x H. apply R in H as ->. intros [].
    - intros i t x H _. apply R in H as ->. auto.
  Qed.

  Lemma len_concat (l : list (tree T)) : forall n, fold_left (fun l t => (l + Len t)%nat) l n = (n + length (concat l))%nat.
  Proof. induction l as [|t l IH]; intros n; cbn; auto. rewrite IH, app_length. unfold Len. lia. Qed.

  Lemma sorted_fop s : sorted less s -> ForallOrdPairs (fun a b => eqv less a b = false) s.
  Proof.
    induction 1 as [|a s S IH F]; constructor; auto. eapply Forall_impl; [|exact F]. cbn. intros b. apply less_not_eqv.
  Qed.

  Lemma inv_size st m : inv st m -> has_size (eqv less) m (ShardLen st).
  Proof.
    intros I. exists (concat (trees st)). split; [|split].
    - unfold ShardLen. rewrite len_concat. auto.
    - assert (G : forall pre l, trees st = pre ++ l -> ForallOrdPairs (fun a b => eqv less a b = false) (concat l)).
      { intros pre l. revert pre. induction l as [|t l IH]; intros pre E; cbn; [constructor|].
        assert (Nt : nth_error (trees st) (length pre) = Some t) by (rewrite E; apply nth_mid).
        apply fop_app.
        - apply sorted_fop. eapply i_sorted; eauto.
        - apply (IH (pre ++ [t])). rewrite <- app_assoc. auto.
        - intros a b Ha Hb. destruct (eqv less a b) eqn:Q; auto. exfalso.
          apply in_concat in Hb as (t2 & Ht2 & Hb). apply In_nth_error in Ht2 as (j & Hj).
          assert (Nt2 : nth_error (trees st) (length pre + S j) = Some t2).
          { rewrite E, nth_error_app2 by lia. replace (length pre + S j - length pre)%nat with (S j) by lia. auto. }
          pose proof (i_home _ _ I _ _ _ Nt Ha). pose proof (i_home _ _ I _ _ _ Nt2 Hb).
          rewrite (KO _ _ Q) in *. lia. }
      apply (G [] (trees st)). auto.
    - intros x y. destruct (for_ok st (keyOf x) (i_shape _ _ I)) as (_ & L).
      destruct (nth_error (trees st) (shard st (keyOf x))) as [t|] eqn:Nt; [|apply nth_error_None in Nt; lia].
      rewrite <- (i_map _ _ I _ _ x Nt eq_refl). split.
      + intros H. apply lookup_some in H as (H & E). split; auto. apply in_concat. exists t. split; auto. eapply nth_error_In; eauto.
      + intros (H & E). apply in_concat in H as (t2 & Ht2 & Hy). apply In_nth_error in Ht2 as (j & Hj).
        pose proof (i_home _ _ I _ _ _ Hj Hy) as Hm. rewrite <- (KO _ _ E) in Hm. subst j.
        pose proof (eq_trans (eq_sym Nt) Hj) as Q0. injection Q0 as <-. pose proof (i_sorted _ _ I _ _ Nt) as So.
        rewrite <- (lookup_in _ W _ _ So Hy). unfold lookup.
        assert (Q : forall s, find (eqv less x) s = find (eqv less y) s).
        { induction s as [|a s IH]; cbn; auto. rewrite (eqv_cong _ W _ _ a E). rewrite IH. auto. }
        apply Q.
  Qed.

  Lemma sharded_ok e os : 0 <= e <= 61 ->
    exists st0 st, NewShardedTree e = Some st0 /\
      run hashFunc less keyOf st0 os = Some (fst (spec_run (eqv less) (fun _ => None) os), st) /\
      has_size (eqv less) (snd (spec_run (eqv less) (fun _ => None) os)) (ShardLen st).
  Proof.
    intros E. eexists. rewrite (new_ok e E).
    destruct (run_ok os _ _ (new_inv e _ E (new_ok e E))) as (st & R & I). exists st.
    split; [reflexivity|]. split; [exact R|]. apply inv_size; auto.
  Qed.

  (** the tree for a key never changes, whatever else is done with the tree *)
  Lemma for_stable e st0 os rs st k : 0 <= e <= 61 -> NewShardedTree e = Some st0 ->
    run hashFunc less keyOf st0 os = Some (rs, st) ->
    exists i, For hashFunc st0 k = Some i /\ For hashFunc st k = Some i /\
      (i < length (trees st))%nat /\ Z.of_nat (length (trees st)) = 2 ^ (e + 1) /\
      Z.of_nat i = hashFunc k mod 2 ^ (e + 1).
  Proof.
    intros E N R.
    assert (G : forall os st0 rs st, wf_shape st0 -> run hashFunc less keyOf st0 os = Some (rs, st) ->
      mod_ st = mod_ st0 /\ length (trees st) = length (trees st0)).
    { clear. induction os as [|o os IH]; intros st0 rs st Wf R; cbn in R; [injection R as _ <-; auto|].
      destruct (step hashFunc less keyOf st0 o) as [[r st1]|] eqn:S; [|discriminate].
      destruct (run hashFunc less keyOf st1 os) as [[rs2 st2]|] eqn:R2; [|discriminate]. injection R as _ <-.
      assert (Q : mod_ st1 = mod_ st0 /\ length (trees st1) = length (trees st0)).
      { unfold step in S. destruct (for_ok st0 (keyOf match o with OInsert x | ODelete x | OGet x => x end) Wf) as (F & L).
        rewrite F in S. destruct (nth_error (trees st0) _) as [l|]; [|discriminate].
        destruct o as [x|x|x].
        - destruct (ReplaceOrInsert less l x). injection S as _ <-. split; auto. apply set_len; auto.
        - destruct (Delete less l x). injection S as _ <-. split; auto. apply set_len; auto.
        - injection S as _ <-. auto. }
      destruct Q as (Q1 & Q2). destruct (IH st1 rs2 st2) as (A & B); auto; [|split; congruence].
      destruct Wf as (n & P1 & P2 & P3). exists n. rewrite Q1, Q2. auto. }
    pose proof (i_shape _ _ (new_inv e st0 E N)) as Wf.
    destruct (G os st0 rs st Wf R) as (G1 & G2). rewrite new_ok in N by auto. injection N as <-. cbn in G1, G2.
    rewrite repeat_length in G2.
    destruct (for_ok _ k Wf) as (F & L). exists (shard (mkST (repeat [] (Z.to_nat (2 ^ (e + 1)))) (2 ^ (e + 1) - 1)) k).
    cbn in L. rewrite repeat_length in L. split; auto. split; [|split; [|split]].
    - unfold For, shard in *. cbn in *. rewrite G1, G2. rewrite repeat_length in F. auto.
    - rewrite G2. auto.
    - rewrite G2. lia.
    - unfold shard. cbn [mod_]. replace (2 ^ (e + 1) - 1) with (Z.ones (e + 1)) by (rewrite Z.ones_equiv; lia).
      rewrite Z.land_ones by lia. rewrite Z2Nat.id by (apply Z.mod_pos_bound; apply Z.pow_pos_nonneg; lia).
      unfold u64. change 18446744073709551616 with (2 ^ 64). rewrite <- (Z.mod_mod (hashFunc k mod 2 ^ 64)) by (apply Z.pow_nonzero; lia).
      rewrite Z.mod_mod by (apply Z.pow_nonzero; lia).
      rewrite <- Znumtheory.Zmod_div_mod; auto; try (apply Z.pow_pos_nonneg; lia).
      exists (2 ^ (63 - e)). rewrite <- Z.pow_add_r by lia. f_equal. lia.
  Qed.
End P.

(** outside of the supported range the constructor panics, or no tree exists *)
Lemma new_negative T e : e < 0 -> @NewShardedTree T e = None.
Proof. intros H. unfold NewShardedTree, shiftLeft. destruct (Z.ltb_spec e 0); [auto|lia]. Qed.
Lemma new_62 T : @NewShardedTree T 62 = None.
Proof. reflexivity. Qed.
Lemma new_large T K hash e (k : K) : 63 <= e -> exists st, @NewShardedTree T e = Some st /\ trees st = [] /\ For hash st k = None.
Proof.
  intros E. unfold NewShardedTree, shiftLeft. destruct (Z.ltb_spec e 0); [lia|].
  rewrite Z.shiftl_mul_pow2 by lia.
  assert (Q : s64 (2 * 2 ^ e) = 0).
  { unfold s64. replace (2 * 2 ^ e) with (2 ^ (e - 63) * 18446744073709551616).
    - rewrite Z.add_comm, Z.mod_add by lia. reflexivity.
    - change 18446744073709551616 with (2 ^ 64). rewrite <- Z.pow_add_r by lia.
      replace (e - 63 + 64) with (1 + e) by lia. rewrite Z.pow_add_r by lia. reflexivity. }
  rewrite Q. cbn [Z.ltb Z.compare]. eexists. split; [reflexivity|]. split; auto. unfold For. cbn [trees mod_ Z.to_nat repeat length].
  change (u64 (0 - 1)) with 18446744073709551615.
  assert (0 <= Z.land (u64 (hash k)) 18446744073709551615) by (apply Z.land_nonneg; right; lia).
  destruct (Z.ltb_spec (Z.land (u64 (hash k)) 18446744073709551615) (Z.of_nat 0)); [lia|auto].
Qed.
