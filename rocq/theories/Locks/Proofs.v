From stdpp Require Import prelude list.
From Verif.Locks Require Import Model.
Open Scope nat_scope.

(** [C h m]: a thread that holds h may take m *)
Section Discipline.
Context (C : list lock -> lock -> Prop).
Fixpoint wf (h : list lock) (l : list op) : Prop :=
  match l with
  | [] => h = []
  | Lk m :: r => C h m /\ wf (m :: h) r
  | Ul m :: r => match h with m' :: h' => m = m' /\ wf h' r | [] => False end
  end.
Lemma wf_brief h m r : C h m -> wf h r -> wf h (brief m ++ r).
Proof. cbn. auto. Qed.
Lemma wf_concat {A} (f : A -> list op) h l r : (forall x r, x ∈ l -> wf h r -> wf h (f x ++ r)) -> wf h r -> wf h (concat (map f l) ++ r).
Proof.
  intros F R. induction l as [|x l IH]; [exact R|]. cbn. rewrite <- app_assoc. apply F; [left|]. apply IH. intros y q Y. apply F. by right.
Qed.
Lemma wf_repeat b n h r : (forall r, wf h r -> wf h (b ++ r)) -> wf h r -> wf h (concat (repeat b n) ++ r).
Proof. intros F R. induction n as [|n IH]; cbn; [exact R|]. rewrite <- app_assoc. by apply F. Qed.

Record inv (s : list thread) : Prop := {
  i_wf : forall i t, s !! i = Some t -> wf (held t) (todo t);
  i_one : forall i j t u m, s !! i = Some t -> s !! j = Some u -> m ∈ held t -> m ∈ held u -> i = j
}.
Lemma free_spec m s : free m s = true <-> forall i t, s !! i = Some t -> m ∉ held t.
Proof.
  unfold free. rewrite forallb_forall. split.
  - intros H i t L. apply elem_of_list_lookup_2, elem_of_list_In, H, negb_true_iff in L. by case_bool_decide.
  - intros H t I. apply elem_of_list_In, elem_of_list_lookup in I as [i I]. apply negb_true_iff. case_bool_decide; [|done]. by destruct (H i t I).
Qed.
Lemma inv_step s i s' : inv s -> step s i = Some s' -> inv s'.
Proof.
  intros [A B] E. unfold step in E. destruct (s !! i) as [[h [|[m|m] r]]|] eqn:L; try discriminate; [by destruct h| |].
  - assert (Len : i < length s) by (by apply lookup_lt_Some in L).
    assert (E' : (if free m s then Some (<[i := mkT (m :: h) r]> s) else None) = Some s') by (destruct h; exact E). clear E.
    destruct (free m s) eqn:F; [|discriminate]. injection E' as <-. rewrite free_spec in F. pose proof (A i _ L) as W. cbn in W. destruct W as [_ W].
    assert (X : forall j t, <[i := mkT (m :: h) r]> s !! j = Some t -> (j = i /\ t = mkT (m :: h) r) \/ (j <> i /\ s !! j = Some t)).
    { intros j t. destruct (decide (i = j)) as [->|N]; [rewrite list_lookup_insert by exact Len; intros [= <-]; auto|rewrite list_lookup_insert_ne by exact N; auto]. }
    split.
    + intros j t Hj. destruct (X j t Hj) as [[-> ->]|[_ Hj']]; [exact W|eauto].
    + intros j k t u x Hj Hk. destruct (X j t Hj) as [[-> ->]|[N1 Hj']], (X k u Hk) as [[-> ->]|[N2 Hk']]; cbn; rewrite ?elem_of_cons; auto.
      * intros [->|I] I2; [by destruct (F _ _ Hk')|]. exact (B i k _ _ x L Hk' I I2).
      * intros I2 [->|I]; [by destruct (F _ _ Hj')|]. exact (B j i _ _ x Hj' L I2 I).
      * eauto.
  - destruct h as [|m' h]; [discriminate|]. case_bool_decide as D; [|discriminate]. injection E as <-. subst m'.
    assert (Len : i < length s) by (by apply lookup_lt_Some in L).
    pose proof (A i _ L) as W. cbn in W. destruct W as [_ W].
    assert (X : forall j t, <[i := mkT h r]> s !! j = Some t -> (j = i /\ t = mkT h r) \/ (j <> i /\ s !! j = Some t)).
    { intros j t. destruct (decide (i = j)) as [->|N]; [rewrite list_lookup_insert by exact Len; intros [= <-]; auto|rewrite list_lookup_insert_ne by exact N; auto]. }
    split.
    + intros j t Hj. destruct (X j t Hj) as [[-> ->]|[_ Hj']]; [exact W|eauto].
    + intros j k t u x Hj Hk. destruct (X j t Hj) as [[-> ->]|[N1 Hj']], (X k u Hk) as [[-> ->]|[N2 Hk']]; cbn; auto.
      * intros I I2. refine (B i k _ _ x L Hk' _ I2). cbn. by right.
      * intros I2 I. refine (B j i _ _ x Hj' L I2 _). cbn. by right.
      * eauto.
Qed.
(** all goroutines that are not done wait for a mutex that some goroutine holds *)
Definition stuck (s : list thread) : Prop := forall i, step s i = None.
Lemma stuck_waits s : inv s -> stuck s -> forall i t, s !! i = Some t -> todo t <> [] -> exists m r, todo t = Lk m :: r /\ C (held t) m /\ exists j u, s !! j = Some u /\ m ∈ held u /\ todo u <> [].
Proof.
  intros I S i [h l] L N. pose proof (S i) as E. unfold step in E. rewrite L in E. pose proof (i_wf _ I _ _ L) as W. destruct l as [|[m|m] r]; [done| |].
  - assert (F : free m s = false) by (destruct h, (free m s); done). exists m, r. split; [done|]. cbn in W. split; [tauto|].
    destruct (existsb (fun u => bool_decide (m ∈ held u)) s) eqn:X.
    + apply existsb_exists in X as (u & U & K). apply elem_of_list_In, elem_of_list_lookup in U as [j U]. exists j, u. split; [exact U|]. case_bool_decide as D; [|done]. split; [exact D|].
      intros T. pose proof (i_wf _ I _ _ U) as Wu. rewrite T in Wu. cbn in Wu. rewrite Wu in D. by apply elem_of_nil in D.
    + exfalso. apply not_true_iff_false in X, F. apply F, free_spec. intros j u U D. apply X, existsb_exists. exists u. split; [by apply elem_of_list_In; apply elem_of_list_lookup_2 in U|]. by case_bool_decide.
  - cbn in W. destruct h as [|m' h]; [done|]. destruct W as [-> _]. case_bool_decide; done.
Qed.
Lemma inv_begin l : Forall (wf []) l -> inv (map (mkT []) l).
Proof.
  intros F. split.
  - intros i t H. apply list_lookup_fmap_inv in H as (x & -> & H). cbn. eapply Forall_lookup in F; eauto.
  - intros i j t u m H _ Hm. apply list_lookup_fmap_inv in H as (x & -> & H). cbn in Hm. by apply elem_of_nil in Hm.
Qed.
End Discipline.

Definition size (s : list thread) : nat := list_sum (map (fun t => length (todo t)) s).
Lemma size_insert s i t t' : s !! i = Some t -> length (todo t') < length (todo t) -> size (<[i := t']> s) < size s.
Proof.
  revert i. induction s as [|x s IH]; intros [|i] L H; try discriminate L.
  - injection L as ->. unfold size. cbn. lia.
  - specialize (IH i L H). change (length (todo x) + size (<[i := t']> s) < length (todo x) + size s). lia.
Qed.
Lemma size_step s i s' : step s i = Some s' -> size s' < size s.
Proof.
  unfold step. destruct (s !! i) as [[h [|[m|m] r]]|] eqn:L; try (destruct h; discriminate); try discriminate; intros E.
  - assert (X : (if free m s then Some (<[i := mkT (m :: h) r]> s) else None) = Some s') by (destruct h; exact E). destruct (free m s); [|discriminate]. injection X as <-. eapply size_insert; [exact L|cbn; lia].
  - destruct h as [|m' h]; [discriminate|]. case_bool_decide; [|discriminate]. injection E as <-. eapply size_insert; [exact L|cbn; lia].
Qed.
Lemma run_bounded s l s' : run s l = Some s' -> length l + size s' <= size s.
Proof.
  revert s. induction l as [|i l IH]; cbn; intros s R; [injection R as <-; lia|]. destruct (step s i) as [y|] eqn:E; [|discriminate]. apply size_step in E. specialize (IH _ R). lia.
Qed.
Lemma run_app s l1 l2 : run s (l1 ++ l2) = match run s l1 with Some s' => run s' l2 | None => None end.
Proof. revert s. induction l1 as [|i l IH]; intros s; cbn; [done|]. destruct (step s i); [apply IH|done]. Qed.
Lemma inv_run C s l s' : inv C s -> run s l = Some s' -> inv C s'.
Proof.
  revert s. induction l as [|i l IH]; cbn; intros s I R; [by injection R as <-|]. destruct (step s i) as [y|] eqn:E; [|discriminate]. eapply IH; [|exact R]. eapply inv_step; eassumption.
Qed.
Lemma stuck_dec s : (forall i, step s i = None) \/ exists i s', step s i = Some s'.
Proof.
  destruct (existsb (fun i => match step s i with Some _ => true | None => false end) (seq 0 (length s))) eqn:X.
  - right. apply existsb_exists in X as (i & _ & X). destruct (step s i) eqn:E; [eauto|done].
  - left. intros i. destruct (step s i) eqn:E; [|done]. exfalso. apply not_true_iff_false in X. apply X, existsb_exists. exists i. rewrite E. split; [|done]. apply in_seq.
    unfold step in E. destruct (s !! i) eqn:L; [|discriminate]. apply lookup_lt_Some in L. lia.
Qed.

(** * Locks taken in one order *)
Definition rank (m : lock) : nat := match m with Kgo => 0 | Worker => 1 | Prep => 2 | Status => 3 | Stores => 4 | Ssc => 5 end.
Definition ordered (h : list lock) (m : lock) : Prop := forall x, x ∈ h -> rank x < rank m.
Lemma ordered_free s : inv ordered s -> stuck s -> forall t, t ∈ s -> todo t = [].
Proof.
  intros I S. assert (W : forall n i t m r, s !! i = Some t -> todo t = Lk m :: r -> 6 - rank m <= n -> False).
  { intros n. induction n as [n IH] using lt_wf_ind. intros i t m r L T Le. destruct (stuck_waits ordered s I S i t L) as (m' & r' & T' & O & j & u & U & Hm & Nu); [by rewrite T|].
    rewrite T in T'. injection T' as <- <-. destruct (stuck_waits ordered s I S j u U Nu) as (k & q & K & Ok & _). pose proof (Ok m Hm) as Lt.
    assert (rank k <= 5) by (destruct k; cbn; lia). eapply (IH (6 - rank k)); [lia|exact U|exact K|lia]. }
  intros t T. destruct (todo t) as [|o r] eqn:E; [done|]. exfalso. apply elem_of_list_lookup in T as [i T].
  destruct (stuck_waits ordered s I S i t T) as (m & q & K & _); [by rewrite E|]. exact (W _ i t m q T K (le_n _)).
Qed.
(** * With the client's calls one after the other *)
Definition leaf (m : lock) : Prop := m = Stores \/ m = Ssc.
Definition gated (h : list lock) (m : lock) : Prop :=
  (forall x, x ∈ h -> ~ leaf x) /\ (leaf m \/ (ordered h m /\ (m = Status -> Prep ∈ h -> Kgo ∈ h)) \/ (m = Prep /\ h = [Status; Kgo])).
Lemma gated_free s : inv gated s -> stuck s -> forall t, t ∈ s -> todo t = [].
Proof.
  intros I S. assert (Q : forall i t m r, s !! i = Some t -> todo t = Lk m :: r -> exists j u k q, s !! j = Some u /\ m ∈ held u /\ todo u = Lk k :: q /\ gated (held u) k /\ ~ leaf m).
  { intros i t m r L T. destruct (stuck_waits gated s I S i t L) as (m' & r' & T' & O & j & u & U & Hm & Nu); [by rewrite T|].
    rewrite T in T'. injection T' as <- <-. destruct (stuck_waits gated s I S j u U Nu) as (k & q & K & Ok & _). exists j, u, k, q. split; [exact U|]. split; [exact Hm|]. split; [exact K|]. split; [exact Ok|]. exact (proj1 Ok m Hm). }
  assert (NL : forall i t m r, s !! i = Some t -> todo t = Lk m :: r -> ~ leaf m) by (intros i t m r L T; destruct (Q i t m r L T) as (j & u & k & q & _ & _ & _ & _ & X); exact X).
  assert (NS : forall i t r, s !! i = Some t -> todo t <> Lk Status :: r).
  { intros i t r L T. destruct (Q i t _ r L T) as (j & u & k & q & U & Hm & K & (_ & [G|[[O _]|[-> Hu]]]) & _).
    - exact (NL _ _ _ _ U K G).
    - specialize (O _ Hm). cbn in O. destruct k; cbn in O; try lia; eapply NL; try eassumption; [by left|by right].
    - destruct (Q j u _ q U K) as (j2 & u2 & k2 & q2 & U2 & Hm2 & K2 & (_ & [G|[[O2 G2]|[-> Hu2]]]) & _).
      + exact (NL _ _ _ _ U2 K2 G).
      + pose proof (O2 _ Hm2) as O2'. cbn in O2'. destruct k2; cbn in O2'; try lia; try (eapply NL; [exact U2|exact K2|]; unfold leaf; tauto).
        specialize (G2 eq_refl Hm2). assert (j = j2) as <- by (apply (i_one _ _ I j j2 u u2 Kgo U U2); [rewrite Hu; right; left|exact G2]).
        rewrite U in U2. injection U2 as <-. rewrite Hu in Hm2. rewrite !elem_of_cons, elem_of_nil in Hm2. intuition discriminate.
      + rewrite Hu2 in Hm2. rewrite !elem_of_cons, elem_of_nil in Hm2. intuition discriminate. }
  assert (W : forall n i t m r, s !! i = Some t -> todo t = Lk m :: r -> 3 - rank m <= n -> False).
  { intros n. induction n as [n IH] using lt_wf_ind. intros i t m r L T Le. destruct (Q i t m r L T) as (j & u & k & q & U & Hm & K & (_ & [G|[[O _]|[-> Hu]]]) & Nm).
    - exact (NL _ _ _ _ U K G).
    - specialize (O _ Hm). assert (X : rank k < 3).
      { destruct k; cbn; try lia; exfalso; [exact (NS _ _ _ U K)|..]; eapply NL; try eassumption; unfold leaf; tauto. }
      eapply (IH (3 - rank k)); [lia|exact U|exact K|lia].
    - rewrite Hu in Hm. rewrite !elem_of_cons, elem_of_nil in Hm. destruct Hm as [->|[->|[]]]; [exact (NS _ _ _ L T)|].
      eapply (IH (3 - rank Prep)); [cbn in *; lia|exact U|exact K|lia]. }
  intros t T. destruct (todo t) as [|o r] eqn:E; [done|]. exfalso. apply elem_of_list_lookup in T as [i T].
  destruct (stuck_waits gated s I S i t T) as (m & q & K & _); [by rewrite E|]. exact (W _ i t m q T K (le_n _)).
Qed.

(** * The programs *)
Definition quiet (k : task) : Prop := match k with Assign _ n | Revoke _ n => n = 0 | _ => True end.
Definition noForget (k : task) : Prop := match k with Parse fs => fs = [] | _ => True end.
Ltac locks := repeat match goal with
  | |- ordered _ _ => intros ? Hx; rewrite ?elem_of_cons, ?elem_of_nil in Hx; intuition (subst; cbn; lia)
  | |- forall x, _ -> ~ leaf x => intros ? Hx; rewrite ?elem_of_cons, ?elem_of_nil in Hx; unfold leaf; intuition (subst; discriminate)
  | |- gated _ _ => split; [intros ? Hx; rewrite ?elem_of_cons, ?elem_of_nil in Hx; unfold leaf; intuition (subst; discriminate)|]
  | |- leaf _ \/ _ => first [left; unfold leaf; tauto | right; left; split; [solve [locks]|intros ? Hp; rewrite ?elem_of_cons, ?elem_of_nil in Hp; rewrite ?elem_of_cons; intuition discriminate] | right; right; split; reflexivity ]
  end.
Lemma ordered_program k : quiet k -> noForget k -> wf ordered [] (program false k).
Proof.
  destruct k as [ps n|m n| | |n|b| |fs|]; cbn [quiet noForget program ops]; intros Q N; subst.
  - cbn [app wf]. split; [locks|]. split; [locks|]. apply wf_concat; [|cbn; repeat split; locks].
    intros b r _ W. destruct b; rewrite <- ?app_assoc; repeat (apply wf_brief; [locks|]); exact W.
  - cbn [app wf]. split; [locks|]. apply wf_repeat; [|cbn; auto]. intros r W. apply wf_brief; [locks|exact W].
  - cbn. repeat split; locks.
  - cbn. repeat split; locks.
  - apply wf_brief; [locks|]. rewrite <- (app_nil_r (callback n)). apply wf_repeat; [|done]. intros r W. apply wf_brief; [locks|exact W].
  - destruct b; cbn; repeat split; locks.
  - cbn. repeat split; locks.
  - cbn. repeat split; locks.
  - cbn. repeat split; locks.
Qed.
Lemma gated_program k : quiet k -> wf gated [] (program true k).
Proof.
  destruct k as [ps n|m n| | |n|b| |fs|]; cbn [quiet noForget program ops]; intros Q; subst.
  - cbn [app wf]. split; [locks|]. split; [locks|]. split; [locks|]. rewrite <- !app_assoc. apply wf_concat; [|cbn; repeat split; locks].
    intros b r _ W. destruct b; rewrite <- ?app_assoc; repeat (apply wf_brief; [locks|]); exact W.
  - cbn [app wf]. split; [locks|]. split; [locks|]. rewrite <- !app_assoc. apply wf_repeat; [|cbn; auto]. intros r W. apply wf_brief; [locks|exact W].
  - cbn. repeat split; locks.
  - cbn. repeat split; locks.
  - apply wf_brief; [locks|]. rewrite <- (app_nil_r (callback n)). apply wf_repeat; [|done]. intros r W. apply wf_brief; [locks|exact W].
  - destruct b; cbn; repeat split; locks.
  - cbn. repeat split; locks.
  - cbn [app wf]. split; [locks|]. split; [locks|]. rewrite <- !app_assoc. apply wf_concat; [|cbn; auto].
    intros b r _ W. cbn [app wf]. split; [locks|]. destruct b; rewrite <- ?app_assoc; [apply wf_brief; [locks|]|]; cbn; auto.
  - cbn. repeat split; locks.
Qed.
Lemma inv_tasks C serial ks : (forall k, k ∈ ks -> wf C [] (program serial k)) -> inv C (begin serial ks).
Proof.
  intros H. unfold begin. rewrite <- (map_map (program serial) (mkT [])). apply inv_begin. apply Forall_forall. intros l L. apply elem_of_list_In, in_map_iff in L as (k & <- & K). apply H. by apply elem_of_list_In.
Qed.
Lemma finishes C s : (forall s, inv C s -> stuck s -> forall t, t ∈ s -> todo t = []) -> inv C s -> exists l s', run s l = Some s' /\ forall t, t ∈ s' -> todo t = [].
Proof.
  intros F. remember (size s) as n eqn:N. revert s N. induction (lt_wf n) as [n _ IH]. intros s -> I. destruct (stuck_dec s) as [S|(i & s1 & E)]; [exists [], s; split; [done|]; by apply F|].
  destruct (IH (size s1) (size_step _ _ _ E) s1 eq_refl) as (l & s' & R & D); [eapply inv_step; eassumption|]. exists (i :: l), s'. cbn. by rewrite E.
Qed.

(** * A goroutine that waits for itself *)
Fixpoint selfwait (h : list lock) (l : list op) : Prop :=
  match l with
  | [] => False
  | Lk m :: r => m ∈ h \/ selfwait (m :: h) r
  | Ul m :: r => match h with m' :: h' => m = m' -> selfwait h' r | [] => True end
  end.
Lemma step_self s i j s' t : step s i = Some s' -> s !! j = Some t -> selfwait (held t) (todo t) -> exists t', s' !! j = Some t' /\ selfwait (held t') (todo t').
Proof.
  intros E L W. unfold step in E. destruct (s !! i) as [[h [|[m|m] r]]|] eqn:Li; try (destruct h; discriminate); try discriminate.
  - assert (X : (if free m s then Some (<[i := mkT (m :: h) r]> s) else None) = Some s') by (destruct h; exact E). clear E. destruct (free m s) eqn:F; [|discriminate]. injection X as <-.
    destruct (decide (i = j)) as [->|N]; [|exists t; by rewrite list_lookup_insert_ne]. rewrite L in Li. injection Li as ->. rewrite list_lookup_insert by (by apply lookup_lt_Some in L).
    eexists. split; [reflexivity|]. cbn in W |- *. destruct W as [W|W]; [|exact W]. rewrite free_spec in F. by destruct (F j _ L).
  - destruct h as [|m' h]; [discriminate|]. case_bool_decide as D; [|discriminate]. injection E as <-. subst m'.
    destruct (decide (i = j)) as [->|N]; [|exists t; by rewrite list_lookup_insert_ne]. rewrite L in Li. injection Li as ->. rewrite list_lookup_insert by (by apply lookup_lt_Some in L).
    eexists. split; [reflexivity|]. cbn in W |- *. auto.
Qed.
Lemma run_self s l s' j t : run s l = Some s' -> s !! j = Some t -> selfwait (held t) (todo t) -> exists t', s' !! j = Some t' /\ todo t' <> [].
Proof.
  revert s t. induction l as [|i l IH]; cbn; intros s t R L W; [injection R as <-; exists t; split; [done|]; intros X; by rewrite X in W|].
  destruct (step s i) as [y|] eqn:E; [|discriminate]. destruct (step_self _ _ _ _ _ E L W) as (u & U & Wu). exact (IH _ _ R U Wu).
Qed.
Lemma self_brief h m r : selfwait h r -> selfwait h (brief m ++ r).
Proof. cbn. auto. Qed.
Lemma self_concat {A} (f : A -> list op) h l r : (forall x r, selfwait h r -> selfwait h (f x ++ r)) -> selfwait h r -> selfwait h (concat (map f l) ++ r).
Proof. intros F R. induction l as [|x l IH]; [exact R|]. cbn. rewrite <- app_assoc. by apply F. Qed.
Lemma self_assign serial ps n : selfwait [] (program serial (Assign ps (S n))).
Proof.
  assert (X : forall h r, Worker ∈ h -> selfwait h (concat (map (fun b : bool => brief Stores ++ (if b then [] else brief Ssc)) ps) ++ brief Status ++ callback (S n) ++ r)).
  { intros h r W. apply self_concat; [intros [] q Q; rewrite <- ?app_assoc; repeat apply self_brief; exact Q|]. apply self_brief. cbn. by left. }
  unfold program, ops. destruct serial; cbn [app selfwait]; rewrite <- ?app_assoc; [do 3 right|do 2 right]; apply X; rewrite !elem_of_cons; tauto.
Qed.
Lemma self_revoke serial m n : selfwait [] (program serial (Revoke m (S n))).
Proof.
  assert (X : forall h r, Worker ∈ h -> selfwait h (concat (repeat (brief Stores) m) ++ callback (S n) ++ r)).
  { intros h r W. induction m as [|m IH]; [cbn; by left|]. cbn [repeat concat]. rewrite <- app_assoc. apply self_brief. exact IH. }
  unfold program, ops. destruct serial; cbn [app selfwait]; rewrite <- ?app_assoc; [do 2 right|right]; apply X; rewrite !elem_of_cons; tauto.
Qed.
Definition calls (k : task) : nat := match k with Assign _ n | Revoke _ n => n | _ => 0 end.
Lemma self_calls serial ks i k l s' : ks !! i = Some k -> calls k > 0 -> run (begin serial ks) l = Some s' -> exists t, s' !! i = Some t /\ todo t <> [].
Proof.
  intros K N R. eapply run_self; [exact R|unfold begin; change (map (fun k0 => mkT [] (program serial k0)) ks !! i) with (((fun k0 => mkT [] (program serial k0)) <$> ks) !! i); rewrite list_lookup_fmap, K; reflexivity|].
  cbn [held todo]. destruct k as [ps [|n]|m [|n]| | | | | | |]; cbn in N; try lia; [apply self_assign|apply self_revoke].
Qed.
