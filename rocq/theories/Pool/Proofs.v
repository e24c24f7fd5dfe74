From Coq Require Import ZArith List Bool Arith Lia.
From Verif.Record Require Import Model.
From Verif.Pool Require Import Model.
Import ListNotations.
Open Scope nat_scope.

(** ** The pool alone *)
Lemma borrow_spec {T} (f : T) p n p' :
  Borrow f p = (n, p') ->
  (freelist p = [] /\ n = f /\ p' = p) \/
  (freelist p = freelist p' ++ [n] /\ capacity p' = capacity p).
Proof.
  unfold Borrow. destruct (rev (freelist p)) as [|x r] eqn:E.
  - intros [= <- <-]. left. apply (f_equal (@rev T)) in E. rewrite rev_involutive in E. auto.
  - intros [= <- <-]. right. cbn. apply (f_equal (@rev T)) in E. rewrite rev_involutive in E. cbn in E. auto.
Qed.

Lemma release_spec {T} (n : T) p b p' :
  Release n p = (b, p') -> capacity p' = capacity p /\
  ((b = true /\ freelist p' = freelist p ++ [n] /\ length (freelist p) < capacity p) \/
   (b = false /\ p' = p /\ capacity p <= length (freelist p))).
Proof.
  unfold Release. destruct (Nat.ltb_spec (length (freelist p)) (capacity p)); intros [= <- <-]; cbn; auto.
Qed.

(** ** Records *)
Definition blank (r : recState) : Prop :=
  keyBuffer (r_rec r) = [] /\ valueBuffer (r_rec r) = [] /\ recordType (r_rec r) = [] /\ r_err r = None /\
  k_key (kRecord (r_rec r)) = [] /\ k_value (kRecord (r_rec r)) = None /\ k_headers (kRecord (r_rec r)) = [] /\
  k_topic (kRecord (r_rec r)) = [] /\ k_partition (kRecord (r_rec r)) = (-1)%Z /\ k_offset (kRecord (r_rec r)) = 0%Z.

Lemma factory_blank : blank factoryRecord. Proof. repeat split. Qed.
Lemma reset_blank r : blank (resetState r). Proof. repeat split. Qed.

Definition upd (mem : list recState) (p : nat) (s : recState) := firstn p mem ++ s :: skipn (S p) mem.
Lemma upd_length mem p s : p < length mem -> length (upd mem p s) = length mem.
Proof. intros. unfold upd. rewrite app_length. cbn [length]. rewrite firstn_length, skipn_length. lia. Qed.
Lemma upd_same mem p s : p < length mem -> nth_error (upd mem p s) p = Some s.
Proof.
  intros. unfold upd. rewrite nth_error_app2; rewrite firstn_length; [|lia].
  replace (p - min p (length mem)) with 0 by lia. auto.
Qed.
Lemma upd_other mem p s q : p < length mem -> q <> p -> nth_error (upd mem p s) q = nth_error mem q.
Proof.
  intros L N. unfold upd. rewrite <- (firstn_skipn (S p) mem) at 3.
  destruct (Nat.lt_ge_cases q p).
  - rewrite !nth_error_app1 by (rewrite firstn_length; lia).
    clear - H L. revert q p H L. induction mem as [|x mem IH]; intros q p H L; cbn in L; [lia|].
    destruct p; [lia|]. destruct q; cbn; auto. destruct p; [lia|]. apply (IH q (S p)); lia.
  - rewrite !nth_error_app2 by (rewrite firstn_length; lia). rewrite !firstn_length.
    replace (q - min p (length mem)) with (S (q - min (S p) (length mem))) by lia. reflexivity.
Qed.

Lemma NoDup_snoc {A} (l : list A) x : NoDup (l ++ [x]) <-> NoDup l /\ ~ In x l.
Proof.
  split.
  - intros H. split; [eapply NoDup_remove_1 in H; rewrite app_nil_r in H; auto|].
    apply NoDup_remove_2 in H. rewrite app_nil_r in H. auto.
  - intros (H & N). apply (NoDup_Add (a := x) (l := l)).
    + rewrite <- (app_nil_r l) at 1. apply Add_app.
    + auto.
Qed.

(** what callers hold after a call: a pointer is held from the NewRecord that returned it until it is released *)
Definition after (h : list nat) (a : action) (r : option nat) : list nat :=
  match a, r with
  | ANew, Some p => p :: h
  | ARelease p, _ => remove Nat.eq_dec p h
  | _, _ => h
  end.
Fixpoint holding (h : list nat) (acts : list action) (rs : list (option nat)) : list nat :=
  match acts, rs with
  | a :: acts', r :: rs' => holding (after h a r) acts' rs'
  | _, _ => h
  end.
(** records are touched and released only by those who hold them *)
Fixpoint careful (h : list nat) (acts : list action) (rs : list (option nat)) : Prop :=
  match acts, rs with
  | [], [] => True
  | a :: acts', r :: rs' =>
      match a with ANew => True | AMutate p _ | ARelease p => In p h end /\ careful (after h a r) acts' rs'
  | _, _ => False
  end.

Record inv (size : nat) (w : world) (h : list nat) : Prop := {
  i_cap : capacity (w_pool w) = size;
  i_len : length (freelist (w_pool w)) <= size;
  i_nodup : NoDup (freelist (w_pool w));
  i_free : forall p, In p (freelist (w_pool w)) -> ~ In p h /\ exists r, nth_error (w_mem w) p = Some r /\ blank r;
  i_bor : forall p, In p h -> p < length (w_mem w);
  i_bnd : NoDup h }.

Lemma inv0 size : inv size (world0 size) [].
Proof. split; cbn; auto using NoDup_nil; try lia; intros ? []. Qed.

Lemma step_new size w h w' r : inv size w h -> step w ANew = Some (w', r) ->
  exists p s, r = Some p /\ ~ In p h /\
    nth_error (w_mem w') p = Some s /\ blank s /\
    (forall q, In q h -> nth_error (w_mem w') q = nth_error (w_mem w) q) /\ inv size w' (p :: h).
Proof.
  intros I S. cbn in S. destruct (Borrow _ _) as [p pool] eqn:B. injection S as <- <-.
  apply borrow_spec in B. destruct B as [(Fe & -> & ->)|(Fe & Cp)].
  - rewrite Nat.eqb_refl.
    assert (N : ~ In (length (w_mem w)) h) by (intros X; apply (i_bor _ _ _ I) in X; lia).
    exists (length (w_mem w)), factoryRecord.
    refine (conj eq_refl (conj N (conj _ (conj factory_blank (conj _ _))))).
    + cbn. rewrite nth_error_app2, Nat.sub_diag by lia. auto.
    + intros q Hq. cbn. apply nth_error_app1. apply (i_bor _ _ _ I); auto.
    + split; cbn [w_mem w_pool]; try apply I.
      * rewrite Fe. intros q [].
      * intros q [<-|Hq]; rewrite app_length; cbn; [lia|]. apply (i_bor _ _ _ I) in Hq. lia.
      * constructor; auto. apply I.
  - assert (Hin : In p (freelist (w_pool w))) by (rewrite Fe; apply in_or_app; cbn; auto).
    destruct (i_free _ _ _ I p Hin) as (N & s & Hs & Bs).
    assert (Lp : p < length (w_mem w)) by (apply nth_error_Some; congruence).
    destruct (Nat.eqb_spec p (length (w_mem w))); [lia|].
    pose proof (i_nodup _ _ _ I) as ND. rewrite Fe in ND. apply NoDup_snoc in ND as (ND & Np).
    exists p, s. refine (conj eq_refl (conj N (conj Hs (conj Bs (conj _ _))))); [auto|].
    split; cbn [w_mem w_pool].
    + rewrite Cp. apply I.
    + pose proof (i_len _ _ _ I) as L. rewrite Fe, app_length in L. cbn in L. lia.
    + auto.
    + intros q Hq. destruct (i_free _ _ _ I q) as (Nq & Sq); [rewrite Fe; apply in_or_app; auto|]. split; auto.
      intros [<-|X]; auto.
    + intros q [<-|Hq]; auto. apply (i_bor _ _ _ I); auto.
    + constructor; auto. apply I.
Qed.

Lemma in_remove_iff p q l : In q (remove Nat.eq_dec p l) <-> In q l /\ q <> p.
Proof.
  split.
  - apply in_remove.
  - intros (H & N). apply in_in_remove; auto.
Qed.
Lemma NoDup_remove_all p l : NoDup l -> NoDup (remove Nat.eq_dec p l).
Proof.
  induction 1; cbn; auto using NoDup_nil. destruct (Nat.eq_dec p x); auto.
  constructor; auto. intros X. apply in_remove_iff in X. tauto.
Qed.

Lemma inv_step size w h a w' r : inv size w h -> step w a = Some (w', r) ->
  match a with ANew => True | AMutate p _ | ARelease p => In p h end -> inv size w' (after h a r).
Proof.
  intros I S B. destruct a as [|p s|p].
  - destruct (step_new _ _ _ _ _ I S) as (p & s & -> & H). apply H.
  - cbn [step] in S. destruct (nth_error (w_mem w) p) as [s0|] eqn:Hs; [|discriminate]. injection S as <- <-.
    pose proof (i_bor _ _ _ I _ B) as Lp. cbn [after].
    split; cbn [w_mem w_pool]; try apply I.
    + intros q Hq. destruct (i_free _ _ _ I q Hq) as (N & s' & Hs' & Bs). split; auto.
      exists s'. split; auto. rewrite <- Hs'. apply (upd_other (w_mem w) p s q); auto. intros ->. auto.
    + intros q Hq. change (q < length (upd (w_mem w) p s)). rewrite upd_length; auto. apply (i_bor _ _ _ I); auto.
  - cbn [step] in S. destruct (nth_error (w_mem w) p) as [s|] eqn:Hs; [|discriminate].
    destruct (Release p (w_pool w)) as [b pool] eqn:R. injection S as <- <-.
    pose proof (i_bor _ _ _ I _ B) as Lp. cbn [after].
    apply release_spec in R. destruct R as (Cp & R).
    assert (F : forall q, In q (freelist pool) -> q = p \/ In q (freelist (w_pool w))).
    { intros q Hq. destruct R as [(_ & Fe & _)|(_ & -> & _)]; auto. rewrite Fe in Hq.
      apply in_app_or in Hq as [Hq|[Hq|[]]]; auto. }
    assert (Np : ~ In p (freelist (w_pool w))) by (intros X; apply (i_free _ _ _ I) in X; tauto).
    split; cbn [w_mem w_pool].
    + rewrite Cp. apply I.
    + destruct R as [(_ & -> & L)|(_ & -> & _)]; [|apply I]. rewrite app_length. cbn. rewrite (i_cap _ _ _ I) in L. lia.
    + destruct R as [(_ & -> & L)|(_ & -> & _)]; [|apply I]. apply NoDup_snoc. split; auto. apply I.
    + intros q Hq. rewrite in_remove_iff. destruct (Nat.eq_dec q p) as [->|N].
      * split; [tauto|]. exists (resetState s). split; [exact (upd_same _ _ _ Lp)|apply reset_blank].
      * apply F in Hq as [Hq|Hq]; [tauto|]. destruct (i_free _ _ _ I q Hq) as (N2 & s' & Hs' & Bs'). split; [tauto|].
        exists s'. split; auto. rewrite <- Hs'. apply (upd_other (w_mem w) p (resetState s) q); auto.
    + intros q Hq. apply in_remove_iff in Hq as (Hq & _). change (q < length (upd (w_mem w) p (resetState s))). rewrite upd_length; auto. apply (i_bor _ _ _ I); auto.
    + apply NoDup_remove_all. apply I.
Qed.

Lemma inv_run size acts : forall w h rs w', inv size w h -> run w acts = Some (rs, w') -> careful h acts rs -> inv size w' (holding h acts rs).
Proof.
  induction acts as [|a acts IH]; intros w h rs w' I R C; cbn [run] in R; [injection R as <- <-; auto|].
  destruct (step w a) as [[w1 r]|] eqn:S; [|discriminate]. destruct (run w1 acts) as [[rs1 w2]|] eqn:R1; [|discriminate].
  injection R as <- <-. destruct C as (C1 & C2). cbn [holding]. apply (IH w1); auto. eapply inv_step; eauto.
Qed.

Lemma new_ok size acts rs w w' r :
  run (world0 size) acts = Some (rs, w) -> careful [] acts rs -> step w ANew = Some (w', r) ->
  exists p s, r = Some p /\ ~ In p (holding [] acts rs) /\ nth_error (w_mem w') p = Some s /\ blank s.
Proof.
  intros R C S. destruct (step_new _ _ _ _ _ (inv_run _ _ _ _ _ _ (inv0 size) R C) S) as (p & s & H).
  exists p, s. tauto.
Qed.
Lemma untouched size acts rs w a w' r q :
  run (world0 size) acts = Some (rs, w) -> careful [] acts rs -> In q (holding [] acts rs) ->
  step w a = Some (w', r) -> a <> ARelease q -> (forall s, a <> AMutate q s) ->
  nth_error (w_mem w') q = nth_error (w_mem w) q.
Proof.
  intros R C Q S N1 N2. pose proof (inv_run _ _ _ _ _ _ (inv0 size) R C) as I. destruct a as [|p s|p].
  - destruct (step_new _ _ _ _ _ I S) as (p & s & H). apply H. auto.
  - cbn [step] in S. destruct (nth_error (w_mem w) p) as [s0|] eqn:Hs; [|discriminate]. injection S as <- <-. cbn [w_mem].
    apply (upd_other (w_mem w) p s q); [apply nth_error_Some; congruence|]. intros ->. apply (N2 s). auto.
  - cbn [step] in S. destruct (nth_error (w_mem w) p) as [s|] eqn:Hs; [|discriminate].
    destruct (Release p (w_pool w)) as [b pool] eqn:Re. injection S as <- <-. cbn [w_mem].
    apply (upd_other (w_mem w) p (resetState s) q); [apply nth_error_Some; congruence|]. intros ->. auto.
Qed.

(** the capacity bound does not need the callers' cooperation *)
Lemma capacity_any_step size w a w' r : capacity (w_pool w) = size -> length (freelist (w_pool w)) <= size ->
  step w a = Some (w', r) -> capacity (w_pool w') = size /\ length (freelist (w_pool w')) <= size.
Proof.
  intros C L S. destruct a as [|p s|p]; cbn [step] in S.
  - destruct (Borrow _ _) as [p pool] eqn:B. injection S as <- <-. cbn.
    apply borrow_spec in B. destruct B as [(Fe & -> & ->)|(Fe & Cp)]; [auto|].
    rewrite Fe, app_length in L. cbn in L. split; [congruence|lia].
  - destruct (nth_error _ _); [|discriminate]. injection S as <- <-. auto.
  - destruct (nth_error _ _); [|discriminate].
    destruct (Release p (w_pool w)) as [b pool] eqn:R. injection S as <- <-. cbn.
    apply release_spec in R. destruct R as (Cp & R). split; [congruence|].
    destruct R as [(_ & -> & Lt)|(_ & -> & _)]; auto. rewrite app_length. cbn. lia.
Qed.
Lemma capacity_any size acts : forall w, capacity (w_pool w) = size -> length (freelist (w_pool w)) <= size ->
  forall rs w', run w acts = Some (rs, w') -> length (freelist (w_pool w')) <= size.
Proof.
  induction acts as [|a acts IH]; intros w C L rs w' R; cbn [run] in R; [injection R as <- <-; auto|].
  destruct (step w a) as [[w1 r]|] eqn:S; [|discriminate]. destruct (run w1 acts) as [[rs1 w2]|] eqn:R1; [|discriminate]. injection R as <- <-.
  destruct (capacity_any_step _ _ _ _ _ C L S). eapply IH; eauto.
Qed.

(** records are reused: a released record is what the next NewRecord returns, if the pool had room *)
Lemma reused size acts rs w p w' r : run (world0 size) acts = Some (rs, w) -> step w (ARelease p) = Some (w', r) ->
  length (freelist (w_pool w)) < size -> option_map snd (step w' ANew) = Some (Some p).
Proof.
  intros R S L. assert (C : capacity (w_pool w) = size).
  { clear - R. revert rs R. assert (G : forall acts w0 rs w, capacity (w_pool w0) = size -> run w0 acts = Some (rs, w) -> capacity (w_pool w) = size).
    { clear. induction acts as [|a acts IH]; intros w0 rs w C R; cbn [run] in R; [injection R as <- <-; auto|].
      destruct (step w0 a) as [[w1 r]|] eqn:S; [|discriminate]. destruct (run w1 acts) as [[rs1 w2]|] eqn:R1; [|discriminate]. injection R as <- <-.
      apply (IH w1 rs1); auto. destruct a as [|p s|p]; cbn [step] in S.
      - destruct (Borrow _ _) as [p pool] eqn:B. injection S as <- <-. cbn [w_pool]. apply borrow_spec in B. destruct B as [(_ & _ & ->)|(_ & ->)]; auto.
      - destruct (nth_error _ _); [|discriminate]. injection S as <- <-. auto.
      - destruct (nth_error _ _); [|discriminate]. destruct (Release p (w_pool w0)) as [b pool] eqn:Re. injection S as <- <-.
        cbn [w_pool]. apply release_spec in Re as (-> & _). auto. }
    intros rs R. eapply G; eauto. reflexivity. }
  cbn [step] in S. destruct (nth_error (w_mem w) p) as [s|] eqn:Hs; [|discriminate].
  unfold Release in S. rewrite C in S. destruct (Nat.ltb_spec (length (freelist (w_pool w))) size); [|lia]. injection S as <- <-.
  cbn [step w_pool w_mem]. unfold Borrow. cbn [freelist]. rewrite rev_app_distr. reflexivity.
Qed.
