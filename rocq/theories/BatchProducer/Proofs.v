From Coq Require Import List ZArith Bool Arith Lia.
From Verif.BatchProducer Require Import Model.
Import ListNotations.
Open Scope nat_scope.

Record inv (n : nat) (cb : bool) (s : st) : Prop := {
  i_total : total s = n; i_cb : hasCallback s = cb; i_next : next s <= n;
  i_nd : NoDup (waiting s); i_lt : forall i, In i (waiting s) -> i < next s;
  i_err : forall i, i < n -> errs s i = None <-> (next s <= i \/ In i (waiting s));
  i_pend : pending s = Z.of_nat (n - next s + length (waiting s));
  i_jobs : jobs s = if (Z.eqb (pending s) 0) && cb && negb (Nat.eqb n 0) then 1 else 0 }.

Lemma inb_In i l : inb i l = true <-> In i l.
Proof.
  unfold inb. rewrite existsb_exists. split; [intros (x & H & E); apply Nat.eqb_eq in E; congruence|]. intros H. exists i. rewrite Nat.eqb_refl. auto.
Qed.
Lemma rem_len i l : NoDup l -> In i l -> S (length (filter (fun x => negb (Nat.eqb x i)) l)) = length l.
Proof.
  induction l as [|x l IH]; intros ND H; [destruct H|]. inversion ND as [|? ? Nx ND']; subst. cbn [filter].
  destruct (Nat.eqb_spec x i) as [->|N]; cbn [negb length].
  - f_equal. clear IH H ND ND'. induction l as [|y l IH]; auto. cbn [filter]. destruct (Nat.eqb_spec y i) as [->|]; [cbn in Nx; tauto|]. cbn. rewrite IH; auto. cbn in Nx. tauto.
  - rewrite IH; auto. destruct H; [congruence|auto].
Qed.

Lemma step_inv n cb s a s' : inv n cb s -> step s a = Some s' -> inv n cb s'.
Proof.
  intros [T C Nx ND Lt Er Pe Jo] E. destruct a as [|i e]; cbn [step] in E.
  - destruct (Nat.ltb_spec (next s) (total s)) as [L|]; [|discriminate]. injection E as <-.
    split; cbn [total hasCallback next waiting errs pending jobs]; auto; try lia.
    + apply NoDup_rev in ND. rewrite <- (rev_involutive (waiting s ++ [next s])). apply NoDup_rev.
      rewrite rev_unit. constructor; auto. rewrite <- in_rev. intros H. apply Lt in H. lia.
    + intros i H. apply in_app_or in H as [H|[<-|[]]]; [apply Lt in H; lia|lia].
    + intros i Hi. rewrite Er by auto. rewrite in_app_iff. cbn. intuition lia.
    + rewrite Pe, app_length. cbn. f_equal. lia.
  - destruct (inb i (waiting s)) eqn:M; [|discriminate]. apply inb_In in M. injection E as <-. pose proof (rem_len i _ ND M) as RL. pose proof (Lt i M) as Li.
    split; cbn [total hasCallback next waiting errs pending jobs]; auto.
    + apply NoDup_filter. auto.
    + intros j H. apply filter_In in H as (H & _). auto.
    + intros j Hj. destruct (Nat.eqb_spec j i) as [->|N].
      * split; [discriminate|]. intros [H|H]; [lia|]. apply filter_In in H as (_ & H). rewrite Nat.eqb_refl in H. discriminate.
      * rewrite Er by auto. rewrite filter_In. destruct (Nat.eqb_spec j i); [congruence|]. cbn. tauto.
    + rewrite Pe. lia.
    + rewrite C, Jo. destruct (Z.eqb_spec (pending s) 0) as [Z0|Z0]; [rewrite Pe in Z0; lia|]. cbn [andb].
      destruct (Z.eqb_spec (pending s - 1) 0); auto. cbn [andb]. destruct cb; auto. destruct (Nat.eqb_spec n 0); [lia|auto].
Qed.
Lemma start_inv n cb : inv n cb (Produce n cb).
Proof.
  split; cbn [Produce total hasCallback next waiting errs pending jobs]; auto; try lia.
  - constructor.
  - intros i [].
  - intros i Hi. split; [left; lia|auto].
  - cbn [length]. lia.
  - destruct n; cbn; auto. rewrite andb_false_r. auto.
Qed.
Lemma run_inv n cb acts : forall s s', inv n cb s -> run s acts = Some s' -> inv n cb s'.
Proof.
  induction acts as [|a acts IH]; intros s s' I E; cbn in E; [congruence|]. destruct (step s a) eqn:E1; [|discriminate]. eauto using step_inv.
Qed.

Lemma callback_once n acts s : 0 < n -> run (Produce n true) acts = Some s ->
  jobs s <= 1 /\ (jobs s = 1 <-> forall i, i < n -> errs s i <> None).
Proof.
  intros N R. pose proof (run_inv _ _ _ _ _ (start_inv n true) R) as [T C Nx ND Lt Er Pe Jo].
  destruct (Nat.eqb_spec n 0); [lia|]. rewrite !andb_true_r in Jo. split; [destruct (Z.eqb (pending s) 0); lia|].
  destruct (Z.eqb_spec (pending s) 0) as [Z0|Z0]; rewrite Jo; split; try discriminate; auto.
  - intros _ i Hi H. apply Er in H; auto. rewrite Pe in Z0. destruct H as [H|H]; [lia|]. destruct (waiting s); [destruct H|cbn in Z0; lia].
  - intros H. exfalso. apply Z0. rewrite Pe. destruct (waiting s) as [|x l] eqn:Ew.
    + destruct (Nat.le_gt_cases n (next s)); [cbn; lia|]. exfalso. apply (H (next s)); [lia|]. apply Er; [lia|]. auto.
    + exfalso. apply (H x); [specialize (Lt x (or_introl eq_refl)); lia|]. apply Er; [specialize (Lt x (or_introl eq_refl)); lia|]. cbn. auto.
Qed.
(** every record has the answer it was given *)
Lemma answers n cb acts s : run (Produce n cb) acts = Some s -> forall i e, In (AAnswer i e) acts -> errs s i = Some e.
Proof.
  intros R. assert (G : forall acts s0, inv n cb s0 -> run s0 acts = Some s ->
    (forall i e, errs s0 i = Some e -> i < n -> errs s i = Some e) /\ (forall i e, In (AAnswer i e) acts -> errs s i = Some e)).
  { clear R acts. induction acts as [|a acts IH]; intros s0 I E; cbn in E.
    - injection E as ->. split; auto. intros ? ? [].
    - destruct (step s0 a) as [s1|] eqn:E1; [|discriminate]. destruct (IH s1 (step_inv _ _ _ _ _ I E1) E) as (A & B). destruct I as [T C Nx ND Lt Er Pe Jo].
      destruct a as [|j e']; cbn [step] in E1.
      + destruct (Nat.ltb (next s0) (total s0)); [|discriminate]. injection E1 as <-. cbn [errs] in A. split; auto.
        intros i e [?|H]; [discriminate|auto].
      + destruct (inb j (waiting s0)) eqn:M; [|discriminate]. apply inb_In in M. injection E1 as <-. cbn [errs] in A.
        assert (Hj : j < n) by (specialize (Lt j M); lia). split.
        * intros i e H Hi. apply A; auto. destruct (Nat.eqb_spec i j) as [->|]; auto. exfalso.
          assert (errs s0 j = None) by (apply Er; auto). congruence.
        * intros i e [[= <- <-]|H]; auto. apply A; auto. rewrite Nat.eqb_refl. auto. }
  exact (proj2 (G acts _ (start_inv n cb) R)).
Qed.
Lemma never n cb acts s : n = 0 \/ cb = false -> run (Produce n cb) acts = Some s -> jobs s = 0.
Proof.
  intros H R. pose proof (run_inv _ _ _ _ _ (start_inv n cb) R) as [T C Nx ND Lt Er Pe Jo]. rewrite Jo.
  destruct H as [-> | ->]; rewrite ?andb_false_r; auto.
Qed.
(** all answers can always still come in *)
Lemma finishes n cb acts s : run (Produce n cb) acts = Some s -> exists acts' s', run s acts' = Some s' /\ forall i, i < n -> errs s' i <> None.
Proof.
  intros R. pose proof (run_inv _ _ _ _ _ (start_inv n cb) R) as I. clear R acts.
  remember (2 * (n - next s) + length (waiting s)) as k eqn:Ek. revert s I Ek. induction k as [k IH] using lt_wf_rec. intros s I Ek.
  destruct (waiting s) as [|x l] eqn:Ew.
  - destruct (Nat.lt_ge_cases (next s) n) as [L|L].
    + destruct (step s AHand) as [s1|] eqn:E1.
      * pose proof (step_inv _ _ _ _ _ I E1) as I1. pose proof E1 as E1'. cbn [step] in E1. destruct (Nat.ltb (next s) (total s)); [|discriminate].
        destruct (IH (2 * (n - next s1) + length (waiting s1))) with (s := s1) as (acts & s' & R & H); auto.
        { injection E1 as <-. cbn [next waiting]. rewrite Ew. cbn. cbn in Ek. lia. }
        exists (AHand :: acts), s'. cbn [run]. rewrite E1'. auto.
      * cbn [step] in E1. rewrite (i_total _ _ _ I) in E1. destruct (Nat.ltb_spec (next s) n); [discriminate|lia].
    + exists [], s. split; auto. intros i Hi H. apply (i_err _ _ _ I) in H; auto. rewrite Ew in H. destruct H as [?|[]]. lia.
  - assert (M : inb x (waiting s) = true) by (apply inb_In; rewrite Ew; cbn; auto).
    destruct (step s (AAnswer x None)) as [s1|] eqn:E1; [|cbn [step] in E1; rewrite M in E1; discriminate].
    pose proof (step_inv _ _ _ _ _ I E1) as I1.
    destruct (IH (2 * (n - next s1) + length (waiting s1))) with (s := s1) as (acts & s' & R & H); auto.
    { cbn [step] in E1. rewrite M in E1. injection E1 as <-. cbn [next waiting]. pose proof (rem_len x _ (i_nd _ _ _ I) (proj1 (inb_In _ _) M)) as Q.
      rewrite Ek, <- Ew. lia. }
    exists (AAnswer x None :: acts), s'. cbn [run]. rewrite E1. auto.
Qed.
