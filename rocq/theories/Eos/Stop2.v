(** A worker whose events are all resolved can stop. *)
From stdpp Require Import prelude list sorting.
From Coq Require Import ZArith.
From Verif.Eos Require Import Model Base Struct Struct2 Step1 Own Own2 Fin Own3 Fin2 Fin3 Rev Spec Ends Main Wait Stop Wait2.
Open Scope nat_scope.

Lemma rej_take e tr : NoDup (taken tr) -> EvRej e ∈ tr -> EvTake e ∈ tr -> False.
Proof.
  induction tr as [|x tr IH]; intros N A B; [by apply elem_of_nil in A|].
  assert (forall y, y = EvRej e \/ y = EvTake e -> y ∈ tr -> e ∈ taken tr) as T.
  { intros y Y Hy. unfold taken. apply elem_of_flat_map'. exists y. split; [done|]. destruct Y as [->| ->]; by left. }
  change (taken (x :: tr)) with ((match x with EvTake e | EvRej e => [e] | _ => [] end) ++ taken tr) in N. apply NoDup_app in N as (_ & N2 & N3).
  apply elem_of_cons in A, B. destruct A as [<-|A], B as [B|B]; try discriminate.
  - eapply N2; [by left|]. eapply T; [by right|done].
  - subst x. eapply N2; [by left|]. eapply T; [by left|done].
  - by apply IH.
Qed.
Lemma closed_release l ps s : closed (releaseRoots l ps s) = closed s.
Proof. destruct (releaseRoots_frame l ps s) as [w ->]. reflexivity. Qed.
Lemma closed_step c s a s' : step c s a = Some s' -> forall w, w ∈ closed s \/ a = AClose w -> w ∈ closed s'.
Proof.
  intros H w [W| ->].
  2: { cbn [step] in H. case_decide; [|done]. injection H as <-. by left. }
  assert (closed s' = closed s \/ exists w', closed s' = w' :: closed s) as [->|[w' ->]]; [|done|by right].
  destruct a; cbn [step] in H; repeat (case_match; try discriminate); injection H as <-; try (left; reflexivity); try (right; eexists; reflexivity).
  all: left; unfold addEc, claim, relinquish; repeat case_match; try reflexivity.
  all: rewrite ?produceRecord_eq; try reflexivity. all: exact (closed_release _ _ _).
Qed.

Lemma closed_run c acts s w : run c (start c) acts = Some s -> AClose w ∈ acts -> w ∈ closed s.
Proof.
  revert s. induction acts as [|a acts IH] using rev_ind; intros s R A; [by apply elem_of_nil in A|].
  rewrite run_app in R. destruct (run c (start c) acts) as [s0|] eqn:R0; [|done]. cbn in R. destruct (step c s0 a) as [s'|] eqn:H; [|done]. injection R as <-.
  eapply closed_step; [exact H|]. apply elem_of_app in A as [A|A]; [left; by apply IH|right; by apply elem_of_list_singleton in A].
Qed.
Lemma cnt_none w l : (forall e, e ∈ l -> e_w e <> w) -> cnt w l = 0.
Proof. intros H. unfold cnt. rewrite filter_nil_all; [done|]. exact H. Qed.
Lemma roots_none w l : (forall e, e ∈ l -> e_w e <> w) -> roots w l = 0.
Proof.
  intros H. unfold roots. rewrite filter_nil_all; [done|]. intros p _ X. unfold isRoot in X. destruct (ofPart p l) as [|e k] eqn:E; [done|].
  assert (e ∈ ofPart p l) as He by (rewrite E; by left). apply elem_of_list_filter in He as [_ He]. by apply (H e).
Qed.
Lemma sum_none {A} (f : A -> nat) l : (forall x, x ∈ l -> f x = 0) -> list_sum (map f l) = 0.
Proof. intros H. unfold list_sum. induction l as [|y l IH]; [done|]. cbn. rewrite (H y) by (by left). rewrite IH; [done|]. intros x Hx. apply H. by right. Qed.

Theorem resolved_stops c acts s w : valid c -> Forall (fun a => a <> KSkip /\ forall ok, a <> KFail ok) acts -> run c (start c) acts = Some s ->
  AClose w ∈ acts -> EvStop w ∉ trace s ->
  (forall e, EvArr e ∈ trace s -> e_w e = w -> EvRej e ∈ trace s \/ exists t ok, EvAdd t e ∈ trace s /\ EvEnd t ok ∈ trace s) ->
  exists s', step c s (AStop w) = Some s'.
Proof.
  intros V N R A S H. assert (noSkip acts) as NS by (eapply Forall_impl; [exact N|by intros a [? _]]). pose proof (Inv_run c acts s V NS R) as J. pose proof (i_str _ _ J) as I.
  pose proof (We_run c acts s V N R w) as L. pose proof (closed_run _ _ _ _ R A) as C.
  cbn [step]. rewrite decide_True; [by eexists|]. split; [exact C|]. split; [|exact S]. rewrite <- L. apply (f_equal Z.of_nat (y := 0)).
  assert (NoDup (arrs (trace s))) as ND. { eapply (NoDup_fmap_1 e_id). change (NoDup (map e_id (arrs (trace s)))). rewrite (str_ids _ _ I). apply NoDup_seq. }
  rewrite (str_arr _ _ I) in ND. apply NoDup_app in ND as (ND1 & ND2 & _).
  assert (forall e, e ∈ takes (trace s) -> EvTake e ∈ trace s) as TK by (intros e; by rewrite elem_takes).
  assert (forall e, EvTake e ∈ trace s \/ EvRej e ∈ trace s -> e ∈ taken (trace s)) as TN.
  { intros e X. unfold taken. apply elem_of_flat_map'. destruct X as [X|X]; eexists; (split; [exact X|by left]). }
  assert (forall t e, EvAdd t e ∈ trace s -> EvTake e ∈ trace s) as AT.
  { intros t e X. apply TK. rewrite (str_take _ _ I), elem_of_app. left. apply elem_of_list_fmap. exists (t, e). split; [done|by apply elem_added]. }
  assert (forall e, e ∈ taken (trace s) -> EvArr e ∈ trace s) as TA. { intros e X. apply elem_arrs. rewrite (str_arr _ _ I), elem_of_app. by left. }
  (* events in an open transaction *)
  assert (forall n e, n ∈ pipe s -> over s = 0 \/ n ∉ kn s -> e ∈ n_ecs (nodes s n) -> e_w e <> w) as O.
  { intros n e P Ov E W. destruct (decide (evs s n = 0)) as [Z|Z]. { destruct (str_idle _ _ I n Z) as (X & _). rewrite X in E. by apply elem_of_nil in E. }
    assert (n ∈ busy s) as B by (by apply elem_busy). rewrite (str_adds _ _ I _ B) in E.
    assert (e ∈ adds (txn s n) (trace s)) as Ea. { unfold cut in E. destruct (kp s); try exact E. case_decide; [|exact E]. by apply elem_of_list_filter in E as [_ E]. }
    apply elem_of_txn in Ea. assert (EvAdd (txn s n) e ∈ trace s) as Ea' by (by apply elem_added). pose proof (AT _ _ Ea') as Tk.
    destruct (H e) as [Rj|(t & ok & Ad & En)]; [by apply TA, TN; left|done|by apply (rej_take e (trace s))|].
    assert (t = txn s n) as -> by (eapply (added_once J); eassumption).
    destruct (str_txn _ _ I) as (k & T1 & T2 & T3). assert (txn s n ∈ map fst (ends (trace s))) as Hin. { apply elem_of_list_fmap. exists (txn s n, ok). split; [done|by apply elem_ends]. }
    rewrite T3, elem_of_seq in Hin. assert (txn s n ∈ map (txn s) (busy s)) as Hb by (by apply elem_of_list_fmap_1). 
    destruct Ov as [Ov|Ov]; [rewrite Ov in Hin; rewrite T1, elem_of_seq in Hb; lia|].
    destruct (kn s) as [|m [|]] eqn:K; [|..].
    - assert (over s = 0) as Z0 by (unfold over, kn in *; destruct (kp s); done). rewrite Z0 in Hin; rewrite T1, elem_of_seq in Hb; lia.
    - destruct (busy_head _ _ _ I K) as (l & El & _). rewrite El in T1, B. cbn in T1. injection T1 as T0 T1. apply elem_of_cons in B as [->|B]; [by apply Ov; left|].
      assert (txn s n ∈ map (txn s) l) as Hl by (by apply elem_of_list_fmap_1). rewrite T1, elem_of_seq in Hl. assert (over s <= 1) by (unfold over; destruct (kp s); lia). lia.
    - unfold kn in K. destruct (kp s); done. }
  unfold load. rewrite (cnt_none w (buffer s)); [rewrite (cnt_none w (chk s)); [rewrite (sum_none (nload s w)); [|]|]|].
  - unfold kload. destruct (kp s) as [|n cur mk todo| | |] eqn:Ek; try done. assert (n ∈ pipe s) as P by (unfold pipe, kn; rewrite Ek; by left).
    assert (over s = 0) as Ov by (unfold over; by rewrite Ek).
    rewrite (roots_none w) by (intros e; apply O; auto). rewrite (cnt_none w (filter _ _)) by (intros e He; apply elem_of_list_filter in He as [_ He]; revert He; apply O; auto).
    rewrite cnt_none; [done|]. intros e He. destruct (fin_run _ (i_fin _ _ J) _ _ _ _ Ek) as (_ & F1 & _ & F2). destruct (F2 (e_p e) (F1 e He)) as (wt & Ew & _).
    apply (O n); [done|by left|]. assert (e ∈ ofPart (e_p e) (n_ecs (nodes s n))) as Hin; [|by apply elem_of_list_filter in Hin as [_ Hin]].
    rewrite Ew, elem_of_app. left. apply elem_of_list_In, in_rev. rewrite rev_involutive. apply elem_of_list_In, elem_of_list_filter. done.
  - intros n Hn. unfold nload. assert (n ∈ pipe s) as P by (unfold pipe; rewrite !elem_of_app; rewrite elem_of_app in Hn; tauto).
    assert (over s = 0 \/ n ∉ kn s) as Ov. { right. intros K. pose proof (Str_nodup_pipe _ _ I) as NDp. unfold pipe in NDp. apply NoDup_app in NDp as (_ & NDp & _). by apply (NDp n). }
    rewrite cnt_none, roots_none; [done|..]; intros e; apply O; auto.
  - intros e He W. assert (EvTake e ∈ trace s) as Tk. { apply TK. rewrite (str_take _ _ I), elem_of_app. right. unfold chk in He. destruct (fp s); done. }
    destruct (H e) as [Rj|(t & ok & Ad & En)]; [by apply TA, TN; left|done|by apply (rej_take e (trace s))|].
    pose proof (takes_nodup J) as NDt. rewrite (str_take _ _ I) in NDt. apply NoDup_app in NDt as (_ & NDt & _). eapply NDt; [|unfold chk in He; destruct (fp s); exact He].
    apply elem_of_list_fmap. exists (t, e). split; [done|by apply elem_added].
  - intros e He W. destruct (H e) as [Rj|(t & ok & Ad & En)]; [|done|..].
    + apply elem_arrs. rewrite (str_arr _ _ I), elem_of_app. by right.
    + eapply ND2; [|exact He]. apply TN. by right.
    + eapply ND2; [|exact He]. apply TN. left. by eapply AT.
Qed.
