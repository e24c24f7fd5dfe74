From stdpp Require Import prelude list.
From Coq Require Import Lia.
From Verif.Signals Require Import Model.
Open Scope nat_scope.
Section S.
Context (h : option (nat -> bool)) (sg : list nat).
Notation step := (step h sg). Notation run := (run h sg).

Lemma run_app l1 : forall s l2, run s (l1 ++ l2) = match run s l1 with Some s' => run s' l2 | None => None end.
Proof. induction l1 as [|a l IH]; intros s l2; [reflexivity|]. cbn. destruct (step s a); [apply IH|reflexivity]. Qed.
Lemma run_snoc s l a : run s (l ++ [a]) = match run s l with Some s' => step s' a | None => None end.
Proof. rewrite run_app. destruct (run s l) as [s'|]; [|reflexivity]. cbn. destruct (step s' a); reflexivity. Qed.

(** ** What the trace says *)
Definition sigs (t : list ev) : list nat := omap (fun e => match e with EvSig x => Some x | _ => None end) t.
Definition hooks (t : list ev) : list nat := omap (fun e => match e with EvHook x => Some x | _ => None end) t.
Lemma sigs_app t u : sigs (t ++ u) = sigs t ++ sigs u. Proof. apply omap_app. Qed.
Lemma hooks_app t u : hooks (t ++ u) = hooks t ++ hooks u. Proof. apply omap_app. Qed.

Ltac cases E := cbn [Model.step] in E; repeat (match type of E with context [match ?x with _ => _ end] => destruct x eqn:?; try discriminate E end); injection E as <-.

Definition isStop (e : ev) : bool := match e with EvStop => true | _ => false end.
Definition isReturn (e : ev) : bool := match e with EvReturn => true | _ => false end.
Definition isAcc (e : ev) : bool := match e with EvRet _ true => true | _ => false end.
Lemma has_in (f : ev -> bool) t : existsb f t = true <-> exists e, e ∈ t /\ f e = true.
Proof. rewrite existsb_exists. split; intros (e & H & F); exists e; (split; [apply elem_of_list_In, H|exact F]). Qed.

Definition good (s : st) : Prop :=
  hooks (trace s) ++ buf s `sublist_of` List.filter (fun x => bool_decide (x ∈ wanted sg)) (sigs (trace s)) /\
  length (buf s) <= 1 /\
  existsb isStop (trace s) = (match at_ s with Wait | Returned => true | _ => false end) /\
  existsb isReturn (trace s) = (match at_ s with Returned => true | _ => false end) /\
  existsb isAcc (trace s) = (match at_ s with Receive | Hook _ => false | _ => true end) /\
  notify s = (match at_ s with Receive | Hook _ | Reset => true | _ => false end).
Lemma good_init : good init.
Proof. split_and!; cbn; auto. Qed.
Lemma good_step s a s' : step s a = Some s' -> good s -> good s'.
Proof.
  intros E (G & L & P1 & P2 & P3 & P4). destruct a as [x| |].
  - cbn [Model.step] in E. destruct (notify s) eqn:N; [|discriminate]. injection E as <-. unfold good. cbn [buf trace at_ notify done]. rewrite sigs_app, hooks_app, List.filter_app, !existsb_app, P1, P2, P3. cbn [sigs hooks omap list_omap existsb isStop isReturn isAcc orb]. rewrite app_nil_r, !orb_false_r. split_and!; auto; try congruence.
    + cbn [List.filter]. destruct (bool_decide (x ∈ wanted sg)) eqn:W; cbn [andb].
      * destruct (length (buf s) <? room); [rewrite app_assoc; apply sublist_app; [exact G|reflexivity]|apply sublist_inserts_r; exact G].
      * rewrite app_nil_r. exact G.
    + destruct (bool_decide (x ∈ wanted sg)); cbn [andb]; [|exact L]. destruct (Nat.ltb_spec (length (buf s)) room); [unfold room in *; rewrite app_length; cbn; lia|exact L].
  - cases E; unfold good; cbn [buf trace at_ notify done] in *; rewrite ?sigs_app, ?hooks_app, ?existsb_app, P1, P2, P3, ?P4; cbn [sigs hooks omap list_omap existsb isStop isReturn isAcc orb]; rewrite ?app_nil_r; split_and!; auto; try congruence; try (cbn in L; lia).
    all: try (rewrite <- app_assoc; exact G).
  - cases E. unfold good. cbn [buf trace at_ notify done] in *. rewrite sigs_app, hooks_app, !existsb_app, P1, P2, P3. cbn [sigs hooks omap list_omap existsb isStop isReturn isAcc orb]. rewrite !orb_false_r. split_and!; auto. rewrite !app_nil_r. exact G.
Qed.
Lemma good_run acts : forall s s', run s acts = Some s' -> good s -> good s'.
Proof. induction acts as [|a l IH]; intros s s' R G; [injection R as <-; exact G|]. cbn in R. destruct (step s a) eqn:E; [|discriminate]. exact (IH _ _ R (good_step _ _ _ E G)). Qed.
Lemma good_at acts s : run init acts = Some s -> good s.
Proof. intros R. exact (good_run _ _ _ R good_init). Qed.

Lemma trace_step s a s' : step s a = Some s' -> trace s' = trace s \/ exists e, trace s' = trace s ++ [e].
Proof. intros E. destruct a; cases E; cbn; eauto. Qed.
Lemma trace_split acts : forall s t1 e t2, run init acts = Some s -> trace s = t1 ++ e :: t2 ->
  exists l1 a l2 s1 s2, acts = l1 ++ a :: l2 /\ run init l1 = Some s1 /\ step s1 a = Some s2 /\ run s2 l2 = Some s /\ trace s1 = t1 /\ trace s2 = t1 ++ [e].
Proof.
  induction acts as [|a l IH] using rev_ind; intros s t1 e t2 R T.
  - injection R as <-. destruct t1; discriminate.
  - rewrite run_snoc in R. destruct (run init l) as [s0|] eqn:R0; [|discriminate].
    assert (K : forall l1 a' l2 s1 s2, l = l1 ++ a' :: l2 /\ run init l1 = Some s1 /\ step s1 a' = Some s2 /\ run s2 l2 = Some s0 /\ trace s1 = t1 /\ trace s2 = t1 ++ [e] ->
      exists l1 a0 l2 s1 s2, l ++ [a] = l1 ++ a0 :: l2 /\ run init l1 = Some s1 /\ step s1 a0 = Some s2 /\ run s2 l2 = Some s /\ trace s1 = t1 /\ trace s2 = t1 ++ [e]).
    { intros l1 a' l2 s1 s2 (-> & Q1 & Q2 & Q3 & Q4). exists l1, a', (l2 ++ [a]), s1, s2. rewrite <- app_assoc. split_and!; auto; [rewrite run_snoc, Q3; exact R|apply Q4..]. }
    destruct (trace_step _ _ _ R) as [Q|(e' & Q)].
    + rewrite Q in T. destruct (IH _ _ _ _ eq_refl T) as (l1 & a' & l2 & s1 & s2 & P). eapply K, P.
    + destruct t2 as [|y t2 _] using rev_ind.
      * rewrite T in Q. apply app_inj_tail in Q as [-> ->]. exists l, a, [], s0, s. auto 10.
      * rewrite T in Q. rewrite app_comm_cons, app_assoc in Q. apply app_inj_tail in Q as [Q ->]. destruct (IH _ _ _ _ eq_refl (eq_sym Q)) as (l1 & a' & l2 & s1 & s2 & P). eapply K, P.
Qed.
Lemma snoc_no s (t : list ev) e : trace s = t -> trace s = t ++ [e] -> False.
Proof. intros -> H. apply (f_equal length) in H. rewrite app_length in H. cbn in H. lia. Qed.
(** after Stop *)
Lemma after_stop acts : forall s s', run s acts = Some s' -> (at_ s = Wait \/ at_ s = Returned) -> exists u, trace s' = trace s ++ u /\ EvStop ∉ u /\ (forall x, EvHook x ∉ u) /\ (forall x b, EvRet x b ∉ u).
Proof.
  induction acts as [|a l IH]; intros s s' R P.
  - injection R as <-. exists []. rewrite app_nil_r. split_and!; [reflexivity|intros H; inversion H|intros x H; inversion H|intros x b H; inversion H].
  - cbn in R. destruct (step s a) as [s1|] eqn:E; [|discriminate].
    assert (Q : (at_ s1 = Wait \/ at_ s1 = Returned) /\ exists v, trace s1 = trace s ++ v /\ (v = [] \/ exists e, v = [e] /\ e <> EvStop /\ (forall x, e <> EvHook x) /\ (forall x b, e <> EvRet x b))).
    { destruct a; cases E; cbn; try (destruct P; congruence).
      all: split; auto; eexists; (split; [reflexivity|]); right; eexists; (split; [reflexivity|]); split_and!; intros; discriminate. }
    destruct Q as [P1 (v & V & W)]. destruct (IH _ _ R P1) as (u & U & U1 & U2 & U3). exists (v ++ u). rewrite U, V, <- app_assoc. split; [reflexivity|].
    destruct W as [->|(e & -> & W1 & W2 & W3)]; [auto|]. split_and!; [intros H|intros x H|intros x b H]; cbn in H; apply elem_of_cons in H as [H|H]; try (subst; eauto; fail); try (eapply W1; eauto; fail); try (eapply W2; eauto; fail); try (eapply W3; eauto; fail).
    all: try (eapply U2; exact H); try (eapply U3; exact H); try (apply U1; exact H).
Qed.
Lemma stop_after_acceptance acts s t1 t2 : run init acts = Some s -> trace s = t1 ++ EvStop :: t2 -> (exists x, EvRet x true ∈ t1) /\ EvStop ∉ t1 /\ EvStop ∉ t2 /\ (forall x, EvHook x ∉ t2).
Proof.
  intros R T. destruct (trace_split _ _ _ _ _ R T) as (l1 & a & l2 & s1 & s2 & -> & R1 & E & R2 & T1 & T2). destruct (good_at _ _ R1) as (_ & _ & G1 & _ & G3 & _). rewrite T1 in *.
  assert (A : at_ s1 = Stop /\ at_ s2 = Wait).
  { destruct a as [x| |]; cases E; cbn in T2; rewrite ?T1 in T2; try (apply app_inj_tail in T2 as [_ T2]; discriminate T2); try (destruct (app_inv_head_iff t1 [] [EvStop]) as [Q _]; rewrite app_nil_r in Q; specialize (Q T2); discriminate Q); auto. }
  destruct A as [A1 A2]. rewrite A1 in *. destruct (after_stop _ _ _ R2 (or_introl A2)) as (u & U & U1 & U2 & _). rewrite T, T2, <- app_assoc in U. apply app_inv_head in U. injection U as ->. split_and!; auto.
  - apply has_in in G3 as (e & H & F). destruct e as [| |x []| | |]; try discriminate. eauto.
  - intros H. assert (existsb isStop t1 = true) by (apply has_in; eauto). congruence.
Qed.
Lemma done_in acts : forall s, run init acts = Some s -> done s = true -> EvDone ∈ trace s.
Proof.
  induction acts as [|a l IH] using rev_ind; intros s R D; [injection R as <-; discriminate|]. rewrite run_snoc in R. destruct (run init l) as [s0|]; [|discriminate]. specialize (IH _ eq_refl).
  destruct a; cases R; cbn in *; try discriminate; try (apply elem_of_app; left; apply IH; congruence); try (apply IH; congruence). apply elem_of_app. right. left.
Qed.
Lemma return_after_stop acts s t1 t2 : run init acts = Some s -> trace s = t1 ++ EvReturn :: t2 -> EvStop ∈ t1 /\ EvDone ∈ t1.
Proof.
  intros R T. destruct (trace_split _ _ _ _ _ R T) as (l1 & a & l2 & s1 & s2 & -> & R1 & E & R2 & T1 & T2). destruct (good_at _ _ R1) as (_ & _ & G1 & _). rewrite T1 in *.
  assert (A : at_ s1 = Wait /\ done s1 = true).
  { destruct a as [x| |]; cases E; cbn in T2; rewrite ?T1 in T2; try (apply app_inj_tail in T2 as [_ T2]; discriminate T2); try (destruct (app_inv_head_iff t1 [] [EvReturn]) as [Q _]; rewrite app_nil_r in Q; specialize (Q T2); discriminate Q); auto. }
  destruct A as [A D]. rewrite A in G1. apply has_in in G1 as (e & H & F). destruct e; try discriminate. split; [exact H|]. rewrite <- T1. exact (done_in _ _ R1 D).
Qed.
Lemma hook_returns acts s t1 x b t2 : run init acts = Some s -> trace s = t1 ++ EvRet x b :: t2 -> b = hook h x /\ (exists u v, t1 = u ++ EvHook x :: v /\ (forall y, EvHook y ∉ v) /\ forall y c, EvRet y c ∉ v).
Proof.
  intros R T. destruct (trace_split _ _ _ _ _ R T) as (l1 & a & l2 & s1 & s2 & -> & R1 & E & R2 & T1 & T2).
  assert (A : at_ s1 = Hook x /\ b = hook h x).
  { destruct a as [y| |]; cbn [Model.step] in E; [destruct (notify s1); [|discriminate]; injection E as <-|destruct (at_ s1) as [|y| | | |] eqn:A; [destruct (buf s1); [discriminate|]; injection E as <-|injection E as <-..|destruct (done s1); [|discriminate]; injection E as <-|discriminate]|destruct (done s1); [discriminate|]; injection E as <-];
      cbn in T2; rewrite ?T1 in T2; try (apply app_inj_tail in T2 as [_ T2]; try discriminate T2); try (destruct (app_inv_head_iff t1 [] [EvRet x b]) as [Q _]; rewrite app_nil_r in Q; specialize (Q T2); discriminate Q). injection T2 as -> <-. auto. }
  destruct A as [A B]. split; [exact B|]. rewrite <- T1. clear -R1 A. revert s1 R1 A. induction l1 as [|a l IH] using rev_ind; intros s1 R A; [injection R as <-; discriminate|]. rewrite run_snoc in R. destruct (run init l) as [s0|]; [|discriminate]. specialize (IH _ eq_refl).
  assert (Keep : forall e s', at_ s0 = Hook x -> trace s' = trace s0 ++ [e] -> (forall y, e <> EvHook y) -> (forall y c, e <> EvRet y c) -> exists u v, trace s' = u ++ EvHook x :: v /\ (forall y, EvHook y ∉ v) /\ forall y c, EvRet y c ∉ v).
  { intros e s' A0 T N1 N2. destruct (IH A0) as (u & v & Q & V1 & V2). exists u, (v ++ [e]). rewrite T, Q, <- app_assoc. split_and!; [reflexivity|intros y H|intros y c H]; apply elem_of_app in H as [H|H]; [exact (V1 y H)|apply elem_of_list_singleton in H; destruct (N1 y); auto|exact (V2 y c H)|apply elem_of_list_singleton in H; destruct (N2 y c); auto]. }
  destruct a as [y| |]; cbn [Model.step] in R.
  - destruct (notify s0); [|discriminate]. injection R as <-. apply (Keep (EvSig y)); [exact A|reflexivity|discriminate..].
  - destruct (at_ s0) as [|y| | | |] eqn:A0; [destruct (buf s0); [discriminate|]; injection R as <-|injection R as <-..|destruct (done s0); [|discriminate]; injection R as <-|discriminate]; cbn in A; try discriminate.
    + injection A as ->. exists (trace s0), []. cbn. split_and!; [reflexivity|intros y H; inversion H|intros y c H; inversion H].
    + destruct (hook h y); discriminate.
  - destruct (done s0); [discriminate|]. injection R as <-. apply (Keep EvDone); [exact A|reflexivity|discriminate..].
Qed.
Lemma hooks_in_order acts s : run init acts = Some s -> hooks (trace s) `sublist_of` List.filter (fun x => bool_decide (x ∈ wanted sg)) (sigs (trace s)).
Proof. intros R. destruct (good_at _ _ R) as (G & _). etransitivity; [|exact G]. apply sublist_inserts_r. reflexivity. Qed.

(** ** Closing *)
(** no wanted signal has arrived since the hook was called last, or since the start *)
Definition quiet (t : list ev) : bool := fold_left (fun q e => match e with EvHook _ => true | EvSig x => q && negb (bool_decide (x ∈ wanted sg)) | _ => q end) t true.
Lemma quiet_snoc t e : quiet (t ++ [e]) = match e with EvHook _ => true | EvSig x => quiet t && negb (bool_decide (x ∈ wanted sg)) | _ => quiet t end.
Proof. unfold quiet. rewrite fold_left_app. destruct e; reflexivity. Qed.
Lemma quiet_buf acts : forall s, run init acts = Some s -> quiet (trace s) = true -> buf s = [].
Proof.
  induction acts as [|a l IH] using rev_ind; intros s R Q; [injection R as <-; reflexivity|]. rewrite run_snoc in R. destruct (run init l) as [s0|] eqn:R0; [|discriminate]. specialize (IH _ eq_refl). destruct (good_at _ _ R0) as (_ & L & _).
  destruct a as [x| |]; cbn [Model.step] in R.
  - destruct (notify s0); [|discriminate]. injection R as <-. cbn [trace buf] in *. rewrite quiet_snoc in Q. apply andb_true_iff in Q as [Q W]. apply negb_true_iff in W. rewrite W. cbn. auto.
  - destruct (at_ s0) as [|y| | | |] eqn:A0; [destruct (buf s0) as [|y m] eqn:B; [discriminate|]; injection R as <-|injection R as <-..|destruct (done s0); [|discriminate]; injection R as <-|discriminate]; cbn [trace buf] in *; rewrite ?quiet_snoc in Q; auto.
    destruct m; [reflexivity|cbn in L; lia].
  - destruct (done s0); [discriminate|]. injection R as <-. cbn [trace buf] in *. rewrite quiet_snoc in Q. auto.
Qed.
Definition closing (x : nat) (s : st) : Prop := match at_ s with Receive => exists l, buf s = x :: l | Hook y => y = x \/ hook h y = true \/ exists l, buf s = x :: l | _ => True end.
Lemma closing_step x s a s' : step s a = Some s' -> hook h x = true -> closing x s -> closing x s'.
Proof.
  intros E H C. unfold closing in *. destruct a as [y| |]; cbn [Model.step] in E.
  - destruct (notify s); [|discriminate]. injection E as <-. cbn [at_ buf]. destruct (at_ s) as [|z| | | |]; try exact C.
    + destruct C as (l & ->). destruct (bool_decide (y ∈ wanted sg) && (length (x :: l) <? room)); cbn; eauto.
    + destruct C as [C|[C|(l & ->)]]; auto. right. right. destruct (bool_decide (y ∈ wanted sg) && (length (x :: l) <? room)); cbn; eauto.
  - destruct (at_ s) as [|y| | | |] eqn:A0; [destruct (buf s) as [|y m] eqn:B; [discriminate|]; injection E as <-|injection E as <-..|destruct (done s); [|discriminate]; injection E as <-|discriminate]; cbn [at_ buf] in *; auto.
    + destruct C as (l & [= -> ->]). auto.
    + destruct (hook h y) eqn:Hy; [exact Logic.I|]. destruct C as [->|[C|C]]; [congruence|congruence|exact C].
  - destruct (done s); [discriminate|]. injection E as <-. exact C.
Qed.
Lemma closing_run x acts : forall s s', run s acts = Some s' -> hook h x = true -> closing x s -> closing x s'.
Proof. induction acts as [|a l IH]; intros s s' R H C; [injection R as <-; exact C|]. cbn in R. destruct (step s a) eqn:E; [|discriminate]. exact (IH _ _ R H (closing_step _ _ _ _ E H C)). Qed.
Definition size (s : st) : nat := 2 * length (buf s) + match at_ s with Receive => 4 | Hook _ => 5 | Reset => 3 | Stop => 2 | Wait => 1 | Returned => 0 end.
Lemma size_step s s' : step s Step = Some s' -> size s' < size s.
Proof.
  cbn [Model.step]. unfold size. destruct (at_ s) as [|y| | | |]; [destruct (buf s) as [|y m]; [discriminate|]; intros [= <-]|intros [= <-]..|destruct (done s); [|discriminate]; intros [= <-]|discriminate]; cbn; try lia. destruct (hook h y); lia.
Qed.
Lemma size_run n : forall s s', run s (repeat Step n) = Some s' -> n <= size s.
Proof. induction n as [|n IH]; intros s s' R; [lia|]. cbn [repeat Model.run] in R. destruct (Model.step h sg s Step) as [s1|] eqn:E; [|discriminate]. specialize (IH _ _ R). pose proof (size_step _ _ E). lia. Qed.
Lemma closes l1 x l2 s1 s : run init l1 = Some s1 -> quiet (trace s1) = true -> run s1 (Arrive x :: l2) = Some s -> x ∈ wanted sg -> hook h x = true ->
  (exists b, forall n s', run s (repeat Step n) = Some s' -> n <= b) /\
  (forall n s', run s (repeat Step n) = Some s' -> step s' Step = None -> EvStop ∈ trace s').
Proof.
  intros R1 Q R W H. pose proof (quiet_buf _ _ R1 Q) as B. cbn [Model.run] in R. destruct (step s1 (Arrive x)) as [s2|] eqn:E; [|discriminate].
  assert (C : closing x s2). { cbn [Model.step] in E. destruct (notify s1); [|discriminate]. injection E as <-. unfold closing. cbn [at_ buf]. rewrite bool_decide_eq_true_2 by exact W. rewrite B. cbn. destruct (at_ s1); eauto. }
  pose proof (closing_run _ _ _ _ R H C) as C2. pose proof (good_run _ _ _ R (good_step _ _ _ E (good_at _ _ R1))) as G. split.
  - exists (size s). intros n s' Rn. eapply size_run, Rn.
  - intros n s' Rn D. pose proof (closing_run _ _ _ _ Rn H C2) as C3. destruct (good_run _ _ _ Rn G) as (_ & _ & G1 & _). unfold closing in C3. cbn [Model.step] in D. destruct (at_ s') as [|y| | | |]; try discriminate.
    + destruct C3 as (l & Bf). rewrite Bf in D. discriminate.
    + apply has_in in G1 as (e & K & F). destruct e; try discriminate. exact K.
    + apply has_in in G1 as (e & K & F). destruct e; try discriminate. exact K.
Qed.
End S.
