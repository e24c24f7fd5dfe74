(** Order of the jobs of one caller, and counting of jobs. *)
From stdpp Require Import prelude list.
From Coq Require Import ZArith.
From Verif.ItemQueue Require Model Proofs.
From Verif.Scheduler Require Import Model Base Inv Step.
Import ItemQueue.Model(size, head, chan).

Definition pend (x : cst) : list job := match x with CGrab j | CWait j | CBlock _ j => [j] | _ => [] end.
Definition cpend (s : st) (c : nat) : list job := match callers s !! c with Some x => pend x | None => [] end.

Record invD (s : st) : Prop := {
  d_own : forall c x j, callers s !! c = Some x -> j ∈ pend x -> jcaller j = c;
  d_in : forall c, exists rest, jof (callis c) (accepted s) = jof (callis c) (inserted s) ++ cpend s c ++ rest /\ (rest = [] \/ (closed s = true /\ cpend s c = []));
  d_out : forall c, jof (callis c) (delivered s) = jof (callis c) (collected s) ++ comps s c }.

Lemma jofc c j : jof (callis c) [j] = if jcaller j =? c then [j] else [].
Proof. reflexivity. Qed.

(** what a step does to the fields concerned: the caller c goes from x to y; at most one job is accepted or put into a queue *)
Lemma own_setc c y x (s : st) : invD s -> callers s !! c = Some x -> (forall j, j ∈ pend y -> jcaller j = c) ->
  forall c' z j, <[c := y]> (callers s) !! c' = Some z -> j ∈ pend z -> jcaller j = c'.
Proof.
  intros D E O c' z j H Hj. apply list_lookup_insert_Some in H as [(-> & <- & L)|(N & H)]; [auto|]. eapply d_own; eauto.
Qed.
Lemma cpend_setc c y x (s s' : st) : callers s !! c = Some x -> callers s' = <[c := y]> (callers s) ->
  cpend s' c = pend y /\ cpend s c = pend x /\ forall c', c' <> c -> cpend s' c' = cpend s c'.
Proof.
  intros E E'. unfold cpend. rewrite E', E. rewrite list_lookup_insert by (eapply lookup_lt_Some; eauto). repeat split; auto.
  intros c' N. rewrite list_lookup_insert_ne by auto. auto.
Qed.

Lemma D_move s s' c x y : invD s -> callers s !! c = Some x -> callers s' = <[c := y]> (callers s) -> pend y = pend x ->
  accepted s' = accepted s -> inserted s' = inserted s -> closed s' = closed s -> delivered s' = delivered s -> collected s' = collected s -> comps s' = comps s -> invD s'.
Proof.
  intros D E E' P E1 E2 E3 E4 E5 E6. destruct (cpend_setc c y x s s' E E') as (Q1 & Q2 & Q3). split.
  - rewrite E'. eapply own_setc; eauto. rewrite P. intros j Hj. eapply d_own; eauto.
  - intros c'. rewrite E1, E2, E3. destruct (d_in s D c') as (rest & R). exists rest. destruct (decide (c' = c)) as [->|N]; [rewrite Q1, P, <- Q2; auto|rewrite Q3; auto].
  - intros c'. rewrite E4, E5, E6. apply D.
Qed.
Lemma D_same s s' : invD s -> callers s' = callers s -> accepted s' = accepted s -> inserted s' = inserted s -> closed s' = closed s ->
  delivered s' = delivered s -> collected s' = collected s -> comps s' = comps s -> invD s'.
Proof.
  intros D E0 E1 E2 E3 E4 E5 E6. split; unfold cpend; rewrite ?E0, ?E1, ?E2, ?E3, ?E4, ?E5, ?E6; apply D.
Qed.
Lemma D_insert s s' c x j y : invD s -> callers s !! c = Some x -> pend x = [j] -> callers s' = <[c := y]> (callers s) -> pend y = [] ->
  accepted s' = accepted s -> inserted s' = inserted s ++ [j] -> closed s' = closed s -> delivered s' = delivered s -> collected s' = collected s -> comps s' = comps s -> invD s'.
Proof.
  intros D E Px E' Py E1 E2 E3 E4 E5 E6. destruct (cpend_setc c y x s s' E E') as (Q1 & Q2 & Q3).
  assert (Oj : jcaller j = c) by (eapply d_own; eauto; rewrite Px; set_solver). split.
  - rewrite E'. eapply own_setc; eauto. rewrite Py. intros j' Hj. inversion Hj.
  - intros c'. rewrite E1, E2, E3. destruct (d_in s D c') as (rest & R1 & R2). rewrite jof_app, jofc. destruct (decide (c' = c)) as [->|N].
    + rewrite Q2, Px in *. destruct R2 as [->|(_ & ?)]; [|discriminate]. exists []. rewrite Q1, Py, R1, Oj, Nat.eqb_refl, !app_nil_r. auto.
    + rewrite Q3 by auto. exists rest. rewrite R1. destruct (Nat.eqb_spec (jcaller j) c'); [congruence|]. rewrite app_nil_r. auto.
  - intros c'. rewrite E4, E5, E6. apply D.
Qed.
Lemma D_drop s s' c x j y : invD s -> callers s !! c = Some x -> pend x = [j] -> callers s' = <[c := y]> (callers s) -> pend y = [] -> closed s = true ->
  accepted s' = accepted s -> inserted s' = inserted s -> closed s' = closed s -> delivered s' = delivered s -> collected s' = collected s -> comps s' = comps s -> invD s'.
Proof.
  intros D E Px E' Py Cl E1 E2 E3 E4 E5 E6. destruct (cpend_setc c y x s s' E E') as (Q1 & Q2 & Q3). split.
  - rewrite E'. eapply own_setc; eauto. rewrite Py. intros j' Hj. inversion Hj.
  - intros c'. rewrite E1, E2, E3. destruct (d_in s D c') as (rest & R1 & R2). destruct (decide (c' = c)) as [->|N].
    + rewrite Q2, Px in *. destruct R2 as [->|(_ & ?)]; [|discriminate]. exists [j]. rewrite Q1, Py, R1. auto.
    + rewrite Q3 by auto. exists rest. auto.
  - intros c'. rewrite E4, E5, E6. apply D.
Qed.

Lemma prepared_same s j w b s1 : prepared s j w b s1 -> callers s1 = callers s /\ accepted s1 = accepted s /\ inserted s1 = inserted s /\ closed s1 = closed s /\
  delivered s1 = delivered s /\ collected s1 = collected s /\ comps s1 = comps s /\ taken s1 = taken s /\ gs s1 = gs s /\ chans s1 = chans s /\ signal s1 = signal s /\ maxk s1 = maxk s /\
  chcap s1 = chcap s /\ depth s1 = depth s /\ ccap s1 = ccap s.
Proof. intros []; ss; auto 20. Qed.
Lemma addTo_same c j w b s s' : addTo c j w b s = Some s' -> exists o added q, ws s !! w = Some o /\ ItemQueue.Model.tryEnqueue (wq o) j = (added, q) /\
  s' = setc c (if added then (if b then CEnq w else CIdle) else CBlock w j) (set_inserted (if added then inserted s ++ [j] else inserted s) (setq w o q s)).
Proof.
  unfold addTo. destruct (ws s !! w) as [o|]; [|discriminate]. destruct (ItemQueue.Model.tryEnqueue (wq o) j) as [added q] eqn:Et. intros H. exists o, added, q.
  split; auto. split; auto. destruct added; injection H as <-; [reflexivity|]. destruct s; reflexivity.
Qed.
Lemma send_same w s s' : sendWorker w s = Some s' -> exists x, s' = set_chans x s.
Proof. intros H. apply send_tok in H as (ch & _ & -> & _). eauto. Qed.

Lemma stepD s a s' : inv s -> invD s -> step s a = Some s' -> invD s'.
Proof.
  intros I D H. destruct a as [c j|c src|c|c|c|c|c|g|g|g|g|g|g|g|g|g|g|n|n|]; cbn [step] in H.
  - destruct (callers s !! c) as [[]|] eqn:E; try discriminate. destruct (Nat.eqb_spec (jcaller j) c) as [Oj|]; [|discriminate]. destruct (closed s) eqn:Cl; injection H as <-.
    + eapply D_same; eauto.
    + destruct (cpend_setc c (CGrab j) CIdle s (setc c (CGrab j) (set_accepted (accepted s ++ [j]) s)) E eq_refl) as (Q1 & Q2 & Q3). split.
      * ss. eapply own_setc; eauto. intros j' Hj. apply elem_of_list_singleton in Hj as ->. auto.
      * intros c'. destruct (d_in s D c') as (rest & R1 & R2). destruct R2 as [->|(R2 & _)]; [|congruence]. exists []. split; auto. ss. rewrite jof_app, jofc.
        destruct (decide (c' = c)) as [->|N].
        -- rewrite Q1. rewrite R1, Q2, Oj, Nat.eqb_refl. cbn. rewrite app_nil_r. auto.
        -- rewrite Q3, R1 by auto. destruct (Nat.eqb_spec (jcaller j) c'); [congruence|]. rewrite app_nil_r. auto.
      * apply D.
  - destruct (callers s !! c) as [[]|] eqn:E; try discriminate. apply grab_cases in H as [(_ & _ & ->)|(w & b & s1 & P & H)].
    + eapply D_move; eauto.
    + apply prepared_same in P as (P1 & P2 & P3 & P4 & P5 & P6 & P7 & _). apply addTo_same in H as (o & added & q & Ew & Et & ->).
      destruct added; [eapply (D_insert s) with (j := j)|eapply (D_move s)]; ss; try (rewrite ?P1, ?P2, ?P3, ?P4, ?P5, ?P6, ?P7; eauto); auto.
      destruct b; auto.
  - destruct (callers s !! c) as [[]|] eqn:E; try discriminate. destruct (signal s); [|discriminate]. injection H as <-. destruct (closed s) eqn:Cl.
    + eapply (D_drop s); eauto; auto.
    + eapply (D_move s); eauto; auto.
  - destruct (callers s !! c) as [[]|] eqn:E; try discriminate. destruct (ws s !! w) as [o|] eqn:Ew; [|discriminate].
    destruct (ItemQueue.Model.chanSend (wq o) j) as [q|] eqn:Es; [|discriminate]. injection H as <-. eapply (D_insert s) with (j := j); eauto; auto.
  - destruct (callers s !! c) as [[]|] eqn:E; try discriminate. destruct (closed s) eqn:Cl; [|discriminate]. injection H as <-. eapply (D_drop s); eauto; auto.
  - destruct (callers s !! c) as [[]|] eqn:E; try discriminate. destruct (sendWorker w s) as [s1|] eqn:Es; [|discriminate]. injection H as <-.
    apply send_same in Es as (x & ->). eapply (D_move s); eauto; auto.
  - destruct (callers s !! c) as [[]|] eqn:E; try discriminate. destruct (comps s c) as [|j l] eqn:Ec; [discriminate|]. injection H as <-. split; unfold cpend; ss; try apply D.
    intros c'. rewrite jof_app, jofc. pose proof (d_out s D c') as Q. destruct (Nat.eqb_spec c' c) as [->|N].
    + rewrite Ec in Q. assert (jcaller j = c) as ->.
      { assert (Hj : j ∈ jof (callis c) (delivered s)) by (rewrite Q; set_solver). apply elem_of_list_In, List.filter_In in Hj as (_ & Hj). apply Nat.eqb_eq. exact Hj. }
      rewrite Nat.eqb_refl, <- app_assoc. exact Q.
    + rewrite Q. f_equal. destruct (Nat.eqb_spec (jcaller j) c') as [Ej|]; [|rewrite app_nil_r; auto]. exfalso.
      assert (Hj : j ∈ jof (callis c) (delivered s)) by (rewrite (d_out s D c), Ec; set_solver). apply elem_of_list_In, List.filter_In in Hj as (_ & Hj).
      unfold callis in Hj. apply Nat.eqb_eq in Hj. congruence.
  - destruct (gs s !! g) as [[]|] eqn:E; try discriminate. injection H as <-. eapply D_same; eauto.
  - destruct (gs s !! g) as [[]|] eqn:E; try discriminate. destruct (chans s !! ch) as [[|w l]|] eqn:E1; try discriminate.
    + destruct (ch =? current s); [discriminate|]. injection H as <-. eapply D_same; eauto.
    + injection H as <-. eapply D_same; eauto.
  - destruct (gs s !! g) as [[]|] eqn:E; try discriminate. destruct (closed s) eqn:Cl; [injection H as <-; eapply D_same; eauto|].
    destruct (ws s !! w) as [o|] eqn:Ew; [|discriminate]. destruct (ItemQueue.Model.peek (wq o)) as [j|] eqn:Ep; injection H as <-; eapply D_same; eauto.
  - destruct (gs s !! g) as [[]|] eqn:E; try discriminate. injection H as <-. eapply D_same; eauto.
  - destruct (gs s !! g) as [[]|] eqn:E; try discriminate. destruct (ws s !! w) as [o|] eqn:Ew; [|discriminate]. injection H as <-. eapply D_same; eauto.
  - destruct (gs s !! g) as [[]|] eqn:E; try discriminate. destruct (_ <? _); [|discriminate]. injection H as <-. split; unfold cpend; ss; try apply D.
    intros c. rewrite jof_app, jofc. rewrite (d_out s D c), <- app_assoc. f_equal. rewrite (Nat.eqb_sym c). destruct (Nat.eqb_spec (jcaller j) c); [auto|apply app_nil_r].
  - destruct (gs s !! g) as [[]|] eqn:E; try discriminate. destruct (ws s !! w) as [o|] eqn:Ew; [|discriminate]. destruct (ItemQueue.Model.done (wq o)) eqn:Ed; injection H as <-; eapply D_same; eauto.
  - destruct (gs s !! g) as [[]|] eqn:E; try discriminate. injection H as <-. destruct (closed s) eqn:Cl; eapply D_same; eauto.
  - destruct (gs s !! g) as [[]|] eqn:E; try discriminate. destruct (sendWorker w s) as [s1|] eqn:Es; [|discriminate]. injection H as <-. apply send_same in Es as (x & ->). eapply D_same; eauto.
  - destruct (gs s !! g) as [[]|] eqn:E; try discriminate. destruct (closed s) eqn:Cl; [|discriminate]. injection H as <-. eapply D_same; eauto.
  - injection H as <-. unfold setMax. destruct (maxk s <? n); [|eapply D_same; eauto]. destruct (chans s !! current s); eapply D_same; eauto.
  - injection H as <-. eapply D_same; eauto.
  - injection H as <-. split; unfold cpend; ss; try apply D. intros c. destruct (d_in s D c) as (rest & R1 & R2). exists rest. split; auto. destruct R2 as [?|(_ & ?)]; auto.
Qed.
Lemma startD c n cc : invD (start c n cc).
Proof.
  unfold start. split; unfold cpend; ss.
  - intros c' x j H Hj. apply lookup_repeat in H as ->. inversion Hj.
  - intros c'. exists []. split; auto. cbn. destruct (repeat CIdle n !! c') as [x|] eqn:E; auto. apply lookup_repeat in E as ->. auto.
  - auto.
Qed.
Lemma runD acts : forall s s', inv s -> invD s -> run s acts = Some s' -> invD s'.
Proof.
  induction acts as [|a acts IH]; intros s s' I D H; cbn in H; [congruence|]. destruct (step s a) as [s1|] eqn:E; [|discriminate].
  apply (IH s1); eauto using step_inv, stepD.
Qed.

(** ** the claims *)
Lemma no_overlap cf n cc acts s g g' w w' j j' x x' : run (start cf n cc) acts = Some s ->
  gs s !! g = Some x -> gs s !! g' = Some x' -> hold x = Some (w, j) -> hold x' = Some (w', j') -> jkey j = jkey j' -> g = g'.
Proof.
  intros R E E' H H' K. pose proof (run_inv _ _ _ (start_inv cf n cc) R) as [A B C].
  pose proof (i_hold s C _ _ _ _ E H) as M. pose proof (i_hold s C _ _ _ _ E' H') as M'. rewrite <- K in M'. pose proof (map_fun s _ _ _ A M M') as <-.
  eapply tok_unique; eauto; eapply hold_tok; eauto.
Qed.
Lemma key_order cf n cc acts s k : run (start cf n cc) acts = Some s ->
  (exists r, jof (keyis k) (inserted s) = jof (keyis k) (started s) ++ r) /\ (exists r, jof (keyis k) (started s) = jof (keyis k) (delivered s) ++ r /\ length r <= 1).
Proof.
  intros R. pose proof (run_inv _ _ _ (start_inv cf n cc) R) as I. pose proof I as [A B C].
  assert (Run : fm (fun x => one k (running x)) (gs s) = [] \/ exists g w j, gs s !! g = Some (GRun w j) /\ jkey j = k \/ gs s !! g = Some (GAdv w j) /\ jkey j = k).
  { destruct (fm (fun x => one k (running x)) (gs s)) eqn:F; auto. right. assert (Q : exists g x, gs s !! g = Some x /\ one k (running x) <> []).
    { clear -F. revert F. generalize (gs s) as L. intros L. revert j l. induction L as [|x L IH]; intros j l F; [discriminate|]. unfold fm in *. cbn in F.
      destruct (one k (running x)) eqn:E; [destruct (IH j l F) as (g & y & H1 & H2); exists (S g), y; auto|]. exists 0, x. split; auto. congruence. }
    destruct Q as (g & x & H1 & H2). exists g. destruct x; cbn in H2; try congruence; exists w, j0; unfold keyis in H2; destruct (Nat.eqb_spec (jkey j0) k); try congruence; auto. }
  assert (Case : forall g x w j, gs s !! g = Some x -> running x = Some (w, j) -> jkey j = k ->
    fm (fun x => one k (running x)) (gs s) = [j] /\ fm (fun x => one k (delivering x)) (gs s) = [] /\ exists r, queued s k = j :: r).
  { intros g x w j E Rx Kj. assert (Hx : hold x = Some (w, j)) by (destruct x; cbn in *; congruence).
    pose proof (i_hold s C _ _ _ _ E Hx) as M. rewrite Kj in M. pose proof (others s g x w k I E (hold_tok _ _ _ Hx) M) as O.
    destruct (fm_others (fun x => one k (running x)) (gs s) g x x E) as (_ & F1); [intros; eapply one_run, O; eauto|].
    destruct (fm_others (fun x => one k (delivering x)) (gs s) g x x E) as (_ & F2); [intros; eapply one_run, O; eauto|].
    rewrite F1, F2, Rx. cbn. unfold keyis. rewrite Kj, Nat.eqb_refl. split; auto. split; [destruct x; cbn in *; congruence|].
    unfold queued, wat. apply (mlookup_In _ _ _ (i_nd s A)) in M as ->. destruct (i_head s C _ _ _ _ E Rx) as (o & -> & Hh).
    unfold ItemQueue.Proofs.contents. rewrite Hh. cbn. eauto. }
  rewrite (i_fifo s C k), (i_start s C k), (i_deliv s C k). destruct Run as [Rn|(g & w & j & Q)].
  - rewrite Rn. split; [rewrite app_nil_r; eauto|]. eexists. rewrite <- app_assoc. split; [reflexivity|]. rewrite app_nil_r.
    destruct (fm (fun x => one k (delivering x)) (gs s)) as [|j1 l] eqn:F; [cbn; lia|].
    assert (Qd : exists g x w j, gs s !! g = Some x /\ delivering x = Some (w, j) /\ jkey j = k).
    { clear -F. revert F. generalize (gs s) as L. intros L. revert j1 l. induction L as [|x L IH]; intros j1 l F; [discriminate|]. unfold fm in *. cbn in F.
      destruct (one k (delivering x)) eqn:E; [destruct (IH j1 l F) as (g & y & w & j & H1 & H2); exists (S g), y, w, j; auto|]. exists 0, x. destruct x; cbn in E; try discriminate.
      exists w, j0. unfold keyis in E. destruct (Nat.eqb_spec (jkey j0) k); [|discriminate]. auto. }
    destruct Qd as (g & x & w & j & H1 & H2 & H3). assert (Hx : hold x = Some (w, j)) by (destruct x; cbn in *; congruence).
    pose proof (i_hold s C _ _ _ _ H1 Hx) as M. rewrite H3 in M. pose proof (others s g x w k I H1 (hold_tok _ _ _ Hx) M) as O.
    destruct (fm_others (fun x => one k (delivering x)) (gs s) g x x H1) as (_ & F2); [intros; eapply one_run, O; eauto|]. rewrite F in F2. rewrite F2, H2. cbn. unfold keyis.
    destruct (jkey j =? k); cbn; lia.
  - destruct Q as [(E & Kj)|(E & Kj)]; destruct (Case g _ w j E eq_refl Kj) as (F1 & F2 & r & F3); rewrite F1, F2, F3; rewrite app_nil_r;
      (split; [exists r; rewrite <- app_assoc; auto|exists [j]; cbn; auto]).
Qed.
Lemma caller_order cf n cc acts s c : run (start cf n cc) acts = Some s ->
  (exists r, jof (callis c) (accepted s) = jof (callis c) (inserted s) ++ r) /\ (exists r, jof (callis c) (delivered s) = jof (callis c) (collected s) ++ r).
Proof.
  intros R. pose proof (runD _ _ _ (start_inv cf n cc) (startD cf n cc) R) as D. split.
  - destruct (d_in s D c) as (rest & -> & _). eauto.
  - rewrite (d_out s D c). eauto.
Qed.
