(** States in which jobs are stranded, lost or dead-locked, for good. *)
From stdpp Require Import prelude list.
From Coq Require Import ZArith.
From Verif.ItemQueue Require Model Proofs.
From Verif.Scheduler Require Import Model Base Inv Step Order Live Progress.
Import ItemQueue.Model(size, head, chan).

(** ** what a step does to one worker *)
Lemma step_frame s a s' k w : inv s -> (k, w) ∈ wmap s -> step s a = Some s' ->
  ((forall g, a = GRelease g -> gs s !! g <> Some (GRel w)) -> (k, w) ∈ wmap s') /\
  ((forall g j, a = GAdvance g -> gs s !! g <> Some (GAdv w j)) -> (forall g, a = GRelease g -> gs s !! g <> Some (GRel w)) ->
   (forall c src j, a = AGrab c src -> callers s !! c = Some (CGrab j) -> jkey j <> k) -> (forall c j, a = ABlockSend c -> callers s !! c <> Some (CBlock w j)) -> ws s' !! w = ws s !! w) /\
  ((forall g, a = GPeek g -> gs s !! g <> Some (GProc w)) -> jof (keyis k) (started s') = jof (keyis k) (started s)).
Proof.
  intros I M H. pose proof I as [A B C]. assert (Nm : 0 < nmap w s) by (apply nmap_in; eauto).
  destruct a as [c j|c src|c|c|c|c|c|g|g|g|g|g|g|g|g|g|g|n|n|]; cbn [step] in H;
    try (destruct (callers s !! c) as [[]|] eqn:E; try discriminate); try (destruct (gs s !! g) as [[]|] eqn:E; try discriminate).
  - destruct (jcaller j =? c); [|discriminate]. destruct (closed s); injection H as <-; ss; auto.
  - apply grab_cases in H as [(_ & _ & ->)|(w' & b & s1 & P & H)]; [ss; auto|].
    pose proof (prepared_inv _ _ _ _ _ I P) as (I1 & M1 & _). apply addTo_same in H as (o & added & q & Ew & _ & ->). ss.
    assert (Mp : (k, w) ∈ wmap s1) by (destruct P; ss; auto; right; auto).
    split; auto. split.
    + intros _ _ K _. specialize (K c src j eq_refl E). assert (w' <> w).
      { intros ->. apply K. apply (mlookup_In _ _ _ (i_nd s1 (iA s1 I1))) in M1. eapply (map_inj s1); eauto. apply I1. }
      rewrite list_lookup_insert_ne by auto. destruct P; ss; auto.
      * destruct (i_key s B k w M) as (o1 & Ew1 & _). rewrite lookup_app_l; auto. eapply lookup_lt_Some; eauto.
      * apply list_lookup_insert_ne. auto.
    + intros _. destruct P; ss; auto.
  - destruct (signal s); [|discriminate]. injection H as <-. ss; auto.
  - destruct (ws s !! w0) as [o|] eqn:Ew; [|discriminate]. destruct (ItemQueue.Model.chanSend (wq o) j); [|discriminate]. injection H as <-. ss. split; auto. split; auto.
    intros _ _ _ N. apply list_lookup_insert_ne. intros ->. eapply N; eauto.
  - destruct (closed s); [|discriminate]. injection H as <-. ss; auto.
  - destruct (sendWorker w0 s) as [s1|] eqn:Es; [|discriminate]. injection H as <-. apply send_same in Es as (x & ->). ss; auto.
  - destruct (comps s c); [discriminate|]. injection H as <-. ss; auto.
  - injection H as <-. ss; auto.
  - destruct (chans s !! ch) as [[|w1 l]|]; try discriminate; [destruct (ch =? current s); [discriminate|]|]; injection H as <-; ss; auto.
  - destruct (closed s); [injection H as <-; ss; auto|]. destruct (ws s !! w0) as [o|] eqn:Ew; [|discriminate]. destruct (ItemQueue.Model.peek (wq o)) as [j|] eqn:Ep; injection H as <-; ss; auto.
    split; auto. split; auto. intros N. rewrite jof_app, jof1. assert (w0 <> w) by (intros ->; eapply N; eauto).
    assert (Gt : 0 < gtok w0 (GProc w0)) by (cbn; rewrite is_refl; lia). destruct (g_in_map s g _ w0 I E Gt) as (k' & M'). destruct (i_key s B k' w0 M') as (o1 & Ew1 & _ & K). assert (o1 = o) as -> by congruence.
    assert (jkey j = k') by (apply K, head_contents; auto). unfold keyis. destruct (Nat.eqb_spec (jkey j) k); [|apply app_nil_r]. exfalso. subst. eapply H, map_fun; eauto.
  - injection H as <-. ss; auto.
  - destruct (ws s !! w0) as [o|] eqn:Ew; [|discriminate]. injection H as <-. ss. split; auto. split; auto. intros N _ _ _. apply list_lookup_insert_ne. intros ->. eapply N; eauto.
  - destruct (_ <? _); [|discriminate]. injection H as <-. ss; auto.
  - destruct (ws s !! w0) as [o|] eqn:Ew; [|discriminate]. destruct (ItemQueue.Model.done (wq o)); injection H as <-; ss; auto.
    split; [|split; auto].
    + intros N. apply mdelete_In. split; auto. assert (w0 <> w) by (intros ->; eapply N; eauto). intros ->. assert (Gt : 0 < gtok w0 (GRel w0)) by (cbn; rewrite is_refl; lia).
      destruct (g_in_map s g _ w0 I E Gt) as (k' & M'). destruct (i_key s B k' w0 M') as (o1 & Ew1 & K & _). assert (o1 = o) as -> by congruence. rewrite K in M. eapply H, map_fun; eauto.
    + intros _ N _ _. apply list_lookup_insert_ne. intros ->. eapply N; eauto.
  - injection H as <-. destruct (closed s); ss; auto.
  - destruct (sendWorker w0 s) as [s1|] eqn:Es; [|discriminate]. injection H as <-. apply send_same in Es as (x & ->). ss; auto.
  - destruct (closed s); [|discriminate]. injection H as <-. ss; auto.
  - injection H as <-. unfold setMax. destruct (maxk s <? n); [destruct (chans s !! current s)|]; ss; auto.
  - injection H as <-. ss; auto.
  - injection H as <-. ss; auto.
Qed.
(** who is where after a step *)
Lemma step_gs s a s' g' y : step s a = Some s' -> gs s' !! g' = Some y ->
  gs s !! g' = Some y \/ exists x, gs s !! g' = Some x /\
    match a, x, y with
    | GRead _, GLoop, GSel i => i = current s
    | GTake _, GSel i, GLoop => True
    | GTake _, GSel i, GProc w => exists ch, chans s !! i = Some (w :: ch)
    | GPeek _, GProc w, GRel w' => w' = w
    | GPeek _, GProc w, GRun w' j => w' = w /\ exists o, ws s !! w = Some o /\ ItemQueue.Model.peek (wq o) = Some j
    | GReturn _, GRun w j, GAdv w' j' => w' = w /\ j' = j
    | GAdvance _, GAdv w j, GDeliver w' j' => w' = w /\ j' = j
    | GComplete _, GDeliver w j, GRel w' => w' = w /\ length (comps s (jcaller j)) < ccap s
    | GRelease _, GRel w, GSig => True
    | GRelease _, GRel w, GEnq w' => w' = w
    | GSignal _, GSig, GLoop => True
    | GEnqueue _, GEnq w, GLoop => True
    | GStop _, GSel i, GExit => True
    | _, _, _ => False
    end.
Proof.
  intros H H'. destruct a as [c j|c src|c|c|c|c|c|g|g|g|g|g|g|g|g|g|g|n|n|]; cbn [step] in H;
    try (destruct (callers s !! c) as [[]|] eqn:E; try discriminate); try (destruct (gs s !! g) as [x|] eqn:E; [|discriminate]; destruct x; try discriminate).
  - destruct (jcaller j =? c); [|discriminate]. destruct (closed s); injection H as <-; ss; auto.
  - apply grab_cases in H as [(_ & _ & ->)|(w' & b & s1 & P & H)]; [ss; auto|].
    apply addTo_same in H as (o & added & q & Ew & _ & ->). ss. pose proof (prepared_same _ _ _ _ _ P) as (_ & _ & _ & _ & _ & _ & _ & _ & E2 & _). rewrite E2 in H'. auto.
  - destruct (signal s); [|discriminate]. injection H as <-. ss; auto.
  - destruct (ws s !! w) as [o|] eqn:Ew; [|discriminate]. destruct (ItemQueue.Model.chanSend (wq o) j); [|discriminate]. injection H as <-. ss; auto.
  - destruct (closed s); [|discriminate]. injection H as <-. ss; auto.
  - destruct (sendWorker w s) as [s1|] eqn:Es; [|discriminate]. injection H as <-. apply send_same in Es as (x & ->). ss; auto.
  - destruct (comps s c); [discriminate|]. injection H as <-. ss; auto.
  - injection H as <-. ss. (apply list_lookup_insert_Some in H' as [(-> & <- & _)|(_ & H')]; [right; eexists; split; [exact E|]; cbn; eauto 10|auto]).
  - destruct (chans s !! ch) as [[|w1 l]|] eqn:Ec; try discriminate; [destruct (ch =? current s); [discriminate|]|]; injection H as <-; ss; (apply list_lookup_insert_Some in H' as [(-> & <- & _)|(_ & H')]; [right; eexists; split; [exact E|]; cbn; eauto 10|auto]).
  - destruct (closed s); [injection H as <-; ss; (apply list_lookup_insert_Some in H' as [(-> & <- & _)|(_ & H')]; [right; eexists; split; [exact E|]; cbn; eauto 10|auto])|].
    destruct (ws s !! w) as [o|] eqn:Ew; [|discriminate]. destruct (ItemQueue.Model.peek (wq o)) as [j|] eqn:Ep; injection H as <-; ss; (apply list_lookup_insert_Some in H' as [(-> & <- & _)|(_ & H')]; [right; eexists; split; [exact E|]; cbn; eauto 10|auto]).
  - injection H as <-. ss. (apply list_lookup_insert_Some in H' as [(-> & <- & _)|(_ & H')]; [right; eexists; split; [exact E|]; cbn; eauto 10|auto]).
  - destruct (ws s !! w) as [o|] eqn:Ew; [|discriminate]. injection H as <-. ss. (apply list_lookup_insert_Some in H' as [(-> & <- & _)|(_ & H')]; [right; eexists; split; [exact E|]; cbn; eauto 10|auto]).
  - destruct (Nat.ltb_spec (length (comps s (jcaller j))) (ccap s)); [|discriminate]. injection H as <-. ss. (apply list_lookup_insert_Some in H' as [(-> & <- & _)|(_ & H')]; [right; eexists; split; [exact E|]; cbn; eauto 10|auto]).
  - destruct (ws s !! w) as [o|] eqn:Ew; [|discriminate]. destruct (ItemQueue.Model.done (wq o)); injection H as <-; ss; (apply list_lookup_insert_Some in H' as [(-> & <- & _)|(_ & H')]; [right; eexists; split; [exact E|]; cbn; eauto 10|auto]).
  - injection H as <-. assert (Q : <[g := GLoop]> (gs s) !! g' = Some y) by (destruct (closed s); exact H'). (apply list_lookup_insert_Some in Q as [(-> & <- & _)|(_ & Q)]; [right; eexists; split; [exact E|]; cbn; eauto 10|auto]).
  - destruct (sendWorker w s) as [s1|] eqn:Es; [|discriminate]. injection H as <-. apply send_same in Es as (x & ->). ss. (apply list_lookup_insert_Some in H' as [(-> & <- & _)|(_ & H')]; [right; eexists; split; [exact E|]; cbn; eauto 10|auto]).
  - destruct (closed s); [|discriminate]. injection H as <-. ss. (apply list_lookup_insert_Some in H' as [(-> & <- & _)|(_ & H')]; [right; eexists; split; [exact E|]; cbn; eauto 10|auto]).
  - injection H as <-. left. unfold setMax in H'. destruct (maxk s <? n); [destruct (chans s !! current s)|]; exact H'.
  - injection H as <-. auto.
  - injection H as <-. auto.
Qed.
Lemma step_pend s a s' c' y : step s a = Some s' -> callers s' !! c' = Some y ->
  exists x, callers s !! c' = Some x /\ (pend y = pend x \/ pend y = [] \/ exists j, a = ASchedule c' j /\ pend y = [j]).
Proof.
  intros H H'. destruct a as [c j|c src|c|c|c|c|c|g|g|g|g|g|g|g|g|g|g|n|n|]; cbn [step] in H;
    try (destruct (callers s !! c) as [x|] eqn:E; [|discriminate]; destruct x; try discriminate); try (destruct (gs s !! g) as [[]|] eqn:E; try discriminate).
  - destruct (jcaller j =? c); [|discriminate]. destruct (closed s); injection H as <-; ss; [eauto|]. apply list_lookup_insert_Some in H' as [(-> & <- & _)|(_ & H')]; eauto 10.
  - apply grab_cases in H as [(_ & _ & ->)|(w' & b & s1 & P & H)]; [ss; apply list_lookup_insert_Some in H' as [(-> & <- & _)|(_ & H')]; eauto 10|].
    apply addTo_same in H as (o & added & q & Ew & _ & ->). ss. pose proof (prepared_same _ _ _ _ _ P) as (E2 & _). rewrite E2 in H'. apply list_lookup_insert_Some in H' as [(-> & <- & _)|(_ & H')]; eauto.
    exists (CGrab j). split; auto. destruct added; [destruct b|]; cbn; auto.
  - destruct (signal s); [|discriminate]. injection H as <-. ss. apply list_lookup_insert_Some in H' as [(-> & <- & _)|(_ & H')]; eauto. exists (CWait j). split; auto. destruct (closed s); auto.
  - destruct (ws s !! w) as [o|] eqn:Ew; [|discriminate]. destruct (ItemQueue.Model.chanSend (wq o) j); [|discriminate]. injection H as <-. ss. apply list_lookup_insert_Some in H' as [(-> & <- & _)|(_ & H')]; eauto 10.
  - destruct (closed s); [|discriminate]. injection H as <-. ss. apply list_lookup_insert_Some in H' as [(-> & <- & _)|(_ & H')]; eauto 10.
  - destruct (sendWorker w s) as [s1|] eqn:Es; [|discriminate]. injection H as <-. apply send_same in Es as (x & ->). ss. apply list_lookup_insert_Some in H' as [(-> & <- & _)|(_ & H')]; eauto 10.
  - destruct (comps s c); [discriminate|]. injection H as <-. ss; eauto.
  - injection H as <-. ss; eauto.
  - destruct (chans s !! ch) as [[|w1 l]|] eqn:Ec; try discriminate; [destruct (ch =? current s); [discriminate|]|]; injection H as <-; ss; eauto.
  - destruct (closed s); [injection H as <-; ss; eauto|].
    destruct (ws s !! w) as [o|] eqn:Ew; [|discriminate]. destruct (ItemQueue.Model.peek (wq o)) as [j|] eqn:Ep; injection H as <-; ss; eauto.
  - injection H as <-. ss; eauto.
  - destruct (ws s !! w) as [o|] eqn:Ew; [|discriminate]. injection H as <-. ss; eauto.
  - destruct (_ <? _); [|discriminate]. injection H as <-. ss; eauto.
  - destruct (ws s !! w) as [o|] eqn:Ew; [|discriminate]. destruct (ItemQueue.Model.done (wq o)); injection H as <-; ss; eauto.
  - injection H as <-. exists y. split; auto. destruct (closed s); exact H'.
  - destruct (sendWorker w s) as [s1|] eqn:Es; [|discriminate]. injection H as <-. apply send_same in Es as (x & ->). ss; eauto.
  - destruct (closed s); [|discriminate]. injection H as <-. ss; eauto.
  - injection H as <-. exists y. split; auto. unfold setMax in H'. destruct (maxk s <? n); [destruct (chans s !! current s)|]; exact H'.
  - injection H as <-. eauto.
  - injection H as <-. eauto.
Qed.

(** ** C30: the item is in the channel of the queue, but not at its head *)
Record stranded (k w : nat) (j : job) (s : st) : Prop := {
  s_map : (k, w) ∈ wmap s;
  s_ws : exists o, ws s !! w = Some o /\ head (wq o) = None /\ chan (wq o) = [j];
  s_hold : forall g x j', gs s !! g = Some x -> hold x <> Some (w, j');
  s_call : forall c x j', callers s !! c = Some x -> j' ∈ pend x -> jkey j' <> k }.
Definition other_key (k : nat) (a : action) : Prop := match a with ASchedule _ j => jkey j <> k | _ => True end.
Lemma step_stranded k w j s a s' : inv s -> stranded k w j s -> other_key k a -> step s a = Some s' -> stranded k w j s' /\ jof (keyis k) (started s') = jof (keyis k) (started s).
Proof.
  intros I [M (o & Ew & Hh & Hc) Hd Cl] O H. destruct (step_frame s a s' k w I M H) as (F1 & F2 & F3).
  assert (Sz : ItemQueue.Model.done (wq o) = false).
  { pose proof (i_size s (iB s I) w o Ew) as Q. unfold ItemQueue.Proofs.contents in Q. rewrite Hh, Hc in Q. cbn [length app] in Q. unfold ItemQueue.Model.done. apply Z.leb_gt. lia. }
  assert (G : forall g x j', gs s' !! g = Some x -> hold x <> Some (w, j')).
  { intros g y j' Hg Hy. destruct (step_gs s a s' g y H Hg) as [Q|(x & Q & X)]; [eapply Hd; eauto|].
    destruct a, x, y; try (exfalso; exact X); try discriminate; cbn in Hy; injection Hy as -> ->.
    - destruct X as (-> & o1 & Q1 & Q2). rewrite Ew in Q1. injection Q1 as <-. unfold ItemQueue.Model.peek in Q2. congruence.
    - destruct X as (-> & ->). eapply Hd; eauto; reflexivity.
    - destruct X as (-> & ->). eapply Hd; eauto; reflexivity. }
  assert (Cl' : forall c x j', callers s' !! c = Some x -> j' ∈ pend x -> jkey j' <> k).
  { intros c y j' Hy Hj. destruct (step_pend s a s' c y H Hy) as (x & Hx & [E|[E|(j1 & E1 & E)]]); rewrite E in Hj; [eapply Cl; eauto|inversion Hj|].
    apply elem_of_list_singleton in Hj as ->. subst a. exact O. }
  assert (R : (exists g, a = GRelease g /\ gs s !! g = Some (GRel w)) \/ forall g, a = GRelease g -> gs s !! g <> Some (GRel w)).
  { destruct a; try (right; congruence). destruct (gs s !! g) as [[]|] eqn:E; try (right; intros g0 [= <-]; congruence). destruct (decide (w0 = w)) as [->|N]; [left; eauto|right; intros g0 [= <-]; congruence]. }
  assert (P : jof (keyis k) (started s') = jof (keyis k) (started s)).
  { assert (P : (exists g, a = GPeek g /\ gs s !! g = Some (GProc w)) \/ forall g, a = GPeek g -> gs s !! g <> Some (GProc w)).
    { destruct a; try (right; congruence). destruct (gs s !! g) as [[]|] eqn:E; try (right; intros g0 [= <-]; congruence). destruct (decide (w0 = w)) as [->|N]; [left; eauto|right; intros g0 [= <-]; congruence]. }
    destruct P as [(g & -> & E)|P]; [|auto]. cbn [step] in H. rewrite E, Ew in H. destruct (closed s); [injection H as <-; reflexivity|]. unfold ItemQueue.Model.peek in H. rewrite Hh in H. injection H as <-. reflexivity. }
  split; auto. destruct R as [(g & -> & E)|R].
  - cbn [step] in H. rewrite E, Ew, Sz in H. injection H as <-. split; ss; auto. eauto.
  - split; auto. exists o. rewrite F2; auto.
    + intros g j' -> E. eapply Hd; eauto; reflexivity.
    + intros c src j' -> E. eapply Cl; eauto. left.
    + intros c j' -> E. eapply Cl; eauto; [left|]. symmetry. eapply map_inj; [apply I|exact M|]. eapply i_blk; eauto. apply I.
Qed.
Lemma run_stranded k w j more : forall s s', inv s -> stranded k w j s -> Forall (other_key k) more -> run s more = Some s' ->
  stranded k w j s' /\ jof (keyis k) (started s') = jof (keyis k) (started s).
Proof.
  induction more as [|a more IH]; intros s s' I St F H; cbn in H; [injection H as <-; auto|]. inversion F; subst. destruct (step s a) as [s1|] eqn:E; [|discriminate].
  destruct (step_stranded k w j s a s1 I St ltac:(auto) E) as (S1 & E1). destruct (IH s1 s' ltac:(eauto using step_inv) S1 ltac:(auto) H) as (S2 & E2). split; auto. congruence.
Qed.

(** ** C31: the worker sits in a channel nobody reads *)
Record lost (k w : nat) (s : st) : Prop := {
  o_map : (k, w) ∈ wmap s;
  o_ch : exists i ch, chans s !! i = Some ch /\ w ∈ ch /\ i < current s /\ forall g, gs s !! g <> Some (GSel i) }.
Lemma step_lost k w s a s' : inv s -> lost k w s -> step s a = Some s' -> lost k w s' /\ jof (keyis k) (started s') = jof (keyis k) (started s).
Proof.
  intros I [M (i & ch & Ei & Wi & Li & Ns)] H. destruct (step_frame s a s' k w I M H) as (F1 & _ & F3).
  assert (T : forall g x, gs s !! g = Some x -> gtok w x = 0).
  { intros g x E. pose proof (i_tok s (iA s I) w) as Q. pose proof (i_one s (iA s I) w). unfold tok in Q. pose proof (lsum_elem (gtok w) _ _ _ E). pose proof (lsum_elem (cnt w) _ _ _ Ei) as Q1.
    apply cnt_pos in Wi. lia. }
  assert (Ch : exists i ch, chans s' !! i = Some ch /\ w ∈ ch /\ i < current s' /\ forall g, gs s' !! g <> Some (GSel i)).
  { assert (Gs : forall g, gs s' !! g <> Some (GSel i)).
    { intros g Hg. destruct (step_gs s a s' g _ H Hg) as [Q|(x & Q & X)]; [eapply Ns; eauto|]. destruct a, x; try exact X. lia. }
    enough (chans s' !! i = Some ch /\ i < current s') as (E1 & E2) by eauto 10. unfold current in *.
    destruct a as [c j|c src|c|c|c|c|c|g|g|g|g|g|g|g|g|g|g|n|n|]; cbn [step] in H;
      try (destruct (callers s !! c) as [x|] eqn:E; [|discriminate]; destruct x; try discriminate); try (destruct (gs s !! g) as [[]|] eqn:E; try discriminate).
    - destruct (jcaller j =? c); [|discriminate]. destruct (closed s); injection H as <-; ss; auto.
    - apply grab_cases in H as [(_ & _ & ->)|(w' & b & s1 & P & H)]; [ss; auto|].
      apply addTo_same in H as (o & added & q & Ew & _ & ->). ss. pose proof (prepared_same _ _ _ _ _ P) as (_ & _ & _ & _ & _ & _ & _ & _ & _ & E2 & _). rewrite E2. auto.
    - destruct (signal s); [|discriminate]. injection H as <-. ss; auto.
    - destruct (ws s !! w0) as [o|] eqn:Ew; [|discriminate]. destruct (ItemQueue.Model.chanSend (wq o) j); [|discriminate]. injection H as <-. ss; auto.
    - destruct (closed s); [|discriminate]. injection H as <-. ss; auto.
    - destruct (sendWorker w0 s) as [s1|] eqn:Es; [|discriminate]. injection H as <-. apply send_tok in Es as (c1 & _ & -> & _). ss. rewrite len_insert. rewrite list_lookup_insert_ne by (unfold current; lia). auto.
    - destruct (comps s c); [discriminate|]. injection H as <-. ss; auto.
    - injection H as <-. ss; auto.
    - destruct (chans s !! ch0) as [[|w1 l]|] eqn:Ec; try discriminate; [destruct (ch0 =? pred (length (chans s))); [unfold current in H; destruct (ch0 =? _); [discriminate|]|unfold current in H; destruct (ch0 =? _); [discriminate|]]|]; injection H as <-; ss; auto.
      rewrite len_insert. rewrite list_lookup_insert_ne; auto. intros ->. eapply Ns; eauto.
    - destruct (closed s); [injection H as <-; ss; eauto|].
      destruct (ws s !! w0) as [o|] eqn:Ew; [|discriminate]. destruct (ItemQueue.Model.peek (wq o)) as [j|] eqn:Ep; injection H as <-; ss; eauto.
    - injection H as <-. ss; eauto.
    - destruct (ws s !! w0) as [o|] eqn:Ew; [|discriminate]. injection H as <-. ss; eauto.
    - destruct (_ <? _); [|discriminate]. injection H as <-. ss; eauto.
    - destruct (ws s !! w0) as [o|] eqn:Ew; [|discriminate]. destruct (ItemQueue.Model.done (wq o)); injection H as <-; ss; eauto.
    - injection H as <-. destruct (closed s); ss; auto.
    - destruct (sendWorker w0 s) as [s1|] eqn:Es; [|discriminate]. injection H as <-. apply send_tok in Es as (c1 & _ & -> & _). ss. rewrite len_insert. rewrite list_lookup_insert_ne by (unfold current; lia). auto.
    - destruct (closed s); [|discriminate]. injection H as <-. ss; eauto.
    - injection H as <-. unfold setMax. destruct (maxk s <? n); [|ss; auto]. destruct (chans s !! current s) as [c1|] eqn:Ec; ss; auto. rewrite app_length, len_insert. cbn [length]. split; [|lia].
      rewrite lookup_app_l by (rewrite len_insert; lia). rewrite list_lookup_insert_ne by (unfold current; lia). auto.
    - injection H as <-. eauto.
    - injection H as <-. eauto. }
  split; [split; auto|].
  - apply F1. intros g _ E. apply T in E. cbn in E. rewrite is_refl in E. lia.
  - apply F3. intros g _ E. apply T in E. cbn in E. rewrite is_refl in E. lia.
Qed.
Lemma run_lost k w more : forall s s', inv s -> lost k w s -> run s more = Some s' -> jof (keyis k) (started s') = jof (keyis k) (started s).
Proof.
  induction more as [|a more IH]; intros s s' I L H; cbn in H; [congruence|]. destruct (step s a) as [s1|] eqn:E; [|discriminate].
  destruct (step_lost k w s a s1 I L E) as (L1 & E1). rewrite <- E1. apply IH; eauto using step_inv.
Qed.

(** ** C32: after the end of the run status nothing is started *)
Lemma step_closed s a s' : closed s = true -> step s a = Some s' -> closed s' = true /\ started s' = started s.
Proof.
  intros C H. destruct a as [c j|c src|c|c|c|c|c|g|g|g|g|g|g|g|g|g|g|n|n|]; cbn [step] in H; rewrite ?C in H;
    try (destruct (callers s !! c) as [x|] eqn:E; [|discriminate]; destruct x; try discriminate); try (destruct (gs s !! g) as [[]|] eqn:E; try discriminate).
  - destruct (jcaller j =? c); [|discriminate]. injection H as <-; ss; auto.
  - apply grab_cases in H as [(_ & _ & ->)|(w' & b & s1 & P & H)]; [ss; auto|].
    apply addTo_same in H as (o & added & q & Ew & _ & ->). ss. destruct P; ss; auto.
  - destruct (signal s); [|discriminate]. injection H as <-. ss; auto.
  - destruct (ws s !! w) as [o|] eqn:Ew; [|discriminate]. destruct (ItemQueue.Model.chanSend (wq o) j); [|discriminate]. injection H as <-. ss; auto.
  - injection H as <-. ss; auto.
  - destruct (sendWorker w s) as [s1|] eqn:Es; [|discriminate]. injection H as <-. apply send_same in Es as (x & ->). ss; auto.
  - destruct (comps s c); [discriminate|]. injection H as <-. ss; auto.
  - injection H as <-. ss; auto.
  - destruct (chans s !! ch) as [[|w1 l]|] eqn:Ec; try discriminate; [destruct (ch =? current s); [discriminate|]|]; injection H as <-; ss; auto.
  - injection H as <-; ss; eauto.
  - injection H as <-. ss; eauto.
  - destruct (ws s !! w) as [o|] eqn:Ew; [|discriminate]. injection H as <-. ss; eauto.
  - destruct (_ <? _); [|discriminate]. injection H as <-. ss; eauto.
  - destruct (ws s !! w) as [o|] eqn:Ew; [|discriminate]. destruct (ItemQueue.Model.done (wq o)); injection H as <-; ss; eauto.
  - injection H as <-. ss; auto.
  - destruct (sendWorker w s) as [s1|] eqn:Es; [|discriminate]. injection H as <-. apply send_same in Es as (x & ->). ss; auto.
  - injection H as <-. ss; eauto.
  - injection H as <-. unfold setMax. destruct (maxk s <? n); [destruct (chans s !! current s)|]; ss; auto.
  - injection H as <-. eauto.
  - injection H as <-. eauto.
Qed.
Lemma run_closed more : forall s s', closed s = true -> run s more = Some s' -> started s' = started s.
Proof.
  induction more as [|a more IH]; intros s s' C H; cbn in H; [congruence|]. destruct (step s a) as [s1|] eqn:E; [|discriminate].
  destruct (step_closed s a s1 C E) as (C1 & E1). rewrite <- E1. eauto.
Qed.
Lemma step_completed s a s' : (closed s = false -> completed s = []) -> step s a = Some s' -> closed s' = false -> completed s' = [].
Proof.
  intros C H. destruct a as [c j|c src|c|c|c|c|c|g|g|g|g|g|g|g|g|g|g|n|n|]; cbn [step] in H;
    try (destruct (callers s !! c) as [x|] eqn:E; [|discriminate]; destruct x; try discriminate); try (destruct (gs s !! g) as [[]|] eqn:E; try discriminate).
  - destruct (jcaller j =? c); [|discriminate]. destruct (closed s) eqn:Cs; injection H as <-; ss; auto; congruence.
  - apply grab_cases in H as [(_ & _ & ->)|(w' & b & s1 & P & H)]; [ss; auto|].
    apply addTo_same in H as (o & added & q & Ew & _ & ->). ss. destruct P; ss; auto.
  - destruct (signal s); [|discriminate]. injection H as <-. ss; auto.
  - destruct (ws s !! w) as [o|] eqn:Ew; [|discriminate]. destruct (ItemQueue.Model.chanSend (wq o) j); [|discriminate]. injection H as <-. ss; auto.
  - destruct (closed s) eqn:Cs; [|discriminate]. injection H as <-. ss; congruence.
  - destruct (sendWorker w s) as [s1|] eqn:Es; [|discriminate]. injection H as <-. apply send_same in Es as (x & ->). ss; auto.
  - destruct (comps s c); [discriminate|]. injection H as <-. ss; auto.
  - injection H as <-. ss; auto.
  - destruct (chans s !! ch) as [[|w1 l]|] eqn:Ec; try discriminate; [destruct (ch =? current s); [discriminate|]|]; injection H as <-; ss; auto.
  - destruct (closed s) eqn:Cs; [injection H as <-; ss; congruence|].
    destruct (ws s !! w) as [o|] eqn:Ew; [|discriminate]. destruct (ItemQueue.Model.peek (wq o)) as [j|] eqn:Ep; injection H as <-; ss; eauto.
  - injection H as <-. ss; eauto.
  - destruct (ws s !! w) as [o|] eqn:Ew; [|discriminate]. injection H as <-. ss; eauto.
  - destruct (_ <? _); [|discriminate]. injection H as <-. ss; eauto.
  - destruct (ws s !! w) as [o|] eqn:Ew; [|discriminate]. destruct (ItemQueue.Model.done (wq o)); injection H as <-; ss; eauto.
  - injection H as <-. destruct (closed s) eqn:Cs; ss; auto; congruence.
  - destruct (sendWorker w s) as [s1|] eqn:Es; [|discriminate]. injection H as <-. apply send_same in Es as (x & ->). ss; auto.
  - destruct (closed s) eqn:Cs; [|discriminate]. injection H as <-. ss; congruence.
  - injection H as <-. unfold setMax. destruct (maxk s <? n); [destruct (chans s !! current s)|]; ss; auto.
  - injection H as <-. eauto.
  - injection H as <-. ss. discriminate.
Qed.
Lemma run_completed acts : forall s s', (closed s = false -> completed s = []) -> run s acts = Some s' -> closed s' = false -> completed s' = [].
Proof.
  induction acts as [|a acts IH]; intros s s' C H; cbn in H; [injection H as <-; auto|]. destruct (step s a) as [s1|] eqn:E; [|discriminate].
  eapply (IH s1); eauto using step_completed.
Qed.

(** ** C33: the caller waits for room in the queue of a worker whose goroutine waits for the caller to collect completions *)
Record dead (c w : nat) (s : st) : Prop := {
  e_open : closed s = false;
  e_call : exists j, callers s !! c = Some (CBlock w j);
  e_full : exists o h, ws s !! w = Some o /\ head (wq o) = Some h /\ qcap (wq o) <= length (chan (wq o));
  e_g : exists g j, gs s !! g = Some (GDeliver w j) /\ jcaller j = c;
  e_comp : ccap s <= length (comps s c) }.
Lemma step_dead c w s a s' : inv s -> dead c w s -> a <> AClose -> step s a = Some s' -> dead c w s'.
Proof.
  intros I [Op (j & Ec) (o & h & Ew & Hh & Fu) (g & jd & Eg & Jc) Cm] Na H.
  pose proof (i_blk s (iB s I) _ _ _ Ec) as M. destruct (step_frame s a s' _ w I M H) as (_ & F2 & _).
  assert (U : forall g' x, gs s !! g' = Some x -> 0 < gtok w x -> g' = g).
  { intros g' x E T. symmetry. eapply (tok_unique s); eauto; [apply I|]. cbn. rewrite is_refl. lia. }
  assert (Nb : forall c' j', a = ABlockSend c' -> callers s !! c' <> Some (CBlock w j')).
  { intros c' j' -> E. cbn [step] in H. rewrite E, Ew in H. unfold ItemQueue.Model.chanSend in H. destruct (Nat.ltb_spec (length (chan (wq o))) (qcap (wq o))); [lia|discriminate]. }
  assert (Ws : exists o h, ws s' !! w = Some o /\ head (wq o) = Some h /\ qcap (wq o) <= length (chan (wq o))).
  { assert (G : (exists c' src j', a = AGrab c' src /\ callers s !! c' = Some (CGrab j') /\ jkey j' = jkey j) \/ forall c' src j', a = AGrab c' src -> callers s !! c' = Some (CGrab j') -> jkey j' <> jkey j).
    { destruct a as [| c' src | | | | | | | | | | | | | | | | | | ]; try (right; congruence). destruct (callers s !! c') as [[|j'| | |]|] eqn:E; try (right; intros ? ? ? [= <- <-]; congruence).
      destruct (decide (jkey j' = jkey j)); [left; eauto 10|right; intros ? ? ? [= <- <-] E'; rewrite E in E'; injection E' as <-; auto]. }
    destruct G as [(c' & src & j' & -> & E & K)|G].
    - cbn [step] in H. rewrite E in H. unfold grab in H. rewrite K in H. apply (mlookup_In _ _ _ (i_nd s (iA s I))) in M as M'. rewrite M' in H.
      apply addTo_same in H as (o1 & added & q & Ew1 & Et & ->). assert (o1 = o) as -> by congruence. ss.
      unfold ItemQueue.Model.tryEnqueue in Et. cbn [head] in Et. rewrite Hh in Et. unfold ItemQueue.Model.chanSend in Et. cbn [chan ItemQueue.Model.chcap] in Et.
      destruct (Nat.ltb_spec (length (chan (wq o))) (qcap (wq o))); [lia|]. injection Et as <- <-. eexists _, h. split; [apply list_lookup_insert; eapply lookup_lt_Some; eauto|]. cbn. auto.
    - exists o, h. rewrite F2; auto.
      + intros g' j' -> E. assert (g' = g) as -> by (eapply U; eauto; cbn; rewrite is_refl; lia). congruence.
      + intros g' -> E. assert (g' = g) as -> by (eapply U; eauto; cbn; rewrite is_refl; lia). congruence. }
  assert (Cs : exists j, callers s' !! c = Some (CBlock w j) /\ comps s' c = comps s c /\ ccap s' = ccap s /\ closed s' = false /\ gs s' !! g = Some (GDeliver w jd)).
  { clear F2. destruct a as [c0 j0|c0 src|c0|c0|c0|c0|c0|g0|g0|g0|g0|g0|g0|g0|g0|g0|g0|n|n|]; cbn [step] in H; rewrite ?Op in H;
    try (destruct (callers s !! c0) as [x|] eqn:E; [|discriminate]; destruct x; try discriminate; destruct (decide (c0 = c)) as [->|Nc]; [rewrite Ec in E; try discriminate|]);
    try (destruct (gs s !! g0) as [x|] eqn:E; [|discriminate]; destruct x; try discriminate; destruct (decide (g0 = g)) as [->|Nx]; [rewrite Eg in E; try discriminate|]).
  - destruct (jcaller j0 =? c0); [|discriminate]. injection H as <-; ss. rewrite list_lookup_insert_ne by auto. eauto 10.
  - apply grab_cases in H as [(_ & _ & ->)|(w' & b & s1 & P & H)]; [ss; rewrite list_lookup_insert_ne by auto; eauto 10|].
    apply addTo_same in H as (o1 & added & q & Ew1 & _ & ->). ss. rewrite list_lookup_insert_ne by auto. pose proof (prepared_same _ _ _ _ _ P) as (E1 & _ & _ & E2 & _ & _ & E3 & _ & E4 & _ & _ & _ & _ & _ & E5).
    rewrite E1, E2, E3, E4, E5. eauto 10.
  - destruct (signal s); [|discriminate]. injection H as <-. ss. rewrite list_lookup_insert_ne by auto. eauto 10.
  - exfalso. injection E as <- <-. eapply Nb; eauto.
  - destruct (ws s !! w0) as [o1|] eqn:Ew1; [|discriminate]. destruct (ItemQueue.Model.chanSend (wq o1) j0); [|discriminate]. injection H as <-. ss. rewrite list_lookup_insert_ne by auto. eauto 10.
  - destruct (callers s !! c0) as [[]|]; discriminate.
  - destruct (sendWorker w0 s) as [s1|] eqn:Es; [|discriminate]. injection H as <-. apply send_same in Es as (x & ->). ss. rewrite list_lookup_insert_ne by auto. eauto 10.
  - destruct (comps s c0) eqn:Q; [discriminate|]. injection H as <-. ss. destruct (Nat.eqb_spec c c0); [congruence|]. eauto 10.
  - injection H as <-. ss. rewrite list_lookup_insert_ne by auto. eauto 10.
  - destruct (chans s !! ch) as [[|w1 l]|] eqn:Ech; try discriminate; [destruct (ch =? current s); [discriminate|]|]; injection H as <-; ss; rewrite list_lookup_insert_ne by auto; eauto 10.
  - destruct (ws s !! w0) as [o1|] eqn:Ew1; [|discriminate]. destruct (ItemQueue.Model.peek (wq o1)) as [j1|] eqn:Ep; injection H as <-; ss; rewrite list_lookup_insert_ne by auto; eauto 10.
  - injection H as <-. ss. rewrite list_lookup_insert_ne by auto. eauto 10.
  - destruct (ws s !! w0) as [o1|] eqn:Ew1; [|discriminate]. injection H as <-. ss. rewrite list_lookup_insert_ne by auto. eauto 10.
  - exfalso. injection E as <- <-. rewrite Jc in H. destruct (Nat.ltb_spec (length (comps s c)) (ccap s)); [lia|discriminate].
  - destruct (Nat.ltb_spec (length (comps s (jcaller j0))) (ccap s)); [|discriminate]. injection H as <-. ss. rewrite list_lookup_insert_ne by auto. destruct (Nat.eqb_spec c (jcaller j0)) as [e|]; [exfalso; rewrite <- e in *; lia|]. eauto 10.
  - destruct (ws s !! w0) as [o1|] eqn:Ew1; [|discriminate]. destruct (ItemQueue.Model.done (wq o1)); injection H as <-; ss; rewrite list_lookup_insert_ne by auto; eauto 10.
  - injection H as <-. ss. rewrite list_lookup_insert_ne by auto. eauto 10.
  - destruct (sendWorker w0 s) as [s1|] eqn:Es; [|discriminate]. injection H as <-. apply send_same in Es as (x & ->). ss. rewrite list_lookup_insert_ne by auto. eauto 10.
  - destruct (gs s !! g0) as [[]|]; discriminate.
  - injection H as <-. exists j. unfold setMax. destruct (maxk s <? n); [destruct (chans s !! current s)|]; ss; auto.
  - injection H as <-. eauto 10.
  - congruence. }
  destruct Cs as (j' & C1 & C2 & C3 & C4 & C5). split; eauto. rewrite C2, C3. auto.
Qed.
Lemma run_dead c w more : forall s s', inv s -> dead c w s -> Forall (fun a => a <> AClose) more -> run s more = Some s' -> dead c w s'.
Proof.
  induction more as [|a more IH]; intros s s' I D F H; cbn in H; [congruence|]. inversion F; subst. destruct (step s a) as [s1|] eqn:E; [|discriminate].
  apply (IH s1); eauto using step_inv, step_dead.
Qed.
