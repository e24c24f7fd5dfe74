(** C49, C50, C76, C77 for later bootstraps. *)
From stdpp Require Import prelude list.
From Verif.StateStore Require Import Model Inv Step Step2 Step3 Proofs Live Again.
Open Scope nat_scope.

(** the group callbacks of the execution *)
Definition lifecycle (a : action) : bool := match a with APrepare | AForget | AAssign | ARevoke => true | _ => false end.
(** the partition is assigned at most once, perhaps after a preparation, and revoked at most once after that *)
Definition oneRound (acts : list action) : Prop :=
  List.filter lifecycle acts `prefix_of` [APrepare; AAssign; ARevoke] \/ List.filter lifecycle acts `prefix_of` [AAssign; ARevoke].

Definition book (s : st) : nat * nat * option nat * bool * bool := (preps s, stores s, store s, prepping s, worker s).
Definition bookStep (b : nat * nat * option nat * bool * bool) (a : action) : nat * nat * option nat * bool * bool :=
  let '(p, n, x, q, w) := b in
  match a with
  | APrepare => if q then b else match x with Some _ => (S p, n, x, true, w) | None => (S p, S n, Some n, true, w) end
  | AForget => (p, n, x, false, w)
  | AAssign => let '(n, x) := match x with Some _ => (n, x) | None => (S n, Some n) end in
      if q then (p, n, x, false, true) else if w then (p, n, x, q, w) else (S p, n, x, q, true)
  | ARevoke => (p, n, None, q, false)
  | _ => b
  end.
Lemma cancel_book s : book (cancel s) = book s.
Proof. unfold book, cancel, pause, closeCh; cbn. destruct (buf s) as [c|]; cbn; [destruct (chans s !! c)|]; reflexivity. Qed.
Lemma step_book s a s' : step s a = Some s' -> book s' = bookStep (book s) a.
Proof.
  intros E. destruct a as [k| | | | | |i|i|i|i|k| | | |j|j]; cbn [step] in E; cbn [bookStep].
  - injection E as <-. reflexivity.
  - injection E as <-. reflexivity.
  - cbn. destruct (prepping s) eqn:Q; [injection E as <-; unfold book; rewrite Q; reflexivity|]. unfold assignStore in E. destruct (store s) eqn:X; injection E as <-; unfold book; cbn; rewrite ?X; reflexivity.
  - injection E as <-. destruct (prepping s) eqn:Q; cbn; [|unfold book; rewrite Q; reflexivity]. pose proof (cancel_book s) as C. unfold book in *. cbn. injection C as C1 C2 C3 C4 C5. rewrite C1, C2, C3, C5. reflexivity.
  - cbn. unfold assignStore in E. destruct (store s) eqn:X; injection E as <-; cbn; destruct (prepping s) eqn:Q; try destruct (worker s) eqn:W; unfold book; cbn; rewrite ?X, ?Q, ?W; reflexivity.
  - injection E as <-. reflexivity.
  - destruct (syncs s !! i) as [[q x [|m|m|m]]|]; try discriminate. injection E as <-. reflexivity.
  - destruct (syncs s !! i) as [[q x [|m|m|m]]|]; try discriminate. injection E as <-. reflexivity.
  - destruct (syncs s !! i) as [[q x [|m|m|m]]|]; try discriminate. injection E as <-. reflexivity.
  - destruct (syncs s !! i) as [[q x [|m|m|m]]|]; try discriminate. destruct (decide _); [|discriminate]. injection E as <-. reflexivity.
  - destruct (con s); try discriminate. destruct (fpaused s); [discriminate|]. destruct (decide _); [|discriminate]. injection E as <-. reflexivity.
  - destruct (con s); try discriminate. injection E as <-. destruct (state s); reflexivity.
  - destruct (con s); try discriminate. injection E as <-. reflexivity.
  - destruct (con s) as [| | |b [c|]|]; try discriminate. destruct (chans s !! c) as [ch|]; [|discriminate]. destruct (c_closed ch); [injection E as <-; reflexivity|]. destruct (_ <? _); [|discriminate]. injection E as <-. reflexivity.
  - destruct (pops s !! j) as [[c x [|r b] [|] dn]|]; try discriminate. destruct (chans s !! c) as [[[|b q] [|]]|]; try discriminate; injection E as <-; reflexivity.
  - destruct (pops s !! j) as [[c x [|r b] [|] dn]|]; try discriminate. assert (N : book (snd (handleRecord x r s)) = book s).
    { destruct r as [k|m]; cbn; [reflexivity|]. unfold isCompletionMarker. destruct (decide (m ∈ waiters s)); cbn; [|reflexivity]. destruct (state s); cbn; [reflexivity|reflexivity|]. exact (cancel_book (set_waiters (filter (fun w => w <> m) (waiters s)) s)). }
    destruct (handleRecord x r s) as [cp s1]. injection E as <-. exact N.
Qed.
Lemma run_book acts : forall s s', run s acts = Some s' -> book s' = fold_left bookStep (List.filter lifecycle acts) (book s).
Proof.
  induction acts as [|a acts IH]; intros s s' H; cbn in H; [injection H as <-; reflexivity|]. destruct (step s a) as [s1|] eqn:E; [|discriminate]. rewrite (IH s1 s' H), (step_book s a s1 E).
  cbn [List.filter]. assert (K : lifecycle a = false -> bookStep (book s) a = book s) by (destruct a; try discriminate; reflexivity). destruct (lifecycle a); [reflexivity|]. rewrite K by reflexivity. reflexivity.
Qed.
Lemma round_bounds s0 acts s : settled s0 -> oneRound acts -> run s0 acts = Some s -> preps s <= S (preps s0) /\ stores s <= S (stores s0).
Proof.
  intros T O R. pose proof (run_book acts s0 s R) as B. unfold book in B. rewrite (t_store _ T), (t_prepping _ T), (t_worker _ T) in B.
  assert (G : exists k, List.filter lifecycle acts = take k [APrepare; AAssign; ARevoke] \/ List.filter lifecycle acts = take k [AAssign; ARevoke]).
  { destruct O as [[z E]|[z E]]; exists (length (List.filter lifecycle acts)); [left|right]; rewrite E, take_app; reflexivity. }
  destruct G as (k & [G|G]); rewrite G in B; clear G.
  - destruct k as [|[|[|[|k]]]]; cbn in B; injection B as B1 B2 B3 B4 B5; lia.
  - destruct k as [|[|[|k]]]; cbn in B; injection B as B1 B2 B3 B4 B5; lia.
Qed.

Lemma split_new o tr m u v : m ∉ released (otr o) -> otr o ++ (shE o <$> tr) = u ++ EvRelease m :: v ->
  exists ut vt, tr = ut ++ EvRelease m :: vt /\ u = otr o ++ (shE o <$> ut) /\ v = shE o <$> vt.
Proof.
  intros N E. apply app_eq_inv in E as [(k & E1 & E2)|(k & E1 & E2)].
  - destruct k as [|e k]; cbn in E2.
    + destruct tr as [|e tr]; [discriminate|]. cbn in E2. injection E2 as Ee Ev. destruct e as [x r|m']; [discriminate|]. injection Ee as ->. exists [], tr. cbn. rewrite app_nil_r in *. auto.
    + injection E2 as <- E2. exfalso. apply N. rewrite E1, released_app. apply elem_of_app. right. left.
  - apply fmap_app_inv in E2 as (ut & rest & E3 & E4 & ->). destruct rest as [|e vt]; [discriminate|]. cbn in E4. injection E4 as E5 E6. destruct e as [x r|m']; [discriminate|]. injection E5 as ->. subst k. exists ut, vt. auto.
Qed.

Lemma new_sync s0 t i y : length (syncs s0) <= i -> syncs (lift (offs s0) t) !! i = Some y -> exists y', syncs t !! (i - length (syncs s0)) = Some y' /\ y = shY (offs s0) y'.
Proof. intros L H. cbn in H. rewrite lookup_app_r in H by exact L. rewrite list_lookup_fmap in H. apply fmap_Some in H as (y' & H1 & H2). eauto. Qed.
Lemma new_mark s0 t m : base s0 -> fromLog s0 -> hi (nextMark s0) t -> m ∈ own t -> m ∉ released (trace s0).
Proof. intros B0 F0 H M Q. apply H in M. apply elem_released, (f_rel _ F0), elem_of_marks, (b_log _ B0) in Q. lia. Qed.
Lemma own_in t i y m : syncs t !! i = Some y -> mark_of (sy_stage y) = Some m -> m ∈ own t.
Proof. intros H G. unfold own. apply elem_of_list_omap. exists y. split; [eapply elem_of_list_lookup_2, H|exact G]. Qed.

Section later.
  Context (s0 : st) (acts : list action) (s : st) (B0 : base s0) (F0 : fromLog s0) (N0 : newest s0) (O0 : oldev s0) (T0 : settled s0) (R : run s0 acts = Some s).

  Lemma later_prefix m x u v i k g : preps s <= S (preps s0) -> stores s <= S (stores s0) -> length (syncs s0) <= i ->
    syncs s !! i = Some (mkSync k x g) -> mark_of g = Some m -> trace s = u ++ EvRelease m :: v ->
    exists pre post, log s = pre ++ Mark m :: post /\ applied x u = changes pre.
  Proof.
    intros P1 P2 L Y G T. destruct (later s0 acts s B0 F0 N0 T0 R) as (acts' & t & _ & R' & -> & H). destruct (new_sync s0 t i _ L Y) as ([k' x' g'] & Yt & E). unfold shY in E; cbn in E. injection E as -> -> ->.
    cbn in P1, P2, T. destruct (split_new (offs s0) (trace t) m u v) as (ut & vt & Et & Eu & _); [apply (new_mark s0 t m B0 F0 H), (own_in t _ _ m Yt G)|exact T|].
    destruct (prefix_applied (fresh s0) acts' t m x' ut vt _ k' g' (conj (fresh_base _ B0) (or_introl (fresh_none _ N0))) (fresh_made s0) R' ltac:(lia) ltac:(lia) Yt G Et) as (pre & post & Q1 & Q2).
    exists pre, post. split; [exact Q1|]. rewrite Eu, applied_app. cbn [otr offs]. rewrite (oldev_applied s0) by (assumption || cbn; lia). cbn [app]. rewrite <- Q2. apply (applied_lift (offs s0)).
  Qed.

  Lemma later_no_more m x u v i g : preps s <= S (preps s0) -> length (syncs s0) <= i -> syncs s !! i = Some (mkSync KWork x g) -> mark_of g = Some m -> trace s = u ++ EvRelease m :: v ->
    (forall i' x' g', length (syncs s0) <= i' -> syncs s !! i' = Some (mkSync KPrep x' g') -> exists mp a b c, mark_of g' = Some mp /\ log s = a ++ Mark mp :: b ++ Mark m :: c) ->
    forall y, applied y v = [].
  Proof.
    intros P1 L Y G T K y. destruct (later s0 acts s B0 F0 N0 T0 R) as (acts' & t & _ & R' & -> & H). destruct (new_sync s0 t i _ L Y) as ([k' x' g'] & Yt & E). unfold shY in E; cbn in E. injection E as <- -> ->.
    cbn in P1, T. destruct (split_new (offs s0) (trace t) m u v) as (ut & vt & Et & _ & ->); [apply (new_mark s0 t m B0 F0 H), (own_in t _ _ m Yt G)|exact T|].
    assert (Q : forall y, applied y vt = []).
    { apply (no_more (fresh s0) acts' t m x' ut vt _ g' (conj (fresh_base _ B0) (or_introl (fresh_none _ N0))) R' ltac:(lia) Yt G Et). intros j x1 g1 Hj.
      apply (K (length (syncs s0) + j) (os (offs s0) + x1) g1); [lia|]. cbn. rewrite lookup_app_r by lia. replace (length (syncs s0) + j - length (syncs s0)) with j by lia. rewrite list_lookup_fmap, Hj. reflexivity. }
    destruct (decide (y < os (offs s0))) as [Ly|Ly]; [apply applied_lift_old, Ly|]. replace y with (os (offs s0) + (y - os (offs s0))) by lia. rewrite applied_lift. apply Q.
  Qed.

  Lemma later_gone : preps s <= S (preps s0) -> gone (con s) -> state s = Paused.
  Proof.
    intros P1 Gn. destruct (later s0 acts s B0 F0 N0 T0 R) as (acts' & t & _ & R' & -> & H). cbn in P1, Gn |- *. apply (gone_ended (fresh s0) acts' t (conj (fresh_base _ B0) (or_introl (fresh_none _ N0))) R'); [lia|].
    destruct (con t) as [| | |b [c|]|]; exact Gn.
  Qed.

  Lemma later_returns i x g m : preps s <= S (preps s0) -> length (syncs s0) <= i -> syncs s !! i = Some (mkSync KWork x g) -> mark_of g = Some m -> Mark m ∈ log s ->
    exists N, forall acts' s', Forall internal acts' -> run s acts' = Some s' ->
    length acts' <= N /\ ((forall a s'', internal a -> step s' a <> Some s'') -> EvRelease m ∈ trace s').
  Proof.
    intros P1 L Y G M. destruct (later s0 acts s B0 F0 N0 T0 R) as (acts0 & t & _ & R' & -> & H). destruct (new_sync s0 t i _ L Y) as ([k' x' g'] & Yt & E). unfold shY in E; cbn in E. injection E as <- -> ->.
    cbn in P1, M. destruct (returns (fresh s0) acts0 t _ x' g' m (fresh_base _ B0) (fresh_none _ N0) R' ltac:(lia) Yt G M) as [N HN].
    assert (St : still (offs s0)) by (split; apply T0). assert (Rl : forall m, m ∈ released (otr (offs s0)) -> m < nextMark s0) by (intros m' Hm; cbn in Hm; apply (b_log _ B0), elem_of_marks, (f_rel _ F0), elem_released, Hm).
    assert (In : forall a, internal (liftA (offs s0) a) <-> internal a) by (intros a; destruct a; reflexivity).
    exists N. intros acts' s' F Rs. destruct (lift_run (offs s0) (nextMark s0) acts' St Rl t s' H Rs) as (at' & t' & -> & Rt & -> & H').
    assert (Ft : Forall internal at') by (apply Forall_forall; intros a Ha; apply In; eapply Forall_forall in F; [exact F|]; apply elem_of_list_In, in_map, elem_of_list_In, Ha).
    destruct (HN at' t' Ft Rt) as [Q1 Q2]. split; [rewrite map_length; exact Q1|]. intros Qu. cbn. apply elem_of_app. right.
    change (EvRelease m) with (shE (offs s0) (EvRelease m)). apply elem_of_list_fmap_1, Q2. intros a s'' Ia Es. apply (Qu (liftA (offs s0) a) (lift (offs s0) s'') (proj2 (In a) Ia)).
    rewrite lift_step, Es; [reflexivity|]. intros m' Hm Hr. apply Rl in Hr. apply H' in Hm. lia.
  Qed.
End later.

Lemma settled_start l n : settled (start l n).
Proof. split; try reflexivity; cbn; discriminate. Qed.
