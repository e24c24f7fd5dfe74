(** Stopping: the waiter counts what is outstanding, and the channels are closed only after all of it is done. *)
From Verif.Worker Require Export Order.

Definition given (s : st) : list ctx := pool s ++ (answers s).*1.
Record Cls (s : st) : Prop := {
  k_ids : forall x y, x ∈ ptok (pp s) ++ acqs (trace s) -> y ∈ ptok (pp s) ++ acqs (trace s) -> c_id x = c_id y -> x = y;
  k_nd : NoDup (given s);
  k_acq : forall e, e ∈ given s -> e ∈ acqs (trace s);
  k_pool : forall e l, pp s = PPool e l -> e ∉ given s;
  k_hand : forall e, e ∈ hands (trace s) -> (e, true) ∈ answers s;
  k_set : forall e, e ∈ settled s -> EvDone e ∈ trace s \/ (e, false) ∈ answers s;
  k_snd : NoDup (settled s);
  k_waits : waits s + length (settled s) = length (prest (pp s)) + nctx s;
  k_stopping : stopping s = true -> pp s = PStopped \/ pp s = PClosed;
  k_wstop : wp s = WStopped -> stopping s = true /\ waits s = 0;
  k_closed : pp s = PClosed -> wp s = WStopped;
  k_rev : pp s = PStop \/ pp s = PStopped \/ pp s = PClosed -> revoked s = true }.

Lemma Cls_start c : Cls (start c).
Proof. split; cbn; try done; try (by intros ? ?%elem_of_nil); try apply NoDup_nil_2; [by intros ? ? ?%elem_of_nil|by intros [?|[?|?]]]. Qed.

Lemma pigeon (l : list nat) n : NoDup l -> (forall x, x ∈ l -> x < n) -> length l <= n.
Proof.
  intros N H. rewrite <- (seq_length n 0). apply submseteq_length, NoDup_submseteq; [done|]. intros x Hx. apply elem_of_seq. specialize (H x Hx). lia.
Qed.
Lemma pigeon_full (l : list nat) n : NoDup l -> (forall x, x ∈ l -> x < n) -> length l = n -> forall x, x < n -> x ∈ l.
Proof.
  intros N H L x Hx. assert (P : l ≡ₚ seq 0 n).
  { apply submseteq_Permutation_length_eq; [by rewrite seq_length, L|apply NoDup_submseteq; [done|]]. intros y Hy. apply elem_of_seq. specialize (H y Hy). lia. }
  rewrite P. apply elem_of_seq. lia.
Qed.
Lemma acqs_ids c s e : Inv c s -> e ∈ acqs (trace s) -> c_id e < nctx s.
Proof. intros I H. apply (ids _ _ I). rewrite (acq _ _ I) in H. apply elem_of_app. by right. Qed.

Lemma done_acq c s e : Inv c s -> Ord c s -> Cls s -> EvDone e ∈ trace s -> (e, true) ∈ answers s /\ e ∈ acqs (trace s).
Proof.
  intros I O K H. apply elem_of_list_split in H as (u & v & Hs). destruct (o_good _ _ O u _ v Hs) as (Hh & _).
  assert (Hh' : e ∈ hands (trace s)) by (rewrite Hs, hands_app; apply elem_of_app; by left).
  split; [by apply k_hand|]. apply (k_acq _ K). unfold given. apply elem_of_app. right. apply elem_of_list_fmap. exists (e, true). split; [done|]. by apply k_hand.
Qed.
Lemma answer_acq s e b : Cls s -> (e, b) ∈ answers s -> e ∈ acqs (trace s).
Proof. intros K H. apply (k_acq _ K). unfold given. apply elem_of_app. right. apply elem_of_list_fmap. by exists (e, b). Qed.
Lemma settled_acq c s e : Inv c s -> Ord c s -> Cls s -> e ∈ settled s -> e ∈ acqs (trace s).
Proof. intros I O K H. destruct (k_set _ K e H) as [Hd|Ha]; [by apply (done_acq c s e)|by eapply answer_acq]. Qed.
Lemma ids_nodup s l : Cls s -> NoDup l -> (forall e, e ∈ l -> e ∈ acqs (trace s)) -> NoDup (c_id <$> l).
Proof.
  intros K N H. induction N as [|x l Hx N IH]; [constructor|]. rewrite fmap_cons. apply NoDup_cons. split.
  - intros (y & Hy & Hyl)%elem_of_list_fmap. apply Hx. assert (x = y) as ->; [|done].
    apply (k_ids _ K); [apply elem_of_app; right; apply H; by left|apply elem_of_app; right; apply H; by right|done].
  - apply IH. intros e He. apply H. by right.
Qed.
Lemma settled_len c s l : Inv c s -> Cls s -> NoDup l -> (forall e, e ∈ l -> e ∈ acqs (trace s)) -> length l <= nctx s.
Proof.
  intros I K N H. rewrite <- (fmap_length c_id l). apply pigeon; [by eapply ids_nodup|].
  intros x (y & -> & Hy)%elem_of_list_fmap. apply (acqs_ids c s); auto.
Qed.
Lemma ans_fun s e b b' : Cls s -> (e, b) ∈ answers s -> (e, b') ∈ answers s -> b = b'.
Proof.
  intros K H H'. pose proof (k_nd _ K) as N. unfold given in N. apply NoDup_app in N as (_ & _ & N). revert H H' N. generalize (answers s) as l.
  induction l as [|[x c] l IH]; [by intros ?%elem_of_nil|]. rewrite fmap_cons. intros H H' (Hx & N)%NoDup_cons. cbn in Hx.
  apply elem_of_cons in H; apply elem_of_cons in H'. destruct H as [H|H], H' as [H'|H']; [congruence| | |by apply IH].
  - injection H as -> ->. destruct Hx. apply elem_of_list_fmap. by exists (x, b').
  - injection H' as -> ->. destruct Hx. apply elem_of_list_fmap. by exists (x, b).
Qed.
(** when the waiter is at zero and no batch is in progress, everything that was given a slot has been settled *)
Lemma all_settled c s e : Inv c s -> Ord c s -> Cls s -> waits s = 0 -> prest (pp s) = [] -> e ∈ acqs (trace s) -> e ∈ settled s.
Proof.
  intros I O K W P He. pose proof (k_waits _ K) as L. rewrite W, P in L. cbn in L.
  assert (Hs : forall x, x ∈ settled s -> x ∈ acqs (trace s)) by (intros x; by apply (settled_acq c)).
  assert (Hin : c_id e ∈ c_id <$> settled s).
  { apply (pigeon_full _ (nctx s)); [by eapply ids_nodup, Hs; [|by apply k_snd]| |by rewrite fmap_length|by eapply acqs_ids].
    intros x (y & -> & Hy)%elem_of_list_fmap. apply (acqs_ids c s); auto. }
  apply elem_of_list_fmap in Hin as (y & Hy & Hys). assert (e = y) as ->; [|done].
  apply (k_ids _ K); [apply elem_of_app; by right|apply elem_of_app; right; auto|done].
Qed.
(** nothing is left with a handler *)
Lemma stopped_async c s : Inv c s -> Ord c s -> Cls s -> wp s = WStopped -> async s = [].
Proof.
  intros I O K W. destruct (async s) as [|e l] eqn:A; [done|exfalso].
  assert (Ha : e ∈ async s) by (rewrite A; by left).
  destruct (k_wstop _ K W) as (Hs & Hw). assert (Hp : prest (pp s) = []) by (by destruct (k_stopping _ K Hs) as [->| ->]).
  pose proof (o_running _ _ O e (or_intror Ha)) as Hh. pose proof (k_hand _ K e Hh) as Hb.
  destruct (held_fresh c s e I (async_held s e Ha)) as (Hac & Hnr).
  pose proof (all_settled c s e I O K Hw Hp Hac) as Hset. destruct (k_set _ K e Hset) as [Hd|Hf].
  - apply Hnr. assert (He : e ∈ ends (trace s)) by (apply elem_ends; by left). rewrite (end_ _ _ I), W in He. exact He.
  - by pose proof (ans_fun s e true false K Hb Hf).
Qed.

Lemma Cls_same s s' : Cls s -> ptok (pp s') = ptok (pp s) -> prest (pp s') = prest (pp s) -> (forall e l, pp s' = PPool e l -> pp s = PPool e l) ->
  pool s' = pool s -> answers s' = answers s -> settled s' = settled s -> waits s' = waits s -> nctx s' = nctx s -> stopping s' = stopping s ->
  (stopping s = true -> pp s' = pp s) -> (wp s' = WStopped -> wp s = WStopped) -> (pp s' = PClosed -> wp s' = WStopped) -> (pp s' = PStop \/ pp s' = PStopped \/ pp s' = PClosed -> revoked s' = true) ->
  (trace s' = trace s \/ exists x, trace s' = trace s ++ [x] /\ acqs [x] = [] /\ forall e, e ∈ hands [x] -> (e, true) ∈ answers s) -> Cls s'.
Proof.
  intros [K1 K2 K3 K4 K5 K6 K7 K8 K9 K10 K11 K12] P1 P2 P3 E1 E2 E3 E4 E5 E6 E7 E8 E9 E10 T.
  assert (Ha : acqs (trace s') = acqs (trace s)) by (destruct T as [->|(x & -> & A & _)]; [done|by rewrite acqs_app, A, app_nil_r]).
  assert (Hh : forall e, e ∈ hands (trace s') -> (e, true) ∈ answers s).
  { intros e. destruct T as [->|(x & -> & _ & B)]; [apply K5|]. rewrite hands_app. intros [?|?]%elem_of_app; auto. }
  assert (Hm : forall y, y ∈ trace s -> y ∈ trace s') by (intros y Hy; destruct T as [->|(x & -> & _)]; [done|apply elem_of_app; by left]).
  split; unfold given; rewrite ?Ha, ?P1, ?P2, ?E1, ?E2, ?E3, ?E4, ?E5, ?E6; auto.
  - intros e l H. apply (K4 e l). auto.
  - intros e He. destruct (K6 e He); auto.
  - intros Hs. rewrite (E7 Hs). auto.
Qed.

Ltac same3 K := eapply (Cls_same _ _ K); fields; try reflexivity; try done; try (by left); try congruence; try (by right; eexists; split; [reflexivity|split; [reflexivity|intros ? ?%elem_of_nil]]);
  try (by intros; apply (k_closed _ K)); try (by intros; apply (k_rev _ K));
  try (match goal with H : pp ?s = _ |- _ => by rewrite H end);
  try (by intros HH; destruct (k_stopping _ K HH); congruence); try (by intros HH; decompose [or] HH; congruence);
  try (by intros HH; pose proof (k_closed _ K HH); congruence).

Theorem Cls_step c s a s' : Inv c s -> Ord c s -> Cls s -> step c s a = Some s' -> Cls s'.
Proof.
  intros I O K E. destruct a; cbn [step] in E.
  - split_step E; try done. same3 K.
  - split_step E; same3 K.
  - split_step E. same3 K.
  - (* PTake *) split_step E; try (same3 K; fail).
    destruct K as [K1 K2 K3 K4 K5 K6 K7 K8 K9 K10 K11 K12]; rewrite Heqp in *; split; fields; try done.
    + lia.
    + intros Hs. by destruct (K9 Hs).
    + intros Hs. destruct (K10 Hs) as (Hs' & _). by destruct (K9 Hs').
    + intros [?|[?|?]]; done.
  - (* PInject *) split_step E; try done.
    all: assert (F : forall x, x ∈ acqs (trace s) -> c_id x < nctx s) by (intros x; by apply (acqs_ids c)).
    all: destruct K as [K1 K2 K3 K4 K5 K6 K7 K8 K9 K10 K11 K12]; rewrite Heqp in *; split; fields; try done; try lia.
    all: try (by intros Hs; destruct (K9 Hs)). all: try (by intros Hs; destruct (K10 Hs) as (Hs' & _); destruct (K9 Hs')). all: try (by intros [?|[?|?]]).
    all: intros x y [Hx|Hx]%elem_of_cons [Hy|Hy]%elem_of_cons Hxy; try (by subst); try (by apply K1); [subst x; specialize (F y Hy); cbn in Hxy; lia|subst y; specialize (F x Hx); cbn in Hxy; lia].
  - (* PNext *) split_step E; [same3 K| |].
    all: assert (F : forall x, x ∈ acqs (trace s) -> c_id x < nctx s) by (intros x; by apply (acqs_ids c)).
    all: pose proof (settled_len c s (settled s) I K (k_snd _ K) (fun e => settled_acq c s e I O K)) as HL.
    all: destruct K as [K1 K2 K3 K4 K5 K6 K7 K8 K9 K10 K11 K12]; rewrite Heqp in *; split; unfold given in *; norm; try done; try lia.
    all: try (by intros Hs; destruct (K9 Hs)). all: try (by intros Hs; destruct (K10 Hs) as (Hs' & _); destruct (K9 Hs')). all: try (by intros [?|[?|?]]).
    all: try (intros x Hx; destruct (K6 x Hx) as [?|?]; [left; apply elem_of_app; by left|by right]).
    intros x y [Hx|Hx]%elem_of_cons [Hy|Hy]%elem_of_cons Hxy; try (by subst); try (by apply K1); [subst x; specialize (F y Hy); cbn in Hxy; lia|subst y; specialize (F x Hx); cbn in Hxy; lia].
  - (* PAcq *) split_step E.
    assert (Hn : e ∉ acqs (trace s)). { rewrite (acq _ _ I). pose proof (nodup _ _ I) as N. rewrite Heqp in N. cbn in N. by apply NoDup_cons in N as (? & _). }
    destruct K as [K1 K2 K3 K4 K5 K6 K7 K8 K9 K10 K11 K12]; rewrite Heqp in *; split; unfold given in *; norm; try done; try lia.
    all: try (by intros Hs; destruct (K9 Hs)). all: try (by intros Hs; destruct (K10 Hs) as (Hs' & _); destruct (K9 Hs')). all: try (by intros [?|[?|?]]).
    + intros x y Hx Hy. apply K1; [revert Hx|revert Hy]; rewrite elem_of_app, elem_of_list_singleton, elem_of_cons; tauto.
    + intros x Hx. apply elem_of_app. left. auto.
    + intros x k [= -> ->] Hx. apply Hn. auto.
    + intros x Hx; destruct (K6 x Hx) as [?|?]; [left; apply elem_of_app; by left|by right].
  - (* PGive *) split_step E.
    assert (Hac : e ∈ acqs (trace s)) by (apply (held_fresh c s e I); unfold held; rewrite Heqp; by left).
    pose proof (k_pool _ K e l Heqp) as Hg.
    destruct K as [K1 K2 K3 K4 K5 K6 K7 K8 K9 K10 K11 K12]; rewrite Heqp in *; split; unfold given in *; norm; try done; try lia.
    all: try (by intros Hs; destruct (K9 Hs)). all: try (by intros Hs; destruct (K10 Hs) as (Hs' & _); destruct (K9 Hs')). all: try (by intros [?|[?|?]]).
    + eapply (nodup_perm _ (e :: pool s ++ (answers s).*1)); [solve_Permutation|]. by apply NoDup_cons.
    + intros x Hx. apply elem_of_app in Hx as [Hx|Hx]; [|apply K3, elem_of_app; by right]. apply elem_of_app in Hx as [Hx| ->%elem_of_list_singleton]; [|done]. apply K3, elem_of_app. by left.
  - split_step E; same3 K.
  - split_step E. same3 K.
  - (* PSignal *) split_step E. pose proof (k_rev _ K (or_introl Heqp)) as Hr. destruct K as [K1 K2 K3 K4 K5 K6 K7 K8 K9 K10 K11 K12]; rewrite Heqp, Heqw in *; split; fields; try done; rewrite ?Heqw; try done. by left.
  - (* PClose *) split_step E. pose proof (k_rev _ K (or_intror (or_introl Heqp))) as Hr. destruct K as [K1 K2 K3 K4 K5 K6 K7 K8 K9 K10 K11 K12]; rewrite Heqp, Heqw in *; split; unfold given in *; norm; try done; rewrite ?Heqw; try done.
    + intros x Hx; destruct (K6 x Hx) as [?|?]; [left; apply elem_of_app; by left|by right].
    + by right.
  - (* GAnswer *) split_step E.
    all: assert (Hg : c0 ∈ given s) by (unfold given; rewrite Heql; by left).
    all: assert (Hna : forall b, (c0, b) ∉ answers s) by (intros b Hb; pose proof (k_nd _ K) as N; unfold given in N; rewrite Heql in N; apply NoDup_cons in N as (N & _); apply N, elem_of_app; right; apply elem_of_list_fmap; by exists (c0, b)).
    all: assert (Hns : c0 ∉ settled s) by (intros Hs; destruct (k_set _ K _ Hs) as [Hd|Hf]; [destruct (done_acq c s c0 I O K Hd) as (Ht & _); by apply (Hna true)|by apply (Hna false)]).
    all: pose proof (settled_len c s (c0 :: settled s) I K) as HL.
    all: assert (HL' : S (length (settled s)) <= nctx s) by (apply HL; [apply NoDup_cons; split; [done|apply (k_snd _ K)]|]; intros x [->|Hx]%elem_of_cons; [by apply (k_acq _ K)|by apply (settled_acq c)]).
    all: destruct K as [K1 K2 K3 K4 K5 K6 K7 K8 K9 K10 K11 K12]; unfold given in *; rewrite Heql in *; split; unfold given; fields; try done; try lia.
    all: try (rewrite fmap_app; eapply nodup_perm; [|exact K2]; cbn; solve_Permutation).
    all: try (intros x Hx; apply K3; revert Hx; rewrite fmap_app; cbn; rewrite !elem_of_app, elem_of_list_singleton, elem_of_cons, elem_of_app; tauto).
    all: try (intros x k Hx; specialize (K4 x k Hx); revert K4; rewrite fmap_app; cbn; rewrite !elem_of_app, elem_of_list_singleton, elem_of_cons, elem_of_app; tauto).
    all: try (intros x Hx; apply elem_of_app; left; by auto).
    all: try (intros x Hx; destruct (K6 x Hx) as [?|?]; [by left|right; apply elem_of_app; by left]).
    + intros x [->|Hx]%elem_of_cons; [right; apply elem_of_app; right; by left|]. destruct (K6 x Hx) as [?|?]; [by left|right; apply elem_of_app; by left].
    + by apply NoDup_cons.
    + intros Hs. destruct (K10 Hs) as (? & ?). split; [done|lia].
  - (* GSettle *) split_step E. destruct a as (Hd & Hns).
    assert (HL' : S (length (settled s)) <= nctx s).
    { apply (settled_len c s (e :: settled s) I K); [apply NoDup_cons; split; [done|apply (k_snd _ K)]|]. intros x [->|Hx]%elem_of_cons; [by apply (done_acq c)|by apply (settled_acq c)]. }
    destruct K as [K1 K2 K3 K4 K5 K6 K7 K8 K9 K10 K11 K12]; split; fields; try done; try lia.
    + intros x [->|Hx]%elem_of_cons; [by left|auto].
    + by apply NoDup_cons.
    + intros Hs. destruct (K10 Hs) as (? & ?). split; [done|lia].
  - split_step E. same3 K.
  - split_step E. same3 K.
  - (* WGet *) split_step E; try (destruct (c_off e)); same3 K; right; eexists; (split; [reflexivity|]); (split; [reflexivity|]); intros x ->%elem_of_list_singleton; done.
  - split_step E; same3 K.
  - split_step E; same3 K.
  - split_step E; destruct back; same3 K.
  - (* WStop *) split_step E. apply andb_true_iff in Heqb as (Hs & Hw%Nat.eqb_eq). destruct K as [K1 K2 K3 K4 K5 K6 K7 K8 K9 K10 K11 K12]; split; fields; try done.
  - split_step E; same3 K.
Qed.

Theorem Cls_run c acts : forall s s', Inv c s -> Ord c s -> Cls s -> run c s acts = Some s' -> Inv c s' /\ Ord c s' /\ Cls s'.
Proof.
  induction acts as [|a acts IH]; cbn; intros s s' I O K R; [injection R as <-; by split|].
  destruct (step c s a) as [s1|] eqn:E; [|done]. eapply IH; [by eapply Inv_step|by eapply Ord_step|by eapply Cls_step|exact R].
Qed.
