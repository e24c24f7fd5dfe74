(** C21: the size of a transaction. *)
From stdpp Require Import prelude list sorting.
From Coq Require Import ZArith.
From Verif.Eos Require Import Model Base Struct Struct2 Step1 Own Own2 Fin Own3 Fin2 Fin3 Rev Spec Ends Main Wait Stop.
Open Scope nat_scope.

Lemma eventsIn_eq t tr : eventsIn t tr = adds t tr.
Proof.
  induction tr as [|x tr IH]; [done|]. destruct x as [| | |t1 e1| | | | | |]; try exact IH.
  change (eventsIn t (EvAdd t1 e1 :: tr)) with ((if decide (t1 = t) then [e1] else []) ++ eventsIn t tr). rewrite IH. unfold adds, of_txn.
  change (added (EvAdd t1 e1 :: tr)) with ((t1, e1) :: added tr). case_decide; [rewrite filter_cons_True|rewrite filter_cons_False]; done.
Qed.
Lemma recordsIn_eq t tr : recordsIn t tr = map snd (of_txn t (called tr)).
Proof.
  induction tr as [|x tr IH]; [done|]. destruct x as [| | | |t1 e1 r1| | | | |]; try exact IH.
  change (recordsIn t (EvCall t1 e1 r1 :: tr)) with ((if decide (t1 = t) then [r1] else []) ++ recordsIn t tr). rewrite IH. unfold of_txn.
  change (called (EvCall t1 e1 r1 :: tr)) with ((t1, (e1, r1)) :: called tr). case_decide; [rewrite filter_cons_True|rewrite filter_cons_False]; done.
Qed.
Lemma outs_app e u v : outs e (u ++ v) = outs e u ++ outs e v. Proof. apply flat_map_app. Qed.
Lemma outs_in e t r tr : EvCall t e (Out r) ∈ tr -> outs e tr <> [].
Proof.
  intros H. apply elem_of_list_split in H as (u & v & ->). rewrite outs_app. change (outs e (EvCall t e (Out r) :: v)) with ((if decide (e = e) then [r] else []) ++ outs e v). rewrite decide_True by done. by destruct (outs e u).
Qed.
(** at most one record per event: then the events of the records are distinct *)
Lemma calls_nodup t tr : (forall e, length (outs e tr) <= 1) -> (forall e w, EvCall t e (Mark w) ∉ tr) -> NoDup (map fst (of_txn t (called tr))).
Proof.
  induction tr as [|x tr IH] using rev_ind; intros H1 H2; [constructor|].
  assert (NoDup (map fst (of_txn t (called tr)))) as N.
  { apply IH; [|intros e w Hin; apply (H2 e w), elem_of_app; by left]. intros e. specialize (H1 e). rewrite outs_app, app_length in H1. lia. }
  rewrite called_app, of_txn_app, map_app. apply NoDup_app. split; [done|].
  destruct x as [| | | |t1 e1 r1| | | | |]; try (split; [intros y _ Hy; by apply elem_of_nil in Hy|constructor]).
  change (called [EvCall t1 e1 r1]) with [(t1, (e1, r1))]. unfold of_txn at 2 3. destruct (decide (t1 = t)) as [->|Hne].
  2: { rewrite filter_cons_False by done. split; [intros y _ Hy; by apply elem_of_nil in Hy|constructor]. }
  rewrite filter_cons_True by done. cbn. split; [|repeat constructor; by apply not_elem_of_nil]. intros y Hy Hz. apply elem_of_list_singleton in Hz as ->.
  apply elem_of_list_fmap in Hy as ([e r] & -> & Hy). cbn in *. apply elem_of_txn in Hy. assert (EvCall t e r ∈ tr) as Hc by (by apply elem_called).
  destruct r as [r|w]; [|apply (H2 e w), elem_of_app; by left]. destruct r1 as [r1|w]; [|apply (H2 e w), elem_of_app; right; by left].
  specialize (H1 e). rewrite outs_app, app_length in H1. change (outs e [EvCall t e (Out r1)]) with ((if decide (e = e) then [r1] else []) ++ []) in H1. rewrite decide_True in H1 by done. cbn in H1.
  pose proof (outs_in e t r tr Hc). destruct (outs e tr); [done|]. cbn in H1. lia.
Qed.
Lemma prod_le c s : Inv c s -> (forall e, length (outs e (trace s)) <= 1) -> fp s <> FPop -> n_prod (nodes s (onDeck s)) <= n_ev (nodes s (onDeck s)).
Proof.
  intros J H Hf. destruct J as [I G O F]. destruct (decide (evs s (onDeck s) = 0)) as [E|E]. { destruct (str_idle _ _ I _ E) as (_ & -> & _). lia. }
  assert (onDeck s ∈ busy s) as Hb. { apply elem_busy. split; [done|]. rewrite (deck_pipe s) by done. apply elem_of_app. right. by left. }
  assert (onDeck s ∉ kn s) as Hk. { intros Hin. assert (kn s = [onDeck s]) as K. { unfold kn in *. destruct (kp s); try (by apply elem_of_nil in Hin); apply elem_of_list_singleton in Hin as <-; done. } by apply (not_head_deck c s (onDeck s) I K). }
  rewrite (own_prod _ O _ Hb). fold (evs s (onDeck s)). rewrite (str_nev _ _ I _ Hb). set (t := txn s (onDeck s)).
  rewrite <- (map_length fst). apply submseteq_length, NoDup_submseteq.
  - apply calls_nodup; [done|]. intros e w Hin. pose proof (fin_wait _ F _ (e_p e) Hb Hk) as Hm. fold t in Hm. unfold marksOf in Hm. apply elem_called in Hin.
    assert (w ∈ omap mark (callsOf t (e_p e) (trace s))) as Hw; [|rewrite Hm in Hw; by apply elem_of_nil in Hw]. apply elem_of_list_omap. exists (e, Mark w). split; [|done].
    unfold callsOf. apply elem_of_list_filter. split; [done|]. by apply elem_of_txn.
  - intros e He. apply elem_of_list_fmap in He as ([e' r] & -> & He). apply elem_of_txn in He. apply elem_of_txn. cbn. by apply (own_added _ O t e' r).
Qed.

Definition Lim (c : cfg) (s : st) : Prop :=
  (match fp s with FIdle | FChecked _ => n_ev (nodes s (onDeck s)) < maxBatch c | FPop => True | _ => n_ev (nodes s (onDeck s)) <= maxBatch c end) /\
  forall u t e v, trace s = u ++ EvAdd t e :: v -> length (eventsIn t u) < maxBatch c /\ length (recordsIn t u) < maxBatch c.

Definition ones (tr : list ev) : Prop := forall e, length (outs e tr) <= 1.
Lemma ones_app u v : ones (u ++ v) -> ones u.
Proof. intros H e. specialize (H e). rewrite outs_app, app_length in H. lia. Qed.
Lemma small_app c tr w : added w = [] -> (forall u t e v, tr = u ++ EvAdd t e :: v -> length (eventsIn t u) < maxBatch c /\ length (recordsIn t u) < maxBatch c) ->
  forall u t e v, tr ++ w = u ++ EvAdd t e :: v -> length (eventsIn t u) < maxBatch c /\ length (recordsIn t u) < maxBatch c.
Proof.
  intros W H u t e v E. apply app_eq_app in E as (l & [[E1 E]|[E1 E]]).
  - destruct l as [|y l]; cbn in E; [|injection E as <- E; by apply (H u t e l)]. subst w. exfalso. assert ((t, e) ∈ added (EvAdd t e :: v)) as Hin by (apply elem_added; by left). rewrite W in Hin. by apply elem_of_nil in Hin.
  - exfalso. subst w. assert ((t, e) ∈ added (l ++ EvAdd t e :: v)) as Hin by (apply elem_added, elem_of_app; right; by left). rewrite W in Hin. by apply elem_of_nil in Hin.
Qed.
Lemma Lim_step c s a s' : valid c -> Inv c s -> Lim c s -> ones (trace s') -> step c s a = Some s' -> a <> KSkip -> Lim c s'.
Proof.
  intros V J [L1 L2] H1 H Ha. pose proof (i_str _ _ J) as I.
  assert (forall s2 w, s2 = s' -> trace s2 = trace s ++ w -> added w = [] -> (fp s2 = fp s) -> (fp s2 <> FPop -> onDeck s2 = onDeck s /\ n_ev (nodes s2 (onDeck s)) = n_ev (nodes s (onDeck s))) -> Lim c s2) as FR.
  { intros s2 w -> E W E2 E3. split; [|rewrite E; by apply small_app]. rewrite E2. destruct (fp s) eqn:Ef; try done. all: destruct E3 as [-> ->]; [by rewrite E2|done]. }
  assert (forall s2 w, s2 = s' -> trace s2 = trace s ++ w -> added w = [] -> (match fp s2 with FIdle | FChecked _ => n_ev (nodes s2 (onDeck s2)) < maxBatch c | FPop => True | _ => n_ev (nodes s2 (onDeck s2)) <= maxBatch c end) -> Lim c s2) as FR1.
  { intros s2 w -> E W E2. split; [done|rewrite E; by apply small_app]. }
  assert (forall s2, s2 = s' -> trace s2 = trace s -> (match fp s2 with FIdle | FChecked _ => n_ev (nodes s2 (onDeck s2)) < maxBatch c | FPop => True | _ => n_ev (nodes s2 (onDeck s2)) <= maxBatch c end) -> Lim c s2) as FR0.
  { intros s2 -> E E2. apply (FR1 _ []); try done. by rewrite app_nil_r. }
  destruct a; cbn [step] in H.
  - case_decide; try done; injection H as <-; eapply FR; [done|cbn; reflexivity|done..].
  - case_decide; try done; injection H as <-; eapply FR; [done|cbn; reflexivity|done..].
  - case_decide; try done; injection H as <-; eapply (FR _ []); [done|cbn; by rewrite app_nil_r|done..].
  - case_decide; try done; injection H as <-; eapply FR; [done|cbn; reflexivity|done..].
  - case_decide as D; [|done]. injection H as <-. rewrite produceRecord_eq in *. eapply FR; [done|cbn; reflexivity|by apply prod_w_other|done|]. intros _. split; [done|]. cbn. unfold upd. destruct (decide (onDeck s = n)) as [<-|]; done.
  - case_decide; try done; injection H as <-; eapply FR; [done|cbn; reflexivity|done..].
  - destruct (fp s) eqn:Ef; try done. destruct (buffer s) as [|e b] eqn:Eb; [done|]. injection H as <-. case_decide; (eapply FR1; [done|cbn; reflexivity|done|cbn; rewrite ?Ef; done]).
  - assert (exists e, fp s = FChecked e /\ s' = set_fp (FAdded e) (addEc e s)) as (e & Ef & ->).
    { destruct (fp s); try done. destruct (kp s); try done; injection H as <-; eauto 10. } clear H FR FR0 FR1.
    set (x := nodes s (onDeck s)) in *. set (t := if n_ev x =? 0 then ntxn s else n_txn x).
    assert (trace (set_fp (FAdded e) (addEc e s)) = trace s ++ [EvAdd t e]) as Et by (unfold addEc; case_decide; done).
    assert (onDeck (set_fp (FAdded e) (addEc e s)) = onDeck s /\ n_ev (nodes (set_fp (FAdded e) (addEc e s)) (onDeck s)) = S (n_ev x)) as [Eo En] by (unfold addEc; case_decide; cbn; rewrite upd_eq; done).
    rewrite Ef in L1. assert (ones (trace s)) as H0 by (rewrite Et in H1; by apply ones_app in H1). split; [cbn [fp set_fp]; rewrite Eo, En; lia|]. rewrite Et. intros u t0 e0 v E.
    apply app_eq_app in E as (l & [[E1 E]|[E1 E]]).
    2: { destruct l as [|y l]; cbn in E; [|injection E as _ E; by destruct l]. injection E as <- <- <-. rewrite app_nil_r in E1. subst u.
         assert (length (eventsIn t (trace s)) = n_ev x /\ length (recordsIn t (trace s)) = n_prod x) as [-> ->]; [|pose proof (prod_le c s J H0) as Hp; fold x in Hp; rewrite Ef in Hp; specialize (Hp ltac:(done)); lia].
         rewrite eventsIn_eq, recordsIn_eq, map_length. unfold t. destruct (Nat.eqb_spec (n_ev x) 0) as [E0|E0].
         + destruct (str_idle _ _ I (onDeck s) E0) as (_ & Ep & _). fold x in Ep. rewrite Ep, E0. split.
           * assert (adds (ntxn s) (trace s) = []) as ->; [|done]. apply elem_of_nil_inv. intros y Hy. apply elem_of_txn in Hy. apply (str_lt _ _ I) in Hy. lia.
           * assert (of_txn (ntxn s) (called (trace s)) = []) as ->; [|done]. apply elem_of_nil_inv. intros [y r] Hy. apply elem_of_txn in Hy. apply (own_added _ (i_own _ _ J)), (str_lt _ _ I) in Hy. lia.
         + assert (onDeck s ∈ busy s) as Hb. { apply elem_busy. split; [done|]. rewrite (deck_pipe s) by congruence. apply elem_of_app. right. by left. }
           split; [symmetry; by apply (str_nev _ _ I)|]. symmetry. exact (own_prod _ (i_own _ _ J) _ Hb). }
    destruct l as [|y l]; cbn in E; [|injection E as <- E; by apply (L2 u t0 e0 l)]. injection E as -> -> ->. rewrite app_nil_r in E1. subst u.
    assert (length (eventsIn t (trace s)) = n_ev x /\ length (recordsIn t (trace s)) = n_prod x) as [-> ->]; [|pose proof (prod_le c s J H0) as Hp; fold x in Hp; rewrite Ef in Hp; specialize (Hp ltac:(done)); lia].
    rewrite eventsIn_eq, recordsIn_eq, map_length. unfold t. destruct (Nat.eqb_spec (n_ev x) 0) as [E0|E0].
    + destruct (str_idle _ _ I (onDeck s) E0) as (_ & Ep & _). fold x in Ep. rewrite Ep, E0. split.
      * assert (adds (ntxn s) (trace s) = []) as ->; [|done]. apply elem_of_nil_inv. intros y Hy. apply elem_of_txn in Hy. apply (str_lt _ _ I) in Hy. lia.
      * assert (of_txn (ntxn s) (called (trace s)) = []) as ->; [|done]. apply elem_of_nil_inv. intros [y r] Hy. apply elem_of_txn in Hy. apply (own_added _ (i_own _ _ J)), (str_lt _ _ I) in Hy. lia.
    + assert (onDeck s ∈ busy s) as Hb. { apply elem_busy. split; [done|]. rewrite (deck_pipe s) by congruence. apply elem_of_app. right. by left. }
      split; [symmetry; by apply (str_nev _ _ I)|]. symmetry. exact (own_prod _ (i_own _ _ J) _ Hb).
  - destruct (fp s) eqn:Ef; try done. injection H as <-. unfold claim in *. destruct (owners s (e_p e)); (apply FR0; [done|done|done]).
  - destruct (fp s) eqn:Ef; try done. injection H as <-. by apply FR0.
  - destruct (fp s) eqn:Ef; try done. injection H as <-. destruct (Nat.leb_spec (target c) (full (nodes s (onDeck s)))) as [Hl|Hl]; apply FR0; try done. cbn. unfold full in Hl. destruct V as (_ & _ & _ & V). lia.
  - destruct (fp s) eqn:Ef; try done. injection H as <-. apply FR0; try done. cbn. lia.
  - destruct (fp s) eqn:Ef; try done. injection H as <-.
    assert (n_prod (nodes s (onDeck s)) <= n_ev (nodes s (onDeck s))) as Hp. { apply (prod_le c); [done| |by rewrite Ef]. intros e. specialize (H1 e). repeat case_match; exact H1. }
    clear H1. unfold full in *. rewrite Nat.max_l in * by done. destruct (Nat.eqb_spec (n_ev (nodes s (onDeck s))) (maxBatch c)) as [E|E]; [by apply FR0|].
    repeat case_match; apply FR0; try done; cbn; lia.
  - destruct (fp s) eqn:Ef; try done. destruct (length (queue s) <? pendingTxn c); [|done]. injection H as <-. by apply FR0.
  - destruct (fp s) eqn:Ef; try done. destruct (freeq s) as [|m q] eqn:Eq; [done|]. injection H as <-. apply FR0; try done. cbn.
    assert (n_ev (nodes s m) = 0) as -> by (apply (str_free _ _ I); rewrite Eq; by left). destruct V as (_ & _ & V1 & V). lia.
  - destruct (kp s) eqn:Ek; try done. destruct (queue s) as [|n q] eqn:Eq; [done|]. injection H as <-. eapply FR; [done|cbn; reflexivity|apply sendAll_other|done..].
  - destruct (kp s) as [|n [|] ? ?| | | ] eqn:Ek; try done. case_decide; [|done]. injection H as <-. eapply (FR _ []); [done|cbn; by rewrite app_nil_r|done..].
  - destruct (kp s) as [|n [|e cur] marked todo| | | ] eqn:Ek; try done. case_decide as D; [|done].
    destruct marked, (e_off e) as [o|]; injection H as <-; try (eapply (FR _ []); [done|cbn; by rewrite app_nil_r|done..]).
    rewrite produceRecord_eq in *. eapply FR; [done|cbn; reflexivity|by apply prod_w_other|done|]. intros _. split; [done|]. cbn. unfold upd. destruct (decide (onDeck s = n)) as [<-|]; done.
  - destruct (kp s) as [|n [|] ? [|]| | | ] eqn:Ek; try done. injection H as <-. destruct (releaseRoots_frame (n_ecs (nodes s n)) (parts (n_ecs (nodes s n))) s) as [w Ew]. rewrite Ew in *. eapply FR; [done|cbn; reflexivity|done..].
  - destruct (kp s) eqn:Ek; try done. injection H as <-. eapply (FR _ []); [done|cbn; by rewrite app_nil_r|done..].
  - destruct (kp s) as [| | |n todo|] eqn:Ek; try done. case_decide as D; [|done]. injection H as <-. unfold relinquish in *.
    destruct (List.find (holds s p) (ring (poolSize c) n)) as [m|] eqn:Em.
    + eapply FR; [done|cbn; reflexivity|apply sendAll_other|done|]. intros _. split; [done|]. cbn. unfold upd. repeat case_decide; subst; done.
    + eapply (FR _ []); [done|cbn; by rewrite app_nil_r|done|done|]. intros _. split; [done|]. cbn. unfold upd. repeat case_decide; subst; done.
  - destruct (kp s) as [| | |n [|]|] eqn:Ek; try done. injection H as <-. assert (kn s = [n]) as K by (unfold kn; by rewrite Ek). eapply (FR _ []); [done|cbn; by rewrite app_nil_r|done|done|]. intros Hf. split; [done|]. cbn. rewrite upd_ne; [done|]. apply not_eq_sym. by apply (not_head_deck c s n I K).
  - destruct (kp s) as [|n cur m todo| | | ] eqn:Ek; try done. destruct (ok && _); [done|]. injection H as <-. eapply FR; [done|cbn; reflexivity|done..].
  - done.
Qed.
Theorem batch_limit c acts s u t e v : valid c -> noSkip acts -> run c (start c) acts = Some s -> ones (trace s) -> trace s = u ++ EvAdd t e :: v ->
  length (eventsIn t u) < maxBatch c /\ length (recordsIn t u) < maxBatch c.
Proof.
  intros V N R H1. assert (Inv c s /\ (ones (trace s) -> Lim c s)) as [_ L]; [|apply L; done]. clear H1.
  eapply (run_ind c (fun s => Inv c s /\ (ones (trace s) -> Lim c s)) (fun a => a <> KSkip)); [| |exact N|exact R].
  - split; [constructor; [by apply Str_start|apply Giv_start|apply Own_start|apply Fin_start]|]. intros _. split; [cbn; destruct V as (_ & _ & V1 & V); lia|]. intros u0 t0 e0 v0 E. cbn in E. by destruct u0.
  - intros s1 a s2 [J L] Ha H. split; [by apply (Inv_step c s1 a s2)|]. intros H1. apply (Lim_step c s1 a s2); try done. apply L.
    destruct (step_trace c s1 a s2 (i_str _ _ J) (i_giv _ _ J) (i_own _ _ J) (i_fin _ _ J) H Ha) as (w & E & _). rewrite E in H1. by apply ones_app in H1.
Qed.
