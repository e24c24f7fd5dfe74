(** Commit records and ended transactions: the invariant is kept by every step. *)
From stdpp Require Import prelude list sorting.
From Coq Require Import ZArith.
From Verif.Eos Require Import Model Base Struct Struct2 Step1 Own Own2 Fin Own3.
Open Scope nat_scope.

Lemma marksOf_nil t p w : called w = [] -> marksOf t p w = [].
Proof. intros E. unfold marksOf. by rewrite callsOf_nil. Qed.
Lemma marks_prod_out t p n e r s : marksOf t p (prod_w n e (Out r) s) = [].
Proof.
  unfold marksOf, callsOf. rewrite called_prod. destruct (decide (t = txn s n)) as [->|H]; [|by rewrite of_txn_one_ne]. rewrite of_txn_one.
  destruct (decide (e_p e = p)); [by rewrite filter_cons_True|by rewrite filter_cons_False].
Qed.
Lemma marks_prod_mark t p n e w s : marksOf t p (prod_w n e (Mark w) s) = if decide (t = txn s n /\ p = e_p e) then [w] else [].
Proof.
  unfold marksOf, callsOf. rewrite called_prod. destruct (decide (t = txn s n)) as [->|H].
  - rewrite of_txn_one. destruct (decide (p = e_p e)) as [->|Hp]; [rewrite filter_cons_True, decide_True by done; done|]. rewrite filter_cons_False by (cbn; congruence). rewrite decide_False by tauto. done.
  - rewrite of_txn_one_ne by done. rewrite decide_False by tauto. done.
Qed.

(** how the ends and the commit records grow *)
Definition ends_delta (s s' : st) (w : list ev) : Prop :=
  (ends w = [] /\ forall n, kp s = KDead n -> kp s' = KDead n) \/
  exists n cur m todo ok, kp s = KFin n cur m todo /\ w = [EvEnd (txn s n) ok] /\ (kp s' = KEnded n \/ kp s' = KDead n) /\ (ok = true -> cur = [] /\ todo = []) /\
    (ok = false -> kp s' = KDead n \/ (cur = [] /\ todo = [] /\ n_prod (nodes s n) = 0)).
Definition marks_delta (s s' : st) (w : list ev) : Prop :=
  (forall t p, marksOf t p w = []) \/
  exists n e cur todo o, kp s = KFin n (e :: cur) false todo /\ kp s' = KFin n cur true todo /\ e_off e = Some o /\
    forall t p, marksOf t p w = if decide (t = txn s n /\ p = e_p e) then [S o] else [].
Lemma deltas c s a s' w : Str c s -> step c s a = Some s' -> a <> KSkip -> trace s' = trace s ++ w -> ends_delta s s' w /\ marks_delta s s' w.
Proof.
  intros I H Ha E.
  assert (forall s2 w2, s2 = s' -> trace s2 = trace s ++ w2 -> called w2 = [] -> ends w2 = [] -> (forall n, kp s = KDead n -> kp s2 = KDead n) -> ends_delta s s2 w /\ marks_delta s s2 w) as FR.
  { intros s2 w2 -> E2 W1 W2 W3. rewrite E in E2. apply app_inv_head in E2 as ->. split; left; [done|]. intros t p. by apply marksOf_nil. }
  assert (forall s2, s2 = s' -> trace s2 = trace s -> (forall n, kp s = KDead n -> kp s2 = KDead n) -> ends_delta s s2 w /\ marks_delta s s2 w) as FR0.
  { intros s2 E1 E2 E3. apply (FR _ []); try done. by rewrite app_nil_r. }
  destruct a; cbn [step] in H.
  - case_decide; try done; injection H as <-; eapply FR; [done|cbn; reflexivity|done..].
  - case_decide; try done; injection H as <-; eapply FR; [done|cbn; reflexivity|done..].
  - case_decide; try done; injection H as <-; by apply FR0.
  - case_decide; try done; injection H as <-; eapply FR; [done|cbn; reflexivity|done..].
  - case_decide as D; [|done]. injection H as <-. rewrite produceRecord_eq in *. apply app_inv_head in E. subst w.
    split; left; [split; [by apply prod_w_other|done]|]. intros t p. apply marks_prod_out.
  - case_decide; try done; injection H as <-; eapply FR; [done|cbn; reflexivity|done..].
  - destruct (fp s) eqn:Ef; try done. destruct (buffer s) as [|e b] eqn:Eb; [done|]. injection H as <-. case_decide.
    all: eapply FR; [done|cbn; reflexivity|done..].
  - assert (exists e, fp s = FChecked e /\ s' = set_fp (FAdded e) (addEc e s)) as (e & Ef & ->).
    { destruct (fp s); try done. destruct (kp s); try done; injection H as <-; eauto 10. }
    unfold addEc in *. case_decide; (eapply FR; [done|cbn; reflexivity|done..]).
  - destruct (fp s) eqn:Ef; try done. injection H as <-. unfold claim in *. destruct (owners s (e_p e)); by apply FR0.
  - destruct (fp s) eqn:Ef; try done. injection H as <-. by apply FR0.
  - destruct (fp s) eqn:Ef; try done. injection H as <-. by apply FR0.
  - destruct (fp s) eqn:Ef; try done. injection H as <-. by apply FR0.
  - destruct (fp s) eqn:Ef; try done. injection H as <-. apply FR0; [done|..]; by repeat case_match.
  - destruct (fp s) eqn:Ef; try done. destruct (length (queue s) <? pendingTxn c); [|done]. injection H as <-. by apply FR0.
  - destruct (fp s) eqn:Ef; try done. destruct (freeq s) as [|m q] eqn:Eq; [done|]. injection H as <-. by apply FR0.
  - destruct (kp s) eqn:Ek; try done. destruct (queue s) as [|n q] eqn:Eq; [done|]. injection H as <-.
    destruct (sendAll_other (n_txn (nodes s n)) (n_pend (nodes s n))) as (_ & _ & _ & _ & W5 & W6 & _). eapply FR; [done|reflexivity|done..].
  - destruct (kp s) as [|n [|] ? ?| | | ] eqn:Ek; try done. case_decide; [|done]. injection H as <-. by apply FR0.
  - destruct (kp s) as [|n [|e cur] marked todo| | | ] eqn:Ek; try done. case_decide as D; [|done].
    destruct marked, (e_off e) as [o|] eqn:Eo; injection H as <-; try (by apply FR0).
    rewrite produceRecord_eq in *. apply app_inv_head in E. subst w. split; [left; split; [by apply prod_w_other|congruence]|]. right. exists n, e, cur, todo, o.
    split; [done|]. split; [done|]. split; [done|]. intros t p. apply marks_prod_mark.
  - destruct (kp s) as [|n [|] m [|]| | | ] eqn:Ek; try done. injection H as <-. destruct (releaseRoots_frame (n_ecs (nodes s n)) (parts (n_ecs (nodes s n))) s) as [z Hz]. rewrite Hz in *.
    apply app_inv_head in E. subst w. split; [|left; intros t p; by apply marksOf_nil]. right. exists n, [], m, [], (0 <? n_prod (nodes s n)). split; [done|]. split; [done|].
    split; [by left|]. split; [done|]. intros E. apply Nat.ltb_ge in E. right. split; [done|]. split; [done|]. lia.
  - destruct (kp s) eqn:Ek; try done. injection H as <-. by apply FR0.
  - destruct (kp s) as [| | |n todo|] eqn:Ek; try done. case_decide as D; [|done]. injection H as <-. assert (kn s = [n]) as K by (unfold kn; by rewrite Ek).
    pose proof (head_ring _ _ _ I K) as Hr. rewrite relinquish_eq in * by done. cbn zeta in *.
    destruct (List.find (holds s p) (ring (poolSize c) n)) as [m|] eqn:Em.
    + destruct (sendAll_other (n_txn (nodes s m)) (filter (fun er => e_p (fst er) = p) (n_pend (nodes s m)))) as (_ & _ & _ & _ & W5 & W6 & _). eapply FR; [done|reflexivity|done..].
    + by apply FR0.
  - destruct (kp s) as [| | |n [|]|] eqn:Ek; try done. injection H as <-. by apply FR0.
  - destruct (kp s) as [|n cur m todo| | | ] eqn:Ek; try done. destruct (ok && _) eqn:Eo; [done|]. injection H as <-.
    apply app_inv_head in E. subst w. split; [|left; intros t p; by apply marksOf_nil]. right. exists n, cur, m, todo, ok. split; [done|]. split; [done|].
    split; [by right|]. split; [|by left]. intros ->. destruct cur, todo; cbn in Eo; try done.
  - done.
Qed.

(** nodes with events: those that had some, or the one that just got its first *)
Lemma busy_delta c s a s' n : Str c s -> Str c s' -> step c s a = Some s' -> a <> KSkip -> n ∈ busy s' -> n ∉ kn s' ->
  (n ∈ busy s /\ n ∉ kn s /\ txn s' n = txn s n) \/ (txn s' n = ntxn s /\ kn s' = kn s).
Proof.
  intros I I' H Ha Hb Hk.
  assert (forall s2, s2 = s' -> pipe s2 = pipe s -> (forall m, evs s2 m = evs s m /\ txn s2 m = txn s m) -> (n ∉ kn s2 -> n ∉ kn s) ->
    (n ∈ busy s /\ n ∉ kn s /\ txn s2 n = txn s n) \/ (txn s2 n = ntxn s /\ kn s2 = kn s)) as FR.
  { intros s2 -> F1 F2 F3. left. split; [|split; [auto|apply F2]]. rewrite <- (busy_same s s'); [done|done|]. intros m. apply F2. }
  destruct a; cbn [step] in H.
  - case_decide; try done; injection H as <-; by apply FR.
  - case_decide; try done; injection H as <-; by apply FR.
  - case_decide; try done; injection H as <-; by apply FR.
  - case_decide; try done; injection H as <-; by apply FR.
  - case_decide as D; [|done]. injection H as <-. rewrite produceRecord_eq in *. apply FR; try done. intros m. unfold evs, txn. cbn. unfold upd. destruct (decide (m = n0)) as [->|]; done.
  - case_decide; try done; injection H as <-; by apply FR.
  - destruct (fp s) eqn:Ef; try done. destruct (buffer s) as [|e b] eqn:Eb; [done|]. injection H as <-. apply FR; [done|..]; (case_decide; [done|]); try done. unfold pipe, kn, deck; cbn; by rewrite Ef.
  - assert (exists e, fp s = FChecked e /\ s' = set_fp (FAdded e) (addEc e s)) as (e & Ef & ->).
    { destruct (fp s); try done. destruct (kp s); try done; injection H as <-; eauto 10. }
    assert (forall m, m <> onDeck s -> nodes (set_fp (FAdded e) (addEc e s)) m = nodes s m) as Ho.
    { intros m Hm. unfold addEc. case_decide; cbn; by rewrite upd_ne. }
    assert (txn (set_fp (FAdded e) (addEc e s)) (onDeck s) = if n_ev (nodes s (onDeck s)) =? 0 then ntxn s else txn s (onDeck s)) as Et.
    { unfold addEc, txn. case_decide; cbn; by rewrite upd_eq. }
    assert (kn (set_fp (FAdded e) (addEc e s)) = kn s) as Ek by (unfold addEc; by case_decide).
    assert (pipe (set_fp (FAdded e) (addEc e s)) = pipe s) as Ep by (unfold addEc, pipe, kn, deck; case_decide; cbn; by rewrite Ef).
    rewrite Ek in *. apply elem_busy in Hb as [Hb1 Hb2]. rewrite Ep in Hb2. destruct (decide (n = onDeck s)) as [->|Hn].
    + rewrite Et. destruct (n_ev (nodes s (onDeck s)) =? 0) eqn:E0; [by right|left]. apply Nat.eqb_neq in E0. split; [|done]. apply elem_busy. done.
    + left. split; [|split; [done|unfold txn; by rewrite Ho]]. apply elem_busy. split; [|done]. unfold evs in *. by rewrite Ho in Hb1.
  - destruct (fp s) eqn:Ef; try done. injection H as <-. unfold claim in *. destruct (owners s (e_p e)); (apply FR; try done; unfold pipe, kn, deck; cbn; by rewrite Ef).
  - destruct (fp s) eqn:Ef; try done. injection H as <-. apply FR; try done; unfold pipe, kn, deck; cbn; by rewrite Ef.
  - destruct (fp s) eqn:Ef; try done. injection H as <-. destruct (target c <=? _); (apply FR; try done; unfold pipe, kn, deck; cbn; by rewrite Ef).
  - destruct (fp s) eqn:Ef; try done. injection H as <-. apply FR; try done; unfold pipe, kn, deck; cbn; by rewrite Ef.
  - destruct (fp s) eqn:Ef; try done. injection H as <-. apply FR; [done|..]; repeat case_match; try done; unfold pipe, kn, deck; cbn; rewrite ?Ef, ?app_nil_r; done.
  - destruct (fp s) eqn:Ef; try done. destruct (length (queue s) <? pendingTxn c); [|done]. injection H as <-. apply FR; try done; unfold pipe, kn, deck; cbn; rewrite ?Ef, ?app_nil_r; done.
  - destruct (fp s) eqn:Ef; try done. destruct (freeq s) as [|m q] eqn:Eq; [done|]. injection H as <-. left. split; [|done].
    apply elem_busy in Hb as [Hb1 Hb2]. apply elem_busy. split; [done|]. unfold pipe, kn, deck in Hb2. cbn in Hb2. unfold pipe, kn, deck. rewrite Ef. rewrite !elem_of_app in *.
    destruct Hb2 as [?|[?|Hb2]]; [by left|by right; left|]. exfalso. apply elem_of_list_singleton in Hb2 as ->. apply Hb1. apply (str_free _ _ I). rewrite Eq. by left.
  - destruct (kp s) eqn:Ek; try done. destruct (queue s) as [|m q] eqn:Eq; [done|]. injection H as <-. apply FR; try done.
    + unfold pipe, kn, deck; cbn. by rewrite Ek, Eq.
    + intros _. unfold kn. rewrite Ek. by apply not_elem_of_nil.
  - destruct (kp s) as [|m [|] ? ?| | | ] eqn:Ek; try done. case_decide; [|done]. injection H as <-. apply FR; try done; unfold pipe, kn, deck; cbn; by rewrite Ek.
  - destruct (kp s) as [|m [|e cur] marked todo| | | ] eqn:Ek; try done. case_decide as D; [|done].
    destruct marked, (e_off e) as [o|] eqn:Eo; injection H as <-; try (apply FR; try done; unfold pipe, kn, deck; cbn; by rewrite Ek).
    rewrite produceRecord_eq in *. apply FR; try done; try (unfold pipe, kn, deck; cbn; by rewrite Ek). intros j. unfold evs, txn. cbn. unfold upd. destruct (decide (j = m)) as [->|]; done.
  - destruct (kp s) as [|m [|] ? [|]| | | ] eqn:Ek; try done. injection H as <-. destruct (releaseRoots_frame (n_ecs (nodes s m)) (parts (n_ecs (nodes s m))) s) as [z Hz]. rewrite Hz in *.
    apply FR; try done; unfold pipe, kn, deck; cbn; by rewrite Ek.
  - destruct (kp s) eqn:Ek; try done. injection H as <-. apply FR; try done; unfold pipe, kn, deck; cbn; by rewrite Ek.
  - destruct (kp s) as [| | |m todo|] eqn:Ek; try done. case_decide as D; [|done]. injection H as <-. assert (kn s = [m]) as K by (unfold kn; by rewrite Ek).
    pose proof (head_ring _ _ _ I K) as Hr. rewrite relinquish_eq in * by done. cbn zeta in *.
    destruct (List.find (holds s p) (ring (poolSize c) m)) as [o|] eqn:Em; (apply FR; [done|unfold pipe, kn, deck; cbn; by rewrite Ek| |unfold kn; cbn; by rewrite Ek]).
    + intros j. unfold evs, txn. cbn. unfold upd. destruct (decide (j = m)) as [->|]; [done|]. destruct (decide (j = o)) as [->|]; done.
    + intros j. unfold evs, txn. cbn. unfold upd. destruct (decide (j = m)) as [->|]; done.
  - destruct (kp s) as [| | |m [|]|] eqn:Ek; try done. injection H as <-. left. apply elem_busy in Hb as [Hb1 Hb2].
    assert (n <> m) as Hn. { intros ->. apply Hb1. unfold evs. cbn. by rewrite upd_eq. }
    assert (evs s n <> 0 /\ txn s n = txn (set_kp KIdle (set_freeq (freeq s ++ [m]) (setNode m (mkNode (n_ecs (nodes s m)) [] 0 0 (n_txn (nodes s m))) s))) n) as [E1 E2].
    { unfold evs, txn in *. cbn in *. rewrite upd_ne in * by done. done. }
    split; [|split; [|done]]. + apply elem_busy. split; [done|]. unfold pipe, kn in *. rewrite Ek. cbn in *. by right.
    + unfold kn. rewrite Ek. by apply not_elem_of_cons; split; [|apply not_elem_of_nil].
  - destruct (kp s) as [|m cur ? todo| | | ] eqn:Ek; try done. destruct (ok && _) eqn:Eo; [done|]. injection H as <-. apply FR; try done; unfold pipe, kn, deck; cbn; by rewrite Ek.
  - done.
Qed.
