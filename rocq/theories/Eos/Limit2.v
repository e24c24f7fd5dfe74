(** MaxBatchSize with events that produce any number of records: what the check of the forwarding goroutine does give. *)
From stdpp Require Import prelude list sorting.
From Verif.Eos Require Import Model Base Struct Struct2 Step1 Own Own2 Fin Own3 Fin2 Fin3 Rev Spec Ends Main Main2 Limit.
Open Scope nat_scope.

Definition size (t : nat) (tr : list ev) : nat := length (eventsIn t tr) `max` length (recordsIn t tr).
Lemma eventsIn_app t u v : eventsIn t (u ++ v) = eventsIn t u ++ eventsIn t v. Proof. apply flat_map_app. Qed.
Lemma recordsIn_app t u v : recordsIn t (u ++ v) = recordsIn t u ++ recordsIn t v. Proof. apply flat_map_app. Qed.
Lemma eventsIn_other t w : added w = [] -> eventsIn t w = [].
Proof. intros H. rewrite eventsIn_eq. unfold adds. rewrite H. done. Qed.
(** since the last event was made part of t the transaction once had another size than the limit *)
Definition seen (c : cfg) (t : nat) (tr : list ev) : Prop := exists u e m1 m2, tr = u ++ EvAdd t e :: m1 ++ m2 /\ eventsIn t (m1 ++ m2) = [] /\ size t (u ++ EvAdd t e :: m1) <> maxBatch c.
Lemma seen_app c t tr w : eventsIn t w = [] -> seen c t tr -> seen c t (tr ++ w).
Proof.
  intros W (u & e & m1 & m2 & -> & H & S). exists u, e, m1, (m2 ++ w). split; [by rewrite <- !app_assoc; cbn; rewrite <- app_assoc|]. split; [|done]. rewrite app_assoc, eventsIn_app, H, W. done.
Qed.
Definition Sn (c : cfg) (s : st) : Prop :=
  (match fp s with FIdle | FChecked _ => n_ev (nodes s (onDeck s)) <> 0 -> seen c (txn s (onDeck s)) (trace s) | _ => True end) /\
  forall u t e m e' v, trace s = u ++ EvAdd t e :: m ++ EvAdd t e' :: v -> eventsIn t m = [] -> exists m1 m2, m = m1 ++ m2 /\ size t (u ++ EvAdd t e :: m1) <> maxBatch c.

Lemma last_event t tr : eventsIn t tr <> [] -> exists u e m, tr = u ++ EvAdd t e :: m /\ eventsIn t m = [].
Proof.
  induction tr as [|x tr IH] using rev_ind; [done|]. rewrite eventsIn_app. intros H. destruct (decide (eventsIn t [x] = [])) as [E|E].
  - rewrite E, app_nil_r in H. destruct (IH H) as (u & e & m & -> & M). exists u, e, (m ++ [x]). split; [by rewrite <- app_assoc|]. by rewrite eventsIn_app, M, E.
  - destruct x as [| | |t1 e1| | | | | |]; try done. unfold eventsIn in E. cbn in E. case_decide; [|done]. subst t1. exists tr, e1, []. done.
Qed.
Lemma deck_size c s : Inv c s -> fp s <> FPop -> n_ev (nodes s (onDeck s)) <> 0 -> size (txn s (onDeck s)) (trace s) = full (nodes s (onDeck s)).
Proof.
  intros J Ef E0. pose proof (i_str _ _ J) as I. assert (onDeck s ∈ busy s) as Hb. { apply elem_busy. split; [done|]. rewrite (deck_pipe s) by congruence. apply elem_of_app. right. by left. }
  unfold size, full. rewrite eventsIn_eq, recordsIn_eq, map_length. f_equal; symmetry; [by apply (str_nev _ _ I)|exact (own_prod _ (i_own _ _ J) _ Hb)].
Qed.
Lemma seen_now c s : Inv c s -> fp s <> FPop -> n_ev (nodes s (onDeck s)) <> 0 -> full (nodes s (onDeck s)) <> maxBatch c -> seen c (txn s (onDeck s)) (trace s).
Proof.
  intros J Ef E0 F. rewrite <- (deck_size c s J Ef E0) in F. destruct (last_event (txn s (onDeck s)) (trace s)) as (u & e & m & E & M).
  - rewrite eventsIn_eq. assert (onDeck s ∈ busy s) as Hb. { apply elem_busy. split; [done|]. rewrite (deck_pipe s) by congruence. apply elem_of_app. right. by left. }
    pose proof (str_nev _ _ (i_str _ _ J) _ Hb) as L. unfold evs in L. intros X. rewrite X in L. cbn in L. lia.
  - exists u, e, m, []. rewrite app_nil_r. split; [done|]. split; [done|]. by rewrite <- E.
Qed.
Lemma pair_app c tr w : added w = [] -> (forall u t e m e' v, tr = u ++ EvAdd t e :: m ++ EvAdd t e' :: v -> eventsIn t m = [] -> exists m1 m2, m = m1 ++ m2 /\ size t (u ++ EvAdd t e :: m1) <> maxBatch c) ->
  forall u t e m e' v, tr ++ w = u ++ EvAdd t e :: m ++ EvAdd t e' :: v -> eventsIn t m = [] -> exists m1 m2, m = m1 ++ m2 /\ size t (u ++ EvAdd t e :: m1) <> maxBatch c.
Proof.
  intros W H u t e m e' v E M. assert (exists l, v = l ++ w /\ tr = u ++ EvAdd t e :: m ++ EvAdd t e' :: l) as (l & _ & Et); [|by eapply H].
  replace (u ++ EvAdd t e :: m ++ EvAdd t e' :: v) with ((u ++ EvAdd t e :: m) ++ EvAdd t e' :: v) in E by (by rewrite <- app_assoc).
  apply app_eq_app in E as (l & [[E1 E]|[E1 E]]).
  - destruct l as [|y l]; cbn in E; [|injection E as <- E; exists l; split; [done|]; rewrite E1; by rewrite <- app_assoc].
    subst w. exfalso. assert ((t, e') ∈ added (EvAdd t e' :: v)) as Hin by (apply elem_added; by left). rewrite W in Hin. by apply elem_of_nil in Hin.
  - exfalso. subst w. assert ((t, e') ∈ added (l ++ EvAdd t e' :: v)) as Hin by (apply elem_added, elem_of_app; right; by left). rewrite W in Hin. by apply elem_of_nil in Hin.
Qed.
Lemma Sn_step c s a s' : valid c -> Inv c s -> Sn c s -> step c s a = Some s' -> a <> KSkip -> Sn c s'.
Proof.
  intros V J [L1 L2] H Ha. pose proof (i_str _ _ J) as I.
  assert (forall s2 w, s2 = s' -> trace s2 = trace s ++ w -> added w = [] -> (fp s2 = fp s) -> (fp s2 <> FPop -> onDeck s2 = onDeck s /\ n_ev (nodes s2 (onDeck s)) = n_ev (nodes s (onDeck s)) /\ n_txn (nodes s2 (onDeck s)) = n_txn (nodes s (onDeck s))) -> Sn c s2) as FR.
  { intros s2 w -> E W E2 E3. split; [|rewrite E; by apply pair_app]. rewrite E2. destruct (fp s) eqn:Ef; try done. all: destruct E3 as (-> & E4 & E5); [by rewrite E2|]; unfold txn; rewrite E4, E5, E; intros X; (apply seen_app; [by apply eventsIn_other|by apply L1]). }
  assert (forall s2 w, s2 = s' -> trace s2 = trace s ++ w -> added w = [] -> (match fp s2 with FIdle | FChecked _ => n_ev (nodes s2 (onDeck s2)) <> 0 -> seen c (txn s2 (onDeck s2)) (trace s2) | _ => True end) -> Sn c s2) as FR1.
  { intros s2 w -> E W E2. split; [done|rewrite E; by apply pair_app]. }
  assert (forall s2, s2 = s' -> trace s2 = trace s -> (match fp s2 with FIdle | FChecked _ => n_ev (nodes s2 (onDeck s2)) <> 0 -> seen c (txn s2 (onDeck s2)) (trace s2) | _ => True end) -> Sn c s2) as FR0.
  { intros s2 -> E E2. apply (FR1 _ []); try done. by rewrite app_nil_r. }
  destruct a; cbn [step] in H.
  - case_decide; try done; injection H as <-; eapply FR; [done|cbn; reflexivity|done..].
  - case_decide; try done; injection H as <-; eapply FR; [done|cbn; reflexivity|done..].
  - case_decide; try done; injection H as <-; eapply (FR _ []); [done|cbn; by rewrite app_nil_r|done..].
  - case_decide; try done; injection H as <-; eapply FR; [done|cbn; reflexivity|done..].
  - case_decide as D; [|done]. injection H as <-. rewrite produceRecord_eq in *. eapply FR; [done|cbn; reflexivity|by apply prod_w_other|done|]. intros _. split; [done|]. cbn. unfold upd. destruct (decide (onDeck s = n)) as [<-|]; done.
  - case_decide; try done; injection H as <-; eapply FR; [done|cbn; reflexivity|done..].
  - destruct (fp s) eqn:Ef; try done. destruct (buffer s) as [|e b] eqn:Eb; [done|]. injection H as <-. case_decide; (eapply FR1; [done|cbn; reflexivity|done|cbn; rewrite ?Ef; intros X; apply seen_app; [done|by apply L1]]).
  - assert (exists e, fp s = FChecked e /\ s' = set_fp (FAdded e) (addEc e s)) as (e & Ef & ->).
    { destruct (fp s); try done. destruct (kp s); try done; injection H as <-; eauto 10. } clear H FR FR0 FR1.
    set (x := nodes s (onDeck s)) in *. set (t := if n_ev x =? 0 then ntxn s else n_txn x).
    assert (trace (set_fp (FAdded e) (addEc e s)) = trace s ++ [EvAdd t e]) as Et by (unfold addEc; case_decide; done).
    split; [done|]. rewrite Et. intros u t0 e0 m e1 v E M. rewrite Ef in L1.
    destruct v as [|y v] using rev_ind.
    + replace (u ++ EvAdd t0 e0 :: m ++ [EvAdd t0 e1]) with ((u ++ EvAdd t0 e0 :: m) ++ [EvAdd t0 e1]) in E by (by rewrite <- app_assoc). apply app_inj_tail in E as [E E']. injection E' as <- <-.
      destruct (Nat.eqb_spec (n_ev x) 0) as [E0|E0].
      * exfalso. assert ((t, e0) ∈ added (trace s)) as Hin by (apply elem_added; rewrite E, elem_of_app; right; by left). apply (str_lt _ _ I) in Hin. unfold t in Hin. lia.
      * destruct (L1 E0) as (u' & e' & m1 & m2 & E2 & M2 & S). change (txn s (onDeck s)) with t in *.
        assert (forall (u u' m m' : list ev) e e', u ++ EvAdd t e :: m = u' ++ EvAdd t e' :: m' -> eventsIn t m = [] -> eventsIn t m' = [] -> u = u' /\ e = e' /\ m = m') as Uq.
        { intros a1 a2 b1 b2 f1 f2 Eq Z1 Z2. assert (forall (b : list ev) f, eventsIn t b = [] -> EvAdd t f ∉ b) as No.
          { intros b f Z In. apply elem_of_list_split in In as (c1 & c2 & ->). rewrite eventsIn_app in Z. apply app_eq_nil in Z as [_ Z]. unfold eventsIn in Z. cbn in Z. by rewrite decide_True in Z. }
          apply app_eq_app in Eq as (l & [[Q1 Q2]|[Q1 Q2]]); destruct l as [|z l]; cbn in Q2; [injection Q2 as -> ->; rewrite app_nil_r in Q1; done| |injection Q2 as -> ->; rewrite app_nil_r in Q1; done|].
          - injection Q2 as <- Q2. exfalso. eapply (No b2); [exact Z2|]. rewrite Q2, elem_of_app. right. by left.
          - injection Q2 as <- Q2. exfalso. eapply (No b1); [exact Z1|]. rewrite Q2, elem_of_app. right. by left. }
        rewrite E in E2. destruct (Uq _ _ _ _ _ _ E2 M M2) as (-> & -> & ->). exists m1, m2. done.
    + replace (u ++ EvAdd t0 e0 :: m ++ EvAdd t0 e1 :: v ++ [y]) with ((u ++ EvAdd t0 e0 :: m ++ EvAdd t0 e1 :: v) ++ [y]) in E by (rewrite <- !app_assoc; cbn; by rewrite <- app_assoc). apply app_inj_tail in E as [E _]. by eapply L2.
  - destruct (fp s) eqn:Ef; try done. injection H as <-. unfold claim in *. destruct (owners s (e_p e)); (apply FR0; [done|done|done]).
  - destruct (fp s) eqn:Ef; try done. injection H as <-. by apply FR0.
  - destruct (fp s) eqn:Ef; try done. injection H as <-. destruct (Nat.leb_spec (target c) (full (nodes s (onDeck s)))) as [Hl|Hl]; apply FR0; try done. cbn. intros X. apply (seen_now c s J); [by rewrite Ef|done|]. destruct V as (_ & _ & _ & V). lia.
  - destruct (fp s) eqn:Ef; try done. injection H as <-. by apply FR0.
  - destruct (fp s) eqn:Ef; try done. injection H as <-. destruct (Nat.eqb_spec (full (nodes s (onDeck s))) (maxBatch c)) as [E|E]; [by apply FR0|].
    repeat case_match; apply FR0; try done; cbn; intros X; (apply (seen_now c s J); [by rewrite Ef|done|done]).
  - destruct (fp s) eqn:Ef; try done. destruct (length (queue s) <? pendingTxn c); [|done]. injection H as <-. by apply FR0.
  - destruct (fp s) eqn:Ef; try done. destruct (freeq s) as [|m q] eqn:Eq; [done|]. injection H as <-. apply FR0; try done. cbn. intros X. destruct X.
    apply (str_free _ _ I). rewrite Eq. by left.
  - destruct (kp s) eqn:Ek; try done. destruct (queue s) as [|n q] eqn:Eq; [done|]. injection H as <-. eapply FR; [done|cbn; reflexivity|apply sendAll_other|done..].
  - destruct (kp s) as [|n [|] ? ?| | | ] eqn:Ek; try done. case_decide; [|done]. injection H as <-. eapply (FR _ []); [done|cbn; by rewrite app_nil_r|done..].
  - destruct (kp s) as [|n [|e cur] marked todo| | | ] eqn:Ek; try done. case_decide as D; [|done].
    destruct marked, (e_off e) as [o|]; injection H as <-; try (eapply (FR _ []); [done|cbn; by rewrite app_nil_r|done..]).
    rewrite produceRecord_eq in *. eapply FR; [done|cbn; reflexivity|by apply prod_w_other|done|]. intros _. split; [done|]. cbn. unfold upd. destruct (decide (onDeck s = n)) as [<-|]; done.
  - destruct (kp s) as [|n [|] ? [|]| | | ] eqn:Ek; try done. injection H as <-. destruct (releaseRoots_frame (n_ecs (nodes s n)) (parts (n_ecs (nodes s n))) s) as [w Ew]. rewrite Ew in *. eapply FR; [done|cbn; reflexivity|done..].
  - destruct (kp s) eqn:Ek; try done. injection H as <-. eapply (FR _ []); [done|cbn; by rewrite app_nil_r|done..].
  - destruct (kp s) as [| | |n todo|] eqn:Ek; try done. case_decide as D; [|done]. injection H as <-. unfold relinquish in *.
    destruct (List.find (holds s p) (ring (poolSize c) n)) as [m|] eqn:Em.
    + eapply FR; [done|cbn; reflexivity|apply sendAll_other|done|]. intros _. split; [done|]. cbn. unfold upd. repeat case_decide; subst; done.
    + eapply (FR _ []); [done|cbn; by rewrite app_nil_r|done|done|]. intros _. split; [done|]. cbn. unfold upd. repeat case_decide; subst; done.
  - destruct (kp s) as [| | |n [|]|] eqn:Ek; try done. injection H as <-. assert (kn s = [n]) as K by (unfold kn; by rewrite Ek). eapply (FR _ []); [done|cbn; by rewrite app_nil_r|done|done|]. intros Hf. split; [done|]. cbn. rewrite upd_ne; [done|]. apply not_eq_sym. by apply (not_head_deck c s n I K).
  - destruct (kp s) as [|n cur m todo| | | ] eqn:Ek; try done. destruct (ok && _); [done|]. injection H as <-. eapply FR; [done|cbn; reflexivity|done..].
  - done.
Qed.
Theorem batch_checked c acts s u t e m e' v : valid c -> noSkip acts -> run c (start c) acts = Some s -> trace s = u ++ EvAdd t e :: m ++ EvAdd t e' :: v -> eventsIn t m = [] ->
  exists m1 m2, m = m1 ++ m2 /\ size t (u ++ EvAdd t e :: m1) <> maxBatch c.
Proof.
  intros V N R. assert (Inv c s /\ Sn c s) as [_ [_ L]]; [|apply L]. 
  eapply (run_ind c (fun s => Inv c s /\ Sn c s) (fun a => a <> KSkip)); [| |exact N|exact R].
  - split; [constructor; [by apply Str_start|apply Giv_start|apply Own_start|apply Fin_start]|]. split; [by cbn|]. intros u0 t0 e0 m0 e1 v0 E. cbn in E. by destruct u0.
  - intros s1 a s2 [J L] Ha H. split; [by apply (Inv_step c s1 a s2)|]. by apply (Sn_step c s1 a s2).
Qed.
