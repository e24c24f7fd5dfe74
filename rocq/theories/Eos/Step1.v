(** Every step preserves the structural invariant and the one about handlers. *)
From stdpp Require Import prelude list sorting.
From Coq Require Import ZArith.
From Verif.Eos Require Import Model Base Struct Struct2.
Open Scope nat_scope.

Ltac quiet I := eapply Str_quiet; [exact I|..]; try done; try apply I.
Ltac str_inv := repeat match goal with
  | H : Some _ = Some _ |- _ => injection H as H
  | H : None = Some _ |- _ => discriminate H
  | H : context [match ?x with _ => _ end] |- _ => let E := fresh "E" in destruct x eqn:E
  end.

Lemma Str_step c s a s' : valid c -> Str c s -> Giv s -> a <> KSkip -> step c s a = Some s' -> Str c s'.
Proof.
  intros V I G Ha H. destruct a; cbn [step] in H.
  - str_inv. subst s'. quiet I; cbn; trs; try done.
    + intros; auto.
    + apply I.
    + rewrite (str_arr _ _ I). by rewrite app_assoc.
    + rewrite map_app, (str_ids _ _ I). symmetry. apply (seq_S (narr s) 0).
  - str_inv. subst s'. quiet I; cbn; trs; try done; try apply I. auto.
  - str_inv. subst s'. quiet I. auto.
  - str_inv. subst s'. quiet I; cbn; trs; try done; try apply I. auto.
  - case_decide as D; [|done]. injection H as <-. destruct D as [D1 D2]. apply Str_produce; [done|]. apply (giv_busy _ G) in D1 as (D1 & _); [|done]. by apply elem_busy in D1 as [? _].
  - str_inv. subst s'. quiet I; cbn; trs; try done; try apply I. auto.
  - destruct (fp s) eqn:Ef; try done. destruct (buffer s) as [|e b] eqn:Eb; [done|]. injection H as <-. case_decide.
    + quiet I; cbn; trs; try done; try apply I; auto. rewrite (str_arr _ _ I), Eb. by rewrite <- app_assoc.
    + quiet I; cbn; trs; try done; try apply I; auto.
      * unfold pipe, deck, kn; cbn. by rewrite Ef.
      * rewrite (str_take _ _ I), Ef. by rewrite app_nil_r.
      * rewrite (str_arr _ _ I), Eb. by rewrite <- app_assoc.
  - destruct (fp s) eqn:Ef; try done. destruct (kp s) eqn:Ek; try done; injection H as <-; (apply Str_FAdd; [done|done|congruence]).
  - destruct (fp s) eqn:Ef; try done. injection H as <-. pose proof (str_deck _ _ I) as D. rewrite Ef in D. unfold claim. case_match; quiet I; cbn; try (unfold pipe, deck, kn; cbn; by rewrite Ef); try done; auto.
    all: rewrite (str_take _ _ I), Ef; done.
  - destruct (fp s) eqn:Ef; try done. injection H as <-. pose proof (str_deck _ _ I) as D. rewrite Ef in D. quiet I; cbn; try (unfold pipe, deck, kn; cbn; by rewrite Ef); try done; auto.
    rewrite (str_take _ _ I), Ef; done.
  - destruct (fp s) eqn:Ef; try done. injection H as <-. destruct (target c <=? _); (quiet I; cbn; try (unfold pipe, deck, kn; cbn; by rewrite Ef); try done; auto).
    all: rewrite (str_take _ _ I), Ef; done.
  - destruct (fp s) eqn:Ef; try done. injection H as <-. quiet I; cbn; try (unfold pipe, deck, kn; cbn; by rewrite Ef); try done; auto.
    rewrite (str_take _ _ I), Ef; done.
  - destruct (fp s) eqn:Ef; try done. injection H as <-.
    assert (full (nodes s (onDeck s)) = maxBatch c -> evs s (onDeck s) <> 0) as Hfull.
    { intros F E. destruct (str_idle _ _ I _ E) as (_ & E' & _). unfold full in F. unfold evs in E. rewrite E, E' in F. destruct V as (_ & _ & V). cbn in F. lia. }
    destruct (full (nodes s (onDeck s)) =? maxBatch c) eqn:E1; [apply Nat.eqb_eq in E1; specialize (Hfull E1)|destruct (0 <? n_ev (nodes s (onDeck s))) eqn:E2; [destruct (length (queue s) <? pendingTxn c) eqn:E3|]].
    all: quiet I; cbn; try (unfold pipe, deck, kn; cbn; by rewrite Ef); try done; auto.
    all: try (rewrite (str_take _ _ I), Ef; done).
    + unfold pipe, deck, kn; cbn. rewrite Ef, app_nil_r. done.
    + intros n Hn. change (n ∈ kn s ++ queue s ++ [onDeck s]) in Hn. rewrite app_assoc, elem_of_app, elem_of_list_singleton in Hn. destruct Hn as [Hn | ->]; [by left|right].
      apply Nat.ltb_lt in E2. unfold evs. lia.
  - destruct (fp s) eqn:Ef; try done. pose proof (str_deck _ _ I) as D. rewrite Ef in D. destruct (length (queue s) <? pendingTxn c); [|done]. injection H as <-.
    quiet I; cbn; try (unfold pipe, deck, kn; cbn; by rewrite Ef); try done; auto.
    + unfold pipe, deck, kn; cbn. rewrite Ef, app_nil_r. done.
    + intros n Hn. change (n ∈ kn s ++ queue s ++ [onDeck s]) in Hn. rewrite app_assoc, elem_of_app, elem_of_list_singleton in Hn. destruct Hn as [Hn | ->]; [by left|right]. done.
    + rewrite (str_take _ _ I), Ef; done.
  - destruct (fp s) eqn:Ef; try done. destruct (freeq s) as [|m q] eqn:Eq; [done|]. injection H as <-. by apply Str_swap.
  - destruct (kp s) eqn:Ek; try done. destruct (queue s) as [|n q] eqn:Eq; [done|]. injection H as <-.
    destruct (sendAll_other (n_txn (nodes s n)) (n_pend (nodes s n))) as (W1 & W2 & W3 & W4 & W5 & _ & W7).
    quiet I; cbn; trs; rewrite ?W1, ?W2, ?W3, ?W4, ?W5, ?app_nil_r; try done; try apply I; auto.
    + unfold pipe, deck, kn; cbn. by rewrite Ek, Eq.
    + unfold kn; cbn. rewrite Ek, Eq. cbn. auto.
    + unfold over; cbn. by rewrite Ek.
    + intros. unfold cut; cbn. by rewrite Ek.
  - destruct (kp s) as [|n [|] ? ?| | | ] eqn:Ek; try done. case_decide; [|done]. injection H as <-. apply Str_setkp; unfold pipe, kn, over, cut; cbn; rewrite ?Ek; done.
  - destruct (kp s) as [|n [|e cur] marked todo| | | ] eqn:Ek; try done. case_decide; [|done].
    destruct marked, (e_off e) as [o|]; injection H as <-.
    3: { assert (Str c (addWait (e_w e) (-1) (produceRecord n e (Mark (S o)) s))) as I'.
         { apply Str_addWait, Str_produce; [done|]. apply (str_kq _ _ I). unfold kn. rewrite Ek. by left. }
         rewrite produceRecord_eq in *. apply Str_setkp; [exact I'|..]; unfold pipe, kn, over, cut; cbn; rewrite ?Ek; done. }
    all: apply Str_setkp; [by apply Str_addWait|..]; unfold pipe, kn, over, cut; cbn; rewrite ?Ek; done.
  - destruct (kp s) as [|n [|] ? [|]| | | ] eqn:Ek; try done. injection H as <-. destruct (releaseRoots_frame (n_ecs (nodes s n)) (parts (n_ecs (nodes s n))) s) as [w ->].
    eapply Str_end; eauto.
  - destruct (kp s) eqn:Ek; try done. injection H as <-. by apply Str_lock.
  - destruct (kp s) eqn:Ek; try done. case_decide; [|done]. injection H as <-. by apply Str_relinq.
  - destruct (kp s) as [| | |n [|]|] eqn:Ek; try done. injection H as <-. by apply Str_free.
  - destruct (kp s) as [|n cur m todo| | | ] eqn:Ek; try done. destruct (ok && _); [done|]. injection H as <-.
    replace (emit (EvEnd (n_txn (nodes s n)) ok) s) with (emit (EvEnd (txn s n) ok) (set_waits (waits s) s)) by (by destruct s). eapply Str_end; eauto.
  - done.
Qed.

Lemma busy_same s s' : pipe s' = pipe s -> (forall n, evs s' n = evs s n) -> busy s' = busy s.
Proof. intros E H. unfold busy. rewrite E. apply list_filter_iff. intros n. by rewrite H. Qed.

Lemma Giv_frame s s' : Giv s -> given s' = given s -> done s' = done s -> onDeck s' = onDeck s ->
  (forall n, n ∈ busy s -> n ∈ busy s') -> (forall n e, n ∈ busy s -> e ∈ n_ecs (nodes s n) -> e ∈ n_ecs (nodes s' n)) ->
  match kp s' with KEnded m | KRel m _ => match kp s with KEnded m' | KRel m' _ => m = m' | _ => False end | _ => True end ->
  match kp s' with KFin n cur _ todo => forall e, e ∈ n_ecs (nodes s' n) -> e ∈ done s \/ e ∈ cur \/ e_p e ∈ todo | _ => True end ->
  match fp s' with FAdded e | FOwned e => e ∈ n_ecs (nodes s' (onDeck s)) /\ forall n, (n, e) ∉ given s | _ => True end ->
  added (trace s') = added (trace s) -> dones (trace s') = dones (trace s) -> Giv s'.
Proof.
  intros G E1 E2 E3 Hb He Hk Hf Hp Ea Ed. constructor.
  - intros n e H1 H2. rewrite E1 in H1. rewrite E2 in H2. destruct (giv_busy _ G n e H1 H2) as (B1 & B2 & B3). split; [auto|]. split; [auto|].
    destruct (kp s'); try done; destruct (kp s); by subst.
  - destruct (kp s'); try done. rewrite E2. done.
  - rewrite E3, E1. destruct (fp s'); done.
  - intros n e. rewrite E1, Ea. apply G.
  - intros e. rewrite E2, Ed. apply G.
Qed.

Lemma dones_sendAll t l : dones (sendAll t l) = [] /\ added (sendAll t l) = [].
Proof. destruct (sendAll_other t l) as (_ & _ & _ & ? & _ & _ & ?). done. Qed.

Lemma Giv_step c s a s' : Str c s -> Str c s' -> Giv s -> step c s a = Some s' -> a <> KSkip -> Giv s'.
Proof.
  intros I I' G H Ha. pose proof (giv_fp _ G) as Gp. pose proof (giv_fin _ G) as Gf.
  assert (forall s2, s2 = s' -> fp s2 = fp s -> kp s2 = kp s -> given s2 = given s -> done s2 = done s -> onDeck s2 = onDeck s -> (forall n, n ∈ busy s -> n ∈ busy s2) ->
    (forall n, n_ecs (nodes s2 n) = n_ecs (nodes s n)) -> added (trace s2) = added (trace s) -> dones (trace s2) = dones (trace s) -> Giv s2) as FR.
  { intros s2 -> F1 F2 F3 F4 F5 F6 F7 F8 F9. apply (Giv_frame s); try done.
    - intros n e _. by rewrite F7.
    - rewrite F2. destruct (kp s); done.
    - rewrite F2. destruct (kp s); try done. intros e. rewrite F7. apply Gf.
    - rewrite F1. destruct (fp s); try done; rewrite F7; done. }
  destruct a; cbn [step] in H.
  - case_decide; try done; injection H as <-; apply FR; cbn; trs; done.
  - case_decide; try done; injection H as <-; apply FR; cbn; trs; done.
  - case_decide; try done; injection H as <-; apply FR; cbn; trs; done.
  - case_decide; try done; injection H as <-; apply FR; cbn; trs; done.
  - case_decide as D; [|done]. injection H as <-. destruct (prod_w_other n e (Out r) s) as (_ & _ & _ & W4 & _ & W6). rewrite produceRecord_eq in *.
    assert (forall m, nodes (emits (prod_w n e (Out r) s) (setNode n (prod_x n e (Out r) s) s)) m = if decide (m = n) then prod_x n e (Out r) s else nodes s m) as En by done.
    apply FR; try done.
    + intros m Hm. erewrite busy_same; [exact Hm|done|]. intros k. unfold evs. rewrite En. case_decide; by subst.
    + intros m. rewrite En. case_decide; by subst.
    + cbn -[prod_w]. rewrite added_app, W4, app_nil_r. done.
    + cbn -[prod_w]. rewrite dones_app, W6, app_nil_r. done.
  - case_decide as D; [|done]. injection H as <-. constructor; cbn.
    + intros n' e' H1 H2. apply not_elem_of_cons in H2 as [H2 H3]. apply (giv_busy _ G n' e' H1 H3).
    + destruct (kp s); try done. intros e' He. destruct (Gf e' He) as [?|?]; [left; by right|by right].
    + done.
    + intros n' e'. trs. apply G.
    + intros e'. trs. change (dones [EvDone e]) with [e]. rewrite elem_of_cons, elem_of_app, elem_of_list_singleton. rewrite (giv_done _ G). tauto.
  - destruct (fp s) eqn:Ef; try done. destruct (buffer s) as [|e b] eqn:Eb; [done|]. injection H as <-. case_decide.
    + apply FR; cbn; trs; done.
    + apply (Giv_frame s); cbn; trs; try done.
      * intros n Hn. erewrite busy_same; [exact Hn| |done]. unfold pipe, deck, kn; cbn. by rewrite Ef.
      * destruct (kp s); done.
  - assert (exists e, fp s = FChecked e /\ s' = set_fp (FAdded e) (addEc e s) /\ forall n l, kp s <> KRel n l) as (e & Ef & -> & Hk).
    { destruct (fp s); try done. destruct (kp s); try done; injection H as <-; eauto 10. } clear FR H.
    assert (forall n, n <> onDeck s -> nodes (set_fp (FAdded e) (addEc e s)) n = nodes s n) as Ho.
    { intros n Hn. unfold addEc. case_decide; cbn; by rewrite upd_ne. }
    assert (n_ecs (nodes (set_fp (FAdded e) (addEc e s)) (onDeck s)) = n_ecs (nodes s (onDeck s)) ++ [e] /\ evs (set_fp (FAdded e) (addEc e s)) (onDeck s) <> 0) as [Ee Hn].
    { unfold addEc, evs. case_decide; cbn; by rewrite upd_eq. }
    assert (pipe (set_fp (FAdded e) (addEc e s)) = pipe s) as Ep. { unfold pipe, deck, kn, addEc. case_decide; cbn; by rewrite Ef. }
    assert (given (set_fp (FAdded e) (addEc e s)) = given s /\ done (set_fp (FAdded e) (addEc e s)) = done s /\ onDeck (set_fp (FAdded e) (addEc e s)) = onDeck s /\ kp (set_fp (FAdded e) (addEc e s)) = kp s /\
      exists t, trace (set_fp (FAdded e) (addEc e s)) = trace s ++ [EvAdd t e]) as (E1 & E2 & E3 & E4 & t & E5).
    { unfold addEc. case_decide; cbn; eauto 10. }
    set (s' := set_fp _ _) in *.
    assert (forall n, n ∈ busy s -> n ∈ busy s') as Hb.
    { intros n. rewrite !elem_busy, Ep. intros [B1 B2]. split; [|done]. destruct (decide (n = onDeck s)) as [->|Hd]; [done|]. unfold evs. by rewrite Ho. }
    assert (forall n x, x ∈ n_ecs (nodes s n) -> x ∈ n_ecs (nodes s' n)) as Hs.
    { intros n x Hx. destruct (decide (n = onDeck s)) as [->|Hd]; [rewrite Ee, elem_of_app; by left|by rewrite Ho]. }
    constructor.
    + rewrite E1, E2, E4. intros n x H1 H2. destruct (giv_busy _ G n x H1 H2) as (B1 & B2 & B3). auto.
    + rewrite E4. destruct (kp s) as [|n ? ? ?| | |] eqn:Ek; try done. rewrite E2. intros x Hx. apply Gf. rewrite Ho in Hx; [done|]. intros ->.
      pose proof (Str_nodup_pipe _ _ I) as ND. rewrite deck_pipe in ND by congruence. apply NoDup_app in ND as (_ & ND & _). apply (ND (onDeck s)); [|by apply elem_of_list_singleton].
      unfold kn. rewrite Ek. by left.
    + change (fp s') with (FAdded e). cbn iota. rewrite E1, E3, Ee. split; [rewrite elem_of_app, elem_of_list_singleton; by right|].
      intros n Hg. apply (giv_added _ G) in Hg. pose proof (str_take _ _ I) as T. rewrite Ef in T.
      assert (NoDup (arrs (trace s))) as ND. { eapply (NoDup_fmap_1 e_id). change (NoDup (map e_id (arrs (trace s)))). rewrite (str_ids _ _ I). apply NoDup_seq. }
      assert (NoDup (takes (trace s))) as ND'.
      { rewrite (str_arr _ _ I) in ND. apply NoDup_app in ND as (ND & _). eapply sublist_nodup; [|exact ND]. clear. induction (trace s) as [|x l IH]; [constructor|].
        destruct x; cbn; unfold takes, taken in *; cbn; try done; by constructor. }
      rewrite T in ND'. apply NoDup_app in ND' as (_ & ND' & _). apply (ND' e Hg). by apply elem_of_list_singleton.
    + rewrite E1, E5. intros n x H. trs. rewrite map_app, elem_of_app. left. by eapply (giv_added _ G).
    + rewrite E2, E5. intros x. trs. apply G.
  - destruct (fp s) eqn:Ef; try done. injection H as <-.
    unfold claim. destruct (owners s (e_p e)).
    all: apply (Giv_frame s); cbn; trs; try done.
    all: try (intros n' Hn; erewrite busy_same; [exact Hn| |done]; unfold pipe, deck, kn; cbn; by rewrite Ef).
    all: destruct (kp s); done.
  - destruct (fp s) eqn:Ef; try done. injection H as <-. pose proof (str_deck _ _ I) as D. rewrite Ef in D.
    assert (busy (set_fp FTried (set_given ((onDeck s, e) :: given s) s)) = busy s) as Eb. { apply busy_same; [|done]. unfold pipe, deck, kn; cbn. by rewrite Ef. }
    constructor; cbn.
    + rewrite Eb. intros n e' H1 H2. apply elem_of_cons in H1 as [H1|H1]; [|by apply (giv_busy _ G)].
      injection H1 as -> ->. split; [|split; [apply Gp|]].
      * apply elem_busy. split; [done|]. rewrite deck_pipe by congruence. rewrite elem_of_app, elem_of_list_singleton. by right.
      * pose proof (Str_nodup_pipe _ _ I) as ND. rewrite deck_pipe in ND by congruence. apply NoDup_app in ND as (_ & ND & _). unfold kn in ND.
        destruct (kp s); try done; intros <-; (apply (ND (onDeck s)); [by left|by apply elem_of_list_singleton]).
    + done.
    + done.
    + intros n e' H1. apply elem_of_cons in H1 as [H1|H1]; [|by apply (giv_added _ G n)]. injection H1 as -> ->.
      destruct Gp as [Gp _]. assert (onDeck s ∈ busy s) as Hb. { apply elem_busy. split; [done|]. rewrite deck_pipe by congruence. rewrite elem_of_app, elem_of_list_singleton. by right. }
      rewrite (str_adds _ _ I _ Hb) in Gp. assert (e ∈ adds (txn s (onDeck s)) (trace s)) as Gp'.
      { unfold cut in Gp. destruct (kp s); try done. case_decide; [|done]. apply elem_of_list_filter in Gp. apply Gp. }
      apply elem_of_txn in Gp'. apply elem_of_list_fmap. by exists (txn s (onDeck s), e).
    + apply G.
  - destruct (fp s) eqn:Ef; try done. injection H as <-. apply (Giv_frame s); cbn; trs; try done.
    + intros n Hn. erewrite busy_same; [exact Hn| |done]. unfold pipe, deck, kn; cbn. rewrite Ef. by destruct (target c <=? _).
    + destruct (kp s); done.
    + by destruct (target c <=? _).
  - destruct (fp s) eqn:Ef; try done. injection H as <-. apply (Giv_frame s); cbn; trs; try done.
    + intros n Hn. erewrite busy_same; [exact Hn| |done]. unfold pipe, deck, kn; cbn. by rewrite Ef.
    + destruct (kp s); done.
  - destruct (fp s) eqn:Ef; try done. injection H as <-.
    destruct (full (nodes s (onDeck s)) =? maxBatch c) eqn:E1; [|destruct (0 <? n_ev (nodes s (onDeck s))) eqn:E2; [destruct (length (queue s) <? pendingTxn c) eqn:E3|]].
    all: apply (Giv_frame s); cbn; trs; try done.
    all: try (intros n Hn; erewrite busy_same; [exact Hn| |done]; unfold pipe, deck, kn; cbn; rewrite Ef, ?app_nil_r; done).
    all: destruct (kp s); done.
  - destruct (fp s) eqn:Ef; try done. destruct (length (queue s) <? pendingTxn c); [|done]. injection H as <-.
    all: apply (Giv_frame s); cbn; trs; try done.
    all: try (intros n Hn; erewrite busy_same; [exact Hn| |done]; unfold pipe, deck, kn; cbn; rewrite Ef, ?app_nil_r; done).
    all: destruct (kp s); done.
  - destruct (fp s) eqn:Ef; try done. destruct (freeq s) as [|m q] eqn:Eq; [done|]. injection H as <-.
    assert (forall n, n ∈ busy s -> n ∈ busy (set_fp FIdle (set_onDeck m (set_freeq q s)))) as Hb.
    { intros n. rewrite !elem_busy. intros [? B]. split; [done|]. unfold pipe, deck in *; cbn. rewrite Ef in B. rewrite app_nil_r in B. change (n ∈ kn s ++ queue s ++ [m]). rewrite app_assoc, elem_of_app. by left. }
    constructor; cbn; try done; try apply G.
    intros n e H1 H2. destruct (giv_busy _ G n e H1 H2) as (B1 & B2 & B3). auto.
  - destruct (kp s) eqn:Ek; try done. destruct (queue s) as [|n q] eqn:Eq; [done|]. injection H as <-.
    destruct (dones_sendAll (n_txn (nodes s n)) (n_pend (nodes s n))) as (W1 & W2).
    apply (Giv_frame s); cbn; trs; rewrite ?W1, ?W2, ?app_nil_r; try done.
    + intros m Hm. erewrite busy_same; [exact Hm| |done]. unfold pipe, deck, kn; cbn. by rewrite Ek, Eq.
    + intros e He. right. right. apply elem_parts. eauto.
  - destruct (kp s) as [|n [|] marked todo| | | ] eqn:Ek; try done. case_decide; [|done]. injection H as <-.
    apply (Giv_frame s); cbn; trs; try done.
    + intros m Hm. rewrite busy_setkp; [done|]. unfold kn. by rewrite Ek.
    + intros e He. destruct (Gf e He) as [?|[Hn|Hp]]; [auto|by apply elem_of_nil in Hn|].
      destruct (decide (e_p e = p)) as [Ep|Ep].
      * right. left. apply elem_of_list_In. apply -> in_rev. apply elem_of_list_In. unfold ofPart. apply elem_of_list_filter. done.
      * right. right. apply elem_of_list_filter. done.
  - destruct (kp s) as [|n [|e cur] marked todo| | | ] eqn:Ek; try done. case_decide as D; [|done].
    assert (forall w b, Giv (set_kp (KFin n cur b todo) (set_waits w s))) as GG.
    { intros w b. apply (Giv_frame s); cbn; trs; try done.
      - intros m Hm. rewrite busy_setkp; [done|]. unfold kn; cbn. by rewrite Ek.
      - intros e' He. destruct (Gf e' He) as [?|[Hn|Hp]]; [auto| |auto]. apply elem_of_cons in Hn as [->|Hn]; auto. }
    destruct marked, (e_off e) as [o|]; injection H as <-; try apply GG.
    destruct (prod_w_other n e (Mark (S o)) s) as (_ & _ & _ & W4 & _ & W6). rewrite produceRecord_eq in *.
    assert (forall m, n_ecs (upd n (prod_x n e (Mark (S o)) s) (nodes s) m) = n_ecs (nodes s m)) as En by (intros m; unfold upd; case_decide; by subst).
    apply (Giv_frame s); cbn -[prod_w]; rewrite ?added_app, ?dones_app, ?W4, ?W6, ?app_nil_r; try done.
    + intros m Hm. rewrite busy_setkp; [|unfold kn; cbn; by rewrite Ek]. erewrite busy_same; [exact Hm|reflexivity|].
      intros k. unfold evs; cbn. unfold upd. case_decide; by subst.
    + intros m x _. by rewrite En.
    + intros x. rewrite En. intros Hx. destruct (Gf x Hx) as [?|[Hn|Hp]]; [auto| |auto]. apply elem_of_cons in Hn as [->|Hn]; auto.
    + destruct (fp s); try done; rewrite En; done.
  - destruct (kp s) as [|n [|] ? [|]| | | ] eqn:Ek; try done. injection H as <-. destruct (releaseRoots_frame (n_ecs (nodes s n)) (parts (n_ecs (nodes s n))) s) as [w Ew]. rewrite Ew in *.
    constructor; cbn.
    + intros m e H1 H2. destruct (giv_busy _ G m e H1 H2) as (B1 & B2 & B3). split; [|split; [done|]].
      * rewrite busy_setkp; [done|]. unfold kn; cbn. by rewrite Ek.
      * intros ->. destruct (Gf e B2) as [?|[Hn|Hn]]; [done|by apply elem_of_nil in Hn..].
    + done.
    + done.
    + intros m e. trs. apply G.
    + intros e. trs. apply G.
  - destruct (kp s) eqn:Ek; try done. injection H as <-. apply (Giv_frame s); cbn; trs; try done.
    + intros m Hm. rewrite busy_setkp; [done|]. unfold kn; cbn. by rewrite Ek.
    + by rewrite Ek.
  - destruct (kp s) eqn:Ek; try done. case_decide; [|done]. injection H as <-.
    assert (kn s = [n]) as K by (unfold kn; by rewrite Ek).
    destruct (relinquish_frame (poolSize c) n p s) as (nd & ow & w & Er & (W1 & W2 & W3 & W4 & W5 & W6 & W7) & Hnd); [by eapply head_ring|]. rewrite Er in *.
    assert (forall m x, m <> n -> x ∈ n_ecs (nodes s m) -> x ∈ n_ecs (nd m)) as Hs. { intros m x Hm Hx. destruct (Hnd m) as (_ & _ & _ & -> & _). by rewrite decide_False. }
    assert (fp s <> FPop -> onDeck s <> n) as Hd.
    { intros Hf <-. pose proof (Str_nodup_pipe _ _ I) as ND. rewrite deck_pipe in ND by congruence. apply NoDup_app in ND as (_ & ND & _). apply (ND (onDeck s)); [rewrite K; by left|by apply elem_of_list_singleton]. }
    constructor; cbn.
    + intros m e H1 H2. destruct (giv_busy _ G m e H1 H2) as (B1 & B2 & B3). rewrite Ek in B3. split; [|split; [by apply Hs|done]].
      rewrite busy_setkp; [|unfold kn; cbn; by rewrite Ek]. erewrite busy_same; [exact B1|reflexivity|]. intros j. unfold evs; cbn. apply (Hnd j).
    + done.
    + destruct (fp s); try done; (split; [|apply Gp]); (apply Hs; [by apply Hd|apply Gp]).
    + intros m e. rewrite added_app, W4, app_nil_r. apply G.
    + intros e. rewrite dones_app, W7, app_nil_r. apply G.
  - destruct (kp s) as [| | |n [|]|] eqn:Ek; try done. injection H as <-.
    assert (kn s = [n]) as K by (unfold kn; by rewrite Ek).
    assert (fp s <> FPop -> onDeck s <> n) as Hd.
    { intros Hf <-. pose proof (Str_nodup_pipe _ _ I) as ND. rewrite deck_pipe in ND by congruence. apply NoDup_app in ND as (_ & ND & _). apply (ND (onDeck s)); [rewrite K; by left|by apply elem_of_list_singleton]. }
    constructor; cbn; try done; try apply G.
    + intros m e H1 H2. destruct (giv_busy _ G m e H1 H2) as (B1 & B2 & B3). rewrite Ek in B3. apply elem_busy in B1 as [B1 B4].
      rewrite upd_ne by done. split; [|done]. apply elem_busy. unfold evs; cbn. rewrite upd_ne by done. split; [done|]. unfold pipe in *; cbn. rewrite K in B4. cbn in B4. by apply elem_of_cons in B4 as [->|B4].
    + destruct (fp s); try done; (rewrite upd_ne by (by apply Hd)); done.
  - destruct (kp s) as [|n cur m todo| | | ] eqn:Ek; try done. destruct (ok && _); [done|]. injection H as <-.
    apply (Giv_frame s); cbn; trs; try done. intros j Hj. rewrite busy_setkp; [done|]. unfold kn; cbn. by rewrite Ek.
  - done.
Qed.

(** ** reachable states *)
Lemma run_app c s acts acts' : run c s (acts ++ acts') = match run c s acts with Some s' => run c s' acts' | None => None end.
Proof. revert s. induction acts as [|a acts IH]; intros s; cbn; [done|]. destruct (step c s a); [apply IH|done]. Qed.
Lemma run_ind c (P : st -> Prop) (ok : action -> Prop) : P (start c) -> (forall s a s', P s -> ok a -> step c s a = Some s' -> P s') ->
  forall acts s, Forall ok acts -> run c (start c) acts = Some s -> P s.
Proof.
  intros H0 HS acts. induction acts as [|a acts IH] using rev_ind; intros s F H; [cbn in H; by injection H as <-|].
  apply Forall_app in F as [F Fa]. rewrite run_app in H. destruct (run c (start c) acts) as [s1|] eqn:E; [|done]. cbn in H.
  destruct (step c s1 a) as [s2|] eqn:E2; [|done]. injection H as <-. apply (HS s1 a s2); [by apply IH|by inversion Fa|done].
Qed.
(** the error handler never says Continue *)
Definition noSkip (acts : list action) : Prop := Forall (fun a => a <> KSkip) acts.
Lemma Giv_start c : Giv (start c).
Proof. constructor; cbn; try done; intros; try (by apply elem_of_nil in H). Qed.
Lemma Str_run c acts s : valid c -> noSkip acts -> run c (start c) acts = Some s -> Str c s /\ Giv s.
Proof.
  intros V F H. eapply (run_ind c (fun s => Str c s /\ Giv s)); [split; [by apply Str_start|apply Giv_start]| |exact F|exact H].
  intros s1 a s2 [I G] Ha HS. assert (Str c s2) as I' by (apply (Str_step c s1 a s2); done). split; [done|]. apply (Giv_step c s1 a s2); done.
Qed.
