(** Commit records and ended transactions: the invariant is kept by every step, and holds in every state that is reached. *)
From stdpp Require Import prelude list sorting.
From Coq Require Import ZArith.
From Verif.Eos Require Import Model Base Struct Struct2 Step1 Own Own2 Fin Own3 Fin2.
Open Scope nat_scope.

Lemma ofPart_rev p l : ofPart p (rev l) = rev (ofPart p l).
Proof.
  unfold ofPart. induction l as [|e l IH]; [done|]. cbn [rev]. rewrite filter_app, IH. destruct (decide (e_p e = p)).
  - rewrite !(filter_cons_True _ e) by done. done.
  - rewrite !(filter_cons_False _ e) by done. by rewrite filter_nil, app_nil_r.
Qed.
Lemma ofPart_idem p l : ofPart p (ofPart p l) = ofPart p l.
Proof. unfold ofPart. apply filter_id. intros x Hx. apply elem_of_list_filter in Hx. apply Hx. Qed.
Lemma ofPart_ne p q l : p <> q -> ofPart p (ofPart q l) = [].
Proof. intros H. unfold ofPart. apply filter_nil_all. intros x Hx. apply elem_of_list_filter in Hx as [<- _]. done. Qed.
Lemma ofPart_nil p l : p ∉ parts l -> ofPart p l = [].
Proof. intros H. unfold ofPart. apply filter_nil_all. intros x Hx E. apply H, elem_parts. eauto. Qed.
Lemma callsOf_none c s t p : Str c s -> Own s -> ntxn s <= t -> callsOf t p (trace s) = [].
Proof.
  intros I O Ht. apply elem_of_nil_inv. intros [e r] H. unfold callsOf in H. apply elem_of_list_filter in H as [_ H]. apply elem_of_txn in H.
  apply (own_added _ O) in H. apply (str_lt _ _ I) in H. lia.
Qed.
Lemma lastMark_cases l : lastMark l = [] \/ exists w, lastMark l = [w].
Proof. unfold lastMark. destruct (last _); eauto. Qed.

(** while partitions are being finished *)
Lemma Fin_run_step c s a s' : Str c s -> Str c s' -> Giv s -> Own s -> Fin s -> step c s a = Some s' -> a <> KSkip ->
  forall n cur marked todo, kp s' = KFin n cur marked todo ->
    (forall p, p ∈ todo -> marksOf (txn s' n) p (trace s') = []) /\
    (forall e, e ∈ cur -> e_p e ∉ todo) /\
    (forall e e', e ∈ cur -> e' ∈ cur -> e_p e = e_p e') /\
    (forall p, p ∉ todo -> exists wt, ofPart p (n_ecs (nodes s' n)) = rev (ofPart p cur) ++ wt /\ (forall e, e ∈ wt -> e ∈ done s') /\
       marksOf (txn s' n) p (trace s') = lastMark wt /\ (p ∈ map e_p cur -> (marked = true <-> lastMark wt <> []))).
Proof.
  intros I I' G O F H Ha n cur marked todo K'.
  assert (forall s2, s2 = s' -> kp s2 = kp s -> n_ecs (nodes s2 n) = n_ecs (nodes s n) -> txn s2 n = txn s n -> (forall e, e ∈ done s -> e ∈ done s2) ->
    (exists w, trace s2 = trace s ++ w /\ forall t p, marksOf t p w = []) ->
    (forall p, p ∈ todo -> marksOf (txn s2 n) p (trace s2) = []) /\
    (forall e, e ∈ cur -> e_p e ∉ todo) /\
    (forall e e', e ∈ cur -> e' ∈ cur -> e_p e = e_p e') /\
    (forall p, p ∉ todo -> exists wt, ofPart p (n_ecs (nodes s2 n)) = rev (ofPart p cur) ++ wt /\ (forall e, e ∈ wt -> e ∈ done s2) /\
       marksOf (txn s2 n) p (trace s2) = lastMark wt /\ (p ∈ map e_p cur -> (marked = true <-> lastMark wt <> [])))) as FR.
  { intros s2 -> F1 F2 F3 F4 (w & F5 & F6). rewrite F1 in K'. destruct (fin_run _ F _ _ _ _ K') as (R1 & R2 & R3 & R4).
    assert (forall t p, marksOf t p (trace s') = marksOf t p (trace s)) as Hm by (intros t p; rewrite F5, marksOf_app, F6, app_nil_r; done).
    rewrite F2, F3. setoid_rewrite Hm. split; [done|]. split; [done|]. split; [done|]. intros p Hp. destruct (R4 p Hp) as (wt & A1 & A2 & A3 & A4). exists wt. split; [done|]. split; [|done]. auto. }
  assert (forall s2, s2 = s' -> kp s2 = kp s -> nodes s2 = nodes s -> done s2 = done s -> trace s2 = trace s -> 
    (forall p, p ∈ todo -> marksOf (txn s2 n) p (trace s2) = []) /\
    (forall e, e ∈ cur -> e_p e ∉ todo) /\
    (forall e e', e ∈ cur -> e' ∈ cur -> e_p e = e_p e') /\
    (forall p, p ∉ todo -> exists wt, ofPart p (n_ecs (nodes s2 n)) = rev (ofPart p cur) ++ wt /\ (forall e, e ∈ wt -> e ∈ done s2) /\
       marksOf (txn s2 n) p (trace s2) = lastMark wt /\ (p ∈ map e_p cur -> (marked = true <-> lastMark wt <> [])))) as FR0.
  { intros s2 E1 E2 E3 E4 E5. apply FR; try done. - by rewrite E3. - unfold txn. by rewrite E3. - by rewrite E4. - exists []. rewrite app_nil_r. done. }
  destruct a; cbn [step] in H.
  - case_decide; try done; injection H as <-; apply FR; try done; eexists; split; [cbn; reflexivity|by intros; apply marksOf_nil].
  - case_decide; try done; injection H as <-; apply FR; try done; eexists; split; [cbn; reflexivity|by intros; apply marksOf_nil].
  - case_decide; try done; injection H as <-; by apply FR0.
  - case_decide; try done; injection H as <-; apply FR; try done; eexists; split; [cbn; reflexivity|by intros; apply marksOf_nil].
  - case_decide as D; [|done]. injection H as <-. rewrite produceRecord_eq in *. apply FR; try done.
    + cbn. unfold upd. destruct (decide (n = n0)) as [->|]; done.
    + unfold txn. cbn. unfold upd. destruct (decide (n = n0)) as [->|]; done.
    + eexists. split; [reflexivity|]. intros. apply marks_prod_out.
  - case_decide; try done; injection H as <-; apply FR; try done; [intros x Hx; by right|]; eexists; split; [cbn; reflexivity|by intros; apply marksOf_nil].
  - destruct (fp s) eqn:Ef; try done. destruct (buffer s) as [|e b] eqn:Eb; [done|]. injection H as <-. apply FR; try (by case_decide). case_decide; (eexists; split; [cbn; reflexivity|by intros; apply marksOf_nil]).
  - assert (exists e, fp s = FChecked e /\ s' = set_fp (FAdded e) (addEc e s)) as (e & Ef & ->).
    { destruct (fp s); try done. destruct (kp s); try done; injection H as <-; eauto 10. }
    assert (kp (set_fp (FAdded e) (addEc e s)) = kp s) as Ek by (unfold addEc; by case_decide).
    assert (nodes (set_fp (FAdded e) (addEc e s)) n = nodes s n) as Hn.
    { assert (n <> onDeck s) as Hn; [|unfold addEc; case_decide; cbn; by rewrite upd_ne]. rewrite Ek in K'. eapply not_head_deck; [exact I|unfold kn; by rewrite K'|congruence]. }
    apply FR; try done. + by rewrite Hn. + unfold txn. by rewrite Hn. + unfold addEc. by case_decide.
    + unfold addEc. case_decide; (eexists; split; [cbn; reflexivity|by intros; apply marksOf_nil]).
  - destruct (fp s) eqn:Ef; try done. injection H as <-. unfold claim in *. destruct (owners s (e_p e)); by apply FR0.
  - destruct (fp s) eqn:Ef; try done. injection H as <-. by apply FR0.
  - destruct (fp s) eqn:Ef; try done. injection H as <-. by apply FR0.
  - destruct (fp s) eqn:Ef; try done. injection H as <-. by apply FR0.
  - destruct (fp s) eqn:Ef; try done. injection H as <-. apply FR0; [done|..]; by repeat case_match.
  - destruct (fp s) eqn:Ef; try done. destruct (length (queue s) <? pendingTxn c); [|done]. injection H as <-. by apply FR0.
  - destruct (fp s) eqn:Ef; try done. destruct (freeq s) as [|m q] eqn:Eq; [done|]. injection H as <-. by apply FR0.
  - destruct (kp s) eqn:Ek; try done. destruct (queue s) as [|m q] eqn:Eq; [done|]. injection H as <-. cbn in K'. injection K' as -> <- <- <-. clear FR FR0.
    assert (n ∈ busy s) as Hb. { apply elem_busy. split; [|unfold pipe, kn; rewrite Ek, Eq; by left]. apply (str_kq _ _ I). unfold kn. rewrite Ek, Eq. by left. }
    set (s' := set_kp _ _) in *. assert (forall p, marksOf (txn s' n) p (trace s') = []) as Hm.
    { intros p. change (txn s' n) with (txn s n). change (trace s') with (trace s ++ sendAll (n_txn (nodes s n)) (n_pend (nodes s n))). rewrite marksOf_app, (fin_wait _ F n p), marksOf_nil; [done| |done|].
      - apply sendAll_other.
      - unfold kn. rewrite Ek. apply not_elem_of_nil. }
    split; [auto|]. split; [intros e He; by apply elem_of_nil in He|]. split; [intros e ? He; by apply elem_of_nil in He|].
    intros p Hp. exists []. change (nodes s' n) with (nodes s n). rewrite (ofPart_nil p (n_ecs (nodes s n))) by done. split; [done|]. split; [intros e He; by apply elem_of_nil in He|].
    rewrite Hm. split; [done|]. intros Hx. by apply elem_of_nil in Hx.
  - destruct (kp s) as [|m [|] mk td| | | ] eqn:Ek; try done. case_decide as D; [|done]. injection H as <-. cbn in K'. injection K' as -> <- <- <-. clear FR FR0.
    destruct (fin_run _ F _ _ _ _ Ek) as (R1 & R2 & R3 & R4). cbn [nodes trace set_kp done]. change (txn (set_kp _ s) n) with (txn s n).
    assert (forall e, e ∈ rev (ofPart p (n_ecs (nodes s n))) -> e_p e = p) as Hp. { intros e He. apply elem_of_list_In, in_rev, elem_of_list_In, elem_ofPart in He. apply He. }
    split; [|split; [|split]].
    + intros q Hq. apply R1. apply elem_of_list_filter in Hq. apply Hq.
    + intros e He Hq. apply elem_of_list_filter in Hq as [Hq _]. apply Hq. by apply Hp.
    + intros e e' He He'. by rewrite (Hp e), (Hp e').
    + intros q Hq. destruct (decide (q = p)) as [->|Hne].
      * exists []. rewrite ofPart_rev, rev_involutive, ofPart_idem, app_nil_r. split; [done|]. split; [intros e He; by apply elem_of_nil in He|]. rewrite lastMark_nil. split; [by apply R1|]. intros _. split; done.
      * destruct (R4 q) as (wt & A1 & A2 & A3 & A4). { intros Hin. apply Hq, elem_of_list_filter. done. }
        exists wt. rewrite ofPart_rev, rev_involutive, ofPart_ne by done. split; [done|]. split; [done|]. split; [done|]. intros Hin.
        apply elem_of_list_fmap in Hin as (e & -> & He). destruct Hne. by apply Hp.
  - destruct (kp s) as [|m [|e cur'] mk td| | | ] eqn:Ek; try done. case_decide as D; [|done].
    assert (kp s' = KFin m cur' (match mk, e_off e with false, Some _ => true | _, _ => mk end) td /\ n_ecs (nodes s' m) = n_ecs (nodes s m) /\ txn s' m = txn s m /\ done s' = done s /\
      exists w, trace s' = trace s ++ w /\ forall t p, marksOf t p w = match mk, e_off e with false, Some o => if decide (t = txn s m /\ p = e_p e) then [S o] else [] | _, _ => [] end) as (E1 & E2 & E3 & E4 & w & E5 & E6).
    { destruct mk, (e_off e) as [o|] eqn:Eo; injection H as <-.
      3: { rewrite produceRecord_eq. split; [done|]. split; [cbn; by rewrite upd_eq|]. split; [unfold txn; cbn; by rewrite upd_eq|]. split; [done|]. eexists. split; [reflexivity|]. intros. apply marks_prod_mark. }
      all: split; [done|]; split; [done|]; split; [done|]; split; [done|]; exists []; rewrite app_nil_r; done. }
    rewrite E1 in K'. injection K' as -> -> <- ->. clear FR FR0 H.
    destruct (fin_run _ F _ _ _ _ Ek) as (R1 & R2 & R3 & R4). rewrite E2, E3, E4. setoid_rewrite E5. setoid_rewrite marksOf_app. setoid_rewrite E6.
    assert (e_p e ∉ todo) as Het by (apply R2; by left).
    split; [|split; [|split]].
    + intros p Hp. rewrite (R1 p Hp). destruct mk, (e_off e); try done. rewrite decide_False; [done|]. intros [_ ->]. done.
    + intros x Hx. apply R2. by right.
    + intros x y Hx Hy. apply R3; by right.
    + intros p Hp. destruct (R4 p Hp) as (wt & A1 & A2 & A3 & A4). destruct (decide (p = e_p e)) as [->|Hne].
      * exists (e :: wt). assert (ofPart (e_p e) (e :: cur) = e :: ofPart (e_p e) cur) as Eo by (unfold ofPart; by rewrite filter_cons_True).
        rewrite Eo in A1. cbn [rev] in A1. rewrite <- app_assoc in A1. split; [done|]. split; [intros x Hx; apply elem_of_cons in Hx as [->|Hx]; auto|].
        rewrite lastMark_cons, A3. assert (mk = true <-> lastMark wt <> []) as A5 by (apply A4; by left).
        destruct (lastMark wt) as [|x k] eqn:El.
        -- assert (mk = false) as -> by (destruct mk; [|done]; exfalso; by apply A5). destruct (e_off e) as [o|]; [|rewrite app_nil_r; done]. rewrite decide_True by done. split; [done|]. done.
        -- assert (mk = true) as -> by (by apply A5). destruct (e_off e); rewrite app_nil_r; done.
      * exists wt. assert (ofPart p (e :: cur) = ofPart p cur) as Eo by (unfold ofPart; by rewrite filter_cons_False). rewrite Eo in A1. split; [done|]. split; [done|].
        rewrite A3. split.
        -- destruct mk, (e_off e); rewrite ?decide_False by tauto; by rewrite app_nil_r.
        -- intros Hin. exfalso. apply elem_of_list_fmap in Hin as (x & -> & Hx). apply Hne. apply R3; [by right|by left].
  - destruct (kp s) as [|m [|] ? [|]| | | ] eqn:Ek; try done. injection H as <-. done.
  - destruct (kp s) eqn:Ek; try done. injection H as <-. done.
  - destruct (kp s) as [| | |m td|] eqn:Ek; try done. case_decide as D; [|done]. injection H as <-. done.
  - destruct (kp s) as [| | |m [|]|] eqn:Ek; try done. injection H as <-. done.
  - destruct (kp s) as [|m cur' ? td| | | ] eqn:Ek; try done. destruct (ok && _) eqn:Eo; [done|]. injection H as <-. done.
  - done.
Qed.

Lemma adds_app t u v : adds t (u ++ v) = adds t u ++ adds t v.
Proof. unfold adds. by rewrite added_app, of_txn_app. Qed.
Lemma elem_adds t e tr : e ∈ adds t tr <-> EvAdd t e ∈ tr.
Proof. unfold adds. by rewrite elem_of_txn, elem_added. Qed.
Lemma of_txn_nil {A} t (l : list (nat * A)) : (forall x, (t, x) ∉ l) -> of_txn t l = [].
Proof. intros H. apply elem_of_nil_inv. intros x Hx. apply elem_of_txn in Hx. by apply (H x). Qed.
Lemma cut_fin s n cur m todo k l : kp s = KFin n cur m todo -> cut s k l = l.
Proof. intros K. unfold cut. by rewrite K. Qed.

Lemma Fin_step c s a s' : Str c s -> Str c s' -> Giv s -> Own s -> Fin s -> step c s a = Some s' -> a <> KSkip -> Fin s'.
Proof.
  intros I I' G O F H Ha. destruct (step_trace c s a s' I G O F H Ha) as (w & Ew & Wa & Wc). destruct (deltas c s a s' w I H Ha Ew) as [De Dm].
  assert (NoDup (map fst (ends (trace s')))) as ND. { destruct (str_txn _ _ I') as (k & _ & _ & ->). apply NoDup_seq. }
  assert (forall u t ok v, trace s' = u ++ EvEnd t ok :: v -> t ∉ map fst (ends u) /\ t ∉ map fst (ends v)) as Hnd.
  { intros u t ok v E. rewrite E, ends_app, map_app in ND. change (ends (EvEnd t ok :: v)) with ((t, ok) :: ends v) in ND. cbn [map fst] in ND. apply NoDup_app in ND as (_ & N1 & N2).
    apply NoDup_cons in N2 as [N2 _]. split; [|done]. intros Hx. apply (N1 t Hx). by left. }
  constructor.
  - by apply (Fin_run_step c s a s').
  - intros n p Hb Hk. rewrite Ew, marksOf_app. destruct (busy_delta c s a s' n I I' H Ha Hb Hk) as [(B1 & B2 & B3)|[B1 B2]].
    + rewrite B3, (fin_wait _ F n p B1 B2). destruct Dm as [Dm|(m & e & cur & todo & o & K & K' & Eo & Dm)]; rewrite Dm; [done|]. rewrite decide_False; [done|]. intros [Et _].
      apply B2. assert (kn s = [m]) as Km by (unfold kn; by rewrite K). destruct (busy_head _ _ _ I Km) as (l & El & _). rewrite Km. apply elem_of_list_singleton.
      apply (txn_inj c s); [done|done|rewrite El; by left|done].
    + rewrite B1. unfold marksOf at 1. rewrite (callsOf_none c s) by done. destruct Dm as [Dm|(m & e & cur & todo & o & K & K' & Eo & Dm)]; rewrite Dm; [done|]. rewrite decide_False; [done|]. intros [Et _].
      assert (kn s = [m]) as Km by (unfold kn; by rewrite K). destruct (busy_head _ _ _ I Km) as (l & El & _). assert (txn s m < ntxn s) as Hl by (apply (txn_busy_lt c s); [done|rewrite El; by left]). lia.
  - intros u t v E. rewrite E in Hnd. destruct (Hnd _ _ _ _ eq_refl) as [N1 N2]. clear Hnd. rewrite Ew in E. destruct (snoc_split _ _ _ _ _ E) as [(v' & E1 & ->)|(w1 & E1 & ->)].
    + destruct (fin_ended _ F u t v' E1) as (A1 & A2 & A3 & A4 & A5 & _).
      assert (t ∈ map fst (ends (trace s))) as Hin. { rewrite E1, ends_app, map_app, elem_of_app. right. by left. }
      assert (forall e r, ~ (EvCall t e r ∈ w \/ EvSend t e r ∈ w)) as Hno.
      { intros e r Hw. destruct (Wc t e r Hw) as (n & B1 & B2 & B3 & B4). rewrite <- B2 in Hin. destruct (ended_head c s n I B1 Hin) as [Ho Kn].
        apply over_cases in Ho as [(m & K)|[(m & l & K)|(m & K)]]; rewrite K in B4; unfold kn in Kn; rewrite K in Kn; injection Kn as ->; try done.
        destruct (B4 eq_refl) as [_ B5]. apply B5, (giv_done _ G). rewrite E1, dones_app, elem_of_app. left. apply A2.
        rewrite (str_adds _ _ I n B1) in B3. apply cut_sub in B3. rewrite B2, E1, adds_app in B3. change (adds t (EvEnd t true :: v')) with (adds t v') in B3. rewrite A3, app_nil_r in B3. done. }
      split; [done|]. split; [done|]. rewrite adds_app, called_app, sent_app, !of_txn_app, A3, A4, A5. cbn. split; [|split; [|split]].
      * apply elem_of_nil_inv. intros e He. apply elem_adds in He. by apply Wa in He.
      * apply of_txn_nil. intros [e r] Hx. apply elem_called in Hx. apply (Hno e r). by left.
      * apply of_txn_nil. intros [e r] Hx. apply elem_sent in Hx. apply (Hno e r). by right.
      * done.
    + destruct De as [[De _]|(n & cur & m & todo & ok & K & W & K' & Dt & _)].
      { exfalso. rewrite E1, ends_app in De. by apply app_eq_nil in De as [_ De]. }
      rewrite W in E1. destruct w1 as [|? w1]; cbn in E1; [|injection E1 as _ E1; by destruct w1]. injection E1 as <- -> <-. destruct (Dt eq_refl) as [-> ->]. rewrite app_nil_r in *.
      assert (kn s = [n]) as Km by (unfold kn; by rewrite K). destruct (busy_head _ _ _ I Km) as (l & El & _). assert (n ∈ busy s) as Hb by (rewrite El; by left).
      destruct (fin_run _ F _ _ _ _ K) as (_ & _ & _ & R4). pose proof (str_adds _ _ I n Hb) as Ead. rewrite (cut_fin s n [] m []) in Ead by done.
      split; [|split; [|done]].
      * intros p. destruct (R4 p) as (wt & A1 & A2 & A3 & _); [apply not_elem_of_nil|]. rewrite A3, <- Ead, A1. done.
      * intros e He. rewrite <- Ead in He. apply (giv_done _ G). destruct (R4 (e_p e)) as (wt & A1 & A2 & _); [apply not_elem_of_nil|]. apply A2. change (rev (ofPart (e_p e) []) ++ wt) with wt in A1. rewrite <- A1. by apply elem_ofPart.
  - intros u t v E. rewrite E in Hnd. destruct (Hnd _ _ _ _ eq_refl) as [N1 N2]. clear Hnd. rewrite Ew in E. destruct (snoc_split _ _ _ _ _ E) as [(v' & E1 & ->)|(w1 & E1 & ->)].
    + destruct (fin_aborted _ F u t v' E1) as (A1 & A2).
      assert (t ∈ map fst (ends (trace s))) as Hin. { rewrite E1, ends_app, map_app, elem_of_app. right. by left. }
      split. { rewrite adds_app, A1. cbn. apply elem_of_nil_inv. intros e He. apply elem_adds in He. by apply Wa in He. }
      destruct A2 as [(n & K & Ev)|A2]; [|by right]. left. destruct De as [[De Dk]|(? & ? & ? & ? & ? & K2 & _)]; [|congruence]. exists n. split; [auto|]. by rewrite ends_app, Ev, De.
    + destruct De as [[De _]|(n & cur & m & todo & ok & K & W & K' & Dt & Df)].
      { exfalso. rewrite E1, ends_app in De. by apply app_eq_nil in De as [_ De]. }
      rewrite W in E1. destruct w1 as [|? w1]; cbn in E1; [|injection E1 as _ E1; by destruct w1]. injection E1 as <- -> <-. rewrite app_nil_r in *. split; [done|].
      destruct (Df eq_refl) as [?|(-> & -> & Hp)]; [left; eauto|]. right.
      assert (kn s = [n]) as Km by (unfold kn; by rewrite K). destruct (busy_head _ _ _ I Km) as (l & El & _). assert (n ∈ busy s) as Hb by (rewrite El; by left).
      destruct (fin_run _ F _ _ _ _ K) as (_ & _ & _ & R4). pose proof (str_adds _ _ I n Hb) as Ead. rewrite (cut_fin s n [] m []) in Ead by done.
      intros e He. rewrite <- Ead in He. destruct (R4 (e_p e)) as (wt & A1 & A2 & A3 & _); [apply not_elem_of_nil|]. change (rev (ofPart (e_p e) []) ++ wt) with wt in A1.
      assert (marksOf (txn s n) (e_p e) (trace s) = []) as Em. { unfold marksOf, callsOf. rewrite (own_prod _ O n Hb) in Hp. apply nil_length_inv in Hp. by rewrite Hp. }
      rewrite Em in A3. symmetry in A3. apply (proj1 (lastMark_none wt) A3). rewrite <- A1. by apply elem_ofPart.
Qed.

Lemma Own_start c : Own (start c).
Proof.
  assert (forall p, first (start c) p = None) as Hf. { intros p. unfold first. apply find_none'. intros n _. done. }
  assert (busy (start c) = []) as Hb by done.
  constructor; rewrite ?Hb; try done.
  - intros p. left. by rewrite Hf.
  - intros n e r H. by apply elem_of_nil in H.
  - intros t e r H. by apply elem_of_nil in H.
  - intros u v t e r E. destruct u; done.
Qed.
Lemma Fin_start c : Fin (start c).
Proof.
  assert (busy (start c) = []) as Hb by done. constructor; rewrite ?Hb; try done.
  - intros u t v E. destruct u; done.
  - intros u t v E. destruct u; done.
Qed.

Record Inv (c : cfg) (s : st) : Prop := { i_str : Str c s; i_giv : Giv s; i_own : Own s; i_fin : Fin s }.
Lemma Inv_step c s a s' : valid c -> Inv c s -> a <> KSkip -> step c s a = Some s' -> Inv c s'.
Proof.
  intros V [I G O F] Ha H. assert (Str c s') as I' by (by apply (Str_step c s a s')). constructor; [done| | |].
  - by apply (Giv_step c s a s').
  - by apply (Own_step c s a s').
  - by apply (Fin_step c s a s').
Qed.
Lemma Inv_run c acts s : valid c -> noSkip acts -> run c (start c) acts = Some s -> Inv c s.
Proof.
  intros V N. apply (run_ind c (Inv c) (fun a => a <> KSkip)); [|intros; by apply (Inv_step c s0 a s')|done].
  constructor; [by apply Str_start|apply Giv_start|apply Own_start|apply Fin_start].
Qed.
