(** Every step keeps the invariant: the actions. *)
From stdpp Require Import prelude list gmap.
From Coq Require Import ZArith.
From Verif.Batcher Require Import Model Base Inv Step.
Open Scope nat_scope.

Lemma no_such_batch s pd b : base s pd -> batches s !! b = None -> fb b (comp (trace s)) = [].
Proof.
  intros B N. destruct (fb b (comp (trace s))) as [|it l] eqn:Q; [reflexivity|]. exfalso.
  assert (H : it ∈ fb b (comp (trace s))) by (rewrite Q; left). apply elem_fb in H as (<- & H).
  apply (comp_added s pd it B) in H. apply (added_batch s pd it B) in H as (x & E & _). congruence.
Qed.
Lemma start_inv_step s k ks : inv s -> inv (set_batches (batches s ++ [mkB k ks 0 0]) s).
Proof.
  intros [B R W]. split; [|exact R|exact W]. split; ss; try apply B.
  - intros b. rewrite (a_added _ _ B b). destruct (decide (b < length (batches s))) as [D|D].
    + rewrite lookup_app_l by auto. reflexivity.
    + rewrite (lookup_ge_None_2 (batches s)) by lia. rewrite lookup_app_r by lia. destruct (b - length (batches s)); reflexivity.
  - intros b x H. apply lookup_app_Some in H as [H|(_ & H)]; [eapply a_next; eauto|]. apply list_lookup_singleton_Some in H as (_ & <-). cbn. lia.
  - intros b x H. apply lookup_app_Some in H as [H|(L & H)]; [eapply a_done; eauto|]. apply list_lookup_singleton_Some in H as (_ & <-). ss.
    rewrite (no_such_batch s _ b B); [reflexivity|]. apply lookup_ge_None_2. lia.
  - intros b. rewrite (a_cb _ _ B b). destruct (decide (b < length (batches s))) as [D|D].
    + rewrite lookup_app_l by auto. reflexivity.
    + assert (N : batches s !! b = None) by (apply lookup_ge_None_2; lia). rewrite N, lookup_app_r by lia. rewrite (no_such_batch s _ b B N).
      destruct (b - length (batches s)) as [|n]; [|destruct n; reflexivity]. cbn. destruct (decide _); [reflexivity|]. destruct ks; [congruence|reflexivity].
Qed.

Lemma logAdd_base s pd b x it : base s pd -> batches s !! b = Some x -> itemsOf b x !! b_next x = Some it ->
  base (log (EvAdd it) (set_batches (<[b := mkB (b_key x) (b_items x) (b_done x) (S (b_next x))]> (batches s)) s)) (pd ++ [it]).
Proof.
  intros B E I. assert (Ib : i_b it = b) by (apply (itemsOf_elem b x), (elem_of_list_lookup_2 _ _ _ I)).
  assert (L : b < length (batches s)) by (eapply lookup_lt_Some; eauto).
  assert (C : comp (trace s ++ [EvAdd it]) = comp (trace s)) by (rewrite comp_app; cbn; apply app_nil_r).
  assert (Bt : forall b' y, <[b := mkB (b_key x) (b_items x) (b_done x) (S (b_next x))]> (batches s) !! b' = Some y ->
    exists y0, batches s !! b' = Some y0 /\ b_items y = b_items y0 /\ b_done y = b_done y0 /\ b_key y = b_key y0).
  { intros b' y H. ins H; [exists x; auto|exists y; auto]. }
  split; ss; try apply B.
  - intros k. destruct (a_key _ _ B k) as (f & K1 & K2 & K3 & K4). exists f. rewrite C, added_app, handed_app. cbn [added handed flat_map app]. rewrite app_nil_r.
    split; [|auto]. rewrite !fk_app, K1, <- !app_assoc. reflexivity.
  - intros b'. rewrite added_app, fb_app, (a_added _ _ B b'). cbn [added flat_map app]. rewrite fb_one. destruct (decide (i_b it = b')) as [D|D].
    + replace b' with b by congruence. rewrite list_lookup_insert by auto. rewrite E. ss. change (itemsOf b (mkB _ _ _ _)) with (itemsOf b x). symmetry. apply take_S_r. exact I.
    + rewrite list_lookup_insert_ne by congruence. apply app_nil_r.
  - intros b' y H. ins H; [|eapply a_next; eauto]. ss. change (itemsOf b (mkB _ _ _ _)) with (itemsOf b x). apply lookup_lt_Some in I. lia.
  - intros b' y H. rewrite C. destruct (Bt b' y H) as (y0 & H0 & _ & -> & _). eapply a_done; eauto.
  - intros b'. unfold cb. rewrite cbs_app. cbn [cbs flat_map app]. rewrite app_nil_r, C. pose proof (a_cb _ _ B b') as Q. unfold cb in Q. rewrite Q. clear Q.
    destruct (decide (b' = b)) as [->|D]; [rewrite list_lookup_insert, E by auto; reflexivity|rewrite list_lookup_insert_ne by auto; reflexivity].
  - intros c l H. apply elem_of_app in H as [H|H]; [eapply a_calls; eauto|]. apply elem_of_list_singleton in H. discriminate.
  - intros c l l' H H'. apply elem_of_app in H as [H|H]; apply elem_of_app in H' as [H'|H']; try (apply elem_of_list_singleton in H'; discriminate); try (apply elem_of_list_singleton in H; discriminate). eapply a_call1; eauto.
  - intros c H. apply elem_of_app in H as [H|H]; [eapply a_rets; eauto|]. apply elem_of_list_singleton in H. discriminate.
  - intros c l H. apply elem_of_app in H as [H|H]; [|apply elem_of_list_singleton in H; discriminate]. destruct (a_open _ _ B c l H) as [Q|Q]; [left|right; exact Q]. apply elem_of_app. auto.
  - intros e y c H Hg. destruct (a_pexec _ _ B e y c H Hg) as (Q1 & Q2). split; [apply elem_of_app; auto|]. intros Q. apply elem_of_app in Q as [Q|Q]; [auto|]. apply elem_of_list_singleton in Q. discriminate.
  - intros c l H. apply elem_of_app in H as [H|H]; [eapply a_size; eauto|]. apply elem_of_list_singleton in H. discriminate.
Qed.
Lemma item_inv s b x it : inv s -> batches s !! b = Some x -> itemsOf b x !! b_next x = Some it ->
  inv (addItem it (set_batches (<[b := mkB (b_key x) (b_items x) (b_done x) (S (b_next x))]> (batches s)) s)).
Proof.
  intros [B R W] E I. pose proof (logAdd_base s _ b x it B E I) as B1. unfold addItem. set (s1 := log _ _) in *.
  assert (R1 : ready s1) by exact R. assert (W1 : forall i, i ∈ pending s1 -> blocked s1 (i_k i) \/ full s1) by exact W.
  assert (P1 : pending s1 = pending s) by reflexivity. clearbody s1. rewrite <- P1 in B1.
  destruct (executorFor it s1) as [e|] eqn:X.
  - destruct (executorFor_Some s1 _ it e B1 X) as (y & Ee & By & A). pose proof (for_not_blocked s1 it e X) as NB.
    assert (NF : ~ full s1). { intros F. pose proof (full_busy s1 _ B1 F e y Ee). congruence. }
    assert (WB : forall i, i ∈ pending s1 -> blocked s1 (i_k i)). { intros i Hi. destruct (W1 i Hi); [auto|contradiction]. }
    destruct (addTo_ok s1 (pending s1) [] it e y B1 R1 Ee By A) as (B2 & R2). { intros i Hi Q. apply NB. rewrite <- Q. auto. }
    destruct (addTo_frame s1 it e y Ee By) as (F1 & F2 & F3 & F4 & F5 & F6 & F7). rewrite app_nil_r in B2. split; [rewrite F4; exact B2|exact R2|].
    intros i Hi. rewrite F4 in Hi. left. eapply addTo_blocked; eauto.
  - split; ss; [|exact R1|].
    + destruct B1. split; ss; assumption.
    + intros i Hi. apply elem_of_app in Hi as [Hi|Hi]; [apply W1; exact Hi|]. apply elem_of_list_singleton in Hi as ->. exact (executorFor_None s1 _ it B1 X).
Qed.

Lemma base_timers s pd tm : base s pd -> (forall e x t, execs s !! e = Some x -> e_timer x = Some t -> exists ts, tm !! t = Some (mkT e ts) /\ ts <> TOver) -> base (set_timers tm s) pd.
Proof. intros B H. destruct B. split; ss; assumption. Qed.
Lemma fire_inv s t e : inv s -> timers s !! t = Some (mkT e TArmed) -> inv (set_timers (<[t := mkT e TFired]> (timers s)) s).
Proof.
  intros [B R W] T. split; [|exact R|exact W]. apply base_timers; [exact B|]. intros e' x t' H Ht. destruct (a_timer _ _ B e' x t' H Ht) as (ts & T1 & T2).
  destruct (decide (t' = t)) as [->|D]; [|exists ts; rewrite list_lookup_insert_ne by auto; auto]. exists TFired. rewrite list_lookup_insert by (eapply lookup_lt_Some; eauto). split; [congruence|discriminate].
Qed.
Lemma stop_other t t' l : t' <> t -> stop t l !! t' = l !! t'.
Proof. intros D. unfold stop. destruct (l !! t) as [[e [| |]]|]; auto. rewrite list_lookup_insert_ne; auto. Qed.
Lemma timer_inv s t e : inv s -> timers s !! t = Some (mkT e TFired) -> inv (condExec e (set_timers (<[t := mkT e TOver]> (timers s)) s)).
Proof.
  intros [B R W] T.
  assert (Oth : forall e' x t', execs s !! e' = Some x -> e_timer x = Some t' -> e' <> e \/ t' <> t -> exists ts, <[t := mkT e TOver]> (timers s) !! t' = Some (mkT e' ts) /\ ts <> TOver).
  { intros e' x t' H Ht D. destruct (a_timer _ _ B e' x t' H Ht) as (ts & T1 & T2). exists ts. split; [|auto]. rewrite list_lookup_insert_ne; [auto|]. intros <-. destruct D; congruence. }
  destruct (execs s !! e) as [x|] eqn:E.
  2:{ replace (condExec e _) with (set_timers (<[t := mkT e TOver]> (timers s)) s) by (unfold condExec; ss; rewrite E; reflexivity).
      split; [|exact R|exact W]. apply base_timers; [exact B|]. intros e' y t' H Ht. eapply Oth; eauto. left. intros ->. congruence. }
  pose proof (a_ex _ _ B e x E) as X. pose proof (x_go _ _ X) as G. destruct (e_busy x) eqn:Bx.
  - replace (condExec e _) with (set_timers (<[t := mkT e TOver]> (timers s)) s) by (unfold condExec; ss; rewrite E, Bx; reflexivity).
    split; [|exact R|exact W]. apply base_timers; [exact B|]. intros e' y t' H Ht. eapply Oth; eauto. left. intros ->. destruct G as (G & _). congruence.
  - pose proof (condExec_base s _ e x B E Bx) as B1. set (s1 := set_timers _ _).
    assert (Q : exists tm, condExec e s1 = set_timers tm (condExec e s) /\ forall e' y t', e' <> e -> execs s !! e' = Some y -> e_timer y = Some t' -> exists ts, tm !! t' = Some (mkT e' ts) /\ ts <> TOver).
    { unfold condExec, s1. ss. rewrite E, Bx. eexists. split; [reflexivity|]. intros e' y t' D H Ht. destruct (Oth e' y t' H Ht) as (ts & T1 & T2); [auto|]. exists ts. split; [|auto].
      destruct (e_timer x) as [t0|] eqn:T0; [|exact T1]. destruct (a_timer _ _ B e x t0 E T0) as (ts0 & T3 & T4).
      destruct (a_timer _ _ B _ _ _ H Ht) as (ts1 & T5 & _). rewrite stop_other; [exact T1|]. intros ->. congruence. }
    destruct Q as (tm & Q1 & Q2). destruct (condExec_frame s1 e) as (F1 & F2 & F3 & F4 & F5 & F6 & F7). split.
    + rewrite F4. rewrite Q1. apply base_timers; [exact B1|]. intros e' y t' H Ht. unfold condExec in H. rewrite E, Bx in H. ss. ins H; [ss; discriminate|]. eauto.
    + unfold condExec, s1. ss. rewrite E, Bx. intros e' y H. ss. ins H; [intros Q; discriminate|]. apply R in H. exact H.
    + rewrite F4. intros i Hi. left. destruct (W i Hi) as [(e' & y & H1 & H2 & H3)|F]; [|pose proof (full_busy s _ B F e x E); congruence].
      exists e', y. rewrite F1. split; [exact H1|]. split; [apply F7; auto|auto].
Qed.

(** a goroutine moves on without giving up its executor *)
Definition withGo (x : ex) (g : list pc) : ex := mkE (e_items x) (e_noops x) (e_busy x) (e_timer x) g (e_all x).
Lemma go_base s pd e x p s' evs : base s pd -> execs s !! e = Some x -> e_busy x = true -> pcOK x p ->
  execs s' = <[e := withGo x [p]]> (execs s) -> assign s' = assign s -> count s' = count s -> timers s' = timers s -> maxb s' = maxb s ->
  trace s' = trace s ++ evs -> added evs = [] ->
  (forall k, assign s !! k = Some e -> kOK (trace s') (withGo x [p]) pd k) ->
  (forall k, assign s !! k <> Some e -> fk k (handed evs) = [] /\ fk k (comp evs) = []) ->
  (forall b y, batches s' !! b = Some y -> exists y0, batches s !! b = Some y0 /\ b_items y = b_items y0 /\ b_key y = b_key y0 /\ b_next y = b_next y0) ->
  length (batches s') = length (batches s) ->
  (forall b y, batches s' !! b = Some y -> b_done y = length (nm (fb b (comp (trace s'))))) ->
  (forall b, cb b (trace s') = match batches s' !! b with
           | Some x => if decide (b_items x = []) then length (ph (fb b (comp (trace s')))) else if b_done x =? length (b_items x) then 1 else 0
           | None => 0 end) ->
  (forall c l, EvCall c l ∈ trace s' -> c < calls s') ->
  (forall c l l', EvCall c l ∈ trace s' -> EvCall c l' ∈ trace s' -> l = l') ->
  (forall c, EvRet c ∈ trace s' -> c < calls s') ->
  (forall c l, EvCall c l ∈ trace s' -> EvRet c ∈ trace s' \/ exists e x, execs s' !! e = Some x /\ e_go x = [PExec c] /\ e_items x = l) ->
  (forall e x c, execs s' !! e = Some x -> e_go x = [PExec c] -> EvCall c (e_items x) ∈ trace s' /\ EvRet c ∉ trace s') ->
  (forall c l, EvCall c l ∈ trace s' -> l <> [] /\ (1 <= maxb s -> length l <= maxb s)) ->
  base s' pd.
Proof.
  intros B E Bx Pc Ee Ea Ec Et Em Etr Add Kin Kout Bt Bl Done Cb C1 C2 C3 C4 C5 C6.
  pose proof (a_ex _ _ B e x E) as X. pose proof (x_go _ _ X) as G. rewrite Bx in G. destruct G as (Tn & p0 & G & _).
  split; auto.
  - rewrite Ee, Em. intros e' y H. ins H; [|eapply a_ex; eauto]. unfold withGo. split; ss; try apply X. rewrite Bx. split; [auto|]. exists p. split; [reflexivity|].
    destruct p; cbn in *; auto.
  - rewrite Ee, Ea. intros e' y i H Hi. ins H; ss; eapply a_asg; eauto.
  - rewrite Ee, Ea. intros k e' H. rewrite insert_length. eapply a_len; eauto.
  - rewrite Ec, Ee, (a_count _ _ B). pose proof (lsum_insert busy1 _ _ _ (withGo x [p]) E) as Q. unfold busy1 in Q at 2 4. unfold withGo in Q at 2. ss. lia.
  - rewrite Ee, Et. intros e' y t H Ht. ins H; ss; eapply a_timer; eauto.
  - intros k. rewrite (cur_upd s s' e x _ k Ea Ee E). destruct (decide _) as [D|D]; [auto|]. destruct (Kout k D) as (Q1 & Q2). destruct (a_key _ _ B k) as (f & K1 & K2 & K3 & K4).
    exists f. rewrite Etr, added_app, handed_app, comp_app, !nm_app, !ph_app, !fk_app, Add, Q1, (fk_nm k (comp evs)), (fk_ph k (comp evs)), Q2. cbn. rewrite !app_nil_r. auto.
  - intros b. rewrite Etr, added_app, Add, app_nil_r, (a_added _ _ B b). destruct (batches s' !! b) as [y|] eqn:Eb.
    + destruct (Bt b y Eb) as (y0 & E0 & Q1 & Q2 & Q3). rewrite E0, Q3. unfold itemsOf. rewrite Q1, Q2. reflexivity.
    + apply lookup_ge_None in Eb. rewrite (lookup_ge_None_2 (batches s)) by lia. reflexivity.
  - intros b y Eb. destruct (Bt b y Eb) as (y0 & E0 & Q1 & Q2 & Q3). rewrite Q3. unfold itemsOf. rewrite Q1, Q2. eapply a_next; eauto.
  - rewrite Em. auto.
Qed.
