(** Preservation of the invariant for the part after the only prep. *)
From stdpp Require Import prelude list.
From Verif.StateStore Require Import Model Inv Step.
Open Scope nat_scope.

Lemma split_last {A} (u v : list A) x e t : t ++ [e] = u ++ x :: v -> (v = [] /\ u = t /\ x = e) \/ exists v', v = v' ++ [e] /\ t = u ++ x :: v'.
Proof.
  destruct v as [|y v] using rev_ind; intros H.
  - left. apply app_inj_tail in H as [-> ->]. auto.
  - right. exists v. rewrite app_comm_cons, app_assoc in H. apply app_inj_tail in H as [-> ->]. auto.
Qed.

(** equal up to the log, which grows, and marks, waiters and stages, which change without effect on the past *)
Lemma one_grow s s' t c0 ch P : one s c0 ch P -> log s' = log s ++ t -> pos s' = pos s -> fpaused s' = fpaused s -> state s' = state s -> buf s' = buf s -> chans s' = chans s -> pops s' = pops s ->
  prepping s' = prepping s -> con s' = con s -> preps s' = preps s -> trace s' = trace s -> kinds s' = kinds s ->
  (forall m, m ∈ marks (p_done P) -> m ∈ own s <-> m ∈ own s') -> (forall m, m ∈ waiters s' <-> m ∈ own s' /\ m ∉ released (trace s)) -> one s' c0 ch P.
Proof.
  intros O E1 E2 E3 E4 E5 E6 E7 E8 E9 E10 E11 E12 Eo Ew. destruct O.
  assert (X : forall pre post, p_done P = pre ++ post -> ownIn (own s) (marks pre) = ownIn (own s') (marks pre)).
  { intros pre post Q. apply ownIn_ext. intros m Hm. apply Eo. rewrite Q, marks_app. apply elem_of_app. auto. }
  split; rewrite ?E2, ?E3, ?E4, ?E5, ?E6, ?E7, ?E8, ?E9, ?E10, ?E11, ?E12; try assumption.
  - rewrite E1, app_length. lia.
  - rewrite E1. apply prefix_app_r. assumption.
  - intros N. destruct (o_open N) as (Q1 & Q2 & Q3 & Q4 & Q5 & Q6). repeat split; try assumption. rewrite E1, take_app_le by assumption. exact Q5.
  - rewrite o_rel. apply (X _ []). rewrite app_nil_r. reflexivity.
  - intros u m v H. destruct (o_split u m v H) as (pre & post & Q1 & Q2 & Q3 & Q4). exists pre, post. split; [exact Q1|]. split; [exact Q2|]. split; [|exact Q4]. rewrite Q3. eapply X, Q1.
Qed.


Lemma one_addWork s c0 ch P x : one s c0 ch P -> prepping s = true -> one (addSync KWork x (set_worker true (set_prepping false s))) c0 ch P.
Proof.
  intros O Pr. destruct (o_prepping _ _ _ _ O Pr) as [K B]. destruct (o_open _ _ _ _ O B) as (Q1 & Q2 & Q3 & Q4 & Q5 & Q6).
  assert (Eo : own (addSync KWork x (set_worker true (set_prepping false s))) = own s) by (unfold own, addSync; cbn; rewrite omap_app; apply app_nil_r).
  assert (Ek : kinds (addSync KWork x (set_worker true (set_prepping false s))) = [KPrep; KWork]) by (unfold kinds, addSync in *; cbn; rewrite map_app; cbn; rewrite K; reflexivity).
  split; rewrite ?Eo, ?Ek; cbn [addSync set_syncs set_worker set_prepping preps pops chans prepping pos log con buf fpaused state trace waiters]; try apply O.
  - auto.
  - discriminate.
  - discriminate.
  - intros _. rewrite K in Q6. cbn [phase] in *. repeat split; assumption.
  - congruence.
  - intros u m v H. destruct (o_split _ _ _ _ O u m v H) as (pre & post & R1 & R2 & R3 & R4). exists pre, post. split; [exact R1|]. split; [exact R2|]. split; [exact R3|].
    intros [C|C]; [discriminate|]. apply R4. right. exact C.
Qed.

Lemma one_cancel s c0 ch P : one s c0 ch P -> prepping s = true -> one (set_prepping false (cancel s)) c0 (mkCh (c_q ch) true) P.
Proof.
  intros O Pr. destruct (o_prepping _ _ _ _ O Pr) as [K B]. destruct (o_open _ _ _ _ O B) as (Q1 & Q2 & Q3 & Q4 & Q5 & Q6).
  assert (Hk : kinds (mkSt (log s) (nextMark s) (pos s) true Paused None [c0; mkCh (c_q ch) true] (pops s) (syncs s) (waiters s) (store s) (stores s) false (worker s) (con s) (preps s) (trace s)) = [KPrep]) by exact K.
  assert (E : set_prepping false (cancel s) = mkSt (log s) (nextMark s) (pos s) true Paused None [c0; mkCh (c_q ch) true] (pops s) (syncs s) (waiters s) (store s) (stores s) false (worker s) (con s) (preps s) (trace s)).
  { unfold cancel, closeCh, pause; cbn. rewrite Q1. cbn. rewrite (o_chans _ _ _ _ O). reflexivity. }
  rewrite E. clear E. split; cbn; try apply O.
  - reflexivity.
  - discriminate.
  - reflexivity.
  - congruence.
  - auto.
  - intros _ _. exact K.
  - reflexivity.
  - reflexivity.
Qed.

(** the consume goroutine *)
Lemma one_poll s n c0 ch P : one s c0 ch P -> con s = CIdle -> fpaused s = false -> pos s + n <= length (log s) ->
  one (set_con (CHold (take n (drop (pos s) (log s)))) (set_pos (pos s + n) s)) c0 ch P.
Proof.
  intros O C F L. split; cbn; try apply O; try assumption.
  - discriminate.
  - intros B. destruct (o_open _ _ _ _ O B) as (Q1 & Q2 & Q3 & Q4 & Q5 & Q6). repeat split; try assumption.
    rewrite C in Q5. cbn in Q5. rewrite app_nil_r in Q5. rewrite !app_assoc, <- (app_assoc (p_done P)), Q5, take_take_drop. reflexivity.
  - discriminate.
  - discriminate.
Qed.

Lemma one_check s b c0 ch P : one s c0 ch P -> con s = CHold b ->
  one (match state s with Paused => set_con CIdle (pause s) | _ => set_con (CAdd b) s end) c0 ch P.
Proof.
  intros O C. destruct (buf s) as [k|] eqn:B.
  - destruct (o_open _ _ _ _ O ltac:(congruence)) as (Q1 & Q2 & Q3 & Q4 & Q5 & Q6).
    assert (N : state s <> Paused) by (intros N; rewrite N in Q6; destruct (o_kinds _ _ _ _ O) as [K|[K|K]]; rewrite K in Q6; cbn in Q6; destruct (length (released (trace s))) as [|[|?]]; discriminate).
    assert (G : one (set_con (CAdd b) s) c0 ch P).
    { split; cbn; try apply O; try discriminate. intros _. rewrite C in Q5. cbn in Q5. repeat split; assumption. }
    destruct (state s); [congruence|exact G..].
  - destruct (o_shut _ _ _ _ O B) as (S1 & S2 & S3). rewrite S3. split; cbn; try apply O; try discriminate; try congruence; auto.
Qed.

Lemma one_eval s b c0 ch P : one s c0 ch P -> con s = CAdd b -> one (set_con (CSend b (buf s)) s) c0 ch P.
Proof.
  intros O C. split; cbn; try apply O; try discriminate.
  - intros b' c [= <- E]. destruct (o_open _ _ _ _ O ltac:(congruence)) as (Q1 & _). congruence.
  - intros B. destruct (o_open _ _ _ _ O B) as (Q1 & Q2 & Q3 & Q4 & Q5 & Q6). rewrite C in Q5. repeat split; assumption.
  - intros b' [= <- E]. exact E.
Qed.

Lemma one_put s b c k c0 ch P s' : one s c0 ch P -> con s = CSend b (Some c) -> chans s !! c = Some k ->
  (if c_closed k then Some (set_con CPanic s) else if length (c_q k) <? bufferSize then Some (set_con CIdle (set_chans (<[c := mkCh (c_q k ++ [b]) false]> (chans s)) s)) else None) = Some s' ->
  exists ch', one s' c0 ch' P.
Proof.
  intros O C Ck H. pose proof (o_send _ _ _ _ O b c C) as ->. rewrite (o_chans _ _ _ _ O) in Ck. injection Ck as <-. destruct (c_closed ch) eqn:Cl.
  - injection H as <-. exists ch. assert (B : buf s = None). { destruct (buf s) eqn:B; [|reflexivity]. destruct (o_open _ _ _ _ O ltac:(congruence)) as (_ & Q & _). congruence. }
    split; cbn; try apply O; try discriminate; auto. intros N. congruence.
  - destruct (length (c_q ch) <? bufferSize); [|discriminate]. injection H as <-. assert (B : buf s <> None). { intros B. destruct (o_shut _ _ _ _ O B) as (Q & _). congruence. }
    destruct (o_open _ _ _ _ O B) as (Q1 & Q2 & Q3 & Q4 & Q5 & Q6). rewrite C in Q5. cbn in Q5.
    exists (mkCh (c_q ch ++ [b]) false). split; cbn; try apply O; try discriminate.
    + rewrite (o_chans _ _ _ _ O). reflexivity.
    + rewrite concat_app. cbn. rewrite app_nil_r, Q5. exists (drop (pos s) (log s)). symmetry. apply take_drop.
    + intros _. repeat split; try assumption. rewrite concat_app. cbn. rewrite !app_nil_r. exact Q5.
    + congruence.
Qed.

(** populate *)
Lemma one_take s j c x dn c0 ch P s' : one s c0 ch P -> pops s !! j = Some (mkPop c x [] true dn) ->
  match chans s !! c with
  | Some (mkCh (b :: q) cl) => Some (set_pops (<[j := mkPop c x b true dn]> (pops s)) (set_chans (<[c := mkCh q cl]> (chans s)) s))
  | Some (mkCh [] true) => Some (set_pops (<[j := mkPop c x [] false dn]> (pops s)) s)
  | _ => None
  end = Some s' -> exists ch' P', one s' c0 ch' P'.
Proof.
  intros O Pj H. rewrite (o_pops _ _ _ _ O) in Pj. destruct j as [|j]; [|discriminate]. injection Pj as ->. pose proof (o_pchan _ _ _ _ O) as Ec. cbn in Ec. subst c.
  rewrite (o_chans _ _ _ _ O) in H. cbn in H. destruct ch as [[|b q] cl].
  - destruct cl; [|discriminate]. injection H as <-. exists (mkCh [] true), (mkPop 1 x [] false dn).
    assert (B : buf s = None). { destruct (buf s) eqn:B; [|reflexivity]. destruct (o_open _ _ _ _ O ltac:(congruence)) as (_ & Q & _). discriminate. }
    pose proof (o_pops _ _ _ _ O) as Ep. pose proof (o_split _ _ _ _ O) as Sp. split; cbn; try apply O; try congruence.
    + rewrite Ep. reflexivity.
    + intros u m v E. destruct (Sp u m v E) as (pre & post & R1 & R2 & R3 & R4). exists pre, post. repeat split; try assumption. apply R4. assumption.
  - injection H as <-. exists (mkCh q cl), (mkPop 1 x b true dn). pose proof (o_pops _ _ _ _ O) as Ep. pose proof (o_chans _ _ _ _ O) as Eh. split; cbn; try (rewrite Ep; reflexivity); try reflexivity; try apply O.
    + intros B. destruct (o_open _ _ _ _ O B) as (Q1 & Q2 & Q3 & Q4 & Q5 & Q6). cbn in *. repeat split; try assumption. rewrite <- Q5, <- ?app_assoc. reflexivity.
Qed.

Lemma elem_released m tr : m ∈ released tr <-> EvRelease m ∈ tr.
Proof.
  unfold released. rewrite elem_of_list_In, in_flat_map. split.
  - intros ([y r|k] & H & Q); cbn in Q; [destruct Q|]. destruct Q as [->|[]]. apply elem_of_list_In, H.
  - intros H. exists (EvRelease m). split; [apply elem_of_list_In, H|left; reflexivity].
Qed.

Lemma own_length s : length (own s) <= length (kinds s).
Proof.
  unfold own, kinds. rewrite map_length. induction (syncs s) as [|y l IH]; [reflexivity|]. cbn [omap list_omap length]. change (list_omap _ _ (fun y => mark_of (sy_stage y)) l) with (omap (fun y => mark_of (sy_stage y)) l).
  destruct (mark_of (sy_stage y)); cbn [length]; lia.
Qed.

Lemma one_handle s j c x r b dn c0 ch P s' : base s -> one s c0 ch P -> pops s !! j = Some (mkPop c x (r :: b) true dn) ->
  (let '(complete, s1) := handleRecord x r s in Some (set_pops (<[j := mkPop c x b (negb complete) (dn ++ [r])]> (pops s)) s1)) = Some s' -> exists ch' P', one s' c0 ch' P'.
Proof.
  intros Bs O Pj H. rewrite (o_pops _ _ _ _ O) in Pj. destruct j as [|j]; [|discriminate]. injection Pj as ->. pose proof (o_pchan _ _ _ _ O) as Ec. cbn in Ec. subst c.
  pose proof (o_pops _ _ _ _ O) as Ep. pose proof (o_prefix _ _ _ _ O) as Px. cbn in Px. pose proof (o_rel _ _ _ _ O) as Er. cbn [p_done] in Er. pose proof (o_applied _ _ _ _ O) as Ea. cbn [p_done p_store] in Ea.
  pose proof (o_split _ _ _ _ O) as Sp. cbn in Sp. pose proof (o_open _ _ _ _ O) as Op. cbn in Op. pose proof (o_shutlive _ _ _ _ O) as Sl. cbn in Sl.
  assert (Px' : ((dn ++ [r]) ++ b ++ concat (c_q ch)) `prefix_of` log s) by (rewrite <- app_assoc; exact Px).
  assert (Op' : forall t, p_done (mkPop 1 x (r :: b) true dn) ++ p_rest (mkPop 1 x (r :: b) true dn) ++ concat (c_q ch) ++ held (con s) = t -> (dn ++ [r]) ++ b ++ concat (c_q ch) ++ held (con s) = t)
    by (intros t <-; cbn; rewrite <- app_assoc; reflexivity).
  (* parts of the trace before the last event keep their description *)
  assert (Old : forall u m v, trace s = u ++ EvRelease m :: v -> exists pre post, dn ++ [r] = pre ++ Mark m :: post /\ applied x u = changes pre /\ released u = ownIn (own s) (marks pre) /\ (kinds s = [KWork] \/ released u <> [] -> False)).
  { intros u m v E. destruct (Sp u m v E) as (pre & post & R1 & R2 & R3 & R4). exists pre, (post ++ [r]). rewrite R1, <- app_assoc. repeat split; try assumption. intros C. destruct (R4 C) as [[=] _]. }
  destruct r as [n|m]; cbn [handleRecord] in H.
  - (* a change *)
    injection H as <-. exists ch, (mkPop 1 x b true (dn ++ [Data n])).
    assert (Erel : released (trace s ++ [EvApply x (Data n)]) = released (trace s)) by (rewrite released_app; apply app_nil_r).
    split; cbn [set_pops emit preps pops chans prepping pos log con buf fpaused state trace waiters p_chan p_store p_rest p_live p_done]; try apply O; rewrite ?Erel; try (first [exact Px'|exact Sl]).
    + rewrite Ep. reflexivity.
    + intros B. destruct (Op B) as (Q1 & Q2 & Q3 & Q4 & Q5 & Q6). repeat split; try assumption. apply Op'. exact Q5.
    + rewrite applied_app, changes_app, Ea. cbn. rewrite Nat.eqb_refl. reflexivity.
    + intros y r' Q. apply elem_of_app in Q as [Q|Q]; [apply (o_only _ _ _ _ O y r' Q)|]. apply elem_of_list_singleton in Q. injection Q as -> ->. reflexivity.
    + rewrite marks_app, app_nil_r. exact Er.
    + apply (o_wait _ _ _ _ O).
    + intros u m v E. apply split_last in E as [(-> & -> & [=])|(v' & -> & E)]. destruct (Old u m v' E) as (pre & post & R1 & R2 & R3 & R4).
      exists pre, post. split; [exact R1|]. split; [exact R2|]. split; [exact R3|]. intros C. destruct (R4 C).
  - (* a marker *)
    assert (Fresh : m ∉ marks dn).
    { destruct Px as [t Pt]. pose proof (b_nodup _ Bs) as N. rewrite Pt in N. rewrite !marks_app in N. apply NoDup_app in N as (N & _ & _). apply NoDup_app in N as (_ & N & _). intros Q. apply (N m Q). cbn. left. }
    unfold isCompletionMarker in H. destruct (decide (m ∈ waiters s)) as [W|W].
    2:{ (* of somebody else *)
      injection H as <-. exists ch, (mkPop 1 x b true (dn ++ [Mark m])).
      assert (No : m ∉ own s). { intros Q. apply W. apply (o_wait _ _ _ _ O). split; [exact Q|]. rewrite Er. unfold ownIn. rewrite elem_of_list_filter. intros [_ U]. auto. }
      split; cbn [set_pops emit preps pops chans prepping pos log con buf fpaused state trace waiters p_chan p_store p_rest p_live p_done]; try apply O; try (first [exact Px'|exact Sl]).
      + rewrite Ep. reflexivity.
      + intros B. destruct (Op B) as (Q1 & Q2 & Q3 & Q4 & Q5 & Q6). repeat split; try assumption. apply Op'. exact Q5.
      + rewrite changes_app, app_nil_r. exact Ea.
      + rewrite marks_app. cbn. unfold own. cbn. change (omap (fun y => mark_of (sy_stage y)) (syncs s)) with (own s). rewrite ownIn_app. unfold ownIn at 2. rewrite filter_cons_False by exact No. cbn. rewrite app_nil_r. exact Er.
      + intros u m' v E. destruct (Old u m' v E) as (pre & post & R1 & R2 & R3 & R4). exists pre, post. split; [exact R1|]. split; [exact R2|]. split; [exact R3|]. intros C. destruct (R4 C). }
    (* own marker *)
    apply (o_wait _ _ _ _ O) in W as [Wo Wr].
    assert (Erel : released (trace s ++ [EvRelease m]) = released (trace s) ++ [m]) by apply released_app.
    assert (Eapp : forall y, applied y (trace s ++ [EvRelease m]) = applied y (trace s)) by (intros y; rewrite applied_app; apply app_nil_r).
    assert (Enew : released (trace s) ++ [m] = ownIn (own s) (marks (dn ++ [Mark m]))).
    { rewrite marks_app, ownIn_app, <- Er. f_equal. change (marks [Mark m]) with [m]. unfold ownIn. rewrite filter_cons_True by exact Wo. reflexivity. }
    assert (Ew : forall m', m' ∈ filter (fun w => w <> m) (waiters s) <-> m' ∈ own s /\ m' ∉ released (trace s) ++ [m]).
    { intros m'. rewrite elem_of_list_filter, (o_wait _ _ _ _ O), elem_of_app, elem_of_list_singleton. tauto. }
    assert (Eonly : forall y r', EvApply y r' ∈ trace s ++ [EvRelease m] -> y = x).
    { intros y r' Q. apply elem_of_app in Q as [Q|Q]; [apply (o_only _ _ _ _ O y r' Q)|]. apply elem_of_list_singleton in Q. discriminate. }
    assert (Spl : forall lv, ((kinds s = [KWork] \/ released (trace s) <> []) -> lv = false) ->
      forall u m' v, trace s ++ [EvRelease m] = u ++ EvRelease m' :: v -> exists pre post, dn ++ [Mark m] = pre ++ Mark m' :: post /\ applied x u = changes pre /\ released u = ownIn (own s) (marks pre) /\
        (kinds s = [KWork] \/ released u <> [] -> lv = false /\ forall y, applied y v = [])).
    { intros lv Hl u m' v E. apply split_last in E as [(-> & -> & [= ->])|(v' & -> & E)].
      - exists dn, []. split; [reflexivity|]. split; [exact Ea|]. split; [exact Er|]. intros C. split; [apply Hl, C|reflexivity].
      - destruct (Old u m' v' E) as (pre & post & R1 & R2 & R3 & R4). exists pre, post. split; [exact R1|]. split; [exact R2|]. split; [exact R3|]. intros C. destruct (R4 C). }
    assert (Ech : changes (dn ++ [Mark m]) = changes dn) by (rewrite changes_app; apply app_nil_r).
    destruct (buf s) as [k|] eqn:B.
    + destruct (Op ltac:(discriminate)) as (Q1 & Q2 & Q3 & Q4 & Q5 & Q6). injection Q1 as ->. cbn in H. destruct (state s) eqn:St.
      * exfalso. destruct (o_kinds _ _ _ _ O) as [K|[K|K]]; rewrite K in Q6; cbn in Q6; destruct (length (released (trace s))) as [|[|?]]; discriminate.
      * (* prepping: now ready *)
        assert (K : exists t, kinds s = KPrep :: t) by (destruct (o_kinds _ _ _ _ O) as [K|[K|K]]; rewrite K; eauto; rewrite K in Q6; cbn in Q6; destruct (length (released (trace s))); discriminate).
        destruct K as [tl K]. assert (R0 : released (trace s) = []) by (rewrite K in Q6; cbn in Q6; destruct (released (trace s)) as [|? [|? ?]]; [reflexivity|discriminate..]).
        injection H as <-. exists ch, (mkPop 1 x b true (dn ++ [Mark m])).
        split; cbn [set_pops emit set_state set_waiters preps pops chans prepping pos log con buf fpaused state trace waiters p_chan p_store p_rest p_live p_done]; try apply O; rewrite ?Erel, ?Eapp, ?Ech; try (first [exact Px'|exact Ea|exact Eonly|exact Enew|exact Ew]).
        -- rewrite Ep. reflexivity.
        -- intros _. repeat split; try assumption. ++ apply Op'. exact Q5. ++ change (phase (kinds s) (length (released (trace s) ++ [m])) = Some Ready). rewrite K, R0. reflexivity.
        -- congruence.
        -- apply Spl. rewrite K, R0. intros [C|C]; congruence.
      * (* ready: complete *)
        assert (E : cancel (set_waiters (filter (fun w => w <> m) (waiters s)) s) = mkSt (log s) (nextMark s) (pos s) true Paused None [c0; mkCh (c_q ch) true] (pops s) (syncs s) (filter (fun w => w <> m) (waiters s)) (store s) (stores s) (prepping s) (worker s) (con s) (preps s) (trace s)).
        { unfold cancel, closeCh, pause; cbn. rewrite B. cbn. rewrite (o_chans _ _ _ _ O). reflexivity. }
        injection H as <-. rewrite E. exists (mkCh (c_q ch) true), (mkPop 1 x b false (dn ++ [Mark m])).
        assert (Kp : prepping s = true -> False).
        { intros Pr. destruct (o_prepping _ _ _ _ O Pr) as [K _]. rewrite K in Q6. cbn in Q6. assert (length (released (trace s)) = 1) as L1 by (destruct (length (released (trace s))) as [|[|?]]; try discriminate; reflexivity).
          (* one own mark only, and it was released before *)
          destruct (released (trace s)) as [|m1 [|? ?]] eqn:Rl; try discriminate. assert (m1 ∈ own s) as U by (assert (m1 ∈ ownIn (own s) (marks dn)) as V by (rewrite <- Er; left); unfold ownIn in V; rewrite elem_of_list_filter in V; apply V).
          assert (m <> m1) as Nm by (intros ->; apply Wr; left). pose proof (own_length s) as Ol. rewrite K in Ol. cbn in Ol. destruct (own s) as [|o1 [|o2 ol]]; cbn in Ol; [inversion U| |lia].
          apply elem_of_list_singleton in U, Wo. congruence. }
        split; cbn [set_pops emit preps pops chans prepping pos log con buf fpaused state trace waiters p_chan p_store p_rest p_live p_done c_q c_closed]; try apply O; rewrite ?Erel, ?Eapp, ?Ech; try (first [exact Px'|exact Ea|exact Eonly|exact Enew|exact Ew|congruence|reflexivity]).
        all: first [apply Spl; reflexivity|intros Pr; destruct (Kp Pr)|rewrite Ep; reflexivity|auto].
    + (* cancelled before: the waiter is still released *)
      destruct (o_shut _ _ _ _ O B) as (S1 & S2 & S3). cbn in H. rewrite S3 in H. injection H as <-. pose proof (Sl eq_refl eq_refl) as K.
      exists ch, (mkPop 1 x b true (dn ++ [Mark m])).
      split; cbn [set_pops emit set_waiters preps pops chans prepping pos log con buf fpaused state trace waiters p_chan p_store p_rest p_live p_done]; try apply O; rewrite ?Erel, ?Eapp, ?Ech; try (first [exact Px'|exact Ea|exact Eonly|exact Enew|exact Ew|congruence]).
      all: try (rewrite Ep; reflexivity). all: try (intros _ _; exact K). all: try assumption.
      -- apply Spl. rewrite K. intros [C|C]; [discriminate|]. exfalso.
         destruct (released (trace s)) as [|m1 l] eqn:Rl; [congruence|]. assert (m1 ∈ own s) as U by (assert (m1 ∈ ownIn (own s) (marks dn)) as V by (rewrite <- Er; left); unfold ownIn in V; rewrite elem_of_list_filter in V; apply V).
         assert (m <> m1) as Nm by (intros ->; apply Wr; left). pose proof (own_length s) as Ol. rewrite K in Ol. cbn in Ol. destruct (own s) as [|o1 [|o2 ol]]; cbn in Ol; [inversion U| |lia].
         apply elem_of_list_singleton in U, Wo. congruence.
Qed.
