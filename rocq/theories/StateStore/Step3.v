(** The invariant over whole executions. *)
From stdpp Require Import prelude list.
From Verif.StateStore Require Import Model Inv Step Step2.
Open Scope nat_scope.

(** the fields [one] does not look at *)
Lemma one_frame s s' c0 ch P : one s c0 ch P -> log s' = log s -> pos s' = pos s -> fpaused s' = fpaused s -> state s' = state s -> buf s' = buf s -> chans s' = chans s -> pops s' = pops s ->
  prepping s' = prepping s -> con s' = con s -> preps s' = preps s -> trace s' = trace s -> syncs s' = syncs s -> waiters s' = waiters s -> one s' c0 ch P.
Proof.
  intros O E1 E2 E3 E4 E5 E6 E7 E8 E9 E10 E11 E12 E13. assert (Eo : own s' = own s) by (unfold own; rewrite E12; reflexivity). apply (one_grow s s' []); try assumption.
  - rewrite app_nil_r. exact E1.
  - unfold kinds. rewrite E12. reflexivity.
  - intros m _. rewrite Eo. reflexivity.
  - intros m. rewrite E13, Eo. apply O.
Qed.

Lemma one_start s k i x c s1 : none s -> chans s = [c] -> (k, i) = (KPrep, Prepping) \/ (k, i) = (KWork, Ready) ->
  log s1 = log s -> pos s1 = 0 -> fpaused s1 = false -> state s1 = i -> buf s1 = Some 1 -> chans s1 = [c; mkCh [] false] -> pops s1 = [mkPop 1 x [] true []] ->
  syncs s1 = [mkSync k x SNew] -> waiters s1 = [] -> prepping s1 = (match k with KPrep => true | KWork => false end) -> con s1 = CIdle -> preps s1 = 1 -> trace s1 = [] ->
  one s1 c (mkCh [] false) (mkPop 1 x [] true []).
Proof.
  intros N Ec K E1 E2 E3 E4 E5 E6 E7 E8 E9 E10 E11 E12 E13.
  assert (Kk : kinds s1 = [k]) by (unfold kinds; rewrite E8; reflexivity).
  split; rewrite ?E2, ?E3, ?E4, ?E5, ?E6, ?E7, ?E9, ?E10, ?E11, ?E12, ?E13, ?Kk; cbn; try reflexivity; try discriminate; try lia.
  - destruct K as [[= -> ->]|[= -> ->]]; auto.
  - destruct k; [split; [reflexivity|discriminate]|discriminate].
  - destruct k; [discriminate|discriminate].
  - apply prefix_nil.
  - intros _. repeat split. destruct K as [[= -> ->]|[= -> ->]]; reflexivity.
  - intros y r H. inversion H.
  - unfold own. rewrite E8. cbn. intros m. split; [intros H; inversion H|intros [H _]; inversion H].
  - intros u m v H. destruct u; discriminate.
Qed.

Lemma none_frame s s' : none s -> fpaused s' = fpaused s -> state s' = state s -> buf s' = buf s -> chans s' = chans s -> pops s' = pops s ->
  prepping s' = prepping s -> con s' = con s -> preps s' = preps s -> trace s' = trace s -> syncs s' = syncs s -> waiters s' = waiters s -> worker s' = false -> none s'.
Proof. intros [] E3 E4 E5 E6 E7 E8 E9 E10 E11 E12 E13 E14. split; rewrite ?E3, ?E4, ?E5, ?E6, ?E7, ?E8, ?E9, ?E10, ?E11, ?E12, ?E13; assumption. Qed.

Lemma step_none s a s' : none s -> step s a = Some s' -> none s' \/ exists c0 ch P, one s' c0 ch P.
Proof.
  intros N H. pose proof N as N0. destruct N as [N1 N2 N3 N4 N5 N6 N7 N8 N9 N10 [c N12]].
  destruct a as [n| | | | | |i|i|i|i|n| | | |j|j]; cbn [step] in H.
  - injection H as <-. left. eapply none_frame; try apply N0; reflexivity || assumption.
  - injection H as <-. left. eapply none_frame; try apply N0; reflexivity || assumption.
  - rewrite N8 in H. destruct (assignStore s) as [x s1] eqn:A. injection H as <-. right. exists c, (mkCh [] false), (mkPop 1 x [] true []).
    unfold assignStore in A. destruct (store s); injection A as <- <-; eapply (one_start s KPrep Prepping); eauto; cbn; rewrite ?N4, ?N5, ?N10, ?N12; reflexivity.
  - rewrite N8 in H. injection H as <-. left. exact N0.
  - destruct (assignStore s) as [x s1] eqn:A. right. exists c, (mkCh [] false), (mkPop 1 x [] true []).
    unfold assignStore in A. destruct (store s); injection A as <- <-; cbn in H; rewrite N8, N9 in H; injection H as <-; eapply (one_start s KWork Ready); eauto; cbn; rewrite ?N4, ?N5, ?N10, ?N12; reflexivity.
  - injection H as <-. left. eapply none_frame; try apply N0; reflexivity.
  - rewrite N5 in H. discriminate.
  - rewrite N5 in H. discriminate.
  - rewrite N5 in H. discriminate.
  - rewrite N5 in H. discriminate.
  - rewrite N3, N2 in H. discriminate.
  - rewrite N3 in H. discriminate.
  - rewrite N3 in H. discriminate.
  - rewrite N3 in H. discriminate.
  - rewrite N4 in H. discriminate.
  - rewrite N4 in H. discriminate.
Qed.

Lemma kinds_set s i k x g g' : syncs s !! i = Some (mkSync k x g) -> kinds (setSync i k x g' s) = kinds s.
Proof.
  intros H. unfold kinds, setSync. cbn. revert i H. induction (syncs s) as [|a l IH]; intros [|i] H; [discriminate..| |].
  - injection H as ->. reflexivity.
  - cbn. f_equal. apply (IH i H).
Qed.

Lemma own_set_same s i k x g g' : syncs s !! i = Some (mkSync k x g) -> mark_of g' = mark_of g -> own (setSync i k x g' s) = own s.
Proof. intros H E. unfold own, setSync. cbn. apply (omap_insert_same (fun y => mark_of (sy_stage y)) _ _ (mkSync k x g)); [exact H|exact E]. Qed.

Lemma own_set_new s i k x m m' : syncs s !! i = Some (mkSync k x SNew) -> m' ∈ own (setSync i k x (SReg m) s) <-> m' = m \/ m' ∈ own s.
Proof.
  intros H. unfold own, setSync. cbn. revert i H. induction (syncs s) as [|a l IH]; intros [|i] H; [discriminate..| |].
  - injection H as ->. cbn. apply elem_of_cons.
  - specialize (IH i H). cbn [insert list_insert]. change (omap ?f (a :: ?t)) with (match f a with Some y => y :: omap f t | None => omap f t end). cbv beta.
    change (list_insert i (mkSync k x (SReg m)) l) with (<[i := mkSync k x (SReg m)]> l).
    destruct (mark_of (sy_stage a)); [rewrite !elem_of_cons, IH; tauto|exact IH].
Qed.

Lemma step_one s a s' c0 ch P : base s -> one s c0 ch P -> step s a = Some s' -> (exists ch' P', one s' c0 ch' P') \/ 2 <= preps s'.
Proof.
  intros Bs O H. destruct a as [n| | | | | |i|i|i|i|n| | | |j|j]; cbn [step] in H.
  - injection H as <-. left. exists ch, P. apply (one_grow s _ [Data n]); try reflexivity; [exact O|]. apply O.
  - injection H as <-. left. exists ch, P. apply (one_grow s _ [Mark (nextMark s)]); try reflexivity; [exact O|]. apply O.
  - destruct (prepping s) eqn:Pr; [injection H as <-; left; exists ch, P; exact O|]. destruct (assignStore s) as [x s1] eqn:A. injection H as <-. right. cbn.
    unfold assignStore in A. destruct (store s); injection A as <- <-; cbn; rewrite (o_preps _ _ _ _ O); lia.
  - injection H as <-. left. destruct (prepping s) eqn:Pr; [|exists ch, P; exact O]. do 2 eexists. apply one_cancel; eassumption.
  - destruct (assignStore s) as [x s1] eqn:A.
    assert (O1 : one s1 c0 ch P) by (unfold assignStore in A; destruct (store s); injection A as <- <-; [exact O|]; apply (one_frame s); try reflexivity; exact O).
    destruct (prepping s1) eqn:Pr; [injection H as <-; left; exists ch, P; apply one_addWork; assumption|]. destruct (worker s1); [injection H as <-; left; exists ch, P; exact O1|].
    injection H as <-. right. cbn. rewrite (o_preps _ _ _ _ O1). lia.
  - injection H as <-. left. exists ch, P. apply (one_frame s); try reflexivity. exact O.
  - destruct (syncs s !! i) as [[k x [|m|m|m]]|] eqn:E; try discriminate. injection H as <-. left. exists ch, P.
    pose proof (own_set_new s i k x (nextMark s)) as W. change (own (setSync i k x (SReg (nextMark s)) s)) with (own (set_nextMark (S (nextMark s)) (set_waiters (waiters s ++ [nextMark s]) (setSync i k x (SReg (nextMark s)) s)))) in W.
    assert (Lt : forall m, m ∈ own s -> m < nextMark s) by apply Bs.
    assert (In : forall m, m ∈ marks (p_done P) -> m < nextMark s).
    { intros m Hm. apply (b_log _ Bs). destruct (o_prefix _ _ _ _ O) as [t ->]. rewrite <- !app_assoc, marks_app. apply elem_of_app. left. exact Hm. }
    apply (one_grow s _ []); try reflexivity; [exact O| | | |].
    + cbn. rewrite app_nil_r. reflexivity.
    + apply (kinds_set s i k x SNew _ E).
    + intros m Hm. rewrite W by exact E. apply In in Hm. split; [auto|]. intros [->|?]; [lia|assumption].
    + intros m. rewrite W by exact E. cbn. rewrite elem_of_app, elem_of_list_singleton, (o_wait _ _ _ _ O). split; [|tauto].
      intros [[Q1 Q2]| ->]; [tauto|]. split; [auto|]. rewrite (o_rel _ _ _ _ O). unfold ownIn. rewrite elem_of_list_filter. intros [_ U]. apply In in U. lia.
  - destruct (syncs s !! i) as [[k x [|m|m|m]]|] eqn:E; try discriminate. injection H as <-. left. exists ch, P.
    assert (Eo : own (set_log (log s ++ [Mark m]) (setSync i k x (SSent m) s)) = own s) by apply (own_set_same s i k x (SReg m) (SSent m) E eq_refl).
    apply (one_grow s _ [Mark m]); try reflexivity; [exact O| | |].
    + apply (kinds_set s i k x (SReg m) _ E).
    + intros m' _. rewrite Eo. reflexivity.
    + intros m'. rewrite Eo. apply O.
  - destruct (syncs s !! i) as [[k x [|m|m|m]]|] eqn:E; try discriminate. injection H as <-. left. exists ch, P.
    assert (Eo : own (setSync i k x (SSent m) s) = own s) by apply (own_set_same s i k x (SReg m) (SSent m) E eq_refl).
    apply (one_grow s _ []); try reflexivity; [exact O| | | |].
    + cbn. rewrite app_nil_r. reflexivity.
    + apply (kinds_set s i k x (SReg m) _ E).
    + intros m' _. rewrite Eo. reflexivity.
    + intros m'. rewrite Eo. apply O.
  - destruct (syncs s !! i) as [[k x [|m|m|m]]|] eqn:E; try discriminate. destruct (decide (m ∈ released (trace s))); [|discriminate]. injection H as <-. left. exists ch, P.
    assert (Eo : own (setSync i k x (SDone m) s) = own s) by apply (own_set_same s i k x (SSent m) (SDone m) E eq_refl).
    apply (one_grow s _ []); try reflexivity; [exact O| | | |].
    + cbn. rewrite app_nil_r. reflexivity.
    + apply (kinds_set s i k x (SSent m) _ E).
    + intros m' _. rewrite Eo. reflexivity.
    + intros m'. rewrite Eo. apply O.
  - destruct (con s) eqn:C; try discriminate. destruct (fpaused s) eqn:F; [discriminate|]. destruct (decide (0 < n /\ pos s + n <= length (log s))) as [[_ L]|]; [|discriminate]. injection H as <-. left. exists ch, P. apply one_poll; assumption.
  - destruct (con s) eqn:C; try discriminate. injection H as <-. left. exists ch, P. apply one_check; assumption.
  - destruct (con s) eqn:C; try discriminate. injection H as <-. left. exists ch, P. apply one_eval; assumption.
  - destruct (con s) as [| | |b [c|]|] eqn:C; try discriminate. destruct (chans s !! c) as [k|] eqn:Ck; [|discriminate]. left. destruct (one_put s b c k c0 ch P s' O C Ck H) as [ch' O']. eauto.
  - destruct (pops s !! j) as [[c x [|r b] [|] dn]|] eqn:Pj; try discriminate. left. exact (one_take s j c x dn c0 ch P s' O Pj H).
  - destruct (pops s !! j) as [[c x [|r b] [|] dn]|] eqn:Pj; try discriminate. left. exact (one_handle s j c x r b dn c0 ch P s' Bs O Pj H).
Qed.

Lemma step_inv s a s' : inv s -> step s a = Some s' -> inv s'.
Proof.
  intros [Bs C] H. split; [exact (step_base s a s' Bs H)|]. pose proof (preps_mono s a s' H) as M. destruct C as [N|[(c0 & ch & P & O)|L]].
  - destruct (step_none s a s' N H); auto.
  - destruct (step_one s a s' c0 ch P Bs O H) as [(ch' & P' & O')|L]; [right; left; eauto|auto].
  - right; right. lia.
Qed.

Lemma inv_start l n : (forall m, m ∈ marks l -> m < n) -> NoDup (marks l) -> inv (start l n).
Proof.
  intros A B. split.
  - split; cbn; try assumption; [intros m H; inversion H|constructor|discriminate].
  - left. split; try reflexivity. eexists. reflexivity.
Qed.

Lemma run_inv acts : forall s s', inv s -> run s acts = Some s' -> inv s'.
Proof.
  induction acts as [|a acts IH]; intros s s' I H; cbn in H; [injection H as <-; exact I|]. destruct (step s a) as [s1|] eqn:E; [|discriminate]. exact (IH s1 s' (step_inv s a s1 I E) H).
Qed.

(** stores: every store in use has been made before *)
Record made (s : st) : Prop := mkMade {
  m_store : forall x, store s = Some x -> x < stores s;
  m_sync : forall i y, syncs s !! i = Some y -> sy_store y < stores s;
  m_pop : forall j P, pops s !! j = Some P -> p_store P < stores s }.

Lemma lookup_snoc {A} (l : list A) x i y : (l ++ [x]) !! i = Some y -> l !! i = Some y \/ y = x.
Proof. intros H. apply lookup_app_Some in H as [H|[_ H]]; [auto|]. apply list_lookup_singleton_Some in H as [_ <-]. auto. Qed.

Lemma handle_frame2 x r s : stores (snd (handleRecord x r s)) = stores s /\ store (snd (handleRecord x r s)) = store s /\ pops (snd (handleRecord x r s)) = pops s.
Proof.
  destruct r as [n|m]; cbn; [auto|]. unfold isCompletionMarker. destruct (decide (m ∈ waiters s)); cbn; [|auto]. destruct (state s); cbn; auto.
  unfold cancel, pause, closeCh; cbn. destruct (buf s) as [c|]; cbn; [destruct (chans s !! c); cbn|]; auto.
Qed.

Lemma made_assign s : made s -> made (snd (assignStore s)) /\ fst (assignStore s) < stores (snd (assignStore s)).
Proof.
  intros [A B C]. unfold assignStore. destruct (store s) as [x|] eqn:E; cbn; [split; [split; [rewrite E|..]; assumption|apply A; reflexivity]|].
  split; [|lia]. split; cbn.
  - intros x [= <-]. lia.
  - intros i y H. pose proof (B i y H). lia.
  - intros i y H. pose proof (C i y H). lia.
Qed.

Lemma made_addSync k x s : made s -> x < stores s -> made (addSync k x s).
Proof. intros [A B C] H. split; cbn; try assumption. intros i y Q. apply lookup_snoc in Q as [Q| ->]; [eapply B, Q|exact H]. Qed.

Lemma made_prep i x s : made s -> x < stores s -> made (prep i x s).
Proof. intros [A B C] H. split; cbn; try assumption. intros j y Q. apply lookup_snoc in Q as [Q| ->]; [eapply C, Q|exact H]. Qed.

Lemma made_set i k x g s : made s -> x < stores s -> made (setSync i k x g s).
Proof. intros [A B C] H. split; cbn; try assumption. intros j y Q. apply list_lookup_insert_Some in Q as [(_ & <- & _)|[_ Q]]; [exact H|eapply B, Q]. Qed.

Lemma made_pops j P s : made s -> p_store P < stores s -> made (set_pops (<[j := P]> (pops s)) s).
Proof. intros [A B C] H. split; cbn; try assumption. intros i y Q. apply list_lookup_insert_Some in Q as [(_ & <- & _)|[_ Q]]; [exact H|eapply C, Q]. Qed.

Lemma made_frame s s' : made s -> store s' = store s \/ store s' = None -> stores s' = stores s -> syncs s' = syncs s -> pops s' = pops s -> made s'.
Proof. intros [A B C] E1 E2 E3 E4. split; rewrite ?E2, ?E3, ?E4; try assumption. intros x H. destruct E1 as [E1|E1]; rewrite E1 in H; [apply A, H|discriminate]. Qed.

Ltac frame s := apply (made_frame s); [assumption|cbn; auto|reflexivity..].
Lemma step_made s a s' : made s -> step s a = Some s' -> made s' /\ stores s <= stores s'.
Proof.
  intros M H. destruct a as [n| | | | | |i|i|i|i|n| | | |j|j]; cbn [step] in H.
  - injection H as <-. split; [frame s|cbn; lia].
  - injection H as <-. split; [frame s|cbn; lia].
  - destruct (prepping s); [injection H as <-; auto|]. destruct (made_assign s M) as [M1 L]. destruct (assignStore s) as [x s1] eqn:A. injection H as <-. cbn [fst snd] in *. split.
    + apply made_addSync; [|exact L]. assert (M2 : made (prep Prepping x s1)) by (apply made_prep; assumption). frame (prep Prepping x s1).
    + cbn. unfold assignStore in A. destruct (store s); injection A as <- <-; cbn; lia.
  - injection H as <-. destruct (prepping s); [|auto]. pose proof (cancel_frame s) as (_ & _ & Q). split; [apply (made_frame s _ M); cbn|]; unfold cancel, pause, closeCh; cbn; destruct (buf s) as [c|]; cbn; try destruct (chans s !! c); cbn; auto.
  - destruct (made_assign s M) as [M1 L]. destruct (assignStore s) as [x s1] eqn:A. cbn [fst snd] in *.
    assert (Q : stores s <= stores s1) by (unfold assignStore in A; destruct (store s); injection A as <- <-; cbn; lia). injection H as <-. destruct (prepping s1); [|destruct (worker s1)]; cbn; (split; [|exact Q]).
    + apply made_addSync; [|exact L]. frame s1.
    + exact M1.
    + apply made_addSync; [|exact L]. assert (M2 : made (prep Ready x s1)) by (apply made_prep; assumption). frame (prep Ready x s1).
  - injection H as <-. split; [frame s|cbn; lia].
  - destruct (syncs s !! i) as [[k x [|m|m|m]]|] eqn:E; try discriminate. injection H as <-. pose proof (m_sync _ M i _ E) as L. assert (M2 := made_set i k x (SReg (nextMark s)) s M L). split; [frame (setSync i k x (SReg (nextMark s)) s)|cbn; lia].
  - destruct (syncs s !! i) as [[k x [|m|m|m]]|] eqn:E; try discriminate. injection H as <-. pose proof (m_sync _ M i _ E) as L. assert (M2 := made_set i k x (SSent m) s M L). split; [frame (setSync i k x (SSent m) s)|cbn; lia].
  - destruct (syncs s !! i) as [[k x [|m|m|m]]|] eqn:E; try discriminate. injection H as <-. pose proof (m_sync _ M i _ E) as L. assert (M2 := made_set i k x (SSent m) s M L). split; [exact M2|cbn; lia].
  - destruct (syncs s !! i) as [[k x [|m|m|m]]|] eqn:E; try discriminate. destruct (decide (m ∈ released (trace s))); [|discriminate]. injection H as <-. pose proof (m_sync _ M i _ E) as L. assert (M2 := made_set i k x (SDone m) s M L). split; [exact M2|cbn; lia].
  - destruct (con s) eqn:C; try discriminate. destruct (fpaused s) eqn:F; [discriminate|]. destruct (decide _); [|discriminate]. injection H as <-. split; [frame s|cbn; lia].
  - destruct (con s) eqn:C; try discriminate. injection H as <-. destruct (state s); (split; [frame s|cbn; lia]).
  - destruct (con s) eqn:C; try discriminate. injection H as <-. split; [frame s|cbn; lia].
  - destruct (con s) as [| | |b [c|]|] eqn:C; try discriminate. destruct (chans s !! c) as [k|] eqn:Ck; [|discriminate]. destruct (c_closed k); [injection H as <-; split; [frame s|cbn; lia]|]. destruct (_ <? _); [|discriminate]. injection H as <-. split; [frame s|cbn; lia].
  - destruct (pops s !! j) as [[c x [|r b] [|] dn]|] eqn:Pj; try discriminate. pose proof (m_pop _ M j _ Pj) as L. cbn in L. destruct (chans s !! c) as [[[|b q] [|]]|]; try discriminate; injection H as <-; (split; [|cbn; lia]).
    + apply made_pops; assumption.
    + assert (M2 := made_pops j (mkPop c x b true dn) s M L). frame (set_pops (<[j := mkPop c x b true dn]> (pops s)) s).
    + assert (M2 := made_pops j (mkPop c x b true dn) s M L). frame (set_pops (<[j := mkPop c x b true dn]> (pops s)) s).
  - destruct (pops s !! j) as [[c x [|r b] [|] dn]|] eqn:Pj; try discriminate. pose proof (m_pop _ M j _ Pj) as L. cbn in L.
    pose proof (handle_frame x r s) as (_ & _ & Q1). pose proof (handle_frame2 x r s) as (Q2 & Q3 & Q4). destruct (handleRecord x r s) as [cp s1]. cbn [snd] in *. injection H as <-. cbn. split; [|lia].
    rewrite <- Q4. apply made_pops; [|cbn; lia]. apply (made_frame s _ M); auto.
Qed.

Lemma made_start l n : made (start l n).
Proof. split; cbn; discriminate. Qed.
Lemma run_made acts : forall s s', made s -> run s acts = Some s' -> made s'.
Proof.
  induction acts as [|a acts IH]; intros s s' I H; cbn in H; [injection H as <-; exact I|]. destruct (step s a) as [s1|] eqn:E; [|discriminate]. exact (IH s1 s' (proj1 (step_made s a s1 I E)) H).
Qed.
