(** While no commit has failed a worker's counter is exactly what the pool still has to release. *)
From stdpp Require Import prelude list sorting.
From Coq Require Import ZArith.
From Verif.Eos Require Import Model Base Struct Struct2 Step1 Own Own2 Fin Own3 Fin2 Fin3 Rev Spec Ends Main Wait.
Open Scope nat_scope.
Definition We (s : st) : Prop := forall w, Z.of_nat (load s w) = waits s w.
Lemma We_step c s a s' : Str c s -> Fin s -> We s -> step c s a = Some s' -> a <> KSkip -> (forall ok, a <> KFail ok) -> We s'.
Proof.
  intros I F W H Ha Hf.
  assert (forall s2, s2 = s' -> waits s2 = waits s -> buffer s2 = buffer s -> chk s2 = chk s -> kp s2 = kp s -> queue s2 ++ deck s2 = queue s ++ deck s -> (forall n, n_ecs (nodes s2 n) = n_ecs (nodes s n)) -> We s2) as FR.
  { intros s2 -> E1 E2 E3 E4 E5 E6 w. unfold load. fold (nsum s' w). rewrite E1, E2, E3, (nsum_ext s s'), (kload_ext s s') by auto. apply W. }
  destruct a; cbn [step] in H.
  - case_decide; [done|]. injection H as <-. intros w0. specialize (W w0). unfold load in *. fold (nsum s w0) in W. match goal with |- context [list_sum ?x] => change (list_sum x) with (nsum s w0) end.
    match goal with |- context [kload ?x w0] => change (kload x w0) with (kload s w0) end. cbn [buffer emit emits addWait set_waits waits set_buffer set_narr]. match goal with |- context [chk ?x] => change (chk x) with (chk s) end.
    rewrite cnt_app, cnt_one. cbn [e_w]. unfold upd. destruct (decide (w0 = w)) as [->|]; lia.
  - case_decide; [done|]. injection H as <-. by apply FR.
  - case_decide; [|done]. injection H as <-. by apply FR.
  - case_decide; [|done]. injection H as <-. by apply FR.
  - case_decide; [|done]. injection H as <-. rewrite produceRecord_eq in *. apply FR; try done. intros m. cbn. unfold upd. destruct (decide (m = n)) as [->|]; done.
  - case_decide; [|done]. injection H as <-. by apply FR.
  - destruct (fp s) eqn:Ef; try done. destruct (buffer s) as [|e b] eqn:Eb; [done|]. injection H as <-. intros w. specialize (W w). unfold load in *. fold (nsum s w) in W. rewrite Eb, cnt_cons in W. unfold chk at 1 in W. rewrite Ef in W. case_decide.
    + match goal with |- context [list_sum ?x] => change (list_sum x) with (nsum s w) end. match goal with |- context [kload ?x w] => change (kload x w) with (kload s w) end. unfold chk. cbn [buffer emit emits addWait set_waits waits set_buffer fp]. rewrite Ef. unfold upd. change (cnt w []) with 0 in *.
      destruct (decide (w = e_w e)) as [->|]; lia.
    + match goal with |- context [list_sum (map (nload ?x w) _)] => fold (nsum x w); rewrite (nsum_ext s x) by (try done; unfold deck; cbn; by rewrite Ef) end.
      match goal with |- context [kload ?x w] => change (kload x w) with (kload s w) end. unfold chk. cbn [buffer emit emits waits set_buffer set_fp fp]. rewrite cnt_one. change (cnt w []) with 0 in *. lia.
  - assert (exists e, fp s = FChecked e /\ s' = set_fp (FAdded e) (addEc e s)) as (e & Ef & ->).
    { destruct (fp s); try done. destruct (kp s); try done; injection H as <-; eauto 10. } clear FR H.
    set (s' := set_fp _ _). intros w. specialize (W w). unfold load in *. fold (nsum s w) in W. fold (nsum s' w).
    assert (forall m, m <> onDeck s -> nodes s' m = nodes s m) as Ho. { intros m Hm. unfold s', addEc. case_decide; cbn; by rewrite upd_ne. }
    assert (n_ecs (nodes s' (onDeck s)) = n_ecs (nodes s (onDeck s)) ++ [e]) as Ed. { unfold s', addEc. case_decide; cbn; by rewrite upd_eq. }
    assert (kload s' w = kload s w) as ->.
    { apply kload_ext; [unfold s', addEc; by case_decide|]. intros n Hn. rewrite Ho; [done|]. intros ->. unfold kn in Hn. destruct (kp s) as [|n1| | | ] eqn:Ek; try (by apply elem_of_nil in Hn).
      all: apply elem_of_list_singleton in Hn; symmetry in Hn; revert Hn; eapply not_head_deck; [exact I|unfold kn; by rewrite Ek|congruence]. }
    assert (buffer s' = buffer s /\ chk s' = []) as [-> ->] by (unfold s', addEc; by case_decide).
    assert (deck s = [onDeck s]) as Edk by (unfold deck; by rewrite Ef).
    assert (queue s' ++ deck s' = queue s ++ [onDeck s]) as Eq by (unfold s', addEc, deck; case_decide; done).
    assert (onDeck s ∉ queue s) as Hnq. { pose proof (Str_nodup_pipe _ _ I) as ND. rewrite deck_pipe in ND by congruence. apply NoDup_app in ND as (_ & ND & _). intros Hq. apply (ND (onDeck s)); [apply elem_of_app; by right|by left]. }
    assert (nsum s' w = nsum s w + (if decide (w = e_w e) then 1 else 0) + if decide (e_p e ∈ map e_p (n_ecs (nodes s (onDeck s)))) then 0 else if decide (w = e_w e) then 1 else 0) as ->.
    { unfold nsum. rewrite Eq, Edk, !map_app, !list_sum_app. cbn [map list_sum]. assert (map (nload s' w) (queue s) = map (nload s w) (queue s)) as ->.
      { apply map_ext_in. intros m Hm. apply elem_of_list_In in Hm. unfold nload. rewrite Ho; [done|]. by intros ->. }
      unfold list_sum. cbn [fold_right]. unfold nload at 2 4. rewrite Ed, cnt_app, cnt_one, roots_snoc. lia. }
    assert (waits s' w = waits s w + (if decide (e_p e ∈ map e_p (n_ecs (nodes s (onDeck s)))) then 0 else if decide (w = e_w e) then 1 else 0))%Z as ->.
    { unfold s', addEc. case_decide; cbn; [lia|]. unfold upd. destruct (decide (w = e_w e)) as [->|]; lia. }
    unfold chk in W. rewrite Ef, cnt_one in W. change (cnt w []) with 0. destruct (decide (w = e_w e)), (decide (e_p e ∈ map e_p (n_ecs (nodes s (onDeck s))))); lia.
  - destruct (fp s) eqn:Ef; try done. injection H as <-. unfold claim in *. destruct (owners s (e_p e)); (apply FR; try done; unfold chk, deck; cbn; by rewrite Ef).
  - destruct (fp s) eqn:Ef; try done. injection H as <-. apply FR; try done; unfold chk, deck; cbn; by rewrite Ef.
  - destruct (fp s) eqn:Ef; try done. injection H as <-. destruct (target c <=? _); (apply FR; try done; unfold chk, deck; cbn; by rewrite Ef).
  - destruct (fp s) eqn:Ef; try done. injection H as <-. apply FR; try done; unfold chk, deck; cbn; by rewrite Ef.
  - destruct (fp s) eqn:Ef; try done. injection H as <-. repeat case_match; (apply FR; try done; unfold chk, deck; cbn; rewrite ?Ef, ?app_nil_r; done).
  - destruct (fp s) eqn:Ef; try done. destruct (length (queue s) <? pendingTxn c); [|done]. injection H as <-. apply FR; try done; unfold chk, deck; cbn; rewrite ?Ef, ?app_nil_r; done.
  - destruct (fp s) eqn:Ef; try done. destruct (freeq s) as [|m q] eqn:Eq; [done|]. injection H as <-. set (s' := set_fp _ _). intros w. specialize (W w). unfold load in *. fold (nsum s w) in W. fold (nsum s' w).
    assert (nsum s' w = nsum s w) as ->.
    { unfold nsum. assert (queue s' ++ deck s' = (queue s ++ deck s) ++ [m]) as -> by (unfold deck; rewrite Ef; cbn; by rewrite app_nil_r). rewrite map_app, list_sum_app. unfold list_sum at 2. cbn [map fold_right].
      assert (nload s' w m = 0) as ->; [|change (map (nload s' w)) with (map (nload s w)); lia]. unfold nload. change (nodes s' m) with (nodes s m). destruct (str_idle _ _ I m) as (-> & _); [|done]. apply (str_free _ _ I). rewrite Eq. by left. }
    change (kload s' w) with (kload s w). unfold chk in *. rewrite Ef in W. exact W.
  - destruct (kp s) eqn:Ek; try done. destruct (queue s) as [|n q] eqn:Eq; [done|]. injection H as <-. set (s' := set_kp _ _). intros w. specialize (W w). unfold load in *. fold (nsum s w) in W. fold (nsum s' w).
    assert (nsum s w + kload s w = nsum s' w + kload s' w) as E; [|change (buffer s') with (buffer s); change (chk s') with (chk s); change (waits s' w) with (waits s w); lia].
    unfold nsum, kload. rewrite Ek. change (kp s') with (KFin n [] false (parts (n_ecs (nodes s n)))). change (nodes s' n) with (nodes s n). change (queue s' ++ deck s') with (q ++ deck s). rewrite Eq. cbn [app map]. unfold list_sum at 1. cbn [fold_right].
    unfold list_sum. change (map (nload s' w)) with (map (nload s w)). cbn iota. change (nodes s' n) with (nodes s n). change (cnt w []) with 0. unfold nload at 1. rewrite (filter_id (fun e => e_p e ∈ parts (n_ecs (nodes s n)))); [lia|].
    intros e He. apply elem_parts. eauto.
  - destruct (kp s) as [|n [|] mk todo| | | ] eqn:Ek; try done. case_decide as D; [|done]. injection H as <-. intros w. specialize (W w). unfold load in *. change (list_sum _) with (nsum s w). fold (nsum s w) in W. unfold kload in *. rewrite Ek in W. cbn [kp set_kp nodes].
    change (cnt w []) with 0 in W. rewrite cnt_rev. rewrite (cnt_filter_todo w _ p todo D) in W. unfold chk in *. cbn [set_kp buffer fp waits]. lia.
  - destruct (kp s) as [|n [|e cur] marked todo| | | ] eqn:Ek; try done. case_decide as D; [|done].
    assert (exists mk s1, s' = set_kp (KFin n cur mk todo) (addWait (e_w e) (-1) s1) /\ waits s1 = waits s /\ buffer s1 = buffer s /\ fp s1 = fp s /\ queue s1 = queue s /\ onDeck s1 = onDeck s /\ forall m, n_ecs (nodes s1 m) = n_ecs (nodes s m)) as (mk & s1 & -> & E1 & E2 & E3 & E4 & E5 & E6).
    { destruct marked, (e_off e) as [o|] eqn:Eo; injection H as <-; rewrite ?produceRecord_eq; do 2 eexists; (split; [reflexivity|]); repeat split. intros m. cbn. unfold upd. destruct (decide (m = n)) as [->|]; done. }
    intros w. specialize (W w). unfold load in *. fold (nsum s w) in W. match goal with |- context [list_sum (map (nload ?x w) _)] => fold (nsum x w); rewrite (nsum_ext s x) end.
    + unfold kload in *. rewrite Ek in W. cbn [kp set_kp nodes addWait set_waits buffer waits]. rewrite E1, E2, E6. unfold chk in *. cbn [fp set_kp addWait set_waits]. rewrite E3. rewrite cnt_cons in W. unfold upd. destruct (decide (w = e_w e)) as [->|]; lia.
    + cbn. unfold deck. cbn. by rewrite E3, E4, E5.
    + intros m _. apply E6.
  - destruct (kp s) as [|n [|] mk [|]| | | ] eqn:Ek; try done. injection H as <-. pose proof (release_eq (n_ecs (nodes s n)) s) as Hr. destruct (releaseRoots_frame (n_ecs (nodes s n)) (parts (n_ecs (nodes s n))) s) as [z Hz]. rewrite Hz in *. cbn [waits set_waits] in Hr.
    intros w. specialize (W w). unfold load in *. change (list_sum _) with (nsum s w). fold (nsum s w) in W. unfold kload in *. rewrite Ek in W. cbn [kp set_kp emit emits waits set_waits buffer]. rewrite Hr. unfold chk in *. cbn [fp set_kp emit emits set_waits]. rewrite (filter_nil_all (fun e => e_p e ∈ [])) in W by (intros e _ X; by apply elem_of_nil in X). change (cnt w []) with 0 in W. lia.
  - destruct (kp s) eqn:Ek; try done. injection H as <-. intros w. specialize (W w). unfold load in *. change (list_sum _) with (nsum s w). fold (nsum s w) in W. unfold kload in *. rewrite Ek in W. exact W.
  - destruct (kp s) as [| | |n todo|] eqn:Ek; try done. case_decide as D; [|done]. injection H as <-. assert (kn s = [n]) as K by (unfold kn; by rewrite Ek).
    pose proof (head_ring _ _ _ I K) as Hr. assert (n ∉ queue s ++ deck s) as Hnq. { pose proof (Str_nodup_pipe _ _ I) as ND. unfold pipe in ND. rewrite K in ND. cbn in ND. apply NoDup_cons in ND. apply ND. }
    rewrite relinquish_eq by done. cbn zeta. intros w. specialize (W w). unfold load in *. fold (nsum s w) in W. unfold kload in *. rewrite Ek in W.
    destruct (List.find (holds s p) (ring (poolSize c) n)) as [m|] eqn:Em.
    + match goal with |- context [list_sum (map (nload ?x w) _)] => fold (nsum x w); rewrite (nsum_ext s x) end; [exact W|done|].
      intros j Hj. cbn. unfold upd. destruct (decide (j = n)) as [->|]; [done|]. destruct (decide (j = m)) as [->|]; done.
    + match goal with |- context [list_sum (map (nload ?x w) _)] => fold (nsum x w); rewrite (nsum_ext s x) end; [exact W|done|].
      intros j Hj. cbn. unfold upd. destruct (decide (j = n)) as [->|]; done.
  - destruct (kp s) as [| | |n [|]|] eqn:Ek; try done. injection H as <-. assert (kn s = [n]) as K by (unfold kn; by rewrite Ek).
    assert (n ∉ queue s ++ deck s) as Hnq. { pose proof (Str_nodup_pipe _ _ I) as ND. unfold pipe in ND. rewrite K in ND. cbn in ND. apply NoDup_cons in ND. apply ND. }
    intros w. specialize (W w). unfold load in *. fold (nsum s w) in W. unfold kload in *. rewrite Ek in W.
    match goal with |- context [list_sum (map (nload ?x w) _)] => fold (nsum x w); rewrite (nsum_ext s x) end; [exact W|done|].
    intros j Hj. cbn. unfold upd. destruct (decide (j = n)) as [->|]; done.
  - by destruct (Hf ok).
  - done.
Qed.
Lemma We_run c acts s : valid c -> Forall (fun a => a <> KSkip /\ forall ok, a <> KFail ok) acts -> run c (start c) acts = Some s -> We s.
Proof.
  intros V N R. eapply (run_ind c (fun s => Inv c s /\ We s) (fun a => a <> KSkip /\ forall ok, a <> KFail ok)); [| |exact N|exact R].
  - split; [constructor; [by apply Str_start|apply Giv_start|apply Own_start|apply Fin_start]|]. intros w. unfold load, kload, chk. cbn. unfold list_sum. cbn. done.
  - intros s1 a s2 [J W] [Ha Hf] H. split; [by apply (Inv_step c s1 a s2)|]. apply (We_step c s1 a s2); try done; apply J.
Qed.
