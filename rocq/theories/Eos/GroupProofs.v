(** Proofs about the offsets marked for the consumer group. *)
From stdpp Require Import prelude list sorting.
From Verif.Eos Require Import Model Base Struct Step1 Own Struct2 Fin Fin2 Fin3 Spec Ends Main Group.
Open Scope nat_scope.

Lemma grun_app c on s k a1 a2 : grun c on s k (a1 ++ a2) = match grun c on s k a1 with Some (s', k') => grun c on s' k' a2 | None => None end.
Proof. revert s k. induction a1 as [|a a1 IH]; intros s k; cbn; [done|]. destruct (step c s a); [apply IH|done]. Qed.
Lemma grun_run c on s k acts s' k' : grun c on s k acts = Some (s', k') -> run c s acts = Some s'.
Proof. revert s k. induction acts as [|a acts IH]; intros s k; cbn. { by intros [= -> ->]. } destruct (step c s a); [apply IH|done]. Qed.
(** every execution of the pool has its calls *)
Lemma run_grun c on acts s k s' : run c s acts = Some s' -> exists k', grun c on s k acts = Some (s', k').
Proof. revert s k. induction acts as [|a acts IH]; intros s k; cbn. { intros [= ->]. eauto. } destruct (step c s a); [apply IH|done]. Qed.

Lemma elem_markCalls p o x : (p, o) ∈ markCalls x <-> exists e, e ∈ n_ecs x /\ e_p e = p /\ e_off e = Some o.
Proof.
  unfold markCalls. rewrite elem_of_flat_map'. split.
  - intros (q & _ & H). apply elem_of_list_omap in H as (e & He & E). apply elem_of_list_In, in_rev, elem_of_list_In, elem_ofPart in He as [<- He].
    destruct (e_off e) eqn:Eo; [|done]. cbn in E. injection E as <- <-. eauto.
  - intros (e & He & <- & Eo). exists (e_p e). split; [apply elem_parts; eauto|]. apply elem_of_list_omap. exists e. rewrite Eo. split; [|done].
    apply elem_of_list_In. rewrite <- in_rev. apply elem_of_list_In, elem_ofPart. done.
Qed.

Lemma groupOffset_spec p calls :
  match groupOffset p calls with
  | None => forall o, (p, o) ∉ calls
  | Some w => exists o, w = S o /\ (p, o) ∈ calls /\ forall o', (p, o') ∈ calls -> o' <= o
  end.
Proof.
  induction calls as [|[q o] calls IH] using rev_ind. { intros o Ho. by apply elem_of_nil in Ho. }
  unfold groupOffset in *. rewrite fold_left_app. cbn [fold_left fst snd]. destruct (decide (q = p)) as [->|Hq].
  - destruct (fold_left _ calls None) as [w|].
    + destruct IH as (o1 & -> & H1 & H2). destruct (decide (o1 <= o)).
      * exists o. split; [lia|]. rewrite !elem_of_app. split; [right; by left|]. intros o'. rewrite elem_of_app. intros [H|H]; [apply H2 in H; lia|].
        apply elem_of_list_singleton in H. injection H as ->. lia.
      * exists o1. split; [lia|]. rewrite !elem_of_app. split; [by left|]. intros o'. rewrite elem_of_app. intros [H|H]; [by apply H2|].
        apply elem_of_list_singleton in H. injection H as ->. lia.
    + exists o. split; [done|]. rewrite elem_of_app. split; [right; by left|]. intros o'. rewrite elem_of_app. intros [H|H]; [by apply IH in H|].
      apply elem_of_list_singleton in H. injection H as ->. lia.
  - destruct (fold_left _ calls None) as [w|].
    + destruct IH as (o1 & -> & H1 & H2). exists o1. split; [done|]. rewrite elem_of_app. split; [by left|]. intros o'. rewrite elem_of_app. intros [H|H]; [by apply H2|].
      apply elem_of_list_singleton in H. injection H as -> _. done.
    + intros o'. rewrite elem_of_app. intros [H|H]; [by apply IH in H|]. apply elem_of_list_singleton in H. injection H as -> _. done.
Qed.

(** one step: what is marked is in the transaction that this step commits *)
Lemma newCalls_committed c on s a s' p o : valid c -> Inv c s -> a <> KSkip -> step c s a = Some s' -> (p, o) ∈ newCalls on s a ->
  on = true /\ exists t e, EvEnd t true ∈ trace s' /\ EvAdd t e ∈ trace s' /\ e_p e = p /\ e_off e = Some o.
Proof.
  intros V J Ha H Hc. assert (Inv c s') as J' by (by apply (Inv_step c s a s')). unfold newCalls in Hc. destruct a; try by apply elem_of_nil in Hc.
  cbn [step] in H. destruct (kp s) as [|n [|? ?] m [|? ?]| | |] eqn:K; try done. destruct on; [|by apply elem_of_nil in Hc]. split; [done|].
  apply elem_markCalls in Hc as (e & He & Hp & Ho). injection H as <-. destruct (releaseRoots_frame (n_ecs (nodes s n)) (parts (n_ecs (nodes s n))) s) as [w Ew]. rewrite Ew in J' |- *.
  assert (n ∈ busy s) as Hb.
  { apply elem_busy. split; [apply (str_kq _ _ (i_str _ _ J)); unfold kn; rewrite K; by left|]. unfold pipe, kn. rewrite K. by left. }
  rewrite (str_adds _ _ (i_str _ _ J) n Hb), (cut_fin s n [] m []) in He by done. exists (txn s n), e. apply elem_adds in He.
  destruct (0 <? n_prod (nodes s n)) eqn:El.
  - cbn. rewrite !elem_of_app. split; [right; by left|]. split; [by left|done].
  - exfalso. destruct (fin_aborted _ (i_fin _ _ J') (trace s) (txn s n) []) as [_ [(n' & K' & _)|Hn]]; [done|done|]. apply elem_adds in He. apply Hn in He. congruence.
Qed.

(** everything in the transaction that this step commits is marked *)
Lemma newCalls_all c s a s' t e o : Inv c s -> step c s a = Some s' -> a <> KSkip -> (forall ok, a <> KFail ok) -> EvEnd t true ∈ trace s' -> EvEnd t true ∉ trace s ->
  EvAdd t e ∈ trace s -> e_off e = Some o -> (e_p e, o) ∈ newCalls true s a.
Proof.
  intros J H Ha Hf Hn Ho He Eo. destruct (step_trace c s a s' (i_str _ _ J) (i_giv _ _ J) (i_own _ _ J) (i_fin _ _ J) H Ha) as (w & Ew & _).
  destruct (deltas c s a s' w (i_str _ _ J) H Ha Ew) as [[[De _]|(n & cur & m & todo & ok & K & Ew' & K' & Hok & _)] _].
  { rewrite Ew, elem_of_app in Hn. destruct Hn as [Hn|Hn]; [done|]. apply elem_ends in Hn. rewrite De in Hn. by apply elem_of_nil in Hn. }
  rewrite Ew, Ew', elem_of_app in Hn. destruct Hn as [Hn|Hn]; [done|]. apply elem_of_list_singleton in Hn. injection Hn as -> <-. destruct (Hok eq_refl) as [-> ->].
  assert (a = KEnd) as ->.
  { destruct a; try (by destruct (Hf ok)); try done; cbn [step] in H; rewrite ?K in H; try done.
    all: exfalso; repeat case_match; try done; injection H as HS; apply (f_equal kp) in HS; rewrite ?produceRecord_eq in HS; cbn in HS; rewrite ?K in HS; destruct K' as [K'|K']; rewrite K' in HS; try discriminate HS; revert HS; repeat case_decide; cbn; rewrite ?K; intros HS; try discriminate HS; unfold claim in HS; repeat case_match; cbn in HS; rewrite ?K in HS; discriminate HS. }
  unfold newCalls. rewrite K. apply elem_markCalls. exists e. split; [|done].
  assert (n ∈ busy s) as Hb.
  { apply elem_busy. split; [apply (str_kq _ _ (i_str _ _ J)); unfold kn; rewrite K; by left|]. unfold pipe, kn. rewrite K. by left. }
  rewrite (str_adds _ _ (i_str _ _ J) n Hb), (cut_fin s n [] m []) by done. by apply elem_adds.
Qed.

Lemma grun_snoc c on acts a s k : grun c on (start c) [] (acts ++ [a]) = Some (s, k) ->
  exists s0 k0, grun c on (start c) [] acts = Some (s0, k0) /\ step c s0 a = Some s /\ k = k0 ++ newCalls on s0 a.
Proof.
  rewrite grun_app. destruct (grun c on (start c) [] acts) as [[s0 k0]|]; [|done]. cbn. destruct (step c s0 a) as [s1|] eqn:E; [|done]. intros [= -> <-]. eauto.
Qed.
Lemma trace_grows c s a s' x : Inv c s -> a <> KSkip -> step c s a = Some s' -> x ∈ trace s -> x ∈ trace s'.
Proof.
  intros J Ha H Hx. destruct (step_trace c s a s' (i_str _ _ J) (i_giv _ _ J) (i_own _ _ J) (i_fin _ _ J) H Ha) as (w & -> & _). rewrite elem_of_app. by left.
Qed.

Lemma marked_committed c on acts s k p o : valid c -> noSkip acts -> grun c on (start c) [] acts = Some (s, k) -> (p, o) ∈ k ->
  on = true /\ exists t e, EvEnd t true ∈ trace s /\ EvAdd t e ∈ trace s /\ e_p e = p /\ e_off e = Some o.
Proof.
  intros V. revert s k. induction acts as [|a acts IH] using rev_ind; intros s k N R H. { cbn in R. injection R as <- <-. by apply elem_of_nil in H. }
  apply Forall_app in N as [N Na]. apply Forall_inv in Na. apply grun_snoc in R as (s0 & k0 & R0 & HS & ->). pose proof (Inv_run c acts s0 V N (grun_run _ _ _ _ _ _ _ R0)) as J.
  apply elem_of_app in H as [H|H].
  - destruct (IH _ _ N R0 H) as (Hon & t & e & H1 & H2 & H3). split; [done|]. exists t, e. split; [by apply (trace_grows c s0 a)|]. split; [by apply (trace_grows c s0 a)|done].
  - by apply (newCalls_committed c on s0 a s).
Qed.

Lemma committed_marked c acts s k t e o : valid c -> noSkip acts -> noFail acts -> grun c true (start c) [] acts = Some (s, k) ->
  EvEnd t true ∈ trace s -> EvAdd t e ∈ trace s -> e_off e = Some o -> (e_p e, o) ∈ k.
Proof.
  intros V. revert s k. induction acts as [|a acts IH] using rev_ind; intros s k N NF R Ht He Ho. { cbn in R. injection R as <- <-. by apply elem_of_nil in Ht. }
  pose proof (Inv_run c _ s V N (grun_run _ _ _ _ _ _ _ R)) as J'.
  apply Forall_app in N as [N Na]. apply Forall_inv in Na. apply Forall_app in NF as [NF Nb]. apply Forall_inv in Nb.
  apply grun_snoc in R as (s0 & k0 & R0 & HS & ->). pose proof (Inv_run c acts s0 V N (grun_run _ _ _ _ _ _ _ R0)) as J.
  destruct (step_trace c s0 a s (i_str _ _ J) (i_giv _ _ J) (i_own _ _ J) (i_fin _ _ J) HS Na) as (w & Ew & _).
  apply elem_of_app. destruct (decide (EvEnd t true ∈ trace s0)) as [Hd|Hd].
  - left. apply (IH s0); try done. apply elem_of_list_split in Hd as (u & v & E). rewrite E, <- app_assoc in Ew.
    destruct (committed_facts J' u t (v ++ w) Ew) as (_ & _ & B & _). apply B in He as [He _]. rewrite E, elem_of_app. by left.
  - right. apply (newCalls_all c s0 a s t); try done. pose proof Ht as Ht'. rewrite Ew, elem_of_app in Ht'. destruct Ht' as [?|Ht']; [done|].
    rewrite Ew, elem_of_app in He. destruct He as [He|He]; [done|exfalso].
    destruct (deltas c s0 a s w (i_str _ _ J) HS Na Ew) as [[[De _]|(n & cur & m & todo & ok & _ & Ew' & _)] _].
    + apply elem_ends in Ht'. rewrite De in Ht'. by apply elem_of_nil in Ht'.
    + rewrite Ew' in He. apply elem_of_list_singleton in He. discriminate.
Qed.

(** everything at or below a marked offset has been handled and committed *)
Lemma marked_safe c on acts s k p o e o' : valid c -> noSkip acts -> grun c on (start c) [] acts = Some (s, k) -> (p, o) ∈ k ->
  StronglySorted lt (offs (accepted p (trace s))) -> EvTake e ∈ trace s -> e_p e = p -> e_off e = Some o' -> o' <= o ->
  EvDone e ∈ trace s /\ exists t, EvAdd t e ∈ trace s /\ EvEnd t true ∈ trace s.
Proof.
  intros V N R H SS He Hp Ho Hle. destruct (marked_committed c on acts s k p o V N R H) as (_ & t & e1 & Ht & Ha & Hp1 & Ho1).
  pose proof (grun_run _ _ _ _ _ _ _ R) as R'. destruct (lower_txn V N R' p e o' e1 o t SS He Hp Ho Ha Hp1 Ho1 Hle) as (t' & Ha' & Hle').
  apply elem_of_list_split in Ht as (u & v & E). destruct (committed_upto_event V N R' u t v e o' t' E Ha' Hle' Ho) as (D1 & D2 & D3).
  assert (forall x, x ∈ u ++ [EvEnd t true] -> x ∈ trace s) as Hin. { intros x. rewrite E, !elem_of_app. intros [?|Hx]; [by left|]. apply elem_of_list_singleton in Hx as ->. right. by left. }
  split; [apply Hin, elem_of_app; by left|]. exists t'. split; [done|by apply Hin].
Qed.

(** the group resumes where the commit log does *)
Lemma group_is_log c acts s k p : valid c -> noSkip acts -> noFail acts -> grun c true (start c) [] acts = Some (s, k) ->
  StronglySorted lt (offs (accepted p (trace s))) -> groupOffset p k = last (committedMarks p (trace s)).
Proof.
  intros V N NF R SS. pose proof (grun_run _ _ _ _ _ _ _ R) as R'. pose proof (marks_increase V N R' p SS) as SM.
  assert (forall t e o, EvEnd t true ∈ trace s -> EvAdd t e ∈ trace s -> e_p e = p -> e_off e = Some o -> exists w, w ∈ committedMarks p (trace s) /\ o < w) as Hup.
  { intros t e o Ht He Hp Ho. assert (o ∈ offs (evsOf t p (trace s))) as Hin. { apply offs_in. exists e. split; [by apply elem_evsOf|done]. }
    destruct (mark_is_highest V N R' p t SS Ht) as [[E _]|(o2 & _ & H2 & H3)]; [rewrite E in Hin; by apply elem_of_nil in Hin|]. exists (S o2). split; [|apply H2 in Hin; lia].
    unfold committedMarks. apply elem_of_flat_map'. exists t. split; [by apply elem_committed|]. rewrite H3. by left. }
  assert (forall w, w ∈ committedMarks p (trace s) -> exists o, w = S o /\ (p, o) ∈ k) as Hdn.
  { intros w Hw. unfold committedMarks in Hw. apply elem_of_flat_map' in Hw as (t & Ht & Hw). apply elem_committed in Ht.
    destruct (mark_is_highest V N R' p t SS Ht) as [[_ E]|(o2 & H1 & _ & H3)]; [rewrite E in Hw; by apply elem_of_nil in Hw|].
    rewrite H3 in Hw. apply elem_of_list_singleton in Hw as ->. exists o2. split; [done|]. apply offs_in in H1 as (e & He & Ho). apply elem_evsOf in He as [He <-].
    by apply (committed_marked c acts s k t). }
  pose proof (groupOffset_spec p k) as G. destruct (groupOffset p k) as [w|].
  - destruct G as (o & -> & H1 & H2). destruct (marked_committed c true acts s k p o V N R H1) as (_ & t & e & Ht & He & Hp & Ho).
    destruct (Hup t e o Ht He Hp Ho) as (w & Hw & Hlt). destruct (last (committedMarks p (trace s))) as [l|] eqn:El.
    + f_equal. assert (w <= l) by (by apply (last_max (committedMarks p (trace s)))). destruct (Hdn l (last_in _ _ El)) as (o3 & -> & H3). apply H2 in H3. lia.
    + apply last_None in El. rewrite El in Hw. by apply elem_of_nil in Hw.
  - destruct (last (committedMarks p (trace s))) as [l|] eqn:El; [|done]. destruct (Hdn l (last_in _ _ El)) as (o3 & _ & H3). by apply G in H3.
Qed.

(** and never after it, whatever fails *)
Lemma group_not_ahead c on acts s k p w : valid c -> noSkip acts -> grun c on (start c) [] acts = Some (s, k) ->
  StronglySorted lt (offs (accepted p (trace s))) -> groupOffset p k = Some w -> exists w', last (committedMarks p (trace s)) = Some w' /\ w <= w'.
Proof.
  intros V N R SS Hg. pose proof (grun_run _ _ _ _ _ _ _ R) as R'. pose proof (marks_increase V N R' p SS) as SM.
  pose proof (groupOffset_spec p k) as G. rewrite Hg in G. destruct G as (o & -> & H1 & _). destruct (marked_committed c on acts s k p o V N R H1) as (_ & t & e & Ht & He & Hp & Ho).
  assert (o ∈ offs (evsOf t p (trace s))) as Hin. { apply offs_in. exists e. split; [by apply elem_evsOf|done]. }
  destruct (mark_is_highest V N R' p t SS Ht) as [[E _]|(o2 & _ & H2 & H3)]; [rewrite E in Hin; by apply elem_of_nil in Hin|]. apply H2 in Hin.
  assert (S o2 ∈ committedMarks p (trace s)) as Hm. { unfold committedMarks. apply elem_of_flat_map'. exists t. split; [by apply elem_committed|]. rewrite H3. by left. }
  destruct (last (committedMarks p (trace s))) as [l|] eqn:El.
  - exists l. split; [done|]. pose proof (last_max _ l (S o2) SM El Hm). lia.
  - apply last_None in El. rewrite El in Hm. by apply elem_of_nil in Hm.
Qed.

Lemma off_marks_nothing c acts s k : grun c false (start c) [] acts = Some (s, k) -> k = [].
Proof.
  revert s k. induction acts as [|a acts IH] using rev_ind; intros s k R; [by injection R|]. apply grun_snoc in R as (s0 & k0 & R0 & _ & ->). rewrite (IH _ _ R0). cbn.
  unfold newCalls. destruct a, (kp s0); done.
Qed.
