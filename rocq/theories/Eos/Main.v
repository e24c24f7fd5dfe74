(** The properties of the producer pool, for every execution. *)
From stdpp Require Import prelude list sorting.
From Coq Require Import ZArith.
From Verif.Eos Require Import Model Base Struct Struct2 Step1 Own Own2 Fin Own3 Fin2 Fin3 Rev Spec Ends.
Open Scope nat_scope.

(** ** sorted lists *)
Lemma sorted_app (l k : list nat) : StronglySorted lt (l ++ k) -> StronglySorted lt l /\ StronglySorted lt k /\ forall x y, x ∈ l -> y ∈ k -> x < y.
Proof.
  induction l as [|a l IH]; cbn; intros S. { split; [constructor|]. split; [done|]. intros x y H. by apply elem_of_nil in H. }
  apply StronglySorted_inv in S as [S F]. destruct (IH S) as (S1 & S2 & H). rewrite Forall_app in F. destruct F as [F1 F2]. split; [by constructor|]. split; [done|].
  intros x y Hx Hy. apply elem_of_cons in Hx as [->|Hx]; [|auto]. rewrite Forall_forall in F2. auto.
Qed.
Lemma sorted_app_2 (l k : list nat) : StronglySorted lt l -> StronglySorted lt k -> (forall x y, x ∈ l -> y ∈ k -> x < y) -> StronglySorted lt (l ++ k).
Proof.
  induction l as [|a l IH]; intros S1 S2 H; [done|]. apply StronglySorted_inv in S1 as [S1 F]. cbn. constructor.
  - apply IH; [done|done|]. intros x y Hx Hy. apply H; [by right|done].
  - apply Forall_app. split; [done|]. apply Forall_forall. intros y Hy. apply H; [by left|done].
Qed.
Lemma sorted_prefix (l k : list nat) : l `prefix_of` k -> StronglySorted lt k -> StronglySorted lt l.
Proof. intros [r ->] S. by apply sorted_app in S as [S _]. Qed.
Lemma last_in {A} (l : list A) x : last l = Some x -> x ∈ l.
Proof. intros H. apply last_Some in H as [k ->]. apply elem_of_app. right. by left. Qed.
Lemma last_max (l : list nat) x y : StronglySorted lt l -> last l = Some x -> y ∈ l -> y <= x.
Proof.
  intros S H Hy. apply last_Some in H as [k ->]. apply sorted_app in S as (_ & _ & S). apply elem_of_app in Hy as [Hy|Hy]; [|apply elem_of_list_singleton in Hy; lia].
  assert (y < x); [|lia]. apply S; [done|by left].
Qed.
(** one mark per list, one above its last element: these increase *)
Definition markOf (l : list nat) : list nat := match last l with Some o => [S o] | None => [] end.
Lemma marks_sorted (ls : list (list nat)) : StronglySorted lt (concat ls) -> StronglySorted lt (flat_map markOf ls) /\
  (forall w, w ∈ flat_map markOf ls -> exists o, o ∈ concat ls /\ w = S o) /\ last (flat_map markOf ls) = S <$> last (concat ls).
Proof.
  induction ls as [|l ls IH] using rev_ind; cbn; intros S0. { split; [constructor|]. split; [|done]. intros w H. by apply elem_of_nil in H. }
  rewrite concat_app in *. cbn [concat] in *. rewrite app_nil_r in *. rewrite flat_map_app. cbn [flat_map]. rewrite app_nil_r. apply sorted_app in S0 as (S1 & S2 & H). destruct (IH S1) as (I1 & I2 & I3).
  unfold markOf at 2 4 6. destruct (last l) as [o|] eqn:E.
  - split; [|split].
    + apply sorted_app_2; [done|repeat constructor|]. intros x y Hx Hy. apply elem_of_list_singleton in Hy as ->. destruct (I2 x Hx) as (o' & Ho & ->). assert (o' < o); [|lia]. apply H; [done|]. by apply last_in.
    + intros w Hw. rewrite elem_of_app, elem_of_list_singleton in Hw. setoid_rewrite elem_of_app. destruct Hw as [Hw| ->]; [destruct (I2 w Hw) as (o' & ? & ->); eauto|]. exists o. split; [|done]. right. by apply last_in.
    + rewrite last_snoc, last_app, E. done.
  - apply last_None in E as ->. rewrite !app_nil_r. done.
Qed.

Section Run.
Context {c : cfg} {acts : list action} {s : st} (V : valid c) (N : noSkip acts) (R : run c (start c) acts = Some s).
Let J : Inv c s := Inv_run c acts s V N R.
Let I := i_str _ _ J. Let F := i_fin _ _ J. Let O := i_own _ _ J.

Lemma resume_sent t p w : w ∈ resume t p (trace s) <-> exists x, EvSend t x (Mark w) ∈ trace s /\ e_p x = p.
Proof.
  unfold resume. rewrite elem_of_flat_map'. split.
  - intros (y & Hy & Hw). destruct y as [| | | | |t' e [|w']| | | |]; try (by apply elem_of_nil in Hw). case_decide as D; [|by apply elem_of_nil in Hw]. destruct D as [-> <-].
    apply elem_of_list_singleton in Hw as ->. eauto.
  - intros (x & Hx & <-). exists (EvSend t x (Mark w)). split; [done|]. rewrite decide_True by done. by left.
Qed.
Lemma offs_in o l : o ∈ offs l <-> exists e, e ∈ l /\ e_off e = Some o.
Proof. unfold offs. rewrite elem_of_list_omap. done. Qed.

Lemma split_real l o1 o o2 : offs l = o1 ++ o :: o2 -> exists l1 e l2, l = l1 ++ e :: l2 /\ e_off e = Some o /\ offs l1 = o1 /\ offs l2 = o2.
Proof.
  revert o1. induction l as [|e l IH]; intros o1; cbn. { by destruct o1. } destruct (e_off e) as [k|] eqn:E.
  - destruct o1 as [|k' o1]; cbn; intros H; injection H as -> H.
    + exists [], e, l. done.
    + destruct (IH o1 H) as (l1 & e' & l2 & -> & H1 & <- & <-). exists (e :: l1), e', l2. split; [done|]. split; [done|]. split; [|done]. unfold offs. cbn. by rewrite E.
  - intros H. destruct (IH o1 H) as (l1 & e' & l2 & -> & H1 & <- & <-). exists (e :: l1), e', l2. split; [done|]. split; [done|]. split; [|done]. unfold offs. cbn. by rewrite E.
Qed.

(** of two accepted events, the one with the lower offset is not in a later transaction *)
Lemma lower_txn p e o e' o' t : StronglySorted lt (offs (accepted p (trace s))) -> EvTake e ∈ trace s -> e_p e = p -> e_off e = Some o -> EvAdd t e' ∈ trace s -> e_p e' = p -> e_off e' = Some o' -> o <= o' ->
  exists t', EvAdd t' e ∈ trace s /\ t' <= t.
Proof.
  intros S He Hp Ho Ha Hp' Ho' Hle. assert (EvTake e' ∈ trace s) as He'. { apply elem_takes. rewrite (str_take _ _ I), elem_of_app. left. apply elem_added in Ha. apply elem_of_list_fmap. by exists (t, e'). }
  apply elem_takes, elem_of_list_split in He' as (l1 & l2 & E).
  assert (e ∈ l1 \/ e = e') as Hl.
  { assert (e ∈ takes (trace s)) as Hin by (by apply elem_takes). rewrite E, elem_of_app, elem_of_cons in Hin. destruct Hin as [?|[?|Hin]]; [by left|by right|]. exfalso.
    rewrite accepted_eq, E in S. unfold ofPart in S. rewrite filter_app, filter_cons_True in S by done. unfold offs in S. rewrite omap_app in S. cbn in S. rewrite Ho' in S.
    apply sorted_app in S as (_ & S & _). apply StronglySorted_inv in S as [_ S]. rewrite Forall_forall in S. assert (o' < o); [|lia]. apply S, elem_of_list_omap. exists e. split; [|done]. by apply elem_of_list_filter. }
  apply (takes_order J l1 e' l2 e t); done.
Qed.
(** an event with an offset whose transaction is not later than a committed one is in a committed one, and complete *)
Lemma committed_upto_event u t v e o t' : trace s = u ++ EvEnd t true :: v -> EvAdd t' e ∈ trace s -> t' <= t -> e_off e = Some o -> EvDone e ∈ u /\ EvAdd t' e ∈ u /\ EvEnd t' true ∈ u ++ [EvEnd t true].
Proof.
  intros E Ha Hle Ho. destruct (decide (t' = t)) as [->|Hne].
  - destruct (committed_facts J u t v E) as (_ & _ & B & _). destruct (B e Ha) as [B1 B2]. split; [done|]. split; [done|]. apply elem_of_app. right. by left.
  - destruct (ended_before J u t true v t' E) as ([|] & Hu); [lia|..].
    + apply elem_of_list_split in Hu as (u1 & u2 & ->). assert (trace s = u1 ++ EvEnd t' true :: (u2 ++ EvEnd t true :: v)) as E2 by (rewrite E; by rewrite <- app_assoc).
      destruct (committed_facts J _ _ _ E2) as (_ & _ & B & _). destruct (B e Ha) as [B1 B2]. rewrite !elem_of_app. split; [by left|]. split; [by left|]. left. right. by left.
    + apply elem_of_list_split in Hu as (u1 & u2 & ->). assert (trace s = u1 ++ EvEnd t' false :: (u2 ++ EvEnd t true :: v)) as E2 by (rewrite E; by rewrite <- app_assoc).
      assert (e_off e = None); [|congruence]. apply (aborted_no_real J _ _ _ e true t E2); [|done]. apply elem_of_app. right. by left.
Qed.
Lemma mark_event u t v p w x : trace s = u ++ EvEnd t true :: v -> EvSend t x (Mark w) ∈ u -> e_p x = p -> exists e o, EvAdd t e ∈ trace s /\ e_p e = p /\ e_off e = Some o /\ w = S o /\ last (offs (evsOf t p (trace s))) = Some o.
Proof.
  intros E Hx Hp. assert (EvEnd t true ∈ trace s) as He by (rewrite E, elem_of_app; right; by left). assert (w ∈ resume t p (trace s)) as Hw.
  { apply resume_sent. exists x. split; [|done]. rewrite E, elem_of_app. by left. }
  rewrite (committed_marks J t p He) in Hw. destruct (last _) as [o|] eqn:El; [|by apply elem_of_nil in Hw]. apply elem_of_list_singleton in Hw as ->.
  pose proof (last_in _ _ El) as Hin. apply offs_in in Hin as (e & Hin & Ho). apply elem_evsOf in Hin as [Hin Hp']. exists e, o. done.
Qed.

Theorem commit_after_completion p t u v x w e o : StronglySorted lt (offs (accepted p (trace s))) ->
  trace s = u ++ EvEnd t true :: v -> EvSend t x (Mark w) ∈ u -> e_p x = p ->
  EvTake e ∈ trace s -> e_p e = p -> e_off e = Some o -> o < w ->
  EvDone e ∈ u /\ exists t', t' <= t /\ EvAdd t' e ∈ u /\ EvEnd t' true ∈ u ++ [EvEnd t true].
Proof.
  intros S E Hx Hxp He Hp Ho Hlt. destruct (mark_event u t v p w x E Hx Hxp) as (e' & o' & Ha & Hp' & Ho' & -> & _).
  destruct (lower_txn p e o e' o' t S He Hp Ho Ha Hp' Ho') as (t' & Ht' & Hle); [lia|].
  destruct (committed_upto_event u t v e o t' E Ht' Hle Ho) as (A1 & A2 & A3). split; [done|]. eauto.
Qed.

Lemma accepted_prefix p : oneWorker p (trace s) -> accepted p (trace s) `prefix_of` arrived p (trace s).
Proof.
  intros W. rewrite accepted_eq, arrived_eq, (str_arr _ _ I). unfold ofPart at 2. rewrite filter_app.
  assert (ofPart p (takes (trace s)) `prefix_of` ofPart p (taken (trace s))) as H; [|eapply prefix_app_r; exact H].
  pose proof (Rv_run c acts s R) as Rv.
  assert (forall tr, (exists v, trace s = tr ++ v) -> (ofPart p (takes tr) `prefix_of` ofPart p (taken tr)) /\ ((forall e, EvRej e ∈ tr -> e_p e <> p) -> ofPart p (takes tr) = ofPart p (taken tr))) as H; [|by apply (H (trace s)); exists []; rewrite app_nil_r].
  induction tr as [|x tr IH] using rev_ind; intros [v E]; [done|]. destruct IH as [H1 H2]. { exists (x :: v). rewrite E, <- app_assoc. done. }
  rewrite takes_app, taken_app. unfold ofPart. rewrite !filter_app. fold (ofPart p (takes tr)) (ofPart p (taken tr)).
  assert (forall e, EvRej e ∈ tr -> EvRej e ∈ tr ++ [x]) as Hm by (intros e He; apply elem_of_app; by left).
  set (A := ofPart p (takes tr)) in *. set (B := ofPart p (taken tr)) in *.
  destruct x; unfold takes, taken; cbn [flat_map app]; rewrite ?filter_nil, ?app_nil_r; try (split; [exact H1|intros H; apply H2; auto]).
  - (* rejected *) split; [eapply prefix_app_r; exact H1|]. intros H. destruct (decide (e_p e = p)) as [Hp|Hp].
    + exfalso. apply (H e); [|done]. apply elem_of_app. right. by left.
    + rewrite filter_cons_False, filter_nil, app_nil_r by done. apply H2. auto.
  - (* taken *) destruct (decide (e_p e = p)) as [Hp|Hp].
    + assert (forall e', EvRej e' ∈ tr -> e_p e' <> p) as Hno.
      { intros e' He' Hp'. assert (e_w e' = e_w e) as Ew.
        { apply W; apply elem_arrived; (split; [|done]); apply elem_arrs; rewrite (str_arr _ _ I), elem_of_app; left; apply elem_taken; rewrite E, !elem_of_app.
          - right. left. by left.
          - left. left. right. by left. }
        assert (trace s = tr ++ EvTake e :: v) as E2 by (rewrite E, <- app_assoc; done). pose proof (rv_take _ Rv _ _ _ E2) as Hr. apply Hr. rewrite <- Ew.
        apply elem_of_list_split in He' as (u1 & u2 & Eu). assert (trace s = u1 ++ EvRej e' :: (u2 ++ EvTake e :: v)) as E3 by (rewrite E2, Eu; by rewrite <- app_assoc).
        rewrite Eu, elem_of_app. left. by apply (rv_rej _ Rv _ _ _ E3). }
      rewrite (H2 Hno). done.
    + rewrite filter_cons_False, filter_nil, !app_nil_r by done. split; [done|]. intros H. apply H2. auto.
Qed.

Theorem commit_after_completion_arrived p t u v x w e o : StronglySorted lt (offs (arrived p (trace s))) -> oneWorker p (trace s) ->
  trace s = u ++ EvEnd t true :: v -> EvSend t x (Mark w) ∈ u -> e_p x = p ->
  EvArr e ∈ trace s -> e_p e = p -> e_off e = Some o -> o < w ->
  EvDone e ∈ u /\ exists t', t' <= t /\ EvAdd t' e ∈ u /\ EvEnd t' true ∈ u ++ [EvEnd t true].
Proof.
  intros S W E Hx Hxp He Hp Ho Hlt. destruct (accepted_prefix p W) as [k Ek].
  assert (StronglySorted lt (offs (accepted p (trace s)))) as S2. { eapply sorted_prefix; [|exact S]. exists (offs k). rewrite Ek. unfold offs. by rewrite omap_app. }
  apply (commit_after_completion p t u v x w e o S2 E Hx Hxp); try done.
  destruct (mark_event u t v p w x E Hx Hxp) as (e' & o' & Ha & Hp' & Ho' & -> & _).
  assert (e ∈ arrived p (trace s)) as Hin by (by apply elem_arrived). rewrite Ek, elem_of_app in Hin. destruct Hin as [Hin|Hin]; [by apply elem_accepted in Hin as [? _]|]. exfalso.
  rewrite Ek in S. unfold offs in S. rewrite omap_app in S. apply sorted_app in S as (_ & _ & S). assert (o' < o); [|lia]. apply S; apply elem_of_list_omap; [exists e'; split; [|done]|exists e; done].
  apply elem_accepted. split; [|done]. apply elem_takes. rewrite (str_take _ _ I), elem_of_app. left. apply elem_added in Ha. apply elem_of_list_fmap. by exists (t, e').
Qed.

(** ** C16 *)
Lemma committedMarks_eq p : committedMarks p (trace s) = flat_map markOf (map (fun t => offs (evsOf t p (trace s))) (committed (trace s))).
Proof.
  unfold committedMarks. rewrite flat_map_concat_map, (flat_map_concat_map markOf), map_map. f_equal. apply map_ext_in. intros t Ht. apply elem_of_list_In, elem_committed in Ht. by apply (committed_marks J).
Qed.
Lemma committedOffs_eq p : committedOffs p (trace s) = concat (map (fun t => offs (evsOf t p (trace s))) (committed (trace s))).
Proof. unfold committedOffs. apply flat_map_concat_map. Qed.
Theorem marks_increase p : StronglySorted lt (offs (accepted p (trace s))) -> StronglySorted lt (committedMarks p (trace s)).
Proof.
  intros S. rewrite committedMarks_eq. apply marks_sorted. rewrite <- committedOffs_eq. eapply sorted_prefix; [apply (committed_prefix J)|done].
Qed.
Theorem last_mark p : StronglySorted lt (offs (accepted p (trace s))) -> last (committedMarks p (trace s)) = S <$> last (committedOffs p (trace s)).
Proof.
  intros S. rewrite committedMarks_eq. rewrite committedOffs_eq. apply marks_sorted. rewrite <- committedOffs_eq. eapply sorted_prefix; [apply (committed_prefix J)|done].
Qed.
Theorem mark_is_highest p t : StronglySorted lt (offs (accepted p (trace s))) -> EvEnd t true ∈ trace s ->
  (offs (evsOf t p (trace s)) = [] /\ resume t p (trace s) = []) \/
  (exists o, o ∈ offs (evsOf t p (trace s)) /\ (forall o', o' ∈ offs (evsOf t p (trace s)) -> o' <= o) /\ resume t p (trace s) = [S o]).
Proof.
  intros S He. rewrite (committed_marks J t p He). destruct (last (offs (evsOf t p (trace s)))) as [o|] eqn:E.
  - right. exists o. split; [by apply last_in|]. split; [|done]. intros o' Ho'. apply (last_max (offs (evsOf t p (trace s))) o); [|done|done].
    assert (t ∈ committed (trace s)) as Hc by (by apply elem_committed). apply elem_of_list_split in Hc as (c1 & c2 & Ec).
    pose proof (sorted_prefix _ _ (committed_prefix J p) S) as S2. unfold committedOffs in S2. rewrite Ec, flat_map_app in S2. apply sorted_app in S2 as (_ & S2 & _). cbn [flat_map] in S2. by apply sorted_app in S2 as (S2 & _).
  - left. apply last_None in E as ->. done.
Qed.
Theorem committed_no_gap p : oneWorker p (trace s) -> committedOffs p (trace s) `prefix_of` offs (arrived p (trace s)).
Proof.
  intros W. destruct (committed_prefix J p) as [k E]. destruct (accepted_prefix p W) as [k2 E2]. exists (k ++ offs k2). rewrite E2. unfold offs at 1. rewrite omap_app. fold (offs (accepted p (trace s))) (offs k2). rewrite E. by rewrite <- app_assoc.
Qed.
End Run.
