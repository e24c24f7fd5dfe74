(** Facts about the trace of every execution, from the invariants. *)
From stdpp Require Import prelude list sorting.
From Coq Require Import ZArith.
From Verif.Eos Require Import Model Base Struct Struct2 Step1 Own Own2 Fin Own3 Fin2 Fin3 Rev Spec.
Open Scope nat_scope.

(** ** the views *)
Lemma evsOf_eq t p tr : evsOf t p tr = ofPart p (adds t tr).
Proof.
  unfold ofPart, adds, of_txn. induction tr as [|x tr IH]; [done|]. destruct x; try exact IH. change (added (EvAdd t0 e :: tr)) with ((t0, e) :: added tr).
  change (evsOf t p (EvAdd t0 e :: tr)) with ((if decide (t0 = t /\ e_p e = p) then [e] else []) ++ evsOf t p tr). rewrite IH.
  destruct (decide (t0 = t)) as [->|Ht].
  - rewrite (filter_cons_True _ (t, e)) by done. cbn [map snd]. destruct (decide (e_p e = p)).
    + rewrite filter_cons_True by done. by rewrite decide_True.
    + rewrite filter_cons_False by done. rewrite decide_False by tauto. done.
  - rewrite (filter_cons_False _ (t0, e)) by done. rewrite decide_False by tauto. done.
Qed.
Lemma arrived_eq p tr : arrived p tr = ofPart p (arrs tr).
Proof.
  unfold ofPart. induction tr as [|x tr IH]; [done|]. destruct x; try exact IH. change (arrs (EvArr e :: tr)) with (e :: arrs tr).
  change (arrived p (EvArr e :: tr)) with ((if decide (e_p e = p) then [e] else []) ++ arrived p tr). rewrite IH.
  destruct (decide (e_p e = p)); [by rewrite filter_cons_True|by rewrite filter_cons_False].
Qed.
Lemma accepted_eq p tr : accepted p tr = ofPart p (takes tr).
Proof.
  unfold ofPart. induction tr as [|x tr IH]; [done|]. destruct x; try exact IH. change (takes (EvTake e :: tr)) with (e :: takes tr).
  change (accepted p (EvTake e :: tr)) with ((if decide (e_p e = p) then [e] else []) ++ accepted p tr). rewrite IH.
  destruct (decide (e_p e = p)); [by rewrite filter_cons_True|by rewrite filter_cons_False].
Qed.
Lemma callsIn_eq t p tr : callsIn t p tr = callsOf t p tr.
Proof.
  unfold callsOf, of_txn. induction tr as [|x tr IH]; [done|]. destruct x; try exact IH. change (called (EvCall t0 e r :: tr)) with ((t0, (e, r)) :: called tr).
  change (callsIn t p (EvCall t0 e r :: tr)) with ((if decide (t0 = t /\ e_p e = p) then [(e, r)] else []) ++ callsIn t p tr). rewrite IH.
  destruct (decide (t0 = t)) as [->|Ht].
  - rewrite (filter_cons_True _ (t, (e, r))) by done. cbn [map snd]. destruct (decide (e_p e = p)).
    + rewrite filter_cons_True by done. by rewrite decide_True.
    + rewrite filter_cons_False by done. rewrite decide_False by tauto. done.
  - rewrite (filter_cons_False _ (t0, (e, r))) by done. rewrite decide_False by tauto. done.
Qed.
Lemma sendsIn_eq t p tr : sendsIn t p tr = sendsOf t p tr.
Proof.
  unfold sendsOf, of_txn. induction tr as [|x tr IH]; [done|]. destruct x; try exact IH. change (sent (EvSend t0 e r :: tr)) with ((t0, (e, r)) :: sent tr).
  change (sendsIn t p (EvSend t0 e r :: tr)) with ((if decide (t0 = t /\ e_p e = p) then [(e, r)] else []) ++ sendsIn t p tr). rewrite IH.
  destruct (decide (t0 = t)) as [->|Ht].
  - rewrite (filter_cons_True _ (t, (e, r))) by done. cbn [map snd]. destruct (decide (e_p e = p)).
    + rewrite filter_cons_True by done. by rewrite decide_True.
    + rewrite filter_cons_False by done. rewrite decide_False by tauto. done.
  - rewrite (filter_cons_False _ (t0, (e, r))) by done. rewrite decide_False by tauto. done.
Qed.
Lemma resume_eq t p tr : resume t p tr = omap mark (sendsIn t p tr).
Proof.
  induction tr as [|x tr IH]; [done|]. destruct x; try exact IH.
  change (sendsIn t p (EvSend t0 e r :: tr)) with ((if decide (t0 = t /\ e_p e = p) then [(e, r)] else []) ++ sendsIn t p tr). rewrite omap_app, <- IH.
  destruct r as [r|w].
  - case_decide; done.
  - change (resume t p (EvSend t0 e (Mark w) :: tr)) with ((if decide (t0 = t /\ e_p e = p) then [w] else []) ++ resume t p tr). case_decide; done.
Qed.
Lemma committed_eq tr : committed tr = map fst (filter (fun x => snd x = true) (ends tr)).
Proof.
  induction tr as [|x tr IH]; [done|]. destruct x as [| | | | | | |t ok| |]; try exact IH. change (ends (EvEnd t ok :: tr)) with ((t, ok) :: ends tr). destruct ok.
  - rewrite filter_cons_True by done. cbn [map]. rewrite <- IH. done.
  - rewrite filter_cons_False by done. exact IH.
Qed.
Lemma elem_committed t tr : t ∈ committed tr <-> EvEnd t true ∈ tr.
Proof.
  unfold committed. rewrite elem_of_flat_map'. split.
  - intros (y & Hy & Ht). destruct y as [| | | | | | |t' [|]| |]; try (by apply elem_of_nil in Ht). apply elem_of_list_singleton in Ht as ->. done.
  - intros H. exists (EvEnd t true). split; [done|]. by left.
Qed.
Lemma elem_evsOf e t p tr : e ∈ evsOf t p tr <-> EvAdd t e ∈ tr /\ e_p e = p.
Proof. rewrite evsOf_eq, elem_ofPart, elem_adds. tauto. Qed.
Lemma elem_arrived e p tr : e ∈ arrived p tr <-> EvArr e ∈ tr /\ e_p e = p.
Proof. rewrite arrived_eq, elem_ofPart, elem_arrs. tauto. Qed.
Lemma elem_accepted e p tr : e ∈ accepted p tr <-> EvTake e ∈ tr /\ e_p e = p.
Proof. rewrite accepted_eq, elem_ofPart, elem_takes. tauto. Qed.

(** ** lists of pairs sorted by their number *)
Lemma sorted_filter (l : list (nat * ec)) k : StronglySorted le (map fst l) -> exists l2, l = filter (fun x => fst x < k) l ++ l2 /\ forall x, x ∈ l2 -> k <= fst x.
Proof.
  induction l as [|[t e] l IH]; intros S. { exists []. split; [done|]. intros x H. by apply elem_of_nil in H. }
  cbn in S. apply StronglySorted_inv in S as [S F]. destruct (IH S) as (l2 & E & H2). destruct (decide (t < k)) as [H|H].
  - rewrite filter_cons_True by done. exists l2. split; [cbn; by rewrite <- E|done].
  - rewrite filter_cons_False by done. rewrite (filter_nil_all _ l).
    + exists ((t, e) :: l). split; [done|]. intros x Hx. apply elem_of_cons in Hx as [->|Hx]; [cbn; lia|]. rewrite Forall_forall in F. assert (t <= fst x) by (apply F, elem_of_list_fmap; eauto). lia.
    + intros x Hx Hlt. rewrite Forall_forall in F. assert (t <= fst x) by (apply F, elem_of_list_fmap; eauto). lia.
Qed.
Lemma sorted_concat (l : list (nat * ec)) k : StronglySorted le (map fst l) -> flat_map (fun t => of_txn t l) (seq 0 k) = map snd (filter (fun x => fst x < k) l).
Proof.
  intros HS. induction k as [|k IH].
  - cbn. rewrite filter_nil_all; [done|]. intros x _. lia.
  - rewrite seq_S, flat_map_app, IH. cbn [plus flat_map]. rewrite app_nil_r. unfold of_txn. rewrite <- map_app. f_equal. clear IH.
    induction l as [|[t e] l IH]; [done|]. cbn in HS. apply StronglySorted_inv in HS as [HS F]. rewrite Forall_forall in F. specialize (IH HS).
    assert (forall x, x ∈ l -> t <= fst x) as F' by (intros x Hx; apply F, elem_of_list_fmap; eauto).
    destruct (decide (t < k)) as [H|H].
    + rewrite (filter_cons_True (fun x => fst x < k)) by done. rewrite (filter_cons_False (fun x => fst x = k)) by (cbn; lia). rewrite (filter_cons_True (fun x => fst x < S k)) by (cbn; lia). cbn. by rewrite IH.
    + assert (filter (fun x : nat * ec => fst x < k) l = []) as E. { apply filter_nil_all. intros x Hx. apply F' in Hx. lia. }
      rewrite E in IH. cbn in IH. rewrite (filter_cons_False (fun x => fst x < k)) by done. rewrite E. cbn [app].
      destruct (decide (t = k)) as [->|Hne].
      * rewrite (filter_cons_True (fun x => fst x = k)) by done. rewrite (filter_cons_True (fun x => fst x < S k)) by (cbn; lia). by rewrite IH.
      * rewrite (filter_cons_False (fun x => fst x = k)) by done. rewrite (filter_cons_False (fun x => fst x < S k)) by (cbn; lia). exact IH.
Qed.
Lemma omap_flat {A B C} (f : B -> option C) (g : A -> list B) l : omap f (flat_map g l) = flat_map (fun x => omap f (g x)) l.
Proof. induction l as [|x l IH]; [done|]. cbn [flat_map]. rewrite omap_app. by rewrite IH. Qed.
Lemma ofPart_flat {A} p (g : A -> list ec) l : ofPart p (flat_map g l) = flat_map (fun x => ofPart p (g x)) l.
Proof. induction l as [|x l IH]; [done|]. cbn [flat_map]. unfold ofPart at 1. rewrite filter_app. fold (ofPart p (g x)). fold (ofPart p (flat_map g l)). by rewrite IH. Qed.
Lemma flat_map_ext_in' {A B} (f g : A -> list B) l : (forall x, x ∈ l -> f x = g x) -> flat_map f l = flat_map g l.
Proof. induction l as [|x l IH]; intros H; [done|]. cbn. rewrite (H x) by (by left). f_equal. apply IH. intros y Hy. apply H. by right. Qed.

Section Facts.
Context {c : cfg} {s : st} (J : Inv c s).
Let I := i_str _ _ J. Let G := i_giv _ _ J. Let O := i_own _ _ J. Let F := i_fin _ _ J.

Lemma takes_nodup : NoDup (takes (trace s)).
Proof.
  assert (NoDup (arrs (trace s))) as ND. { eapply (NoDup_fmap_1 e_id). change (NoDup (map e_id (arrs (trace s)))). rewrite (str_ids _ _ I). apply NoDup_seq. }
  rewrite (str_arr _ _ I) in ND. apply NoDup_app in ND as (ND & _). eapply sublist_nodup; [|exact ND]. clear. induction (trace s) as [|x l IH]; [constructor|].
  destruct x; cbn; unfold takes, taken in *; cbn; try done; by constructor.
Qed.
Lemma added_nodup : NoDup (map snd (added (trace s))).
Proof. pose proof takes_nodup as ND. rewrite (str_take _ _ I) in ND. apply NoDup_app in ND. apply ND. Qed.
Lemma added_once t t' e : EvAdd t e ∈ trace s -> EvAdd t' e ∈ trace s -> t = t'.
Proof.
  intros H1 H2. apply elem_added in H1, H2. pose proof added_nodup as ND. apply elem_of_list_lookup in H1 as [i Hi]. apply elem_of_list_lookup in H2 as [j Hj].
  assert (i = j) as ->. { eapply NoDup_lookup; [exact ND|rewrite list_lookup_fmap, Hi; reflexivity|rewrite list_lookup_fmap, Hj; reflexivity]. } congruence.
Qed.
Lemma ends_seq : exists k, map fst (ends (trace s)) = seq 0 k.
Proof. destruct (str_txn _ _ I) as (k & _ & _ & E). eauto. Qed.
Lemma ended_split t ok : EvEnd t ok ∈ trace s -> exists u v, trace s = u ++ EvEnd t ok :: v /\ t ∉ map fst (ends u) /\ t ∉ map fst (ends v).
Proof.
  intros H. apply elem_of_list_split in H as (u & v & E). exists u, v. split; [done|]. destruct ends_seq as [k Ek]. pose proof (NoDup_seq 0 k) as ND. rewrite <- Ek, E, ends_app, map_app in ND.
  change (ends (EvEnd t ok :: v)) with ((t, ok) :: ends v) in ND. cbn [map fst] in ND. apply NoDup_app in ND as (_ & N1 & N2).
  apply NoDup_cons in N2 as [N2 _]. split; [|done]. intros Hx. apply (N1 t Hx). by left.
Qed.
(** transactions end in order *)
Lemma ended_before u t ok v t' : trace s = u ++ EvEnd t ok :: v -> t' < t -> exists ok', EvEnd t' ok' ∈ u.
Proof.
  intros E Hlt. destruct ends_seq as [k Ek]. rewrite E, ends_app, map_app in Ek. change (ends (EvEnd t ok :: v)) with ((t, ok) :: ends v) in Ek. cbn [map fst] in Ek.
  assert (t = length (map fst (ends u))) as Ht.
  { assert (seq 0 k !! length (map fst (ends u)) = Some t) as H. { rewrite <- Ek, lookup_app_r by lia. by rewrite Nat.sub_diag. } apply lookup_seq in H as [H _]. lia. }
  assert (map fst (ends u) !! t' = Some t') as H.
  { assert (seq 0 k !! t' = Some t') as H. { apply lookup_seq. split; [lia|]. apply (f_equal length) in Ek. rewrite app_length, seq_length in Ek. cbn in Ek. lia. }
    rewrite <- Ek, lookup_app_l in H by lia. done. }
  apply elem_of_list_lookup_2 in H. apply elem_of_list_fmap in H as ([t2 ok'] & -> & H). apply elem_ends in H. eauto.
Qed.
(** only the last end can be an abort with events that have an offset *)
Lemma aborted_no_real u t v e ok t2 : trace s = u ++ EvEnd t false :: v -> EvEnd t2 ok ∈ v -> EvAdd t e ∈ trace s -> e_off e = None.
Proof.
  intros E Hv Ha. destruct (fin_aborted _ F u t v E) as (A1 & [(n & _ & Ev)|A2]).
  - exfalso. apply elem_ends in Hv. rewrite Ev in Hv. by apply elem_of_nil in Hv.
  - apply A2. apply elem_adds in Ha. rewrite E, adds_app in Ha. change (adds t (EvEnd t false :: v)) with (adds t v) in Ha. by rewrite A1, app_nil_r in Ha.
Qed.
Lemma committed_facts u t v : trace s = u ++ EvEnd t true :: v ->
  (forall p, sendsOf t p u = callsOf t p u) /\ (forall p, marksOf t p u = lastMark (ofPart p (adds t u))) /\ (forall e, EvAdd t e ∈ trace s -> EvAdd t e ∈ u /\ EvDone e ∈ u) /\
  (forall e r, EvCall t e r ∉ v /\ EvSend t e r ∉ v) /\ (forall e, EvAdd t e ∉ v).
Proof.
  intros E. destruct (fin_ended _ F u t v E) as (A1 & A2 & A3 & A4 & A5 & _).
  assert (forall e r, EvCall t e r ∉ v /\ EvSend t e r ∉ v) as Hno.
  { intros e r. split; intros H; [apply elem_called, elem_of_txn in H; rewrite A4 in H|apply elem_sent, elem_of_txn in H; rewrite A5 in H]; by apply elem_of_nil in H. }
  assert (forall e, EvAdd t e ∉ v) as Hna. { intros e H. apply elem_adds in H. rewrite A3 in H. by apply elem_of_nil in H. }
  split; [|split; [done|split; [|done]]].
  - intros p. assert (callsOf t p (trace s) = sendsOf t p (trace s)) as Ec.
    { destruct (decide (t ∈ map (txn s) (busy s))) as [Hin|Hin]; [|by apply (own_calls' _ O)]. apply elem_of_list_fmap in Hin as (n & -> & Hb).
      assert (txn s n ∈ map fst (ends (trace s))) as Hx. { rewrite E, ends_app, map_app, elem_of_app. right. by left. }
      destruct (ended_head c s n I Hb Hx) as [_ K]. rewrite (own_calls _ O n p Hb), (pend_head c s n I O K), filter_nil, app_nil_r. done. }
    rewrite E, callsOf_app, sendsOf_app in Ec. change (callsOf t p (EvEnd t true :: v)) with (callsOf t p v) in Ec. change (sendsOf t p (EvEnd t true :: v)) with (sendsOf t p v) in Ec.
    assert (callsOf t p v = []) as E1 by (unfold callsOf; by rewrite A4). assert (sendsOf t p v = []) as E2 by (unfold sendsOf; by rewrite A5). rewrite E1, E2, !app_nil_r in Ec. done.
  - intros e He. assert (EvAdd t e ∈ u) as Hu. { rewrite E, elem_of_app, elem_of_cons in He. destruct He as [He|[He|He]]; [done|done|by apply Hna in He]. }
    split; [done|]. apply elem_dones, A2, elem_adds, Hu.
Qed.
Lemma committed_marks t p : EvEnd t true ∈ trace s -> resume t p (trace s) = match last (offs (evsOf t p (trace s))) with Some o => [S o] | None => [] end.
Proof.
  intros H. apply elem_of_list_split in H as (u & v & E). destruct (committed_facts u t v E) as (B1 & B2 & _ & B4 & B5). destruct (fin_ended _ F u t v E) as (_ & _ & A3 & _ & A5 & _).
  rewrite resume_eq, sendsIn_eq, evsOf_eq. assert (sendsOf t p (trace s) = sendsOf t p u) as ->.
  { rewrite E, sendsOf_app. change (sendsOf t p (EvEnd t true :: v)) with (sendsOf t p v). unfold sendsOf at 2. rewrite A5. cbn. by rewrite app_nil_r. }
  assert (adds t (trace s) = adds t u) as ->. { rewrite E, adds_app. change (adds t (EvEnd t true :: v)) with (adds t v). by rewrite A3, app_nil_r. }
  rewrite B1. apply B2.
Qed.

(** the events with an offset in committed transactions are a prefix of those accepted *)
Definition real (l : list ec) : list ec := filter (fun e => e_off e <> None) l.
Lemma real_app u v : real (u ++ v) = real u ++ real v. Proof. apply filter_app. Qed.
Lemma real_nil l : (forall e, e ∈ l -> e_off e = None) -> real l = [].
Proof. intros H. apply filter_nil_all. intros e He Hn. apply Hn. auto. Qed.
Lemma real_flat {A} (g : A -> list ec) l : real (flat_map g l) = flat_map (fun x => real (g x)) l.
Proof. induction l as [|x l IH]; [done|]. cbn [flat_map]. by rewrite real_app, IH. Qed.
Lemma committed_upto : exists k, flat_map (fun t => real (adds t (trace s))) (committed (trace s)) = flat_map (fun t => real (adds t (trace s))) (seq 0 k) /\ forall t, t ∈ committed (trace s) -> t < k.
Proof.
  destruct ends_seq as [k Ek].
  assert (forall l, (forall t, (t, false) ∈ l -> real (adds t (trace s)) = []) -> flat_map (fun t => real (adds t (trace s))) (map fst (filter (fun x => snd x = true) l)) = flat_map (fun t => real (adds t (trace s))) (map fst l)) as Hl.
  { induction l as [|[t ok] l IH]; intros H; [done|]. destruct ok.
    - rewrite filter_cons_True by done. cbn. rewrite IH; [done|]. intros x Hx. apply H. by right.
    - rewrite filter_cons_False by done. cbn. rewrite (H t) by (by left). apply IH. intros x Hx. apply H. by right. }
  rewrite committed_eq.
  assert (forall t, t ∈ map fst (filter (fun x => snd x = true) (ends (trace s))) -> t < k) as Hk.
  { intros t Ht. apply elem_of_list_fmap in Ht as ([t' ok] & -> & Ht). apply elem_of_list_filter in Ht as [_ Ht]. assert (t' ∈ seq 0 k) as Hs by (rewrite <- Ek; apply elem_of_list_fmap; by exists (t', ok)).
    apply elem_of_seq in Hs. cbn. lia. }
  destruct (decide (k = 0)) as [->|Hk0].
  { exists 0. destruct (ends (trace s)); [|done]. done. }
  assert (exists l b, ends (trace s) = l ++ [(k - 1, b)] /\ map fst l = seq 0 (k - 1)) as (l & b & El & Elk).
  { destruct (ends (trace s)) as [|x l _] using rev_ind; [destruct k; done|]. rewrite map_app in Ek. replace k with (S (k - 1)) in Ek by lia. rewrite seq_S in Ek. apply app_inj_tail in Ek as [E1 E2].
    destruct x as [t b]. cbn in E2. subst t. exists l, b. split; [done|done]. }
  assert (forall t, (t, false) ∈ l -> real (adds t (trace s)) = []) as Hr.
  { intros t Ht. assert (EvEnd t false ∈ trace s) as He by (apply elem_ends; rewrite El, elem_of_app; by left).
    destruct (ended_split t false He) as (u & v & E & N1 & N2). apply real_nil. intros e Hin. apply elem_adds in Hin.
    assert (EvEnd (k - 1) b ∈ trace s) as Hlast by (apply elem_ends; rewrite El, elem_of_app; right; by left).
    assert (t < k - 1) as Hlt. { assert (t ∈ seq 0 (k - 1)) as Hs by (rewrite <- Elk; apply elem_of_list_fmap; by exists (t, false)). apply elem_of_seq in Hs. lia. }
    apply (aborted_no_real u t v e b (k - 1)); [done| |done].
    rewrite E, elem_of_app, elem_of_cons in Hlast. destruct Hlast as [Hu|[Hu|Hu]]; [|injection Hu as Hu _; lia|done]. exfalso.
    (* it would have ended before t *)
    assert (exists u1 u2, u = u1 ++ EvEnd (k - 1) b :: u2) as (u1 & u2 & ->) by (by apply elem_of_list_split).
    destruct (ended_before u1 (k - 1) b (u2 ++ EvEnd t false :: v) t) as (ok' & Hok); [rewrite E; by rewrite <- app_assoc|done|].
    apply N1. rewrite ends_app, map_app, elem_of_app. left. apply elem_ends in Hok. apply elem_of_list_fmap. by exists (t, ok'). }
  destruct b.
  - exists k. split; [|done]. rewrite (Hl (ends (trace s))); [by rewrite Ek|]. intros t Ht. rewrite El, elem_of_app, elem_of_list_singleton in Ht. destruct Ht as [Ht|Ht]; [auto|done].
  - exists (k - 1). rewrite El, filter_app, map_app. rewrite (filter_cons_False _ (k - 1, false)) by done. rewrite filter_nil. cbn [map]. rewrite app_nil_r. split; [by rewrite (Hl l Hr), Elk|].
    intros t Ht. apply elem_of_list_fmap in Ht as ([t' ok] & -> & Ht). apply elem_of_list_filter in Ht as [_ Ht]. assert (t' ∈ seq 0 (k - 1)) as Hs by (rewrite <- Elk; apply elem_of_list_fmap; by exists (t', ok)).
    apply elem_of_seq in Hs. cbn. lia.
Qed.
Lemma offs_real l : offs (real l) = offs l.
Proof. unfold offs, real. induction l as [|e l IH]; [done|]. destruct (e_off e) eqn:E; [rewrite filter_cons_True by congruence; cbn; by rewrite E, IH|rewrite filter_cons_False by (rewrite E; auto); cbn; by rewrite E, IH]. Qed.
Lemma real_ofPart p l : real (ofPart p l) = ofPart p (real l).
Proof. unfold real, ofPart. rewrite !list_filter_filter. apply filter_eq_in. intros x _. tauto. Qed.
Lemma committed_events_prefix p : flat_map (fun t => real (evsOf t p (trace s))) (committed (trace s)) `prefix_of` real (accepted p (trace s)).
Proof.
  destruct committed_upto as (k & E & _). assert (flat_map (fun t => real (evsOf t p (trace s))) (committed (trace s)) = ofPart p (real (flat_map (fun t => adds t (trace s)) (seq 0 k)))) as ->.
  { rewrite real_flat, <- E, ofPart_flat. apply flat_map_ext_in'. intros t _. by rewrite evsOf_eq, real_ofPart. }
  unfold adds. rewrite sorted_concat by apply I. rewrite accepted_eq, real_ofPart, (str_take _ _ I).
  destruct (sorted_filter (added (trace s)) k) as (l2 & E2 & _); [apply I|]. rewrite E2 at 2. rewrite map_app, <- app_assoc, real_app. unfold ofPart at 2. rewrite filter_app. by eexists.
Qed.
Lemma committed_prefix p : committedOffs p (trace s) `prefix_of` offs (accepted p (trace s)).
Proof.
  destruct (committed_events_prefix p) as [k E]. exists (offs k). rewrite <- (offs_real (accepted _ _)), E. unfold offs. rewrite omap_app. f_equal. rewrite omap_flat. apply flat_map_ext_in'. intros t _.
  exact (offs_real (evsOf t p (trace s))).
Qed.
Lemma committed_in_order : StronglySorted lt (committed (trace s)).
Proof.
  destruct ends_seq as [k Ek]. rewrite committed_eq. assert (StronglySorted lt (map fst (ends (trace s)))) as S.
  { rewrite Ek. clear. generalize 0. induction k as [|k IH]; intros a; cbn; [constructor|]. constructor; [apply IH|]. apply Forall_forall. intros x Hx. apply elem_of_seq in Hx. lia. }
  clear Ek. induction (ends (trace s)) as [|[t ok] l IH]; [constructor|]. cbn in S. apply StronglySorted_inv in S as [S Fo]. destruct ok.
  - rewrite filter_cons_True by done. cbn. constructor; [by apply IH|]. rewrite Forall_forall in *. intros x Hx. apply Fo. apply elem_of_list_fmap in Hx as (y & -> & Hy). apply elem_of_list_filter in Hy as [_ Hy]. apply elem_of_list_fmap. eauto.
  - rewrite filter_cons_False by done. by apply IH.
Qed.
(** e before e' among the accepted events of a partition: then its transaction is not a later one *)
Lemma takes_order l1 e l2 e' t : takes (trace s) = l1 ++ e :: l2 -> e' ∈ l1 \/ e' = e -> EvAdd t e ∈ trace s -> exists t', EvAdd t' e' ∈ trace s /\ t' <= t.
Proof.
  intros E He' Ha. pose proof takes_nodup as ND. apply elem_added in Ha. apply elem_of_list_split in Ha as (a1 & a2 & Ea).
  assert (takes (trace s) = map snd a1 ++ e :: (map snd a2 ++ match fp s with FChecked x => [x] | _ => [] end)) as E2.
  { rewrite (str_take _ _ I), Ea, map_app. cbn. by rewrite <- app_assoc. }
  assert (l1 = map snd a1) as ->.
  { rewrite E in E2. rewrite E in ND. clear -E2 ND. revert E2 ND. generalize (map snd a1). generalize (map snd a2 ++ match fp s with FChecked x => [x] | _ => [] end). intros k k1. revert k1. induction l1 as [|x l1 IH]; intros k1 E ND; destruct k1 as [|y k1].
    - done.
    - cbn in E. injection E as -> ->. cbn in ND. apply NoDup_cons in ND as [ND _]. destruct ND. apply elem_of_app. right. by left.
    - cbn in E. injection E as -> <-. cbn in ND. apply NoDup_cons in ND as [ND _]. destruct ND. apply elem_of_app. right. by left.
    - cbn in E. injection E as -> E. cbn in ND. apply NoDup_cons in ND as [_ ND]. f_equal. by apply IH. }
  pose proof (str_sorted _ _ I) as S. rewrite Ea, map_app in S.
  destruct He' as [He'| ->].
  - apply elem_of_list_fmap in He' as ([t2 e2] & -> & Hin). cbn in *. assert (EvAdd t2 e2 ∈ trace s) as Hx. { apply elem_added. rewrite Ea, elem_of_app. by left. }
    exists t2. split; [done|].
    assert (forall (l : list nat) k x y, StronglySorted le (l ++ y :: k) -> x ∈ l -> x <= y) as Hs.
    { clear. induction l as [|z l IH]; intros k x y S Hx; [by apply elem_of_nil in Hx|]. cbn in S. apply StronglySorted_inv in S as [S Fo]. apply elem_of_cons in Hx as [->|Hx]; [|by apply (IH k)].
      rewrite Forall_forall in Fo. apply Fo, elem_of_app. right. by left. }
    cbn in S. apply (Hs _ _ _ _ S). apply elem_of_list_fmap. by exists (t2, e2).
  - assert (EvAdd t e ∈ trace s) as Hx. { apply elem_added. rewrite Ea, elem_of_app. right. by left. } exists t. split; [done|lia].
Qed.
End Facts.
