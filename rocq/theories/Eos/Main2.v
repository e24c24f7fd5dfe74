(** Order of the output, exactly-once of the output, and restarts. *)
From stdpp Require Import prelude list sorting.
From Coq Require Import ZArith.
From Verif.Eos Require Import Model Base Struct Struct2 Step1 Own Own2 Fin Own3 Fin2 Fin3 Rev Spec Ends Main.
Open Scope nat_scope.

Lemma sorted_nd l1 (e : ec) l2 e' : StronglySorted lt (map e_id (l1 ++ e :: l2)) -> e' ∈ l2 -> e_id e < e_id e'.
Proof.
  rewrite map_app. intros S H. apply sorted_app in S as (_ & S & _). cbn in S. apply StronglySorted_inv in S as [_ S]. rewrite Forall_forall in S. apply S, elem_of_list_fmap. eauto.
Qed.
Lemma sublist_sorted {A} (f : A -> nat) l k : sublist l k -> StronglySorted lt (map f k) -> StronglySorted lt (map f l).
Proof.
  induction 1 as [|x l k Hs IH|x l k Hs IH]; intros S; [done|..]; cbn in *; apply StronglySorted_inv in S as [S F].
  - constructor; [auto|]. rewrite Forall_forall in *. intros y Hy. apply F. apply elem_of_list_fmap in Hy as (z & -> & Hz). apply elem_of_list_fmap. exists z. split; [done|].
    clear -Hs Hz. induction Hs; [done| |]. + apply elem_of_cons in Hz as [->|Hz]; [by left|right; auto]. + right; auto.
  - auto.
Qed.
Lemma seq_sorted a k : StronglySorted lt (seq a k).
Proof. revert a. induction k as [|k IH]; intros a; cbn; [constructor|]. constructor; [apply IH|]. apply Forall_forall. intros x Hx. apply elem_of_seq in Hx. lia. Qed.

Lemma callsFor_eq t e tr : (forall t' r, EvCall t' e r ∈ tr -> t' = t) -> callsFor e tr = map snd (filter (fun er => fst er = e) (callsIn t (e_p e) tr)).
Proof.
  induction tr as [|x tr IH]; intros H; [done|]. assert (forall t' r, EvCall t' e r ∈ tr -> t' = t) as H' by (intros t' r Hr; apply (H t' r); by right). specialize (IH H').
  destruct x as [| | | |t1 e1 r1| | | | |]; try exact IH. change (callsFor e (EvCall t1 e1 r1 :: tr)) with ((if decide (e1 = e) then [r1] else []) ++ callsFor e tr).
  change (callsIn t (e_p e) (EvCall t1 e1 r1 :: tr)) with ((if decide (t1 = t /\ e_p e1 = e_p e) then [(e1, r1)] else []) ++ callsIn t (e_p e) tr). rewrite filter_app, map_app, <- IH. f_equal.
  destruct (decide (e1 = e)) as [->|Hne].
  - rewrite decide_True; [by rewrite filter_cons_True|]. split; [|done]. apply (H t1 r1). by left.
  - case_decide; [|done]. rewrite filter_cons_False by done. done.
Qed.
Lemma sentFor_eq t e tr : (forall t' r, EvSend t' e r ∈ tr -> t' = t) -> sentFor e tr = map snd (filter (fun er => fst er = e) (sendsIn t (e_p e) tr)).
Proof.
  induction tr as [|x tr IH]; intros H; [done|]. assert (forall t' r, EvSend t' e r ∈ tr -> t' = t) as H' by (intros t' r Hr; apply (H t' r); by right). specialize (IH H').
  destruct x as [| | | | |t1 e1 r1| | | |]; try exact IH. change (sentFor e (EvSend t1 e1 r1 :: tr)) with ((if decide (e1 = e) then [r1] else []) ++ sentFor e tr).
  change (sendsIn t (e_p e) (EvSend t1 e1 r1 :: tr)) with ((if decide (t1 = t /\ e_p e1 = e_p e) then [(e1, r1)] else []) ++ sendsIn t (e_p e) tr). rewrite filter_app, map_app, <- IH. f_equal.
  destruct (decide (e1 = e)) as [->|Hne].
  - rewrite decide_True; [by rewrite filter_cons_True|]. split; [|done]. apply (H t1 r1). by left.
  - case_decide; [|done]. rewrite filter_cons_False by done. done.
Qed.
Lemma sentIn_eq t e tr : sentIn t e tr = map snd (filter (fun er => fst er = e) (sendsIn t (e_p e) tr)).
Proof.
  induction tr as [|x tr IH]; [done|].
  destruct x as [| | | | |t1 e1 r1| | | |]; try exact IH. change (sentIn t e (EvSend t1 e1 r1 :: tr)) with ((if decide (t1 = t /\ e1 = e) then [r1] else []) ++ sentIn t e tr).
  change (sendsIn t (e_p e) (EvSend t1 e1 r1 :: tr)) with ((if decide (t1 = t /\ e_p e1 = e_p e) then [(e1, r1)] else []) ++ sendsIn t (e_p e) tr). rewrite filter_app, map_app, <- IH. f_equal.
  destruct (decide (t1 = t)) as [->|Ht]; [|rewrite !decide_False by tauto; done]. destruct (decide (e1 = e)) as [->|Hne].
  - rewrite !decide_True by done. by rewrite filter_cons_True.
  - rewrite decide_False by tauto. case_decide; [|done]. rewrite filter_cons_False by done. done.
Qed.
Lemma elem_callsIn t p e r tr : (e, r) ∈ callsIn t p tr <-> EvCall t e r ∈ tr /\ e_p e = p.
Proof. rewrite callsIn_eq. unfold callsOf. rewrite elem_of_list_filter, elem_of_txn, elem_called. cbn. tauto. Qed.
Lemma elem_sendsIn t p e r tr : (e, r) ∈ sendsIn t p tr <-> EvSend t e r ∈ tr /\ e_p e = p.
Proof. rewrite sendsIn_eq. unfold sendsOf. rewrite elem_of_list_filter, elem_of_txn, elem_sent. cbn. tauto. Qed.
Lemma callsIn_app t p u v : callsIn t p (u ++ v) = callsIn t p u ++ callsIn t p v. Proof. apply flat_map_app. Qed.
Lemma sendsIn_app t p u v : sendsIn t p (u ++ v) = sendsIn t p u ++ sendsIn t p v. Proof. apply flat_map_app. Qed.

Section Run.
Context {c : cfg} {acts : list action} {s : st} (V : valid c) (N : noSkip acts) (R : run c (start c) acts = Some s).
Let J : Inv c s := Inv_run c acts s V N R.
Let I := i_str _ _ J. Let F := i_fin _ _ J. Let O := i_own _ _ J.

(** ** C17 *)
Theorem sends_in_call_order t p : sendsIn t p (trace s) `prefix_of` callsIn t p (trace s).
Proof.
  rewrite sendsIn_eq, callsIn_eq. destruct (decide (t ∈ map (txn s) (busy s))) as [Hin|Hin].
  - apply elem_of_list_fmap in Hin as (n & -> & Hb). rewrite (own_calls _ O n p Hb). by eexists.
  - by rewrite (own_calls' _ O t p Hin).
Qed.
Lemma send_called t e r : EvSend t e r ∈ trace s -> EvCall t e r ∈ trace s.
Proof.
  intros H. destruct (sends_in_call_order t (e_p e)) as [k E]. assert ((e, r) ∈ callsIn t (e_p e) (trace s)) as Hc; [|by apply elem_callsIn in Hc as [? _]].
  rewrite E, elem_of_app. left. by apply elem_sendsIn.
Qed.
Lemma called_added t e r : EvCall t e r ∈ trace s -> EvAdd t e ∈ trace s.
Proof. intros H. apply elem_added. apply (own_added _ O t e r). by apply elem_called. Qed.
Lemma arrs_sorted : StronglySorted lt (map e_id (arrs (trace s))).
Proof. rewrite (str_ids _ _ I). apply seq_sorted. Qed.
Lemma takes_sub : sublist (takes (trace s)) (arrs (trace s)).
Proof.
  rewrite (str_arr _ _ I). apply sublist_inserts_r. clear. induction (trace s) as [|x l IH]; [constructor|]. destruct x; cbn; unfold takes, taken in *; cbn; try done; by constructor.
Qed.
Lemma added_take t e : EvAdd t e ∈ trace s -> EvTake e ∈ trace s.
Proof. intros H. apply elem_takes. rewrite (str_take _ _ I), elem_of_app. left. apply elem_of_list_fmap. exists (t, e). split; [done|by apply elem_added]. Qed.
Lemma arrival_order a b e e' t t' : trace s = a ++ EvArr e' :: b -> EvArr e ∈ b -> EvAdd t e ∈ trace s -> EvAdd t' e' ∈ trace s -> t' <= t.
Proof.
  intros E Hb Ha Ha'. assert (e_id e' < e_id e) as Hlt.
  { apply (sorted_nd (arrs a) e' (arrs b)); [|by apply elem_arrs]. pose proof arrs_sorted as S. rewrite E, arrs_app in S. exact S. }
  pose proof (added_take _ _ Ha) as Ht. apply elem_takes, elem_of_list_split in Ht as (l1 & l2 & El).
  assert (e' ∈ takes (trace s)) as Ht' by (by apply elem_takes, (added_take t')). rewrite El, elem_of_app, elem_of_cons in Ht'.
  assert (e' ∈ l1 \/ e' = e) as Hl. { destruct Ht' as [?|[?|Hin]]; [by left|by right|]. exfalso. pose proof (sublist_sorted e_id _ _ takes_sub arrs_sorted) as S. rewrite El in S. pose proof (sorted_nd _ _ _ _ S Hin). lia. }
  destruct (takes_order J l1 e l2 e' t El Hl Ha) as (t2 & H2 & Hle). by rewrite (added_once J t' t2 e').
Qed.
Theorem output_after_earlier_ended a b u v e e' t t' r : trace s = a ++ EvArr e' :: b -> EvArr e ∈ b -> e_p e' = e_p e -> EvAdd t' e' ∈ trace s ->
  trace s = u ++ EvSend t e r :: v -> t' <> t -> exists ok, EvEnd t' ok ∈ u.
Proof.
  intros E Hb Hp Ha' Eu Hne. assert (EvAdd t e ∈ trace s) as Ha. { apply (called_added t e r), send_called. rewrite Eu, elem_of_app. right. by left. }
  pose proof (arrival_order a b e e' t t' E Hb Ha Ha') as Hle. assert (t' ∈ map fst (ends u)) as Hin.
  { apply (own_order _ O u v t e r Eu t' e'); [lia|by apply elem_added|done]. }
  apply elem_of_list_fmap in Hin as ([t2 ok] & -> & Hin). exists ok. by apply elem_ends.
Qed.

(** ** C18 *)
Theorem outputs_exactly_once u v t e : trace s = u ++ EvEnd t true :: v -> EvAdd t e ∈ trace s ->
  sentIn t e u = callsFor e (trace s) /\ sentFor e (trace s) = callsFor e (trace s).
Proof.
  intros E Ha. destruct (committed_facts J u t v E) as (B1 & _ & _ & B4 & _).
  assert (forall t' r, EvCall t' e r ∈ trace s -> t' = t) as Hc. { intros t' r H. apply called_added in H. by apply (added_once J t' t e). }
  assert (forall t' r, EvSend t' e r ∈ trace s -> t' = t) as Hs. { intros t' r H. apply send_called in H. by apply (Hc t' r). }
  rewrite (callsFor_eq t e _ Hc), (sentFor_eq t e _ Hs), sentIn_eq.
  assert (forall w, (forall e r, EvCall t e r ∉ w) -> callsIn t (e_p e) w = []) as N1. { intros w Hw. apply elem_of_nil_inv. intros [x r] H. apply elem_callsIn in H as [H _]. by apply Hw in H. }
  assert (forall w, (forall e r, EvSend t e r ∉ w) -> sendsIn t (e_p e) w = []) as N2. { intros w Hw. apply elem_of_nil_inv. intros [x r] H. apply elem_sendsIn in H as [H _]. by apply Hw in H. }
  rewrite E, callsIn_app, sendsIn_app. rewrite (N1 (EvEnd t true :: v)), (N2 (EvEnd t true :: v)), !app_nil_r.
  - rewrite sendsIn_eq, callsIn_eq, B1. done.
  - intros x r H. apply elem_of_cons in H as [H|H]; [done|]. by apply (B4 x r) in H.
  - intros x r H. apply elem_of_cons in H as [H|H]; [done|]. by apply (B4 x r) in H.
Qed.
End Run.

(** ** C19: restarts *)
(** [trs]: the traces of the processes, one after the other, that handle partition p, [input] the offsets in the partition. Each process gets the
    events from the resume offset its predecessors have committed last. It may end at any point. *)
Inductive restarts (p : nat) (input : list nat) : nat -> list (list ev) -> nat -> Prop :=
| no_restart wm : restarts p input wm [] wm
| restart wm c acts s wm' trs : valid c -> noSkip acts -> run c (start c) acts = Some s -> oneWorker p (trace s) ->
    offs (arrived p (trace s)) `prefix_of` filter (fun o => wm <= o) input ->
    restarts p input (match last (committedMarks p (trace s)) with Some w => w | None => wm end) trs wm' ->
    restarts p input wm (trace s :: trs) wm'.
Lemma sorted_filter_ge (l : list nat) wm : StronglySorted lt l -> StronglySorted lt (filter (fun o => wm <= o) l).
Proof.
  induction l as [|x l IH]; intros HS; [constructor|]. apply StronglySorted_inv in HS as [HS F]. destruct (decide (wm <= x)); [rewrite filter_cons_True by done|rewrite filter_cons_False by done; auto].
  constructor; [auto|]. rewrite Forall_forall in *. intros y Hy. apply F. apply elem_of_list_filter in Hy. apply Hy.
Qed.
Lemma sorted_prefix_filter (l k : list nat) wm : StronglySorted lt l -> k `prefix_of` filter (fun o => wm <= o) l ->
  k = filter (fun o => wm <= o < match last k with Some o => S o | None => wm end) l.
Proof.
  intros HS [r E]. assert (StronglySorted lt (filter (fun o => wm <= o) l)) as S2 by (by apply sorted_filter_ge).
  set (hi := match last k with Some o => S o | None => wm end).
  assert (filter (fun o => wm <= o < hi) l = filter (fun o => o < hi) (filter (fun o => wm <= o) l)) as ->. { rewrite list_filter_filter. apply filter_eq_in. intros x _. tauto. }
  rewrite E in *. apply sorted_app in S2 as (S1 & _ & Hlt). rewrite filter_app, (filter_id _ k), (filter_nil_all _ r); [by rewrite app_nil_r|..].
  - intros x Hx. unfold hi. destruct (last k) as [o|] eqn:El.
    + assert (o < x); [|lia]. apply Hlt; [by apply last_in|done].
    + assert (x ∈ filter (fun o => wm <= o) l) as Hin by (rewrite E, elem_of_app; by right). apply elem_of_list_filter in Hin. lia.
  - intros x Hx. unfold hi. destruct (last k) as [o|] eqn:El.
    + pose proof (last_max k o x S1 El Hx). lia.
    + apply last_None in El. subst k. by apply elem_of_nil in Hx.
Qed.
Theorem restarts_exactly_once p input wm trs wm' : StronglySorted lt input -> restarts p input wm trs wm' ->
  wm <= wm' /\ flat_map (committedOffs p) trs = filter (fun o => wm <= o < wm') input.
Proof.
  intros HS. induction 1 as [wm|wm c acts s wm' trs V N R W Hin _ [IH1 IH2]].
  { split; [done|]. cbn. symmetry. apply filter_nil_all. intros x _. lia. }
  cbn [flat_map]. rewrite IH2.
  assert (committedOffs p (trace s) `prefix_of` filter (fun o => wm <= o) input) as Hp. { etrans; [by apply (committed_no_gap V N R)|done]. }
  assert (StronglySorted lt (offs (accepted p (trace s)))) as Sa.
  { destruct (accepted_prefix V N R p W) as [k Ek]. eapply sorted_prefix; [|exact (sorted_filter_ge input wm HS)].
    etrans; [|exact Hin]. exists (offs k). rewrite Ek. unfold offs. by rewrite omap_app. }
  rewrite (last_mark V N R p Sa) in *. rewrite (sorted_prefix_filter input _ wm HS Hp) at 1.
  assert (wm <= match last (committedOffs p (trace s)) with Some o => S o | None => wm end) as Hwm.
  { destruct (last (committedOffs p (trace s))) as [o|] eqn:El; [|lia]. apply last_in in El. destruct Hp as [k Ek]. assert (o ∈ filter (fun o => wm <= o) input) as Ho by (rewrite Ek, elem_of_app; by left).
    apply elem_of_list_filter in Ho. lia. }
  set (mid := match last (committedOffs p (trace s)) with Some o => S o | None => wm end) in *.
  assert (match S <$> last (committedOffs p (trace s)) with Some w => w | None => wm end = mid) as Em by (unfold mid; by destruct (last _)). rewrite Em in *. clear Em.
  split; [lia|]. clearbody mid. clear -HS Hwm IH1. induction input as [|x l IH]; [done|]. apply StronglySorted_inv in HS as [HS F]. specialize (IH HS). rewrite Forall_forall in F.
  destruct (decide (wm <= x < mid)) as [H|H].
  - rewrite (filter_cons_True (fun o => wm <= o < mid)) by done. rewrite (filter_cons_False (fun o => mid <= o < wm')) by lia. rewrite (filter_cons_True (fun o => wm <= o < wm')) by lia. cbn. by rewrite IH.
  - rewrite (filter_cons_False (fun o => wm <= o < mid)) by done. destruct (decide (mid <= x < wm')) as [H'|H'].
    + rewrite (filter_cons_True (fun o => mid <= o < wm')) by lia. rewrite (filter_cons_True (fun o => wm <= o < wm')) by lia.
      rewrite (filter_nil_all (fun o => wm <= o < mid) l) in *; [cbn; cbn in IH; by rewrite IH|..]; intros y Hy; apply F in Hy; lia.
    + rewrite (filter_cons_False (fun o => mid <= o < wm')) by lia. rewrite (filter_cons_False (fun o => wm <= o < wm')) by lia. done.
Qed.
