(** Free slots are usable; what the poll loop has given to the worker is tested in that order and completely; what was handed over does not pass the test again. *)
From stdpp Require Import sorting.
From Verif.Worker Require Export Main.

(** the records given to add (partition_worker.go:121-127), in order *)
Definition delivered (acts : list action) : list nat := flat_map (fun a => match a with RAdd l => l | _ => [] end) acts.
Lemma delivered_app a b : delivered (a ++ b) = delivered a ++ delivered b. Proof. apply flat_map_app. Qed.

Lemma blocked c acts s e l : run c (start c) acts = Some s -> pp s = PTok e l -> step c s PAcq = None ->
  exists k, NoDup k /\ length k = cap c /\ forall x, x ∈ k -> EvAcq x ∈ trace s /\ EvRel x ∉ trace s.
Proof.
  intros R P B. destruct (Cls_run c acts _ _ (Inv_start c) (Ord_start c) (Cls_start c) R) as (I & _ & _). exists (held s).
  pose proof (nodup _ _ I) as N. apply NoDup_app in N as (_ & _ & N). pose proof N as N'. apply NoDup_app in N as (N & D & _). split; [done|]. split.
  - cbn [step] in B. rewrite P in B. destruct (tokens s <? cap c) eqn:L; [done|]. apply Nat.ltb_ge in L. pose proof (tcap _ _ I). rewrite <- (tok _ _ I). lia.
  - intros x Hx. split.
    + apply elem_acqs. rewrite (acq _ _ I). apply elem_of_app. by left.
    + rewrite <- elem_rels. by apply D.
Qed.

Definition Del (acts : list action) (s : st) : Prop :=
  exists rest, delivered acts = sees (trace s) ++ prest (pp s) ++ rest /\ (revoked s = false -> rest = concat (input s) ++ default [] (rcv s)) /\ (EvRevoke ∈ trace s <-> revoked s = true).
Lemma Del_same acts s s' : Del acts s -> prest (pp s') = prest (pp s) -> input s' = input s -> rcv s' = rcv s -> revoked s' = revoked s ->
  (trace s' = trace s \/ exists x, trace s' = trace s ++ [x] /\ match x with EvKeep _ | EvSkip _ | EvRevoke => False | _ => True end) -> Del acts s'.
Proof.
  intros (rest & D & Q & V) P I Rc Rv T. exists rest. rewrite P, I, Rc, Rv. destruct T as [->|(x & -> & Hx)]; [done|]. rewrite sees_app, elem_of_app.
  split; [|split; [done|]].
  - rewrite D. f_equal. destruct x; try done; unfold sees; cbn; by rewrite app_nil_r.
  - rewrite <- V, elem_of_list_singleton. split; [intros [?|Z]; [done|by subst x]|by left].
Qed.
Lemma Del_nil acts s a : Del acts s -> delivered [a] = [] -> Del (acts ++ [a]) s.
Proof. unfold Del. intros H E. by rewrite delivered_app, E, app_nil_r. Qed.
Lemma Del_step c acts s a s' : (pp s = PClosed -> revoked s = true) -> Del acts s -> step c s a = Some s' -> Del (acts ++ [a]) s'.
Proof.
  intros K H E. destruct a; try (apply Del_nil; [|reflexivity]); cbn [step] in E.
  all: try (solve [split_step E; try (destruct (c_off e)); (apply (Del_same acts s); [exact H|..]); try reflexivity; cbn; rw; try reflexivity; first [by left|right; eexists; split; [reflexivity|exact Logic.I]]]).
  - (* RAdd *) split_step E; destruct H as (rest & D & Q & V); unfold Del; rewrite delivered_app; change (delivered [RAdd l]) with (l ++ []); rewrite app_nil_r;
    cbn; (exists (rest ++ l)); rewrite D, <- !app_assoc; (split; [done|]); (split; [|exact V]); intros Z.
    + congruence.
    + rewrite (Q Z), Heqo. cbn. by rewrite app_nil_r.
  - (* RSend *) split_step E; destruct H as (rest & D & Q & V); unfold Del; cbn; exists rest; rewrite ?sees_app, ?elem_of_app, ?elem_of_list_singleton.
    all: try (split; [rewrite D; rw; reflexivity|]; split; [|exact V]; intros Z; rewrite (Q Z), Heqo, concat_app; cbn; by rewrite !app_nil_r).
    rewrite D. rw. cbn. split; [unfold sees; cbn; by rewrite app_nil_r|]. split; [|rewrite <- V; split; [intros [?|?]; done|by left]]. intros Z. rewrite K in Z by done. done.
  - (* ARevoke *) split_step E; destruct H as (rest & D & Q & V); unfold Del; cbn. exists rest. rewrite sees_app, elem_of_app, elem_of_list_singleton.
    split; [rewrite D; unfold sees; cbn; by rewrite app_nil_r|]. split; [done|]. split; [done|by right].
  - (* PTake *) split_step E; destruct H as (rest & D & Q & V); unfold Del; cbn.
    + exists rest. rewrite D. rw. split; [done|]. split; [congruence|exact V].
    + exists (concat l0 ++ default [] (rcv s)). rewrite D. rw. cbn. split; [|split; [done|exact V]]. rewrite Q by done. cbn. rewrite Heql. cbn. by rewrite <- app_assoc.
  - (* PNext *) split_step E; destruct H as (rest & D & Q & V); unfold Del; cbn; exists rest; rewrite ?sees_app, ?elem_of_app, ?elem_of_list_singleton, D.
    all: rw; cbn; unfold sees; cbn; rewrite <- ?app_assoc; (split; [done|]); (split; [exact Q|]).
    all: first [exact V | (rewrite <- V; split; [intros [?|?]; done|by left])].
Qed.
Lemma Del_run c acts s : run c (start c) acts = Some s -> Del acts s.
Proof.
  revert s. induction acts as [|a acts IH] using rev_ind; intros s R; [injection R as <-; exists []; cbn; split; [done|]; split; [done|]; split; [by intros ?%elem_of_nil|done]|].
  destruct (run_snoc _ _ _ _ _ R) as (s1 & R1 & E). apply (Del_step c acts s1 a); [|by apply IH|done]. intros P.
  destruct (Cls_run c acts _ _ (Inv_start c) (Ord_start c) (Cls_start c) R1) as (_ & _ & K). exact (k_rev _ K (or_intror (or_intror P))).
Qed.
Lemma seen_prefix c acts s : run c (start c) acts = Some s -> sees (trace s) `prefix_of` delivered acts.
Proof. intros (rest & D & _)%Del_run. rewrite D. by eexists. Qed.
Lemma seen_all c acts s : run c (start c) acts = Some s -> EvRevoke ∉ trace s -> pp s = PIdle -> input s = [] -> rcv s = None -> sees (trace s) = delivered acts.
Proof.
  intros (rest & D & Q & V)%Del_run N P I Rc. rewrite D, P, Q, I, Rc by (destruct (revoked s); [exfalso; apply N, V|]; done). cbn. by rewrite app_nil_r.
Qed.

(** highestOffset (partition_worker.go:311, 217) follows from what was handed over *)
Definition hwOf (c : cfg) (tr : list ev) : nat := match last (offs (hands tr)) with Some o => S o | None => wm c end.
Definition Hw (c : cfg) (s : st) : Prop := hw s = hwOf c (trace s) /\ forall u o v, trace s = u ++ EvKeep o :: v -> hwOf c u <= o.
Lemma hwOf_snoc c tr x : (match x with EvHand e => c_off e = None | _ => True end) -> hwOf c (tr ++ [x]) = hwOf c tr.
Proof. intros H. unfold hwOf. rewrite hands_app, offs_app. destruct x; unfold hands at 2; cbn; rewrite ?H, ?app_nil_r; done. Qed.
Lemma split_snoc (tr u v : list ev) x y : tr ++ [x] = u ++ y :: v -> (v = [] /\ x = y /\ u = tr) \/ exists v', v = v' ++ [x] /\ tr = u ++ y :: v'.
Proof.
  intros Q. destruct (decide (v = [])) as [->|N].
  - left. apply app_inj_tail in Q as (-> & ->). done.
  - right. destruct (exists_last N) as (v' & z & ->). exists v'. change (u ++ y :: v' ++ [z]) with (u ++ (y :: v') ++ [z]) in Q. rewrite app_assoc in Q. apply app_inj_tail in Q as (-> & ->). done.
Qed.
Lemma Hw_step c s a s' : Hw c s -> step c s a = Some s' -> Hw c s'.
Proof.
  intros (H1 & H2) E.
  assert (S' : (hw s' = hw s /\ (trace s' = trace s \/ exists x, trace s' = trace s ++ [x] /\ match x with EvKeep o => hw s <= o | EvHand e => c_off e = None | _ => True end)) \/
    exists e o, c_off e = Some o /\ hw s' = S o /\ trace s' = trace s ++ [EvHand e]).
  { destruct a; cbn [step] in E; split_step E.
    all: try (by (left; split; [reflexivity|]; first [left; reflexivity|right; eexists; split; [reflexivity|cbn; first [exact Logic.I|by apply Nat.leb_le]]])).
    destruct (c_off e) as [o|] eqn:O; cbn; [right; by exists e, o|left]. split; [done|]. right. by eexists. }
  destruct S' as [(Hh & [T|(x & T & Hx)])|(e & o & O & Hh & T)]; unfold Hw; rewrite T, Hh.
  - done.
  - split; [rewrite hwOf_snoc; [done|by destruct x]|]. intros u o v Q. apply split_snoc in Q as [(-> & -> & ->)|(v' & -> & Q)]; [|by eapply H2]. by rewrite <- H1.
  - split; [unfold hwOf; rewrite hands_app, offs_app; unfold hands at 2; cbn; by rewrite O, last_snoc|]. intros u o' v Q. apply split_snoc in Q as [(_ & ? & _)|(v' & -> & Q)]; [done|by eapply H2].
Qed.
Lemma Hw_run c acts s : run c (start c) acts = Some s -> Hw c s.
Proof.
  revert s. induction acts as [|a acts IH] using rev_ind; intros s R; [injection R as <-; split; [done|]; intros [] ? ?; done|].
  destruct (run_snoc _ _ _ _ _ R) as (s1 & R1 & E). exact (Hw_step c s1 a s (IH s1 R1) E).
Qed.
Lemma sorted_le_sub (l k : list nat) : sublist l k -> StronglySorted le k -> StronglySorted le l.
Proof.
  induction 1 as [|x l k H IH|x l k H IH]; intros HS; [done| |]; apply StronglySorted_inv in HS as (HS & F).
  - constructor; [auto|]. apply Forall_forall. intros y Hy. rewrite Forall_forall in F. apply F. by eapply elem_of_submseteq, sublist_submseteq.
  - auto.
Qed.
Lemma sorted_last (l : list nat) x y : StronglySorted le l -> last l = Some y -> x ∈ l -> x <= y.
Proof.
  intros HS (k & ->)%last_Some Hx. apply elem_of_app in Hx as [Hx|Hx]; [by apply (sorted_split le k y [])|]. by apply elem_of_list_singleton in Hx as ->.
Qed.
(** what passes the test is above everything handed over before, if records are delivered in order, repetitions allowed *)
Lemma keep_above c acts s u o v e o' : run c (start c) acts = Some s -> StronglySorted le (sees (trace s)) -> trace s = u ++ EvKeep o :: v -> EvHand e ∈ u -> c_off e = Some o' -> o' < o.
Proof.
  intros R HS T He Ho. destruct (Hw_run c acts s R) as (_ & H). pose proof (H u o v T) as L.
  destruct (run_prefix c acts (start c) s u (EvKeep o :: v) R T) as (a1 & a2 & s1 & -> & R1 & T1); [by exists u|].
  assert (Su : StronglySorted le (offs (hands u))).
  { rewrite <- T1. eapply sorted_le_sub; [apply handed_sub|]. destruct (kept_prefix R1) as (k & Hk). eapply (sorted_le_sub _ (keeps (trace s1))); [rewrite Hk; apply sublist_inserts_r; reflexivity|].
    eapply sorted_le_sub; [apply keeps_sub|]. rewrite T, sees_app in HS. rewrite T1. eapply sorted_le_sub; [|exact HS]. apply sublist_inserts_r. reflexivity. }
  assert (Hin : o' ∈ offs (hands u)) by (unfold offs; apply elem_of_list_omap; exists e; split; [by apply elem_hands|done]).
  unfold hwOf in L. destruct (last (offs (hands u))) as [y|] eqn:La; [pose proof (sorted_last _ _ _ Su La Hin); lia|].
  apply last_None in La. rewrite La in Hin. by apply elem_of_nil in Hin.
Qed.
