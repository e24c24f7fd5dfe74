(** Consequences of the invariants. *)
From stdpp Require Import sorting.
From Verif.Worker Require Export Stop.

Section Run.
Context {c : cfg} {acts : list action} {s : st} (R : run c (start c) acts = Some s).
Let J : Inv c s /\ Ord c s /\ Cls s := Cls_run c acts _ _ (Inv_start c) (Ord_start c) (Cls_start c) R.
Let I := proj1 J. Let O := proj1 (proj2 J). Let K := proj2 (proj2 J).

Lemma bound l : NoDup l -> (forall e, e ∈ l -> EvAcq e ∈ trace s /\ EvDone e ∉ trace s /\ EvRej e ∉ trace s) -> length l <= cap c.
Proof.
  intros N H. etrans; [|exact (tcap _ _ I)]. rewrite (tok _ _ I). apply submseteq_length, NoDup_submseteq; [done|].
  intros e He. destruct (H e He) as (Ha & Hd & Hr). apply elem_acqs in Ha. rewrite (acq _ _ I) in Ha. apply elem_of_app in Ha as [Ha|Ha]; [done|].
  exfalso. assert (He' : e ∈ ends (trace s)) by (rewrite (end_ _ _ I); apply elem_of_app; by right). apply elem_ends in He'. tauto.
Qed.
Lemma release_after u e v : trace s = u ++ EvRel e :: v -> (EvDone e ∈ u \/ EvRej e ∈ u) /\ EvRel e ∉ u.
Proof. intros T. destruct (o_good _ _ O u _ v T) as (H1 & H2). by rewrite elem_ends in H1; rewrite elem_rels in H2. Qed.
Lemma release_follows e : EvDone e ∈ trace s \/ EvRej e ∈ trace s -> EvRel e ∈ trace s \/ exists b, wp s = WRel e b /\ is_Some (step c s WRelease).
Proof.
  intros H. apply elem_ends in H. rewrite (end_ _ _ I) in H. apply elem_of_app in H as [H|H]; [|left; by apply elem_rels].
  right. destruct (wp s) eqn:W; cbn [wrel] in H; try (by apply elem_of_nil in H). apply elem_of_list_singleton in H as ->. exists back. split; [done|].
  cbn [step]. rewrite W. assert (Ht : 0 < tokens s). { rewrite (tok _ _ I). unfold held. rewrite W. destruct back; cbn; rewrite !app_length; cbn; lia. }
  apply Nat.ltb_lt in Ht. by rewrite Ht.
Qed.

Lemma hand_keep e o : EvHand e ∈ trace s -> c_off e = Some o -> o ∈ keeps (trace s).
Proof.
  intros H Ho. rewrite (kept _ _ I). apply elem_of_app. left. unfold offs. apply elem_of_list_omap. exists e. split; [|done]. apply elem_answered. by left.
Qed.
Lemma keep_wm o : EvKeep o ∈ trace s -> wm c <= o.
Proof. intros (u & v & T)%elem_of_list_split. apply (o_good _ _ O u _ v T). Qed.
Lemma elem_keeps (tr : list ev) o : o ∈ keeps tr <-> EvKeep o ∈ tr.
Proof.
  unfold keeps. rewrite elem_flat. split.
  - intros (x & Hx & H). destruct x; try (by apply elem_of_nil in H). apply elem_of_list_singleton in H. by subst.
  - intros H. exists (EvKeep o). split; [done|]. by apply elem_of_list_singleton.
Qed.
Lemma hand_wm e o : EvHand e ∈ trace s -> c_off e = Some o -> wm c <= o.
Proof. intros H Ho. apply keep_wm, elem_keeps. by eapply hand_keep. Qed.
Lemma skip_any u o v : trace s = u ++ EvSkip o :: v -> o < wm c \/ exists e o', EvHand e ∈ u /\ c_off e = Some o' /\ o <= o'.
Proof. intros T. exact (o_good _ _ O u _ v T). Qed.
End Run.

(** a prefix of a trace is the trace of a reachable state *)
Lemma step_trace c s a s' : step c s a = Some s' -> trace s' = trace s \/ exists x, trace s' = trace s ++ [x].
Proof.
  intros E. destruct a; cbn [step] in E; split_step E; cbn; auto; try (right; eexists; reflexivity).
  right. destruct (c_off e); cbn; eexists; reflexivity.
Qed.
Lemma run_trace c acts : forall s s', run c s acts = Some s' -> exists v, trace s' = trace s ++ v.
Proof.
  induction acts as [|a acts IH]; cbn; intros s s' R; [injection R as <-; exists []; by rewrite app_nil_r|].
  destruct (step c s a) as [s1|] eqn:E; [|done]. destruct (IH _ _ R) as (v & ->). destruct (step_trace _ _ _ _ E) as [->|(x & ->)]; [by exists v|].
  exists (x :: v). by rewrite <- app_assoc.
Qed.
Lemma run_prefix c acts s s' u v : run c s acts = Some s' -> trace s' = u ++ v -> (exists w, u = trace s ++ w) -> exists a1 a2 s1, acts = a1 ++ a2 /\ run c s a1 = Some s1 /\ trace s1 = u.
Proof.
  revert s u v. induction acts as [|a acts IH]; cbn; intros s u v R T (w & ->).
  - injection R as <-. exists [], [], s. split; [done|]. split; [done|]. rewrite <- app_assoc in T. destruct w as [|y w]; [by rewrite app_nil_r|].
    exfalso. apply (f_equal length) in T. rewrite !app_length in T. cbn in T. lia.
  - destruct (step c s a) as [s1|] eqn:E; [|done]. destruct w as [|y w].
    + exists [], (a :: acts), s. rewrite app_nil_r. done.
    + assert (Hw : exists w', trace s ++ y :: w = trace s1 ++ w').
      { destruct (run_trace _ _ _ _ R) as (v' & T'). destruct (step_trace _ _ _ _ E) as [Q|(x & Q)]; rewrite Q in *; [by exists (y :: w)|].
        rewrite T' in T. rewrite <- !app_assoc in T. apply app_inv_head in T. injection T as -> _. exists w. by rewrite <- app_assoc. }
      destruct (IH s1 _ _ R T Hw) as (a1 & a2 & s2 & -> & R' & T'). exists (a :: a1), a2, s2. split; [done|]. split; [|done]. cbn. by rewrite E.
Qed.

Lemma sorted_split {A} (P : A -> A -> Prop) l1 x l2 : StronglySorted P (l1 ++ x :: l2) -> forall y, y ∈ l1 -> P y x.
Proof.
  induction l1 as [|z l1 IH]; cbn; intros HS y Hy; [by apply elem_of_nil in Hy|]. apply StronglySorted_inv in HS as (HS & F).
  apply elem_of_cons in Hy as [->|Hy]; [|by apply IH]. rewrite Forall_forall in F. apply F. apply elem_of_app. right. by left.
Qed.
Lemma keeps_sees tr o : o ∈ keeps tr -> o ∈ sees tr.
Proof. rewrite elem_keeps, elem_sees. tauto. Qed.
Lemma skip_sorted c acts s u o v : run c (start c) acts = Some s -> trace s = u ++ EvSkip o :: v -> StronglySorted le (sees (trace s)) -> wm c <= o ->
  exists e, EvHand e ∈ u /\ c_off e = Some o.
Proof.
  intros R T HS W. destruct (skip_any R u o v T) as [?|(e & o' & H & Ho & L)]; [lia|]. exists e. split; [done|].
  destruct (run_prefix c acts (start c) s u (EvSkip o :: v) R T) as (a1 & a2 & s1 & -> & R1 & T1); [by exists u|].
  pose proof (hand_keep R1 e o') as Hk. rewrite T1 in Hk. specialize (Hk H Ho). apply keeps_sees in Hk.
  rewrite T, sees_app in HS. change (sees (EvSkip o :: v)) with (o :: sees v) in HS. pose proof (sorted_split le _ _ _ HS o' Hk) as L'. assert (o = o') as -> by lia. done.
Qed.
Lemma skip_strict c acts s u o v : run c (start c) acts = Some s -> trace s = u ++ EvSkip o :: v -> StronglySorted lt (sees (trace s)) -> o < wm c.
Proof.
  intros R T HS. destruct (skip_any R u o v T) as [?|(e & o' & H & Ho & L)]; [done|].
  destruct (run_prefix c acts (start c) s u (EvSkip o :: v) R T) as (a1 & a2 & s1 & -> & R1 & T1); [by exists u|].
  pose proof (hand_keep R1 e o') as Hk. rewrite T1 in Hk. specialize (Hk H Ho). apply keeps_sees in Hk.
  rewrite T, sees_app in HS. change (sees (EvSkip o :: v)) with (o :: sees v) in HS. pose proof (sorted_split lt _ _ _ HS o' Hk). lia.
Qed.

Section Run2.
Context {c : cfg} {acts : list action} {s : st} (R : run c (start c) acts = Some s).
Let J : Inv c s /\ Ord c s /\ Cls s := Cls_run c acts _ _ (Inv_start c) (Ord_start c) (Cls_start c) R.
Let I := proj1 J. Let O := proj1 (proj2 J). Let K := proj2 (proj2 J).

Lemma rejected_revoked u e v : trace s = u ++ EvRej e :: v -> EvRevoke ∈ u.
Proof. intros T. apply (o_good _ _ O u _ v T). Qed.
(** nothing is between the test and the handlers *)
Definition quiet (s : st) : Prop := pp s = PIdle /\ evq s = [] /\ wp s = WIdle.
Lemma kept_prefix : offs (answered (trace s)) `prefix_of` keeps (trace s).
Proof. rewrite (kept _ _ I). by eexists. Qed.
Lemma kept_all o : quiet s -> EvKeep o ∈ trace s -> exists e, c_off e = Some o /\ (EvHand e ∈ trace s \/ EvRej e ∈ trace s /\ EvRevoke ∈ trace s).
Proof.
  intros (P & E & W) H. apply elem_keeps in H. rewrite (kept _ _ I), P, E, W in H. cbn in H. rewrite !app_nil_r in H.
  unfold offs in H. apply elem_of_list_omap in H as (e & He & Ho). exists e. split; [done|]. apply elem_answered in He as [?|He]; [by left|]. right. split; [done|].
  apply elem_of_list_split in He as (u & v & T). rewrite T. apply elem_of_app. left. by eapply rejected_revoked.
Qed.
Lemma handed_sub : sublist (offs (hands (trace s))) (offs (answered (trace s))).
Proof.
  generalize (trace s) as tr. induction tr as [|x tr IH]; [constructor|]. destruct x; cbn; unfold hands, answered in *; cbn; try exact IH; unfold offs in *; cbn; destruct (c_off e); try exact IH; by constructor.
Qed.
Lemma sorted_sub (l k : list nat) : sublist l k -> StronglySorted lt k -> StronglySorted lt l.
Proof.
  induction 1 as [|x l k H IH|x l k H IH]; intros HS; [done| |]; apply StronglySorted_inv in HS as (HS & F).
  - constructor; [auto|]. apply Forall_forall. intros y Hy. rewrite Forall_forall in F. apply F. by eapply elem_of_submseteq, sublist_submseteq.
  - auto.
Qed.
Lemma keeps_sub tr : sublist (keeps tr) (sees tr).
Proof. induction tr as [|x tr IH]; [constructor|]. destruct x; cbn; unfold keeps, sees in *; cbn; try exact IH; by constructor. Qed.
Lemma handed_sorted : StronglySorted lt (sees (trace s)) -> StronglySorted lt (offs (hands (trace s))).
Proof.
  intros HS. eapply sorted_sub; [apply handed_sub|]. destruct kept_prefix as (k & Hk). eapply (sorted_sub _ (keeps (trace s))); [rewrite Hk; apply sublist_inserts_r; reflexivity|].
  eapply sorted_sub; [apply keeps_sub|done].
Qed.
Lemma hand_once u e v : trace s = u ++ EvHand e :: v -> EvHand e ∉ u /\ EvHand e ∉ v.
Proof.
  intros T. assert (Hu : forall u v, trace s = u ++ EvHand e :: v -> EvHand e ∉ u).
  { intros u' v' T' H. destruct (o_good _ _ O u' _ v' T') as (_ & H2). apply H2, elem_answered. by left. }
  split; [by eapply Hu|]. intros (a & b & ->)%elem_of_list_split. apply (Hu (u ++ EvHand e :: a) b); [by rewrite T, <- app_assoc|]. apply elem_of_app. right. by left.
Qed.
(** asyncJobs is not closed while an event is not complete *)
Lemma job_open e s' : step c s (AJob e) = Some s' -> EvDone e ∉ trace s -> pp s <> PClosed.
Proof.
  intros E D P. pose proof (k_closed _ K P) as W. cbn [step] in E. case_decide as Hd; [|done]. apply elem_hands in Hd. destruct (hnd _ _ I e Hd) as [Ha|[Ha|Ha]]; [congruence| |done].
  rewrite (stopped_async c s I O K W) in Ha. by apply elem_of_nil in Ha.
Qed.
Lemma panic_step a s' : step c s a = Some s' -> EvPanic ∈ trace s' -> EvPanic ∉ trace s -> (a = RSend /\ pp s = PClosed /\ is_Some (rcv s)) \/ exists e, a = AJob e /\ EvDone e ∈ trace s.
Proof.
  intros E H N. destruct a; cbn [step] in E.
  all: try (split_step E; cbn in H; rewrite ?elem_of_app, ?elem_of_list_singleton in H; try (by destruct H); try done; try (by left); fail).
  - split_step E; destruct (c_off e); cbn in H; rewrite ?elem_of_app, ?elem_of_list_singleton in H; try (by destruct H); done.
  - right. exists e. split; [done|]. destruct (decide (EvDone e ∈ trace s)) as [|D]; [done|exfalso].
    assert (E' : step c s (AJob e) = Some s') by exact E. pose proof (job_open e s' E' D) as P. split_step E; cbn in H; try done.
Qed.
End Run2.

Lemma run_snoc c acts : forall s a s', run c s (acts ++ [a]) = Some s' -> exists s1, run c s acts = Some s1 /\ step c s1 a = Some s'.
Proof.
  induction acts as [|b acts IH]; cbn; intros s a s' R; [destruct (step c s a) as [s1|] eqn:E; [injection R as <-; by exists s|done]|].
  destruct (step c s b) as [s1|] eqn:E; [|done]. by apply IH.
Qed.
(** before the revocation nothing is closed; after it, add starts no send *)
Lemma sending c acts s l : run c (start c) acts = Some s -> revoked s = true -> rcv s = Some l ->
  exists a1 a2 s1, acts = a1 ++ ARevoke :: a2 /\ run c (start c) a1 = Some s1 /\ rcv s1 = Some l.
Proof.
  revert s. induction acts as [|a acts IH] using rev_ind; intros s R V Hl; [injection R as <-; done|].
  destruct (run_snoc _ _ _ _ _ R) as (s1 & R1 & E). destruct (decide (revoked s1 = true /\ rcv s1 = Some l)) as [(V1 & L1)|N].
  - destruct (IH s1 R1 V1 L1) as (a1 & a2 & s2 & -> & ? & ?). exists a1, (a2 ++ [a]), s2. by rewrite <- app_assoc.
  - destruct a; cbn [step] in E.
    all: try (exfalso; apply N; split_step E; try (destruct (c_off e)); cbn in V, Hl; try discriminate; split; congruence).
    split_step E. exists acts, [], s1. done.
Qed.
Lemma panic_why c acts s : run c (start c) acts = Some s -> EvPanic ∈ trace s ->
  (exists a1 a2 s1 l, acts = a1 ++ ARevoke :: a2 /\ run c (start c) a1 = Some s1 /\ rcv s1 = Some l) \/
  (exists a1 a2 s1 e, acts = a1 ++ AJob e :: a2 /\ run c (start c) a1 = Some s1 /\ EvDone e ∈ trace s1).
Proof.
  revert s. induction acts as [|a acts IH] using rev_ind; intros s R H; [injection R as <-; by apply elem_of_nil in H|].
  destruct (run_snoc _ _ _ _ _ R) as (s1 & R1 & E). destruct (decide (EvPanic ∈ trace s1)) as [H1|H1].
  - destruct (IH s1 R1 H1) as [(a1 & a2 & s2 & l & -> & ? & ?)|(a1 & a2 & s2 & l & -> & ? & ?)]; [left|right]; exists a1, (a2 ++ [a]), s2, l; by rewrite <- app_assoc.
  - destruct (panic_step R1 a s E H H1) as [(-> & P & (l & L))|(e & -> & D)]; [|right; by exists acts, [], s1, e]. left.
    destruct (Cls_run c acts _ _ (Inv_start c) (Ord_start c) (Cls_start c) R1) as (_ & _ & K). pose proof (k_rev _ K (or_intror (or_intror P))) as V.
    destruct (sending c acts s1 l R1 V L) as (a1 & a2 & s2 & -> & ? & ?). exists a1, (a2 ++ [RSend]), s2, l. by rewrite <- app_assoc.
Qed.
