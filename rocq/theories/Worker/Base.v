(** Views of a state and of its trace, and the invariant that ties slots, queues and the trace together. *)
From stdpp Require Export prelude list.
From Verif.Worker Require Export Model.
Open Scope nat_scope.

(** Views of a trace: offsets that passed the test, that did not, both; contexts with a slot taken, given back; ended (complete or rejected), handed over, rejected *)
Definition keeps (tr : list ev) : list nat := flat_map (fun e => match e with EvKeep o => [o] | _ => [] end) tr.
Definition sees (tr : list ev) : list nat := flat_map (fun e => match e with EvKeep o | EvSkip o => [o] | _ => [] end) tr.
Definition acqs (tr : list ev) : list ctx := flat_map (fun e => match e with EvAcq c => [c] | _ => [] end) tr.
Definition rels (tr : list ev) : list ctx := flat_map (fun e => match e with EvRel c => [c] | _ => [] end) tr.
Definition ends (tr : list ev) : list ctx := flat_map (fun e => match e with EvDone c | EvRej c => [c] | _ => [] end) tr.
Definition hands (tr : list ev) : list ctx := flat_map (fun e => match e with EvHand c => [c] | _ => [] end) tr.
Definition answered (tr : list ev) : list ctx := flat_map (fun e => match e with EvHand c | EvRej c => [c] | _ => [] end) tr.
Definition offs (l : list ctx) : list nat := omap c_off l.

Definition ptok (p : ppc) : list ctx := match p with PTok e _ => [e] | _ => [] end.
Definition pheld (p : ppc) : list ctx := match p with PPool e _ | PIn e _ => [e] | _ => [] end.
Definition prest (p : ppc) : list nat := match p with PBatch l | PTok _ l | PPool _ l | PIn _ l => l | _ => [] end.
Definition wheld (w : wpc) : list ctx := match w with WAssign e | WHandle e => [e] | WRel e (Some e') => [e; e'] | WRel e None => [e] | WDead (Some e) => [e] | _ => [] end.
Definition wcur (w : wpc) : list ctx := match w with WAssign e => [e] | WRel _ (Some e) | WDead (Some e) => [e] | _ => [] end.
Definition wrel (w : wpc) : list ctx := match w with WRel e _ => [e] | _ => [] end.
Definition held (s : st) : list ctx := pheld (pp s) ++ evq s ++ ijq s ++ wheld (wp s) ++ async s.

Record Inv (c : cfg) (s : st) : Prop := {
  ids : forall e, e ∈ ptok (pp s) ++ held s ++ rels (trace s) -> c_id e < nctx s;
  nodup : NoDup (ptok (pp s) ++ held s ++ rels (trace s));
  acq : acqs (trace s) ≡ₚ held s ++ rels (trace s);
  tok : tokens s = length (held s);
  tcap : tokens s <= cap c;
  end_ : ends (trace s) ≡ₚ wrel (wp s) ++ rels (trace s);
  job_at : forall e, e ∈ jobs s -> e ∈ hands (trace s);
  hnd : forall e, e ∈ hands (trace s) -> wp s = WHandle e \/ e ∈ async s \/ EvDone e ∈ trace s;
  ev_some : forall e, e ∈ evq s -> is_Some (c_off e);
  ij_none : forall e, e ∈ ijq s -> c_off e = None;
  kept : keeps (trace s) = offs (answered (trace s)) ++ offs (wcur (wp s)) ++ offs (evq s) ++ offs (ptok (pp s)) ++ offs (pheld (pp s)) }.

Lemma keeps_app a b : keeps (a ++ b) = keeps a ++ keeps b. Proof. apply flat_map_app. Qed.
Lemma sees_app a b : sees (a ++ b) = sees a ++ sees b. Proof. apply flat_map_app. Qed.
Lemma acqs_app a b : acqs (a ++ b) = acqs a ++ acqs b. Proof. apply flat_map_app. Qed.
Lemma rels_app a b : rels (a ++ b) = rels a ++ rels b. Proof. apply flat_map_app. Qed.
Lemma ends_app a b : ends (a ++ b) = ends a ++ ends b. Proof. apply flat_map_app. Qed.
Lemma hands_app a b : hands (a ++ b) = hands a ++ hands b. Proof. apply flat_map_app. Qed.
Lemma answered_app a b : answered (a ++ b) = answered a ++ answered b. Proof. apply flat_map_app. Qed.
Lemma offs_app a b : offs (a ++ b) = offs a ++ offs b. Proof. apply omap_app. Qed.
Global Hint Rewrite keeps_app sees_app acqs_app rels_app ends_app hands_app answered_app offs_app : views.
Lemma elem_flat {A B} (f : A -> list B) l x : x ∈ flat_map f l <-> exists e, e ∈ l /\ x ∈ f e.
Proof. rewrite elem_of_list_In, in_flat_map. by setoid_rewrite elem_of_list_In. Qed.
Lemma elem_rels tr e : e ∈ rels tr <-> EvRel e ∈ tr.
Proof.
  unfold rels. rewrite elem_flat. split.
  - intros (x & Hx & H). destruct x; try (by apply elem_of_nil in H). apply elem_of_list_singleton in H. by subst.
  - intros H. exists (EvRel e). split; [done|]. by apply elem_of_list_singleton.
Qed.
Lemma elem_acqs tr e : e ∈ acqs tr <-> EvAcq e ∈ tr.
Proof.
  unfold acqs. rewrite elem_flat. split.
  - intros (x & Hx & H). destruct x; try (by apply elem_of_nil in H). apply elem_of_list_singleton in H. by subst.
  - intros H. exists (EvAcq e). split; [done|]. by apply elem_of_list_singleton.
Qed.
Lemma elem_hands tr e : e ∈ hands tr <-> EvHand e ∈ tr.
Proof.
  unfold hands. rewrite elem_flat. split.
  - intros (x & Hx & H). destruct x; try (by apply elem_of_nil in H). apply elem_of_list_singleton in H. by subst.
  - intros H. exists (EvHand e). split; [done|]. by apply elem_of_list_singleton.
Qed.
Lemma elem_ends tr e : e ∈ ends tr <-> EvDone e ∈ tr \/ EvRej e ∈ tr.
Proof.
  unfold ends. rewrite elem_flat. split.
  - intros (x & Hx & H). destruct x; try (by apply elem_of_nil in H); apply elem_of_list_singleton in H; subst; tauto.
  - intros [H|H]; eexists; (split; [exact H|]); by apply elem_of_list_singleton.
Qed.
Lemma elem_answered tr e : e ∈ answered tr <-> EvHand e ∈ tr \/ EvRej e ∈ tr.
Proof.
  unfold answered. rewrite elem_flat. split.
  - intros (x & Hx & H). destruct x; try (by apply elem_of_nil in H); apply elem_of_list_singleton in H; subst; tauto.
  - intros [H|H]; eexists; (split; [exact H|]); by apply elem_of_list_singleton.
Qed.
Lemma elem_sees tr o : o ∈ sees tr <-> EvKeep o ∈ tr \/ EvSkip o ∈ tr.
Proof.
  unfold sees. rewrite elem_flat. split.
  - intros (x & Hx & H). destruct x; try (by apply elem_of_nil in H); apply elem_of_list_singleton in H; subst; tauto.
  - intros [H|H]; eexists; (split; [exact H|]); by apply elem_of_list_singleton.
Qed.
Global Arguments keeps : simpl never. Global Arguments sees : simpl never. Global Arguments acqs : simpl never. Global Arguments rels : simpl never.
Global Arguments ends : simpl never. Global Arguments hands : simpl never. Global Arguments answered : simpl never.

Lemma remove_perm (e : ctx) l : NoDup l -> e ∈ l -> l ≡ₚ e :: filter (fun x => x <> e) l.
Proof.
  intros N H. apply NoDup_Permutation; [done| |].
  - apply NoDup_cons; split; [|by apply NoDup_filter]. rewrite elem_of_list_filter. naive_solver.
  - intros x. rewrite elem_of_cons, elem_of_list_filter. destruct (decide (x = e)); naive_solver.
Qed.
