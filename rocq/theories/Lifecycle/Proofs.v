From stdpp Require Import prelude list.
From Verif.Lifecycle Require Import Model.
Open Scope nat_scope.

Global Instance answer_dec : EqDecision answer. Proof. solve_decision. Defined.
Global Instance ev_dec : EqDecision ev. Proof. solve_decision. Defined.
Definition isCall e := match e with EvCall => true | _ => false end.
Definition isReturn e := match e with EvReturn => true | _ => false end.
Definition count (f : ev -> bool) (t : list ev) : nat := length (List.filter f t).
Lemma count_app f t u : count f (t ++ u) = count f t + count f u.
Proof. unfold count. by rewrite List.filter_app, app_length. Qed.

Lemma step_alive s a s' : step s a = Some s' -> dead s = false /\ step1 s a = Some s'.
Proof. unfold step. destruct (dead s); [discriminate|]. auto. Qed.
Lemma run_app s l1 l2 : run s (l1 ++ l2) = match run s l1 with Some s' => run s' l2 | None => None end.
Proof. revert s. induction l1 as [|a l1 IH]; intros s; cbn; [reflexivity|]. destruct (step s a); [apply IH|reflexivity]. Qed.
Lemma run_inv (P : st -> Prop) s acts s' : P s -> (forall s a s', P s -> step s a = Some s' -> P s') -> run s acts = Some s' -> P s'.
Proof.
  intros H0 H. revert s H0. induction acts as [|a l IH]; intros s H0 R; cbn in R; [by injection R as <-|].
  destruct (step s a) as [s1|] eqn:E; [|discriminate]. eapply IH; [|exact R]. eapply H; eassumption.
Qed.

(** inversion of a step: one goal for every way the step can happen *)
Ltac cases E :=
  apply step_alive in E as [Hal E];
  match type of E with step1 ?s ?a = _ => destruct a as [p|p|p|p|p|p|p| |inc| | | | | |i|r| |] end; cbn [step1] in E;
  repeat match type of E with
  | match mux ?s with _ => _ end = _ => let M := fresh "M" in destruct (mux s) as [mp|] eqn:M
  | (if closed ?s then _ else _) = _ => let C := fresh "C" in destruct (closed s) eqn:C
  | (if halted ?s then _ else _) = _ => let C := fresh "Hh" in destruct (halted s) eqn:C
  | (if full ?s then _ else _) = _ => let C := fresh "Fu" in destruct (full s) eqn:C
  | (if cof ?s then _ else _) = _ => let C := fresh "Co" in destruct (cof s) eqn:C
  | match find ?p (workers ?s) with _ => _ end = _ => let F := fresh "F" in destruct (find p (workers s)) as [[[] [] []]|] eqn:F
  | match stop1 ?s with _ => _ end = _ => let S := fresh "S" in destruct (stop1 s) eqn:S
  | match waiting ?s with _ => _ end = _ => let S := fresh "W" in destruct (waiting s) as [|n] eqn:S
  | match nows ?s !! ?i with _ => _ end = _ => let S := fresh "N" in destruct (nows s !! i) as [[]|] eqn:S
  | match kl ?s with _ => _ end = _ => let S := fresh "K" in destruct (kl s) as [|r0| |] eqn:S
  | match close ?s with _ => _ end = _ => let S := fresh "X" in destruct (close s) as [s1|] eqn:S
  end; try discriminate; try (injection E as <-).

Lemma close_inv s s' : close s = Some s' -> (closed s = true /\ s' = s) \/
  (closed s = false /\ mux s = None /\ s' = emits (map (fun x => EvRevoke x.1) (workers s) ++ [EvClosed]) (set_closed true (set_workers [] s))).
Proof. unfold close. destruct (closed s); [intros [= <-]; auto|]. destruct (mux s); [discriminate|]. intros [= <-]. auto. Qed.

(** find, put, del *)
Lemma find_put p w q l v : find p l = Some v -> find q (put p w l) = if q =? p then Some w else find q l.
Proof.
  induction l as [|[k x] l IH]; cbn; [discriminate|]. destruct (Nat.eqb_spec p k) as [->|N].
  - intros _. cbn. destruct (q =? k); reflexivity.
  - intros H. cbn. rewrite (IH H). destruct (Nat.eqb_spec q k), (Nat.eqb_spec q p); congruence.
Qed.
Lemma find_del_other p q l : q <> p -> find q (del p l) = find q l.
Proof.
  intros N. induction l as [|[k x] l IH]; cbn; [reflexivity|]. destruct (Nat.eqb_spec p k) as [->|N'].
  - destruct (Nat.eqb_spec q k); [congruence|reflexivity].
  - cbn. by rewrite IH.
Qed.
Lemma find_in p l w : find p l = Some w -> (p, w) ∈ l.
Proof. induction l as [|[k x] l IH]; cbn; [discriminate|]. destruct (Nat.eqb_spec p k) as [->|N]; [intros [= ->]; left|]. intros H. right. auto. Qed.

Lemma in_snoc {A} (x e : A) t : x ∈ t ++ [e] <-> x ∈ t \/ x = e.
Proof. by rewrite elem_of_app, elem_of_list_singleton. Qed.
Lemma not_rev x (l : list (nat * worker)) : (forall p, x <> EvRevoke p) -> x ∉ map (fun y => EvRevoke y.1) l.
Proof. intros N H. apply elem_of_list_In, in_map_iff in H as (y & <- & _). by eapply N. Qed.
Lemma nows_insert (l : list now) i y j x : <[i := y]> l !! j = Some x -> (j = i /\ x = y) \/ l !! j = Some x.
Proof.
  intros H. destruct (decide (i = j)) as [->|N].
  - assert (L : j < length l) by (apply lookup_lt_Some in H; by rewrite insert_length in H). rewrite list_lookup_insert in H by exact L. injection H as <-. auto.
  - rewrite list_lookup_insert_ne in H by exact N. auto.
Qed.
Lemma signal_eff s : workers (signal s) = workers s /\ mux (signal s) = mux s /\ halted (signal s) = halted s /\ closed (signal s) = closed s /\ nows (signal s) = nows s /\ stop1 (signal s) = stop1 s /\
  cof (signal s) = cof s /\ kl (signal s) = kl s /\ healthy (signal s) = healthy s /\ dead (signal s) = dead s /\ waiting (signal s) = waiting s /\ full (signal s) = true /\
  ((full s = true /\ trace (signal s) = trace s) \/ (full s = false /\ trace (signal s) = trace s ++ [EvSignal])).
Proof. unfold signal. destruct (full s) eqn:F; cbn; repeat split; auto. Qed.

Lemma lookup_snoc (l : list now) y i x : (l ++ [y]) !! i = Some x -> l !! i = Some x \/ x = y.
Proof. intros H. apply lookup_app_Some in H as [H|[_ H]]; [auto|]. destruct (i - length l); [injection H as <-; auto|discriminate]. Qed.

Ltac flat := cbn [workers mux halted closed full nows stop1 trace emit emits set_workers set_mux set_halted set_closed set_healthy set_full set_waiting set_nows set_stop1 set_cof set_kl set_dead halt waiting healthy cof kl dead].
Ltac closing := try (match goal with X : close ?s = Some _ |- _ => apply close_inv in X as [[? X]|(? & ? & X)]; subst end).
Ltac signalling := try match goal with |- context [signal ?s] =>
  let Q := fresh "Q" in let T := fresh "T" in
  destruct (signal_eff s) as (Q1 & Q2 & Q3 & Q4 & Q5 & Q6 & Q7 & Q8 & Q9 & Q10 & Q11 & Q12 & [[Q13 T]|[Q13 T]]); flat;
  rewrite ?Q1, ?Q2, ?Q3, ?Q4, ?Q5, ?Q6, ?Q7, ?Q8, ?Q9, ?Q10, ?Q11, ?Q12, ?T; clear Q1 Q2 Q3 Q4 Q5 Q6 Q7 Q8 Q9 Q10 Q11 Q12 T end.

Ltac picks := try match goal with |- context [match ?r with Continue => _ | _ => _ end] => destruct r end; try match goal with |- context [match stop1 ?s with _ => _ end] => let S := fresh "S" in destruct (stop1 s) eqn:S end; try match goal with i : bool |- _ => destruct i end.

(** ** The flags and the trace *)
Definition traced (s : st) : Prop := (halted s = true <-> EvHalt ∈ trace s) /\ (closed s = true <-> EvClosed ∈ trace s).
Lemma traced_start : traced start.
Proof. split; cbn; split; try discriminate; intros H; by apply elem_of_nil in H. Qed.
Lemma ext_iff (b : bool) (x : ev) t l : (b = true <-> x ∈ t) -> x ∉ l -> (b = true <-> x ∈ t ++ l).
Proof. intros H N. rewrite elem_of_app, H. tauto. Qed.
Lemma new_iff (x : ev) t l : x ∈ l -> (true = true <-> x ∈ t ++ l).
Proof. intros H. rewrite elem_of_app. tauto. Qed.
Ltac absent := first [ apply not_rev; discriminate | (intros Hx; repeat (apply elem_of_cons in Hx as [Hx|Hx]; [discriminate Hx|]); by apply elem_of_nil in Hx) ].
Lemma not_closing x l : (forall p, x <> EvRevoke p) -> x <> EvClosed -> x ∉ map (fun y : nat * worker => EvRevoke y.1) l ++ [EvClosed].
Proof. intros H N. rewrite elem_of_app, elem_of_list_singleton. intros [A|A]; [revert A; by apply not_rev|done]. Qed.
Lemma traced_step s a s' : traced s -> step s a = Some s' -> traced s'.
Proof.
  intros H E. cases E; closing; unfold traced at 1; signalling; picks; destruct H as [Ha Hc]; flat.
  all: split; first [ assumption | (apply ext_iff; [assumption|absent]) | (apply new_iff; left) | (apply ext_iff; [assumption|apply not_closing; discriminate]) | (apply new_iff; apply elem_of_app; right; left)
     | (rewrite <- app_assoc; apply ext_iff; [assumption|absent])].
Qed.

(** ** The workers and workerMux *)
Lemma put_in x p w l : x ∈ put p w l -> x ∈ l \/ x = (p, w).
Proof.
  induction l as [|[k v] l IH]; cbn; [auto|]. destruct (Nat.eqb_spec p k) as [->|N]; intros H; apply elem_of_cons in H as [->|H]; auto.
  - left. by right.
  - left. by left.
  - destruct (IH H); auto. left. by right.
Qed.
Lemma del_in x p l : x ∈ del p l -> x ∈ l.
Proof. induction l as [|[k v] l IH]; cbn; [auto|]. destruct (p =? k); intros H; [by right|]. apply elem_of_cons in H as [->|H]; [by left|right; auto]. Qed.
Record held (s : st) : Prop := {
  h_over : closed s = true -> workers s = [] /\ mux s = None;
  h_mux : forall p, mux s = Some p -> exists f b, find p (workers s) = Some (mkW true f b);
  h_gone : forall p f, (p, mkW true f false) ∈ workers s -> halted s = true
}.
Lemma held_start : held start.
Proof. split; cbn; try done. intros p f H. by apply elem_of_nil in H. Qed.
Lemma held_put s p w w' : held s -> find p (workers s) = Some w -> (w_ready w = true -> w_ready w' = true) -> (w_ready w' = true -> w_push w' = false -> halted s = true) ->
  held (set_workers (put p w' (workers s)) s).
Proof.
  intros [A B C] F R G. split; flat.
  - intros Hc. destruct (A Hc) as [E _]. rewrite E in F. discriminate.
  - intros q Hq. destruct (B q Hq) as (f & b & H). rewrite (find_put _ _ _ _ _ F). destruct (Nat.eqb_spec q p) as [->|N]; [|eauto].
    rewrite F in H. injection H as ->. destruct w' as [[] f' b']; [eauto|]. by specialize (R eq_refl).
  - intros q f Hq. apply put_in in Hq as [Hq|Hq]; [eauto|]. injection Hq as _ <-. by apply G.
Qed.
Lemma held_same s s' : workers s' = workers s -> mux s' = mux s -> closed s' = closed s -> (halted s = true -> halted s' = true) -> held s -> held s'.
Proof. intros E1 E2 E3 E4 [A B C]. split; rewrite ?E1, ?E2, ?E3; eauto. Qed.
Lemma held_closing s l x : held s -> mux s = None -> held (emits l (set_closed x (set_workers [] s))).
Proof. intros [A B C] M. split; flat; try done. - by rewrite M. - intros p f H. by apply elem_of_nil in H. Qed.
Lemma held_step s a s' : held s -> step s a = Some s' -> held s'.
Proof.
  intros H E. cases E; closing; signalling; picks.
  all: try (first [exact H | (apply (held_same s); [reflexivity|reflexivity|reflexivity|tauto|exact H])]).
  all: try (apply (held_put s p _ _ H F); [done|]; try done; intros _ _; destruct H as [_ _ G]; first [assumption | (eapply G, find_in, F)]).
  all: try (match goal with |- context [signal ?z] => apply (held_same z); cbn; try (apply signal_eff); [rewrite !(proj1 (proj2 (proj2 (signal_eff z)))); tauto|exact H] end).
  all: try (match goal with |- context [del] => destruct H as [A B C]; split; flat; [intros Hc; destruct (A Hc) as [-> ?]; done|rewrite M; done|intros q f Hq; eapply C, del_in, Hq] end).
  all: try (match goal with |- context [map] => eapply held_same; [| | | |apply (held_closing s); [exact H|assumption]]; reflexivity || tauto end).
  1: destruct H as [A B G]; split; flat; [intros Hc; congruence|intros q Hq; congruence|intros q f Hq; apply elem_of_cons in Hq as [Hq|Hq]; [discriminate|eauto]].
  all: try (match goal with |- context [set_mux (Some _)] => destruct H as [A B G]; split; flat; [intros Hc; destruct (A Hc) as [Y _]; rewrite Y in F; discriminate|intros q [= <-]; eauto|exact G] end).
  all: pose proof (h_gone _ H) as G.
  all: match goal with |- context [put _ ?w _] => assert (X : held (set_workers (put mp w (workers s)) s)) by
    (apply (held_put s mp _ _ H F); [done|]; try done; intros _ _; eapply G, find_in, F) end;
    destruct X as [A B C]; split; flat; [intros Hc; destruct (A Hc) as [Y _]; auto|done|exact C].
Qed.

(** ** How far the calls have got *)
Record phases (s : st) : Prop := {
  q_full : full s = true -> EvSignal ∈ trace s;
  q_signal : EvSignal ∈ trace s -> halted s = true /\ closed s = true;
  q_once : match stop1 s with SHalt => closed s = true | SSend => halted s = true /\ closed s = true | SOver => EvSignal ∈ trace s | _ => True end;
  q_now : forall i x, nows s !! i = Some x -> match x with NHalt => True | NClose => halted s = true | NSend => halted s = true /\ closed s = true | NOver => EvSignal ∈ trace s end
}.
Lemma phases_start : phases start.
Proof. split; cbn; try done. intros H; by apply elem_of_nil in H. Qed.
(** nothing but the trace is longer and flags may have been set *)
Lemma phases_more s s' : full s' = full s -> stop1 s' = stop1 s -> nows s' = nows s -> (halted s = true -> halted s' = true) -> (closed s = true -> closed s' = true) ->
  (EvSignal ∈ trace s' <-> EvSignal ∈ trace s) -> phases s -> phases s'.
Proof.
  intros E1 E2 E3 H C T [A B D N]. split; rewrite ?E1, ?E2, ?E3, ?T; auto.
  - intros X. destruct (B X). auto.
  - destruct (stop1 s); intuition.
  - intros i x X. specialize (N i x X). destruct x; intuition; rewrite T; assumption.
Qed.
Lemma phases_once s x : phases s -> match x with SHalt => closed s = true | SSend => halted s = true /\ closed s = true | SOver => EvSignal ∈ trace s | _ => True end -> phases (set_stop1 x s).
Proof. intros [A B D N] H. split; flat; auto. Qed.
Lemma phases_nows s l : phases s -> (forall i x, l !! i = Some x -> nows s !! i = Some x \/ match x with NHalt => True | NClose => halted s = true | NSend => halted s = true /\ closed s = true | NOver => EvSignal ∈ trace s end) -> phases (set_nows l s).
Proof. intros [A B D N] H. split; flat; auto. intros i x X. destruct (H i x X) as [Y|Y]; auto. apply (N i x Y). Qed.
Lemma phases_now s i x : phases s -> match x with NHalt => True | NClose => halted s = true | NSend => halted s = true /\ closed s = true | NOver => EvSignal ∈ trace s end -> phases (set_nows (<[i := x]> (nows s)) s).
Proof. intros H X. apply phases_nows; [exact H|]. intros j y J. apply nows_insert in J as [[-> ->]|J]; auto. Qed.
Lemma in_ext (x : ev) t l : x ∉ l -> x ∈ t ++ l <-> x ∈ t.
Proof. rewrite elem_of_app. tauto. Qed.
Lemma phases_halt s : phases s -> phases (halt s).
Proof. apply phases_more; cbn; auto. apply in_ext. absent. Qed.
Lemma phases_close s s' : phases s -> close s = Some s' -> phases s' /\ closed s' = true /\ halted s' = halted s /\ nows s' = nows s /\ stop1 s' = stop1 s.
Proof.
  intros H X. apply close_inv in X as [[C ->]|(C & M & ->)]; [auto|]. flat. split; [|auto]. revert H. apply phases_more; cbn; auto. apply in_ext. apply not_closing; discriminate.
Qed.
Lemma phases_sig s : phases s -> halted s = true -> closed s = true -> phases (signal s) /\ EvSignal ∈ trace (signal s).
Proof.
  intros H A B. unfold signal. destruct (full s) eqn:F; [split; [exact H|apply (q_full s H F)]|]. assert (T : EvSignal ∈ trace s ++ [EvSignal]) by (apply elem_of_app; right; left).
  split; [|exact T]. destruct H as [_ Q D N]. split; flat; auto.
  - destruct (stop1 s); auto.
  - intros i x X. specialize (N i x X). destruct x; auto.
Qed.
Lemma phases_quiet s e : e <> EvSignal -> phases s -> phases (emit e s).
Proof. intros N. apply phases_more; cbn; auto. rewrite elem_of_app, elem_of_list_singleton. intuition congruence. Qed.
Lemma phases_same s s' : phases s -> full s' = full s -> stop1 s' = stop1 s -> nows s' = nows s -> halted s' = halted s -> closed s' = closed s -> trace s' = trace s -> phases s'.
Proof. intros H E1 E2 E3 E4 E5 E6. revert H. apply phases_more; congruence || (rewrite E6; tauto). Qed.
Lemma phases_step s a s' : phases s -> step s a = Some s' -> phases s'.
Proof.
  intros H E. pose proof (q_signal s H) as Qs. pose proof (q_now s H) as Qn. pose proof (q_once s H) as Qo.
  cases E; try (first [exact H | (apply (phases_same s _ H); reflexivity) | (apply phases_quiet; [discriminate|]; apply (phases_same s _ H); reflexivity)]).
  - destruct (stop1 s) eqn:S; try exact H. destruct inc; apply phases_once; auto.
  - apply phases_quiet; [discriminate|]. apply phases_nows; [exact H|]. intros i x X. apply lookup_snoc in X as [X| ->]; auto.
  - apply phases_quiet; [discriminate|]. destruct H as [A B D P]. split; flat; auto; discriminate.
  - apply phases_once; auto.
  - destruct (phases_close _ _ H X) as (P & C & _). by apply phases_once.
  - apply phases_once; [by apply phases_halt|]. cbn. auto.
  - destruct Qo as [Q1 Q2]. destruct (phases_sig s H Q1 Q2) as [P T]. by apply phases_once.
  - change (nows s) with (nows (halt s)). apply phases_now; [by apply phases_halt|done].
  - destruct (phases_close _ _ H X) as (P & C & Hh & Nn & _). rewrite <- Nn. apply phases_now; [exact P|]. rewrite Hh. split; [exact (Qn _ _ N)|exact C].
  - destruct (Qn _ _ N) as [Q1 Q2]. destruct (phases_sig s H Q1 Q2) as [P T]. apply phases_quiet; [discriminate|].
    assert (Nn : nows s = nows (signal s)) by (symmetry; apply signal_eff). rewrite Nn. by apply phases_now.
  - apply phases_quiet; [discriminate|]. destruct r; try exact H; apply (phases_same s _ H); reflexivity.
  - set (s1 := emits [EvFail; EvCall] (set_nows (nows s ++ [NHalt]) (set_cof false s))). assert (P1 : phases s1).
    { unfold s1. eapply (phases_more (set_nows (nows s ++ [NHalt]) s)); try reflexivity; try (cbn; tauto); [cbn; apply in_ext; absent|].
      apply phases_nows; [exact H|]. intros i x X. apply lookup_snoc in X as [X| ->]; auto. }
    destruct r0; (revert P1; apply phases_more; cbn; tauto).
Qed.

(** ** Assigned and revoked *)
Definition owned (s : st) : Prop := forall p u v, trace s = u ++ EvAssign p :: v -> EvRevoke p ∈ v \/ exists w, find p (workers s) = Some w.
Lemma snoc_split {A} (t u v : list A) x e : t ++ [e] = u ++ x :: v -> (v = [] /\ x = e /\ u = t) \/ exists v', v = v' ++ [e] /\ t = u ++ x :: v'.
Proof.
  intros H. destruct v as [|y v _] using rev_ind.
  - apply app_inj_tail in H as [-> ->]. auto.
  - right. exists v. rewrite app_comm_cons, app_assoc in H. apply app_inj_tail in H as [-> ->]. auto.
Qed.
Lemma app_split {A} (l t u v : list A) x : t ++ l = u ++ x :: v -> x ∉ l -> exists v', v = v' ++ l /\ t = u ++ x :: v'.
Proof.
  revert v. induction l as [|y l IH] using rev_ind; intros v H N.
  - rewrite app_nil_r in H. exists v. by rewrite app_nil_r.
  - rewrite app_assoc in H. apply snoc_split in H as [(_ & -> & _)|(v' & -> & H)]; [destruct N; apply elem_of_app; right; left|].
    destruct (IH v' H) as (v2 & -> & E); [intros X; apply N, elem_of_app; auto|]. exists v2. by rewrite app_assoc.
Qed.
Lemma owned_ext s s' l : trace s' = trace s ++ l -> (forall p, EvAssign p ∉ l) -> (forall p w, find p (workers s) = Some w -> EvRevoke p ∈ l \/ exists w', find p (workers s') = Some w') -> owned s -> owned s'.
Proof.
  intros T N W H p u v E. rewrite T in E. destruct (app_split _ _ _ _ _ E (N p)) as (v' & -> & E'). destruct (H p u v' E') as [X|(w & X)]; [left; apply elem_of_app; auto|].
  destruct (W p w X) as [Y|Y]; [left; apply elem_of_app; auto|auto].
Qed.
Lemma owned_step s a s' : owned s -> step s a = Some s' -> owned s'.
Proof.
  intros H E.
  assert (Q : forall z l, trace z = trace s ++ l -> (forall p, EvAssign p ∉ l) -> workers z = workers s -> owned z).
  { intros z l T N W. apply (owned_ext s z l T N); [|exact H]. intros p w X. right. rewrite W. eauto. }
  assert (PUT : forall p w w', find p (workers s) = Some w -> owned (set_workers (put p w' (workers s)) s)).
  { intros p w w' F. apply (owned_ext s _ []); [cbn; by rewrite app_nil_r|intros q X; by apply elem_of_nil in X| |exact H]. cbn. intros q x X. right. rewrite (find_put _ _ _ _ _ F). destruct (q =? p); eauto. }
  assert (CL : forall z, close s = Some z -> owned z).
  { intros z X. apply close_inv in X as [[_ ->]|(_ & _ & ->)]; [exact H|]. eapply (owned_ext s); [reflexivity|intros p; apply not_closing; discriminate| |exact H].
    intros p w F. left. apply elem_of_app. left. apply elem_of_list_In, in_map_iff. exists (p, w). split; [reflexivity|]. apply elem_of_list_In, find_in, F. }
  assert (SG : owned (signal s)).
  { destruct (signal_eff s) as (Q1 & _ & _ & _ & _ & _ & _ & _ & _ & _ & _ & _ & [[_ T]|[_ T]]); [apply (Q _ []); [by rewrite app_nil_r|intros p X; by apply elem_of_nil in X|exact Q1]|apply (Q _ [EvSignal]); [exact T|intros p; absent|exact Q1]]. }
  assert (Q2 : forall z z' l, owned z -> trace z' = trace z ++ l -> (forall p, EvAssign p ∉ l) -> workers z' = workers z -> owned z').
  { intros z z' l Z T N W. apply (owned_ext z z' l T N); [|exact Z]. intros p w X. right. rewrite W. eauto. }
  cases E; try (first [exact H | (eapply PUT; exact F)
    | (apply (Q _ []); [cbn; by rewrite app_nil_r|intros q X; by apply elem_of_nil in X|reflexivity]) | (eapply Q; [cbn; reflexivity|intros q; absent|reflexivity])]).
  all: try (apply (Q2 s1 _ []); [exact (CL _ X)|cbn; by rewrite app_nil_r|intros q Y; by apply elem_of_nil in Y|reflexivity]).
  1: { intros q u v T. cbn in T. apply snoc_split in T as [(-> & [= ->] & ->)|(v' & -> & T)]; [right; cbn; rewrite Nat.eqb_refl; eauto|].
       destruct (H q u v' T) as [X|(w & X)]; [left; apply elem_of_app; auto|]. right. cbn. destruct (q =? p); eauto. }
  all: try (match goal with |- context [del] => eapply (owned_ext s); [cbn; reflexivity|intros q; absent| |exact H]; intros q w X; destruct (decide (q = p)) as [->|Nq]; [left; by left|right; cbn; rewrite find_del_other by exact Nq; eauto] end).
  all: try (match goal with |- context [set_mux None] => apply (Q2 (set_workers (put mp _ (workers s)) s) _ []); [eapply PUT; exact F|cbn; by rewrite app_nil_r|intros q Y; by apply elem_of_nil in Y|reflexivity] end).
  all: try (match goal with |- context [signal] => eapply (Q2 (signal s) _ _ SG); [cbn; first [reflexivity | (symmetry; apply app_nil_r)]|intros q; absent|reflexivity] end).
  - destruct (stop1 s); exact H.
  - specialize (CL _ eq_refl). intros p u v T. exact (CL p u v T).
  - specialize (CL _ eq_refl). intros p u v T. exact (CL p u v T).
  - destruct r; (eapply Q; [cbn; reflexivity|intros q; absent|reflexivity]).
  - destruct r0; (eapply Q; [cbn; reflexivity|intros q; absent|reflexivity]).
Qed.

(** ** What is true when a waiter is released *)
Definition released (s : st) : Prop := forall u v, trace s = u ++ EvReleased :: v ->
  EvHalt ∈ u /\ EvClosed ∈ u /\ (forall p u1 u2, u = u1 ++ EvAssign p :: u2 -> EvRevoke p ∈ u2) /\ forall p, EvAssign p ∉ v.
(** the trace only grows; waiters are released by DRecv only; nothing is assigned after the end *)
Lemma step_trace s a s' : step s a = Some s' -> exists l, trace s' = trace s ++ l /\ (EvReleased ∈ l -> l = [EvReleased] /\ full s = true) /\ (forall p, EvAssign p ∈ l -> closed s = false).
Proof.
  intros E.
  assert (Z : forall s', trace s' = trace s -> exists l, trace s' = trace s ++ l /\ (EvReleased ∈ l -> l = [EvReleased] /\ full s = true) /\ (forall p, EvAssign p ∈ l -> closed s = false)).
  { intros z T. exists []. rewrite app_nil_r. split; [exact T|]. split; [intros X; by apply elem_of_nil in X|intros p X; by apply elem_of_nil in X]. }
  assert (Y : forall s' l, trace s' = trace s ++ l -> EvReleased ∉ l -> (forall p, EvAssign p ∉ l) -> exists l, trace s' = trace s ++ l /\ (EvReleased ∈ l -> l = [EvReleased] /\ full s = true) /\ (forall p, EvAssign p ∈ l -> closed s = false)).
  { intros z l T N1 N2. exists l. split; [exact T|]. split; [done|]. intros p X. by apply N2 in X. }
  cases E; try (apply Z; reflexivity); try (eapply Y; [cbn; reflexivity|absent|intros q; absent]).
  1: { exists [EvAssign p]. split; [reflexivity|]. split; [intros X; apply elem_of_list_singleton in X; discriminate|done]. }
  1: destruct (stop1 s); apply Z; reflexivity.
  1: { exists [EvReleased]. split; [reflexivity|]. split; [done|]. intros p X. apply elem_of_list_singleton in X. discriminate. }
  1,3: apply close_inv in X as [[_ ->]|(_ & _ & ->)]; [apply Z; reflexivity|eapply Y; [cbn; reflexivity|apply not_closing; discriminate|intros q; apply not_closing; discriminate]].
  1,2: destruct (signal_eff s) as (_ & _ & _ & _ & _ & _ & _ & _ & _ & _ & _ & _ & [[_ T]|[_ T]]).
  1: apply Z; exact T.
  1: eapply Y; [cbn; exact T|absent|intros q; absent].
  1: eapply Y; [cbn; rewrite T; reflexivity|absent|intros q; absent].
  1: eapply Y; [cbn; rewrite T, <- app_assoc; reflexivity|absent|intros q; absent].
  1: destruct r; (eapply Y; [cbn; reflexivity|absent|intros q; absent]).
  1: destruct r0; (eapply Y; [cbn; reflexivity|absent|intros q; absent]).
Qed.
Lemma released_step s a s' : traced s -> held s -> phases s -> owned s -> released s -> step s a = Some s' -> released s'.
Proof.
  intros [T1 T2] Hh P O R E. destruct (step_trace _ _ _ E) as (l & T & A & B). intros u v X. rewrite T in X.
  destruct (decide (EvReleased ∈ l)) as [I|I].
  - destruct (A I) as [-> F]. apply snoc_split in X as [(-> & _ & ->)|(v' & -> & X)].
    + destruct (q_signal s P (q_full s P F)) as [C1 C2]. rewrite T1 in C1. assert (C3 := C2). rewrite T2 in C2. destruct (h_over s Hh C3) as [W _].
      split; [exact C1|]. split; [exact C2|]. split; [|intros p Y; by apply elem_of_nil in Y].
      intros p u1 u2 Y. destruct (O p u1 u2 Y) as [Z|(w & Z)]; [exact Z|]. rewrite W in Z. discriminate.
    + destruct (R u v' X) as (R1 & R2 & R3 & R4). repeat (split; [assumption|]). intros p Y. apply elem_of_app in Y as [Y|Y]; [by apply R4 in Y|]. apply elem_of_list_singleton in Y. discriminate.
  - destruct (app_split _ _ _ _ _ X I) as (v' & -> & Y). destruct (R u v' Y) as (R1 & R2 & R3 & R4). repeat (split; [assumption|]). intros p Z.
    apply elem_of_app in Z as [Z|Z]; [by apply R4 in Z|]. apply B in Z. assert (C : EvClosed ∈ trace s) by (rewrite Y; apply elem_of_app; auto). rewrite <- T2 in C. congruence.
Qed.

(** ** Calls, returns, signals, errors *)
Fixpoint over (l : list now) : nat := match l with [] => 0 | NOver :: l' => S (over l') | _ :: l' => over l' end.
Lemma over_app l l' : over (l ++ l') = over l + over l'.
Proof. induction l as [|x l IH]; cbn; [reflexivity|]. destruct x; cbn; lia. Qed.
Lemma over_insert l i x y : l !! i = Some x -> over (<[i := y]> l) + (match x with NOver => 1 | _ => 0 end) = over l + (match y with NOver => 1 | _ => 0 end).
Proof.
  intros H. rewrite insert_take_drop by (by eapply lookup_lt_Some). assert (L : over l = over (take i l ++ x :: drop (S i) l)) by (by rewrite take_drop_middle). rewrite L, !over_app. destruct x, y; cbn; lia.
Qed.
Lemma over_le l : over l <= length l.
Proof. induction l as [|[] l IH]; cbn; lia. Qed.
Lemma over_all l : over l = length l -> forall i x, l !! i = Some x -> x = NOver.
Proof.
  induction l as [|z l IH]; intros H i x X; [discriminate|]. pose proof (over_le l). destruct z; cbn in H; try lia.
  destruct i as [|i]; [by injection X as <-|]. apply (IH ltac:(lia) i x X).
Qed.
Lemma all_over l : (forall i x, l !! i = Some x -> x = NOver) -> over l = length l.
Proof. induction l as [|z l IH]; intros H; cbn; [reflexivity|]. rewrite (H 0 z eq_refl). f_equal. apply IH. intros i x X. exact (H (S i) x X). Qed.
Definition isSignal e := match e with EvSignal => true | _ => false end.
Definition isReleased e := match e with EvReleased => true | _ => false end.
Record counts (s : st) : Prop := {
  n_call : count isCall (trace s) = length (nows s);
  n_return : count isReturn (trace s) = over (nows s);
  n_signal : count isSignal (trace s) = count isReleased (trace s) + (if full s then 1 else 0)
}.
Lemma counts_start : counts start.
Proof. by split. Qed.
Lemma count_rev f (l : list (nat * worker)) : (forall p, f (EvRevoke p) = false) -> count f (map (fun x => EvRevoke x.1) l) = 0.
Proof. intros H. unfold count. induction l as [|x l IH]; cbn; [reflexivity|]. by rewrite H. Qed.
Lemma counts_step s a s' : counts s -> step s a = Some s' -> counts s'.
Proof.
  intros [A B C] E. cases E; closing; signalling; picks; split; flat; rewrite ?count_app, ?count_rev, ?app_length, ?over_app, ?insert_length by reflexivity; rewrite ?A, ?B, ?C; cbn;
    try match goal with N : nows ?z !! ?i = Some ?x |- context [<[?i := ?y]> (nows ?z)] => pose proof (over_insert _ _ _ y N); cbn in * end;
    try match goal with F : full ?z = _ |- _ => rewrite ?F in * end; try lia.
  all: unfold signal; rewrite Q13; flat; rewrite ?count_app, ?A, ?B, ?C; cbn; rewrite ?Q13; lia.
Qed.

(** what follows an answer other than Continue *)
Record errors (s : st) : Prop := {
  e_fail : forall r, EvError r ∈ trace s -> r <> Continue -> healthy s = false /\ (cof s = false \/ exists r', kl s = FFail r');
  e_cof : cof s = false -> EvFail ∈ trace s /\ EvCall ∈ trace s;
  e_exit : EvError FatallyExit ∈ trace s -> kl s = FFail FatallyExit \/ kl s = FPanic \/ EvExit ∈ trace s;
  e_other : cof s = false -> kl s = FOver \/ kl s = FPanic \/ EvError Other ∈ trace s;
  e_dead : dead s = true <-> EvExit ∈ trace s;
  e_kl : forall r, kl s = FFail r -> r <> Continue /\ EvError r ∈ trace s
}.
Lemma errors_start : errors start.
Proof. split; cbn; try done; try (split; [done|]); intros; match goal with H : _ ∈ [] |- _ => by apply elem_of_nil in H end. Qed.
Definition silent e := match e with EvError _ | EvExit => false | _ => true end.
Lemma silent_in x l : forallb silent l = true -> silent x = false -> x ∉ l.
Proof. intros H N I. rewrite forallb_forall in H. apply elem_of_list_In, H in I. congruence. Qed.
Lemma errors_same s s' l : trace s' = trace s ++ l -> healthy s' = healthy s -> cof s' = cof s -> kl s' = kl s -> dead s' = dead s -> forallb silent l = true -> errors s -> errors s'.
Proof.
  intros T E1 E2 E3 E4 N [A B C D F G].
  assert (X : forall x, silent x = false -> x ∈ trace s ++ l <-> x ∈ trace s) by (intros x Hx; apply in_ext, silent_in; assumption).
  split; rewrite ?T, ?E1, ?E2, ?E3, ?E4.
  - intros r Hr. rewrite X in Hr by reflexivity. exact (A r Hr).
  - intros H. rewrite !elem_of_app. destruct (B H). auto.
  - rewrite (X (EvError FatallyExit) eq_refl), (X EvExit eq_refl). exact C.
  - intros H. rewrite (X (EvError Other) eq_refl). exact (D H).
  - rewrite (X EvExit eq_refl). exact F.
  - intros r Hr. rewrite elem_of_app. destruct (G r Hr). auto.
Qed.
Lemma silent_close l : forallb silent (map (fun x : nat * worker => EvRevoke x.1) l ++ [EvClosed]) = true.
Proof. rewrite forallb_app. cbn. rewrite andb_true_r. by induction l. Qed.
Lemma errors_step s a s' : errors s -> step s a = Some s' -> errors s'.
Proof.
  intros H E. cases E; closing.
  all: try (first [exact H | (apply (errors_same s _ []); [cbn; by rewrite app_nil_r|..|exact H]; reflexivity) | (eapply (errors_same s); [cbn; reflexivity|..|exact H]; reflexivity)
    | (eapply (errors_same s); [cbn; reflexivity|..|exact H]; try reflexivity; apply silent_close)]).
  1: destruct (stop1 s); (apply (errors_same s _ []); [cbn; by rewrite app_nil_r|..|exact H]; reflexivity).
  1,2: destruct (signal_eff s) as (_ & _ & _ & _ & _ & _ & Q7 & Q8 & Q9 & Q10 & _ & _ & [[_ T]|[_ T]]).
  1: apply (errors_same s _ []); cbn; rewrite ?T, ?app_nil_r; try assumption; reflexivity.
  1: eapply (errors_same s); [cbn; exact T|cbn; assumption..|reflexivity|exact H].
  1: eapply (errors_same s); [cbn; rewrite T; reflexivity|cbn; assumption..|reflexivity|exact H].
  1: eapply (errors_same s); [cbn; rewrite T, <- app_assoc; reflexivity|cbn; assumption..|reflexivity|exact H].
  - destruct H as [A B C D F G]. assert (Hc : cof s = false -> EvError Other ∈ trace s) by (intros X; destruct (D X) as [Y|[Y|Y]]; [congruence|congruence|exact Y]).
    destruct r; split; flat; rewrite ?in_snoc.
    all: try (intros r [= Hr]; subst; split; [done|apply in_snoc; auto]).
    all: try (intros r Hr; congruence).
    all: try (intros r Hr Nr; rewrite in_snoc in Hr; destruct Hr as [Hr|[= ->]]; try done; try (destruct (A r Hr Nr)); split; auto; eauto).
    all: try (intros X; destruct (B X); rewrite !in_snoc; auto).
    all: try (intros X; rewrite in_snoc; auto).
    all: try (rewrite F; split; [auto|intros [?|?]; [assumption|discriminate]]).
    all: try (intros [X|[= X]]; try destruct (C X) as [Y|[Y|Y]]; try congruence; auto).
    all: try congruence.
    all: try (intros X; destruct (B X); tauto).
    all: try (intros X; specialize (Hc X); tauto).
    all: tauto.
  - destruct H as [A B C D F G]. assert (I : forall x, x ∈ trace s ++ [EvFail; EvCall] <-> x ∈ trace s \/ x = EvFail \/ x = EvCall).
    { intros x. rewrite elem_of_app, !elem_of_cons, elem_of_nil. tauto. }
    destruct (G _ K) as [G1 G2]; destruct r0; [done|..]; split; flat; rewrite ?I.
    all: try (intros r Hr; congruence).
    all: try (intros r; rewrite I; intros [Hr|[Hr|Hr]] Nr; try discriminate; destruct (A r Hr Nr); auto).
    all: try (intros _; rewrite !I; auto).
    all: try (rewrite F; split; [tauto|intros [?|[?|?]]; [assumption|discriminate..]]).
    all: try (intros [Hr|[Hr|Hr]]; try discriminate; destruct (C Hr) as [Y|[Y|Y]]; try congruence; auto).
    all: try done.
    all: auto.
  - destruct H as [A B C D F G]. split; flat; rewrite ?in_snoc.
    + intros r Hr Nr. rewrite in_snoc in Hr. destruct Hr as [Hr|[=]]. destruct (A r Hr Nr) as [A1 [A2|[r' A2]]]; [auto|congruence].
    + intros X. destruct (B X). tauto.
    + auto.
    + intros X. auto.
    + tauto.
    + intros r Hr. congruence.
Qed.

(** * Bound on steps that happen by themselves *)
Definition wm (w : worker) : nat := (if w_full w then 1 else 0) + (if w_push w then 1 else 0).
Fixpoint wsum (l : list (nat * worker)) : nat := match l with [] => 0 | x :: l' => wm x.2 + wsum l' end.
Definition nm (x : now) : nat := match x with NHalt => 3 | NClose => 2 | NSend => 1 | NOver => 0 end.
Fixpoint nsum (l : list now) : nat := match l with [] => 0 | x :: l' => nm x + nsum l' end.
Definition sm (x : once) : nat := match x with SClose => 3 | SHalt => 2 | SSend => 1 | _ => 0 end.
Definition km (x : loop) : nat := match x with FFail _ => 5 | FPanic => 1 | _ => 0 end.
Definition measure (s : st) : nat := wsum (workers s) + (match mux s with Some _ => 2 | None => 0 end) + waiting s + nsum (nows s) + sm (stop1 s) + km (kl s).
Lemma wsum_put p w l v : find p l = Some v -> wsum (put p w l) + wm v = wsum l + wm w.
Proof.
  induction l as [|[q x] l IH]; cbn [find put]; [done|]. destruct (p =? q); cbn [wsum snd]; intros E; [injection E as <-; lia|]. specialize (IH E). lia.
Qed.
Lemma nsum_insert l i x y : l !! i = Some x -> nsum (<[i := y]> l) + nm x = nsum l + nm y.
Proof.
  revert i. induction l as [|z l IH]; intros [|i] E; try discriminate E.
  - injection E as ->. change (<[0 := y]> (x :: l)) with (y :: l). cbn [nsum]. lia.
  - specialize (IH i E). change (<[S i := y]> (z :: l)) with (z :: <[i := y]> l). cbn [nsum]. lia.
Qed.
Lemma nsum_snoc l x : nsum (l ++ [x]) = nsum l + nm x.
Proof. induction l as [|z l IH]; cbn [app nsum]; [lia|]. rewrite IH. lia. Qed.
Lemma measure_step s a s' : internal a = true -> step s a = Some s' -> measure s' < measure s.
Proof.
  intros I E. cases E; try discriminate I; closing; picks; unfold measure; signalling; flat.
  all: repeat match goal with
    | H : ?a = _ |- context [?a] => rewrite H
    end.
  all: repeat match goal with
    | F : find ?p (workers ?s) = Some ?v |- context [put ?p ?w (workers ?s)] => pose proof (wsum_put p w _ _ F); clear F
    | F : nows ?s !! ?i = Some ?x |- context [<[?i := ?y]> (nows ?s)] => pose proof (nsum_insert _ i x y F); clear F
    end; rewrite ?nsum_snoc; cbn in *; try lia.
Qed.
Lemma internal_bounded s l s' : forallb internal l = true -> run s l = Some s' -> length l + measure s' <= measure s.
Proof.
  revert s. induction l as [|a l IH]; cbn; intros s I R; [injection R as <-; lia|].
  apply andb_true_iff in I as [I1 I2]. destruct (step s a) as [s1|] eqn:E; [|discriminate]. pose proof (measure_step _ _ _ I1 E). specialize (IH _ I2 R). lia.
Qed.

(** * Where it ends *)
Definition quiet (s : st) : Prop := forall a, internal a = true -> step s a = None.
Definition cands (s : st) : list action :=
  flat_map (fun x => [WTake x.1; WExit x.1]) (workers s) ++ map NStep (seq 0 (length (nows s))) ++ [ISend; DRecv; SStep; KFail; KExit].
Lemma cands_all s a : internal a = true -> step s a <> None -> a ∈ cands s.
Proof.
  intros I N. destruct (step s a) as [s'|] eqn:E; [clear N|done]. unfold cands. rewrite !elem_of_app.
  cases E; try discriminate I.
  all: try (right; right; rewrite !elem_of_cons; tauto).
  all: try (right; left; apply elem_of_list_In, in_map, in_seq; apply lookup_lt_Some in N; lia).
  all: left; apply find_in in F; apply elem_of_list_In, in_flat_map; eexists (p, _); (split; [apply elem_of_list_In; exact F|cbn; tauto]).
Qed.
Lemma quiet_dec s : quiet s \/ exists a s', internal a = true /\ step s a = Some s'.
Proof.
  destruct (existsb (fun a => internal a && match step s a with Some _ => true | None => false end) (cands s)) eqn:E.
  - right. apply existsb_exists in E as (a & _ & E). apply andb_true_iff in E as [E1 E2]. destruct (step s a) as [s'|] eqn:E3; [|discriminate]. eauto.
  - left. intros a I. destruct (step s a) as [s'|] eqn:E3; [|done]. exfalso.
    assert (C : a ∈ cands s) by (apply cands_all; [exact I|congruence]).
    apply not_true_iff_false in E. apply E, existsb_exists. exists a. split; [by apply elem_of_list_In|]. by rewrite I, E3.
Qed.
Lemma quiet_reached s : exists l s', forallb internal l = true /\ run s l = Some s' /\ quiet s'.
Proof.
  remember (measure s) as n eqn:M. revert s M. induction (lt_wf n) as [n _ IH]. intros s M.
  destruct (quiet_dec s) as [Q|(a & s1 & I & E)]; [exists [], s; auto|].
  destruct (IH (measure s1)) with (s := s1) as (l & s' & L1 & L2 & L3); [rewrite M; eapply measure_step; eassumption|reflexivity|].
  exists (a :: l), s'. cbn. rewrite I, L1, E. auto.
Qed.

Record good (s : st) : Prop := { g_traced : traced s; g_held : held s; g_phases : phases s; g_owned : owned s; g_released : released s; g_counts : counts s; g_errors : errors s }.
Lemma good_run acts s : run start acts = Some s -> good s.
Proof.
  apply run_inv.
  - split; [apply traced_start|apply held_start|apply phases_start| | |apply counts_start|apply errors_start]; intros ? ? ?; try intros ?; destruct u; discriminate || (destruct u0; discriminate).
  - intros x a y [A B C D E F G] S. split; [eapply traced_step|eapply held_step|eapply phases_step|eapply owned_step|eapply released_step|eapply counts_step|eapply errors_step]; eassumption.
Qed.

Definition stuck (s : st) (p : nat) : Prop := mux s = Some p /\ find p (workers s) = Some (mkW true true false) /\ halted s = true /\ closed s = false.
Lemma quiet_shape s : good s -> dead s = false -> quiet s ->
  (exists p, stuck s p) \/ (mux s = None /\ (forall i x, nows s !! i = Some x -> x = NOver) /\ (stop1 s = SNone \/ stop1 s = SLeave \/ stop1 s = SOver)).
Proof.
  intros G D Q. unfold quiet, step in Q. rewrite D in Q. destruct (mux s) as [p|] eqn:M.
  - left. exists p. destruct (h_mux _ (g_held _ G) p M) as (f & b & F).
    pose proof (Q ISend eq_refl) as Q1. cbn in Q1. rewrite M, F in Q1. destruct f; [|discriminate].
    pose proof (Q (WTake p) eq_refl) as Q2. cbn in Q2. rewrite F in Q2. destruct b; [discriminate|].
    split; [exact M|]. split; [exact F|]. split; [eapply (h_gone _ (g_held _ G)), find_in, F|].
    destruct (closed s) eqn:C; [|done]. destruct (h_over _ (g_held _ G) C). congruence.
  - right. assert (X : exists s', close s = Some s') by (unfold close; rewrite M; destruct (closed s); eauto). destruct X as [s' X].
    split; [done|]. split.
    + intros i x N. pose proof (Q (NStep i) eq_refl) as Q1. cbn in Q1. rewrite N in Q1. destruct x; try done. by rewrite X in Q1.
    + pose proof (Q SStep eq_refl) as Q1. cbn in Q1. destruct (stop1 s); try done; auto. by rewrite X in Q1.
Qed.
Lemma quiet_returned s : good s -> dead s = false -> quiet s -> (forall p, ~ stuck s p) ->
  count isCall (trace s) = count isReturn (trace s) /\ (EvCall ∈ trace s -> EvHalt ∈ trace s /\ EvClosed ∈ trace s /\ EvSignal ∈ trace s).
Proof.
  intros G D Q N. destruct (quiet_shape s G D Q) as [[p S]|(_ & A & _)]; [by destruct (N p)|].
  destruct (g_counts _ G) as [C1 C2 _]. split; [rewrite C1, C2; symmetry; by apply all_over|].
  intros E. assert (L : 0 < length (nows s)).
  { rewrite <- C1. unfold count. apply elem_of_list_split in E as (u & v & ->). rewrite List.filter_app, app_length. cbn. lia. }
  destruct (lookup_lt_is_Some_2 _ _ L) as [x X]. pose proof (A _ _ X). subst x. pose proof (q_now _ (g_phases _ G) _ _ X) as S. cbn in S.
  destruct (q_signal _ (g_phases _ G) S) as [H1 H2]. destruct (g_traced _ G) as [T1 T2]. rewrite T1 in H1. rewrite T2 in H2. auto.
Qed.
Lemma quiet_failed s r : good s -> quiet s -> dead s = false -> EvError r ∈ trace s -> r <> Continue -> EvCall ∈ trace s /\ cof s = false.
Proof.
  intros G Q D E N. destruct (e_fail _ (g_errors _ G) r E N) as [_ [C|[r' K]]]; [split; [by apply (e_cof _ (g_errors _ G))|done]|].
  destruct (cof s) eqn:C; [|split; [by apply (e_cof _ (g_errors _ G))|done]].
  pose proof (Q KFail eq_refl) as Q1. unfold step in Q1. rewrite D in Q1. cbn in Q1. rewrite K, C in Q1. discriminate.
Qed.
Lemma quiet_exit s : good s -> quiet s -> EvError FatallyExit ∈ trace s -> EvError Other ∉ trace s -> EvExit ∈ trace s.
Proof.
  intros G Q E N. destruct (dead s) eqn:D; [by apply (e_dead _ (g_errors _ G))|].
  destruct (e_exit _ (g_errors _ G) E) as [K|[K|K]]; [| |exact K].
  - destruct (quiet_failed s FatallyExit G Q D E) as [_ C]; [done|]. destruct (e_other _ (g_errors _ G) C) as [X|[X|X]]; congruence || contradiction.
  - pose proof (Q KExit eq_refl) as Q1. unfold step in Q1. rewrite D in Q1. cbn in Q1. rewrite K in Q1. discriminate.
Qed.
Lemma no_interject acts s : run start acts = Some s -> (forall p, UInterject p ∉ acts) -> mux s = None.
Proof.
  assert (X : forall acts s s', mux s = None -> run s acts = Some s' -> (forall p, UInterject p ∉ acts) -> mux s' = None).
  { intros l. induction l as [|a l IH]; intros s0 s' M R N; cbn in R; [by injection R as <-|].
    destruct (step s0 a) as [y|] eqn:E; [|discriminate]. eapply IH; [|exact R|intros p; specialize (N p); rewrite elem_of_cons in N; tauto].
    clear R IH. assert (Ha : forall p, a <> UInterject p) by (intros p ->; apply (N p); left). clear N.
    cases E; closing; picks; signalling; flat; try done; try congruence; try (by destruct (Ha p)). }
  intros R N. eapply X; [|exact R|exact N]. reflexivity.
Qed.
(** waiting and released together are those who called Done *)
Definition isWait a := match a with UWait => true | _ => false end.
Lemma waits acts s : run start acts = Some s -> waiting s + count isReleased (trace s) = length (List.filter isWait acts).
Proof.
  assert (X : forall acts s s', run s acts = Some s' -> waiting s' + count isReleased (trace s') = waiting s + count isReleased (trace s) + length (List.filter isWait acts)).
  { intros l. induction l as [|a l IH]; intros s0 s' R; cbn in R; [injection R as <-; cbn; lia|].
    destruct (step s0 a) as [y|] eqn:E; [|discriminate]. rewrite (IH _ _ R). clear R IH.
    assert (Y : waiting y + count isReleased (trace y) = waiting s0 + count isReleased (trace s0) + (if isWait a then 1 else 0)).
    { cases E; closing; picks; signalling; flat; rewrite ?count_app; try rewrite (count_rev isReleased) by done; cbn; lia. }
    cbn [List.filter]. destruct (isWait a); cbn [length]; lia. }
  intros R. rewrite (X _ _ _ R). cbn. lia.
Qed.
Lemma quiet_waiters acts s : run start acts = Some s -> quiet s -> dead s = false -> EvSignal ∈ trace s -> UWait ∈ acts -> EvReleased ∈ trace s.
Proof.
  intros R Q D S W. pose proof (waits _ _ R) as X. pose proof (n_signal _ (g_counts _ (good_run _ _ R))) as C.
  assert (P : 0 < length (List.filter isWait acts)). { apply elem_of_list_split in W as (u & v & ->). rewrite List.filter_app, app_length. cbn. lia. }
  assert (P2 : 0 < count isSignal (trace s)). { unfold count. apply elem_of_list_split in S as (u & v & ->). rewrite List.filter_app, app_length. cbn. lia. }
  assert (P3 : 0 < count isReleased (trace s)).
  { destruct (waiting s) as [|n] eqn:Wt; [lia|]. destruct (full s) eqn:F; [|lia].
    pose proof (Q DRecv eq_refl) as Q1. unfold step in Q1. rewrite D in Q1. cbn in Q1. rewrite Wt, F in Q1. discriminate. }
  unfold count in P3. destruct (List.filter isReleased (trace s)) as [|e l] eqn:Fi; cbn in P3; [lia|].
  assert (In e (List.filter isReleased (trace s))) as I by (rewrite Fi; left; reflexivity). apply filter_In in I as [I1 I2]. destruct e; try discriminate. by apply elem_of_list_In.
Qed.

(** the trace and the calls and answers of [acts] *)
Definition isStopNow a := match a with UStopNow => true | _ => false end.
Definition isFail e := match e with EvFail => true | _ => false end.
Lemma called acts s : run start acts = Some s -> count isCall (trace s) = count isFail (trace s) + length (List.filter isStopNow acts).
Proof.
  assert (X : forall acts s s', run s acts = Some s' -> count isCall (trace s') + count isFail (trace s) = count isFail (trace s') + count isCall (trace s) + length (List.filter isStopNow acts)).
  { intros l. induction l as [|a l IH]; intros s0 s' R; cbn in R; [injection R as <-; cbn; lia|].
    destruct (step s0 a) as [y|] eqn:E; [|discriminate]. specialize (IH _ _ R). clear R.
    assert (Y : count isCall (trace y) + count isFail (trace s0) = count isFail (trace y) + count isCall (trace s0) + (if isStopNow a then 1 else 0)).
    { clear IH. cases E; closing; picks; signalling; flat; rewrite ?count_app; try rewrite (count_rev isCall) by done; try rewrite (count_rev isFail) by done; cbn; lia. }
    cbn [List.filter]. destruct (isStopNow a); cbn [length]; lia. }
  intros R. pose proof (X _ _ _ R) as Y. cbn in Y. lia.
Qed.
Lemma answered acts s ans : run start acts = Some s -> EvError ans ∈ trace s <-> KError ans ∈ acts.
Proof.
  assert (X : forall acts s s', run s acts = Some s' -> EvError ans ∈ trace s' <-> EvError ans ∈ trace s \/ KError ans ∈ acts).
  { intros l. induction l as [|a l IH]; intros s0 s' R; cbn in R; [injection R as <-; rewrite elem_of_nil; tauto|].
    destruct (step s0 a) as [y|] eqn:E; [|discriminate]. rewrite (IH _ _ R). clear R IH.
    assert (Y : EvError ans ∈ trace y <-> EvError ans ∈ trace s0 \/ a = KError ans).
    { cases E; closing; picks; signalling; flat; rewrite ?elem_of_app, ?elem_of_cons, ?elem_of_nil.
      all: try (assert (Z : EvError ans ∉ map (fun x : nat * worker => EvRevoke x.1) (workers s0)) by (apply not_rev; discriminate)).
      all: split; intros AA; intuition congruence. }
    rewrite Y, elem_of_cons. intuition congruence. }
  intros R. rewrite (X _ _ _ R). cbn. rewrite elem_of_nil. tauto.
Qed.
Lemma exited acts s : run start acts = Some s -> (dead s = true <-> EvExit ∈ trace s) /\ (EvExit ∈ trace s -> KError FatallyExit ∈ acts).
Proof.
  intros R. split; [exact (e_dead _ (g_errors _ (good_run _ _ R)))|]. rewrite <- (answered _ _ FatallyExit R). revert R.
  assert (X : forall acts s, run start acts = Some s -> (kl s = FPanic \/ EvExit ∈ trace s -> EvError FatallyExit ∈ trace s) /\ (forall r, kl s = FFail r -> EvError r ∈ trace s)).
  { intros l x. apply (run_inv (fun s => (kl s = FPanic \/ EvExit ∈ trace s -> EvError FatallyExit ∈ trace s) /\ (forall r, kl s = FFail r -> EvError r ∈ trace s))).
    - cbn. split; [intros [H|H]; [discriminate|by apply elem_of_nil in H]|discriminate].
    - clear. intros s a s' [H1 H2] E.
      assert (Z : forall e, (forall p, e <> EvRevoke p) -> e ∉ map (fun x : nat * worker => EvRevoke x.1) (workers s)) by (intros e; apply not_rev).
      pose proof (Z EvExit ltac:(discriminate)) as Z1.
      cases E; closing; picks; signalling; flat; rewrite ?K in *; (split; [intros AA|intros r1 Hr]).
      all: rewrite ?elem_of_app, ?elem_of_cons, ?elem_of_nil in *.
      all: try (injection Hr as ->); try (specialize (H2 _ eq_refl)); try (specialize (H2 _ Hr)); try intuition congruence.
  }
  intros R E. destruct (X _ _ R) as [Y _]. apply Y. auto.
Qed.
(** Stop has been called, and leaving the group gracefully, if that was asked for, has come to its end *)
Definition isStop a := match a with UStop _ => true | _ => false end.
Lemma stop_called acts s : run start acts = Some s -> (exists b, UStop b ∈ acts) -> UStop true ∉ acts \/ SGrace ∈ acts -> stop1 s <> SNone /\ stop1 s <> SLeave.
Proof.
  assert (X : forall acts s s', run s acts = Some s' -> (stop1 s' = SNone -> stop1 s = SNone /\ forall b, UStop b ∉ acts) /\
    (stop1 s' = SLeave -> (stop1 s = SLeave \/ stop1 s = SNone) /\ (stop1 s = SNone -> UStop true ∈ acts) /\ SGrace ∉ acts)).
  { intros l. induction l as [|a l IH]; intros s0 s' R; cbn in R; [injection R as <-; split; [intros ->; split; [done|intros b; rewrite elem_of_nil; tauto]|intros ->; rewrite !elem_of_nil; split; [auto|split; [discriminate|tauto]]]|].
    destruct (step s0 a) as [y|] eqn:E; [|discriminate]. destruct (IH _ _ R) as [I1 I2]. clear R IH.
    assert (Y1 : stop1 y = SNone -> stop1 s0 = SNone /\ forall b, a <> UStop b).
    { clear I1 I2. intros AA; revert AA. cases E; closing; picks; signalling; flat; intros AA; try congruence; try (split; [congruence|discriminate]). all: destruct inc; congruence. }
    assert (Y2 : stop1 y = SLeave -> a <> SGrace /\ (stop1 s0 = SLeave \/ (stop1 s0 = SNone /\ a = UStop true))).
    { clear I1 I2 Y1. intros AA; revert AA. cases E; closing; picks; signalling; flat; intros AA; try congruence; try (split; [discriminate|auto; fail]). all: destruct inc; try congruence; split; [discriminate|auto]. }
    assert (Y3 : stop1 y = SNone -> a <> SGrace) by (intros H ->; destruct (Y1 H) as [Z _]; apply step_alive in E as [_ E]; cbn in E; rewrite Z in E; discriminate).
    split.
    - intros H. destruct (I1 H) as [H1 H2]. destruct (Y1 H1) as [H3 H4]. split; [exact H3|]. intros b. rewrite elem_of_cons. intros [Z|Z]; [by apply (H4 b)|by apply (H2 b)].
    - intros H. destruct (I2 H) as ([H1|H1] & H2 & H3).
      + destruct (Y2 H1) as [H4 [H5|[H5 H6]]]; (split; [auto|]); rewrite !elem_of_cons; split; try (intros; congruence); try (intros [|]; congruence || contradiction). intros _. left. congruence.
      + destruct (Y1 H1) as [H4 _]. split; [auto|]. rewrite !elem_of_cons. split; [intros _; right; auto|]. intros [Z|Z]; [by apply (Y3 H1)|contradiction]. }
  intros R [b B] C. destruct (X _ _ _ R) as [I1 I2]. split; intros H.
  - destruct (I1 H) as [_ N]. exact (N b B).
  - destruct (I2 H) as (_ & N1 & N2). specialize (N1 eq_refl). tauto.
Qed.
Lemma quiet_stopped acts s : run start acts = Some s -> quiet s -> dead s = false -> (forall p, UInterject p ∉ acts) ->
  (exists b, UStop b ∈ acts) -> UStop true ∉ acts \/ SGrace ∈ acts -> EvHalt ∈ trace s /\ EvClosed ∈ trace s /\ EvSignal ∈ trace s.
Proof.
  intros R Q D N B C. destruct (stop_called _ _ R B C) as [S1 S2]. pose proof (good_run _ _ R) as G. pose proof (no_interject _ _ R N) as M.
  destruct (quiet_shape s G D Q) as [[p (M' & _)]|(_ & _ & [S|[S|S]])]; try congruence.
  pose proof (q_once _ (g_phases _ G)) as P. rewrite S in P. destruct (q_signal _ (g_phases _ G) P) as [H1 H2]. destruct (g_traced _ G) as [T1 T2]. rewrite T1 in H1. rewrite T2 in H2. auto.
Qed.

(** * Refutations *)
Lemma stuck_step s a s' k : stuck s k -> step s a = Some s' -> stuck s' k.
Proof.
  intros (M & F & H & C) E. unfold stuck. cases E; try congruence; closing; picks; signalling; flat; repeat split; try assumption; try congruence; try reflexivity.
  all: match goal with F0 : find ?q _ = Some _ |- find _ (put ?q _ _) = _ => rewrite (find_put _ _ _ _ _ F0); destruct (k =? q) eqn:Eq; [apply Nat.eqb_eq in Eq; subst; congruence|assumption] end.
Qed.
Lemma stuck_run s l s' p : stuck s p -> run s l = Some s' -> stuck s' p.
Proof. intros H. apply (run_inv (fun x => stuck x p)); [exact H|]. intros x a y Hx. by apply stuck_step. Qed.
Lemma count_zero (f : ev -> bool) (x : ev) t : f x = true -> count f t = 0 -> x ∉ t.
Proof. intros Fx C I. apply elem_of_list_split in I as (u & v & ->). rewrite count_app in C. unfold count in C at 2. cbn in C. rewrite Fx in C. cbn in C. lia. Qed.
Lemma stuck_good s p : good s -> stuck s p -> EvClosed ∉ trace s /\ EvReturn ∉ trace s /\ EvSignal ∉ trace s /\ forall q, mux s = Some q -> q = p.
Proof.
  intros G (M & F & H & C). destruct (g_traced _ G) as [T1 T2].
  assert (S : EvSignal ∉ trace s) by (intros X; destruct (q_signal _ (g_phases _ G) X); congruence).
  split; [rewrite <- T2; congruence|]. split.
  - apply (count_zero isReturn); [done|]. rewrite (n_return _ (g_counts _ G)).
    assert (N : forall i x, nows s !! i = Some x -> x <> NOver) by (intros i x X ->; exact (S (q_now _ (g_phases _ G) _ _ X))).
    revert N. generalize (nows s). intros l. induction l as [|y l IH]; [done|]. intros N. cbn [over].
    assert (Hy : y <> NOver) by (apply (N 0); done). destruct y; try done; apply IH; intros i; apply (N (Datatypes.S i)).
  - split; [exact S|]. intros q. congruence.
Qed.
Lemma second_waiter s l s' : nows s = [] /\ stop1 s = SOver /\ kl s = FRun /\ full s = false -> run s l = Some s' -> UStopNow ∉ l -> (forall r, KError r ∉ l) ->
  count isReleased (trace s') = count isReleased (trace s).
Proof.
  revert s. induction l as [|a l IH]; intros s (N & S & K & F) R U V; cbn in R; [by injection R as <-|].
  destruct (step s a) as [y|] eqn:E; [|discriminate].
  assert (Ua : a <> UStopNow) by (intros ->; apply U; left). assert (Va : forall r, a <> KError r) by (intros r ->; apply (V r); left).
  assert (X : (nows y = [] /\ stop1 y = SOver /\ kl y = FRun /\ full y = false) /\ count isReleased (trace y) = count isReleased (trace s)).
  { clear R IH U V. cases E; try congruence; closing; try (by destruct (Va r)); try (exfalso; rewrite N in *; discriminate); picks; flat; rewrite ?count_app; cbn; rewrite ?Nat.add_0_r; auto; congruence. }
  destruct X as [X1 X2]. rewrite <- X2. apply (IH y); [exact X1|exact R|rewrite elem_of_cons in U; tauto|intros r; specialize (V r); rewrite elem_of_cons in V; tauto].
Qed.
Lemma never_exits s l s' : kl s = FFail FatallyExit /\ cof s = false /\ EvExit ∉ trace s -> run s l = Some s' -> EvExit ∉ trace s'.
Proof.
  intros H R. assert (X : kl s' = FFail FatallyExit /\ cof s' = false /\ EvExit ∉ trace s'); [|tauto].
  revert R. apply (run_inv (fun x => kl x = FFail FatallyExit /\ cof x = false /\ EvExit ∉ trace x)); [exact H|].
  clear. intros s a s' (K & C & T) E. cases E; try congruence; closing; picks; signalling; flat; rewrite ?elem_of_app, ?elem_of_cons, ?elem_of_nil; auto.
  all: repeat split; auto; intros X; repeat match goal with Y : _ \/ _ |- _ => destruct Y end; try discriminate; try contradiction; try (eapply not_rev; [|eassumption]; done).
Qed.
