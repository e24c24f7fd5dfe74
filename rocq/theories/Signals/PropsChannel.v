(** Property C118: WaitForChannel. *)
From stdpp Require Import prelude list.
From Coq Require Import Lia.
From Verif.Signals Require Import Channel ChannelProofs.
Open Scope nat_scope.

(** the calls that the user makes: the source, and whether there is a callback *)
Definition asked (acts : list action) : list (nat * bool) := omap (fun a => match a with Call j b => Some (j, b) | _ => None end) acts.
(** what a call does *)
Definition doing (i j : nat) (b : bool) : list ev := [EvCall i j; EvStop i] ++ (if b then [EvCallback i] else []) ++ [EvReturn i].

Lemma asked_calls acts s : run init acts = Some s -> map (fun c => (src c, cb c)) (calls s) = asked acts.
Proof.
  apply (run_inv (fun l s => map (fun c => (src c, cb c)) (calls s) = asked l)); [reflexivity|]. clear. intros l s a s' _ IH E. unfold asked in *. rewrite omap_app.
  assert (G : forall i c x, calls s !! i = Some c -> map (fun c => (src c, cb c)) (go i c x s) = map (fun c => (src c, cb c)) (calls s)).
  { intros i c x C. unfold go. assert (Z : map (fun c => (src c, cb c)) (<[i := mkCall (src c) (cb c) x]> (calls s)) = <[i := (src c, cb c)]> (map (fun c => (src c, cb c)) (calls s))) by exact (list_fmap_insert (fun c => (src c, cb c)) (calls s) i (mkCall (src c) (cb c) x)). rewrite Z. apply list_insert_id.
    change (((fun c => (src c, cb c)) <$> calls s) !! i = Some (src c, cb c)). rewrite list_lookup_fmap, C. reflexivity. }
  destruct a as [j b| | |i|j|j|j]; cbn [step] in E; [injection E as <-; cbn [calls]; rewrite map_app, IH; reflexivity| | | | | |]; cbn; rewrite app_nil_r, <- IH; clear IH.
  1,2: destruct (closed s); [discriminate|]; injection E as <-; reflexivity.
  - destruct (calls s !! i) as [c|] eqn:C; [|discriminate]. destruct (at_ c); try discriminate.
    + destruct (values s); [destruct (closed s); [|discriminate]|]; injection E as <-; apply G, C.
    + destruct (has (src c) (once s)); injection E as <-; apply G, C.
    + destruct (has (src c) (full s)); [|discriminate]. injection E as <-; apply G, C.
    + injection E as <-; apply G, C.
    + injection E as <-; apply G, C.
  - destruct (has j (leaving s)); [|discriminate]; injection E as <-; reflexivity.
  - injection E as <-; reflexivity.
  - destruct (has j (full s)); [|discriminate]; injection E as <-; reflexivity.
Qed.
Lemma asked_call acts s i j b : run init acts = Some s -> asked acts !! i = Some (j, b) <-> exists c, calls s !! i = Some c /\ src c = j /\ cb c = b.
Proof.
  intros R. rewrite <- (asked_calls acts s R). change (((fun c => (src c, cb c)) <$> calls s) !! i = Some (j, b) <-> exists c, calls s !! i = Some c /\ src c = j /\ cb c = b).
  rewrite list_lookup_fmap. destruct (calls s !! i) as [c|]; cbn; split; [intros [= <- <-]; eauto|intros (d & [= <-] & <- & <-); reflexivity|discriminate|intros (d & D & _); discriminate].
Qed.

(** each call does its steps in order, each at most once, and calls the callback it was given *)
Theorem c118_steps : forall acts s i, run init acts = Some s ->
  match asked acts !! i with
  | Some (j, b) => List.filter (ofCall i) (trace s) `prefix_of` doing i j b
  | None => List.filter (ofCall i) (trace s) = []
  end.
Proof.
  intros acts s i R. pose proof (events_run _ _ R i) as Ev. destruct (asked acts !! i) as [[j b]|] eqn:Q.
  - apply (asked_call acts s i j b R) in Q as (c & C & <- & <-). rewrite C in Ev. rewrite Ev. unfold script, doing, called. destruct (at_ c), (cb c); cbn; eexists; cbn; reflexivity.
  - destruct (calls s !! i) as [c|] eqn:C; [|exact Ev]. assert (Z : asked acts !! i = Some (src c, cb c)) by (apply (asked_call acts s i _ _ R); eauto). congruence.
Qed.
Print Assumptions c118_steps.
(** Stop comes after the close of the channel or after a value of its own; the callback and the return after Stop and after the end of the source *)
Theorem c118_order : forall acts s pre x post, run init acts = Some s -> trace s = pre ++ x :: post ->
  match x with
  | EvStop i => EvClose ∈ pre \/ cnt isStop pre < cnt isSend pre
  | EvCallback i | EvReturn i => EvStop i ∈ pre /\ exists j b, asked acts !! i = Some (j, b) /\ EvEnded j ∈ pre
  | _ => True
  end.
Proof.
  intros acts s pre x post R E. pose proof (ordered_run _ _ R _ _ _ E) as O. pose proof (events_run _ _ R) as Ev.
  assert (Z : forall i, (EvStop i ∈ pre /\ exists j, EvCall i j ∈ pre /\ EvEnded j ∈ pre) -> EvStop i ∈ pre /\ exists j b, asked acts !! i = Some (j, b) /\ EvEnded j ∈ pre).
  { intros i (S & j & C & En). split; [exact S|]. assert (C' : EvCall i j ∈ trace s) by (rewrite E; apply elem_of_app; auto). apply call_in in C' as (c & C' & <-); [|exact Ev].
    exists (src c), (cb c). split; [apply (asked_call acts s i _ _ R); eauto|exact En]. }
  destruct x; cbn in O; auto. apply O.
Qed.
Print Assumptions c118_order.
(** each value lets a call go on to Stop, as long as there are calls that wait *)
Theorem c118_each_value : forall acts s, run init acts = Some s -> settled s -> Close ∉ acts ->
  cnt isStop (trace s) = cnt isSend (trace s) \/ forall i j b, asked acts !! i = Some (j, b) -> EvStop i ∈ trace s.
Proof.
  intros acts s R [SS _] N. pose proof (events_run _ _ R) as Ev. pose proof (sums_run _ _ R) as (_ & Su & _).
  assert (K : closed s = false) by (destruct (closed s) eqn:K; [destruct (N (acts_closed _ _ R K))|reflexivity]). specialize (Su K).
  assert (A0 : count atStop (calls s) = 0).
  { destruct (count atStop (calls s)) eqn:E; [reflexivity|]. destruct (count_pos atStop (calls s)) as (i & c & C & P); [lia|]. specialize (SS i). cbn [step] in SS. rewrite C in SS. unfold atStop in P. destruct (at_ c); try discriminate P. destruct (has _ _); discriminate SS. }
  destruct (values s) as [|n] eqn:V; [left; lia|right]. intros i j b A. apply (asked_call acts s i j b R) in A as (c & C & _). apply stop_in; [exact Ev|]. exists c. split; [exact C|].
  specialize (SS i). cbn [step] in SS. rewrite C, V in SS. unfold called. destruct (at_ c); try reflexivity; [discriminate|destruct (has _ _); discriminate].
Qed.
Print Assumptions c118_each_value.
Example c118_values : exists s, run init [Call 3 true; Call 4 true; Send; Step 1; Step 1; Finish 4; Step 1; Step 1; Step 1] = Some s /\ settled s /\ trace s = [EvCall 0 3; EvCall 1 4; EvSend; EvStop 1; EvEnded 4; EvCallback 1; EvReturn 1].
Proof. eexists. split; [vm_compute; reflexivity|]. split; [split; [intros [|[|i]]; reflexivity|intros j; reflexivity]|reflexivity]. Qed.
(** Refuted: with two calls for one source one of them waits forever, after the channel was closed and the source has ended *)
Theorem c118_returns_refuted : exists acts s i j b, run init acts = Some s /\ settled s /\ Close ∈ acts /\ asked acts !! i = Some (j, b) /\ EvEnded j ∈ trace s /\ (forall k, Other k ∉ acts) /\ EvReturn i ∉ trace s.
Proof.
  set (acts := [Call 5 true; Call 5 true; Close; Step 0; Step 1; Step 0; Step 1; Finish 5; Step 0; Step 0; Step 0]).
  destruct (run init acts) as [s|] eqn:R; [|vm_compute in R; discriminate]. exists acts, s, 1, 5, true. vm_compute in R. injection R as <-.
  split_and!; [reflexivity|split; [intros [|[|i]]; reflexivity|intros j; reflexivity]| |reflexivity| | |]; try (unfold acts; intros; set_solver).
Qed.
Print Assumptions c118_returns_refuted.
(** in general: without StopNow only one of the calls for a source returns, whatever happens *)
Theorem c118_returns_once_refuted : forall acts s i i' j b b', run init acts = Some s -> StopNow j ∉ acts ->
  asked acts !! i = Some (j, b) -> asked acts !! i' = Some (j, b') -> i <> i' -> ~ (EvReturn i ∈ trace s /\ EvReturn i' ∈ trace s).
Proof.
  intros acts s i i' j b b' R N A A' D [Rt Rt']. apply D. pose proof (events_run _ _ R) as Ev. eapply only_one; eauto; apply call_in; auto.
  - apply (asked_call acts s i j b R) in A as (c & C & S & _). eauto.
  - apply (asked_call acts s i' j b' R) in A' as (c & C & S & _). eauto.
Qed.
Print Assumptions c118_returns_once_refuted.
(** What holds: a call that is the only one for its source has returned, its callback called, when the channel was closed and neither the calls nor the sources can go on.
    Missing: several calls for one source, and other receivers of Done. *)
Theorem c118_returns_partial : forall acts s i j b, run init acts = Some s -> settled s -> Close ∈ acts -> asked acts !! i = Some (j, b) ->
  (forall i' b', asked acts !! i' = Some (j, b') -> i' = i) -> Other j ∉ acts -> List.filter (ofCall i) (trace s) = doing i j b.
Proof.
  intros acts s i j b R S Cl A U O. pose proof (events_run _ _ R) as Ev. pose proof (proj1 (asked_call acts s i j b R) A) as (c & C & <- & <-).
  assert (Rt : EvReturn i ∈ trace s).
  { eapply (returns acts s i (src c)); eauto; [apply call_in; eauto|]. intros i' C'. apply call_in in C' as (d & D & E); [|exact Ev]. apply (U i' (cb d)). apply (asked_call acts s i' _ _ R). eauto. }
  apply return_in in Rt as (d & D & P); [|exact Ev]. rewrite C in D. injection D as <-. rewrite (Ev i), C. unfold script, doing, called. rewrite P. destruct (cb c); reflexivity.
Qed.
Print Assumptions c118_returns_partial.

(** two sources, as in the documentation, and a third call that gets a value before the close *)
Definition acts0 : list action := [Call 3 true; Call 4 true; Call 9 false; Send; Step 2; Step 2; Close; Step 0; Step 1; Step 0; Finish 9; Step 1; Step 2; Finish 4; Finish 3; Step 0; Step 1; Step 1; Step 2; Step 2; Step 0; Step 1; Step 0].
Example c118_example : exists s, run init acts0 = Some s /\ settled s /\ Close ∈ acts0 /\ asked acts0 !! 1 = Some (4, true) /\ (forall i' b', asked acts0 !! i' = Some (4, b') -> i' = 1) /\ Other 4 ∉ acts0 /\
  trace s = [EvCall 0 3; EvCall 1 4; EvCall 2 9; EvSend; EvStop 2; EvClose; EvStop 0; EvEnded 9; EvStop 1; EvEnded 4; EvEnded 3; EvCallback 1; EvReturn 2; EvCallback 0; EvReturn 1; EvReturn 0].
Proof.
  destruct (run init acts0) as [s|] eqn:R; [|vm_compute in R; discriminate]. exists s. vm_compute in R. injection R as <-.
  split_and!; try reflexivity.
  - split; [intros [|[|[|i]]]; reflexivity|intros j; reflexivity].
  - unfold acts0. set_solver.
  - intros [|[|[|i']]] b' E; cbn in E; [congruence|reflexivity|congruence|destruct i'; discriminate E].
  - unfold acts0. set_solver.
Qed.
