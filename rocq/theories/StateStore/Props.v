(** C49-C51, C76, C77: state stores. Executions: any interleaving of the writers of the change log, the group callbacks, the sync calls, the
    consume goroutine with any batch sizes, and the populators. *)
From stdpp Require Import prelude list.
From Verif.StateStore Require Import Model Inv Step Step2 Step3 Proofs Live.
From Verif.StateStore Require Partitioned PartitionedProofs.
Open Scope nat_scope.

(** C49, first part, all executions: what a store receives are changes in the log, never markers; a waiter is released only by its own marker,
    which is in the log *)
Theorem c49_no_markers :
  forall l n acts s, run (start l n) acts = Some s ->
  (forall x r, EvApply x r ∈ trace s -> r ∈ log s /\ exists n, r = Data n) /\ (forall m, EvRelease m ∈ trace s -> Mark m ∈ log s).
Proof. exact only_log. Qed.
Print Assumptions c49_no_markers.

(** C49, second part, with one bootstrap of the partition and one store: when the waiter of a sync call is released, the store of the caller
    has received exactly the changes before the marker, in the order of the log, each once. Missing: a second bootstrap, see the refutation. *)
Theorem c49_prefix_partial :
  forall l n acts s m x u v i k g,
  (forall m, Mark m ∈ l -> m < n) -> NoDup (marks l) -> run (start l n) acts = Some s -> preps s <= 1 -> stores s <= 1 ->
  syncs s !! i = Some (mkSync k x g) -> mark_of g = Some m -> trace s = u ++ EvRelease m :: v ->
  exists pre post, log s = pre ++ Mark m :: post /\ applied x u = changes pre.
Proof. intros l n acts s m x u v i k g A B. apply prefix_applied; [apply inv_start; [intros m' H; apply A, elem_of_marks, H|exact B]|apply made_start]. Qed.
Print Assumptions c49_prefix_partial.

(** a log with another consumer's marker; prepared, the marker read back in a batch of its own, assigned; changes written while the bootstrap goes on *)
Definition feed (n : nat) : list action := [CPoll n; CCheck; CEval; CPut; PTake 0].
Definition log0 : list record := [Data 5; Mark 3; Data 6].
Definition ex : list action :=
  [APrepare; ARegister 0] ++ feed 2 ++ [ASend 0; AWrite 7; PHandle 0; PHandle 0] ++ feed 2 ++ [PHandle 0; PHandle 0; AReturn 0; AAssign; ARegister 1; AForeign; ASend 1; AWrite 8]
  ++ feed 4 ++ [PHandle 0; PHandle 0; PHandle 0; AReturn 1].
Example c49_example :
  option_map (fun s => (log s, trace s, syncs s, preps s, stores s, pops s)) (run (start log0 4) ex) =
  Some ([Data 5; Mark 3; Data 6; Mark 4; Data 7; Mark 6; Mark 5; Data 8],
        [EvApply 0 (Data 5); EvApply 0 (Data 6); EvRelease 4; EvApply 0 (Data 7); EvRelease 5],
        [mkSync KPrep 0 (SDone 4); mkSync KWork 0 (SDone 5)], 1, 1,
        [mkPop 1 0 [Data 8] false [Data 5; Mark 3; Data 6; Mark 4; Data 7; Mark 6; Mark 5]]).
Proof. vm_compute. reflexivity. Qed.

(** C49 is false in general: ForgetPreparedTopicPartition does not revoke the store, so when the partition is prepared again the log is applied
    a second time to the same store *)
Definition again : list action :=
  [APrepare; ARegister 0; ASend 0; CPoll 2; CCheck; CEval; CPut; PTake 0; PHandle 0; PHandle 0; AReturn 0; AForget;
   APrepare; ARegister 1; ASend 1; CPoll 3; CCheck; CEval; CPut; PTake 1; PHandle 1; PHandle 1; PHandle 1; AReturn 1].
Theorem c49_refuted :
  exists acts s u v, run (start [Data 5] 0) acts = Some s /\ syncs s !! 1 = Some (mkSync KPrep 0 (SDone 1)) /\ stores s = 1 /\
  log s = [Data 5; Mark 0; Mark 1] /\ trace s = u ++ EvRelease 1 :: v /\ applied 0 u = [Data 5; Data 5].
Proof.
  exists again. destruct (run (start [Data 5] 0) again) as [s|] eqn:R; [|vm_compute in R; discriminate].
  assert (E : option_map (fun s => (syncs s !! 1, stores s, log s, trace s)) (run (start [Data 5] 0) again) =
    Some (Some (mkSync KPrep 0 (SDone 1)), 1, [Data 5; Mark 0; Mark 1], [EvApply 0 (Data 5); EvRelease 0; EvApply 0 (Data 5)] ++ EvRelease 1 :: [])) by (vm_compute; reflexivity).
  rewrite R in E. injection E as E1 E2 E3 E4. exists s, [EvApply 0 (Data 5); EvRelease 0; EvApply 0 (Data 5)], []. split; [reflexivity|]. split; [exact E1|]. split; [exact E2|]. split; [exact E3|]. split; [exact E4|]. reflexivity.
Qed.
Print Assumptions c49_refuted.

(** C50, with one bootstrap: if the marker of the preparation, in case there was one, comes before the marker of the activation in the log, then after
    the worker is released nothing is applied to any store. Missing: the other order, see the refutations. *)
Theorem c50_marker_order_partial :
  forall l n acts s m x u v i g,
  (forall m, Mark m ∈ l -> m < n) -> NoDup (marks l) -> run (start l n) acts = Some s -> preps s <= 1 ->
  syncs s !! i = Some (mkSync KWork x g) -> mark_of g = Some m -> trace s = u ++ EvRelease m :: v ->
  (forall i' x' g', syncs s !! i' = Some (mkSync KPrep x' g') -> exists mp a b c, mark_of g' = Some mp /\ log s = a ++ Mark mp :: b ++ Mark m :: c) ->
  forall y, applied y v = [].
Proof. intros l n acts s m x u v i g A B. apply no_more, inv_start; [intros m' H; apply A, elem_of_marks, H|exact B]. Qed.
Print Assumptions c50_marker_order_partial.
(** [ex] meets the hypotheses: Mark 4 is before Mark 5, and Data 8 is not applied *)
Example c50_example : option_map (fun s => log s) (run (start log0 4) ex) = Some (log0 ++ Mark 4 :: [Data 7; Mark 6] ++ Mark 5 :: [Data 8]).
Proof. vm_compute. reflexivity. Qed.

(** C50 is false in general: both goroutines in sync may write their markers in either order. Here the activation's marker is first, and the
    worker's own change 9 is applied to its store by the populator. *)
Definition race : list action :=
  [APrepare; AAssign; ARegister 0; ARegister 1; ASend 1; CPoll 1; CCheck; CEval; CPut; PTake 0; PHandle 0; AReturn 1; AWrite 9; ASend 0;
   CPoll 2; CCheck; CEval; CPut; PTake 0; PHandle 0].
Theorem c50_refuted :
  exists acts s u v, run (start [] 0) acts = Some s /\ preps s = 1 /\ syncs s !! 1 = Some (mkSync KWork 0 (SDone 1)) /\
  trace s = u ++ EvRelease 1 :: v /\ applied 0 v = [Data 9].
Proof.
  exists race. destruct (run (start [] 0) race) as [s|] eqn:R; [|vm_compute in R; discriminate].
  assert (E : option_map (fun s => (preps s, syncs s !! 1, trace s)) (run (start [] 0) race) = Some (1, Some (mkSync KWork 0 (SDone 1)), [] ++ EvRelease 1 :: [EvApply 0 (Data 9)])) by (vm_compute; reflexivity).
  rewrite R in E. injection E as E1 E2 E3. exists s, [], [EvApply 0 (Data 9)]. split; [reflexivity|]. split; [exact E1|]. split; [exact E2|]. split; [exact E3|]. reflexivity.
Qed.
Print Assumptions c50_refuted.

(** also if the preparation's marker could not be written: the error is dropped and the populator never stops *)
Definition dropped : list action :=
  [APrepare; ARegister 0; AFail 0; AAssign; ARegister 1; ASend 1; CPoll 1; CCheck; CEval; CPut; PTake 0; PHandle 0; AReturn 1; AWrite 9; CPoll 1; CCheck; CEval; CPut; PTake 0; PHandle 0].
Theorem c50_lost_marker_refuted :
  exists acts s u v, run (start [] 0) acts = Some s /\ preps s = 1 /\ syncs s !! 1 = Some (mkSync KWork 0 (SDone 1)) /\
  trace s = u ++ EvRelease 1 :: v /\ applied 0 v = [Data 9].
Proof.
  exists dropped. destruct (run (start [] 0) dropped) as [s|] eqn:R; [|vm_compute in R; discriminate].
  assert (E : option_map (fun s => (preps s, syncs s !! 1, trace s)) (run (start [] 0) dropped) = Some (1, Some (mkSync KWork 0 (SDone 1)), [] ++ EvRelease 1 :: [EvApply 0 (Data 9)])) by (vm_compute; reflexivity).
  rewrite R in E. injection E as E1 E2 E3. exists s, [], [EvApply 0 (Data 9)]. split; [reflexivity|]. split; [exact E1|]. split; [exact E2|]. split; [exact E3|]. reflexivity.
Qed.
Print Assumptions c50_lost_marker_refuted.

(** C51: two assign calls of a partition without a revoke of it in between return the same store (that of one factory call) *)
Theorem c51_same_store :
  forall a mid rest p rs s x y, Partitioned.run Partitioned.start (a ++ Partitioned.OAssign p :: mid ++ Partitioned.OAssign p :: rest) = (rs, s) ->
  Partitioned.ORevoke p ∉ mid -> rs !! length a = Some (Some x) -> rs !! (length a + S (length mid)) = Some (Some y) -> x = y.
Proof. exact PartitionedProofs.same_store. Qed.
Print Assumptions c51_same_store.
(** C51: with a revoke in between, another one; the first has been revoked *)
Theorem c51_new_store :
  forall a mid rest p rs s x y, Partitioned.run Partitioned.start (a ++ Partitioned.OAssign p :: mid ++ Partitioned.OAssign p :: rest) = (rs, s) ->
  Partitioned.ORevoke p ∈ mid -> rs !! length a = Some (Some x) -> rs !! (length a + S (length mid)) = Some (Some y) -> x <> y /\ x ∈ Partitioned.revoked s.
Proof. exact PartitionedProofs.other_store. Qed.
Print Assumptions c51_new_store.
(** C51: no store is revoked twice; a store that has been made is in use or has been revoked *)
Theorem c51_revoked_once :
  forall os rs s, Partitioned.run Partitioned.start os = (rs, s) ->
  NoDup (Partitioned.revoked s) /\ forall p x, Partitioned.created s !! x = Some p -> Partitioned.data s !! p = Some x \/ x ∈ Partitioned.revoked s.
Proof. exact PartitionedProofs.revoked_once. Qed.
Print Assumptions c51_revoked_once.
(** C51: two partitions never have one store; *)
Theorem c51_own_store :
  forall os rs s i j p q x, Partitioned.run Partitioned.start os = (rs, s) -> os !! i = Some (Partitioned.OAssign p) -> os !! j = Some (Partitioned.OAssign q) ->
  rs !! i = Some (Some x) -> rs !! j = Some (Some x) -> p = q.
Proof. exact PartitionedProofs.own_store. Qed.
Print Assumptions c51_own_store.
(** C51: the factory is called for a partition only by an assignment of it, which returns the new store; and every store that is returned is such a one *)
Theorem c51_made_by_assign :
  forall os rs s x p, Partitioned.run Partitioned.start os = (rs, s) -> Partitioned.created s !! x = Some p <-> exists i, os !! i = Some (Partitioned.OAssign p) /\ rs !! i = Some (Some x).
Proof. exact PartitionedProofs.made_by_assign. Qed.
Print Assumptions c51_made_by_assign.
Example c51_example :
  let '(rs, s) := Partitioned.run Partitioned.start [Partitioned.OAssign 3; Partitioned.OAssign 4; Partitioned.OAssign 3; Partitioned.ORevoke 3; Partitioned.ORevoke 3; Partitioned.OAssign 3] in
  rs = [Some 0; Some 1; Some 0; None; None; Some 2] /\ Partitioned.revoked s = [0] /\ Partitioned.created s = [3; 4; 3].
Proof. vm_compute. auto. Qed.

(** C76, with one bootstrap: while the bootstrap goes on (state prepping or ready) the consume goroutine neither has panicked nor waits on
    the nil channel. Missing: after its end, see the refutation. *)
Theorem c76_during_partial :
  forall l n acts s, (forall m, Mark m ∈ l -> m < n) -> NoDup (marks l) -> run (start l n) acts = Some s -> preps s <= 1 -> state s <> Paused ->
  con s <> CPanic /\ forall b, con s <> CSend b None.
Proof.
  intros l n acts s A B R P S. assert (G : ~ gone (con s)) by (intros G; apply S, (gone_ended (start l n) acts s); try assumption; apply inv_start; [intros m H; apply A, elem_of_marks, H|exact B]).
  split; [intros E|intros b E]; apply G; rewrite E; exact I.
Qed.
Print Assumptions c76_during_partial.
Example c76_example : option_map (fun s => (state s, con s)) (run (start log0 4) [AAssign; CPoll 2; CCheck; CEval]) = Some (Ready, CSend [Data 5; Mark 3] (Some 1)).
Proof. vm_compute. reflexivity. Qed.

(** C76 is false: a batch fetched before the bootstrap ended and added afterwards is sent on the closed channel, or on nil; then no other
    partition is served any more *)
Definition late (mid : list action) : list action := [AAssign; ARegister 0; ASend 0; AWrite 9] ++ feed 1 ++ [CPoll 1; CCheck] ++ mid.
Theorem c76_refuted :
  (exists acts s, run (start [] 0) acts = Some s /\ preps s = 1 /\ con s = CPanic) /\
  (exists acts s b, run (start [] 0) acts = Some s /\ preps s = 1 /\ con s = CSend b None) /\
  forall s s' acts, (con s = CPanic \/ exists b, con s = CSend b None) -> run s acts = Some s' -> con s' = con s.
Proof.
  split; [|split].
  - exists (late [CEval; PHandle 0; CPut]). destruct (run (start [] 0) (late [CEval; PHandle 0; CPut])) as [s|] eqn:R; [|vm_compute in R; discriminate].
    assert (E : option_map (fun s => (preps s, con s)) (run (start [] 0) (late [CEval; PHandle 0; CPut])) = Some (1, CPanic)) by (vm_compute; reflexivity).
    rewrite R in E. injection E as E1 E2. eauto.
  - exists (late [PHandle 0; CEval]). destruct (run (start [] 0) (late [PHandle 0; CEval])) as [s|] eqn:R; [|vm_compute in R; discriminate].
    assert (E : option_map (fun s => (preps s, con s)) (run (start [] 0) (late [PHandle 0; CEval])) = Some (1, CSend [Data 9] None)) by (vm_compute; reflexivity).
    rewrite R in E. injection E as E1 E2. eauto.
  - intros s s' acts [E|[b E]]; apply gone_forever; rewrite E; exact I.
Qed.
Print Assumptions c76_refuted.

(** C77, with one bootstrap: once the marker of a worker's sync call is in the log, the consume goroutine and the populator have only finitely many
    steps left, and when they have no step left, the waiter has been released. Missing: the marker is not written, see the refutation. *)
Theorem c77_written_partial :
  forall l n acts s i x g m,
  (forall m, Mark m ∈ l -> m < n) -> NoDup (marks l) -> run (start l n) acts = Some s -> preps s <= 1 ->
  syncs s !! i = Some (mkSync KWork x g) -> mark_of g = Some m -> Mark m ∈ log s ->
  exists N, forall acts' s', Forall internal acts' -> run s acts' = Some s' ->
  length acts' <= N /\ ((forall a s'', internal a -> step s' a <> Some s'') -> EvRelease m ∈ trace s').
Proof.
  intros l n acts s i x g m A B. apply returns; [apply (inv_start l n); [intros m' H; apply A, elem_of_marks, H|exact B]|].
  split; try reflexivity. eexists. reflexivity.
Qed.
Print Assumptions c77_written_partial.
Example c77_written_example : option_map (fun s => (syncs s, log s)) (run (start log0 4) [AAssign; ARegister 0; ASend 0]) = Some ([mkSync KWork 0 (SSent 4)], log0 ++ [Mark 4]).
Proof. vm_compute. reflexivity. Qed.

(** C77 is false: whenever writing the marker of a sync call fails, that call never returns, whatever happens afterwards *)
Theorem c77_refuted :
  forall l n acts acts' s s' i k x m, (forall m, Mark m ∈ l -> m < n) -> NoDup (marks l) -> run (start l n) acts = Some s ->
  syncs s !! i = Some (mkSync k x (SReg m)) -> run s (AFail i :: acts') = Some s' ->
  syncs s' !! i = Some (mkSync k x (SSent m)) /\ EvRelease m ∉ trace s'.
Proof. intros l n acts acts' s s' i k x m A. apply stuck. intros m' H. apply A, elem_of_marks, H. Qed.
Print Assumptions c77_refuted.
Example c77_example : option_map (fun s => syncs s) (run (start log0 4) [AAssign; ARegister 0]) = Some [mkSync KWork 0 (SReg 4)] /\
  option_map (fun s => syncs s) (run (start log0 4) ([AAssign; ARegister 0; AFail 0] ++ feed 3 ++ [PHandle 0; PHandle 0; PHandle 0])) = Some [mkSync KWork 0 (SSent 4)].
Proof. vm_compute. auto. Qed.
