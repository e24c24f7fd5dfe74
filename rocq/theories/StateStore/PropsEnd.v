(** C93, C94: populators end; nothing reaches a store after it has been revoked. *)
From stdpp Require Import prelude list.
From Verif.StateStore Require Import Model Inv Step Step2 Step3 Proofs Live Again Later Orphan PropsRound.
Open Scope nat_scope.

(** C93: from any reachable settled state, after one more bootstrap whose buffer has been closed (the worker's marker was read, or the preparation
    was forgotten): the consume goroutine and the populators have only finitely many steps left, and when they have none left, all populators have
    ended. Missing: a second bootstrap before that, see the refutation; and the range over a buffer that is nil by the time the goroutine starts,
    which is not modelled. *)
Theorem c93_ends_partial :
  forall l n acts0 s0 acts s,
  (forall m, Mark m ∈ l -> m < n) -> NoDup (marks l) -> run (start l n) acts0 = Some s0 -> settled s0 -> run s0 acts = Some s ->
  preps s = S (preps s0) -> buf s = None ->
  exists N, forall acts' s', Forall internal acts' -> run s acts' = Some s' ->
  length acts' <= N /\ ((forall a s'', internal a -> step s' a <> Some s'') -> forall j P, pops s' !! j = Some P -> p_live P = false).
Proof.
  intros l n acts0 s0 acts s A B R0 T0 R Pr Bn. destruct (reached l n acts0 s0 ltac:(intros m' H; apply A, elem_of_marks, H) B R0) as (Q1 & Q2 & Q3 & Q4).
  exact (later_ends s0 acts s Q1 Q2 Q3 T0 R Pr Bn).
Qed.
Print Assumptions c93_ends_partial.
(** the forgotten preparation leaves its populator with a batch in hand and a closed channel: it ends after three more steps *)
Example c93_example :
  option_map (fun s => (preps s, buf s, pops s)) (run (start [Data 5; Data 6] 0) ([APrepare] ++ feed 1 0 ++ [AForget])) = Some (1, None, [mkPop 1 0 [Data 5] true []]) /\
  option_map (fun s => pops s) (run (start [Data 5; Data 6] 0) ([APrepare] ++ feed 1 0 ++ [AForget; PHandle 0; PTake 0])) = Some [mkPop 1 0 [] false [Data 5]].
Proof. vm_compute. auto. Qed.

(** C93 is false in general: a revoke does not end the bootstrap (source_consumer.go:225-242), and the next assignment makes a new buffer without closing
    the old one: the populator of the first assignment waits for ever, whatever happens afterwards *)
Theorem c93_refuted :
  exists acts s, run (start [Data 5] 0) acts = Some s /\ List.filter lifecycle acts = [AAssign; ARevoke; AAssign] /\
  pops s !! 0 = Some (mkPop 1 0 [] true []) /\
  forall acts' s', run s acts' = Some s' -> pops s' !! 0 = Some (mkPop 1 0 [] true []).
Proof.
  exists [AAssign; ARegister 0; ARevoke; AAssign]. eexists. split; [vm_compute; reflexivity|]. split; [reflexivity|]. split; [reflexivity|].
  intros acts' s' H. apply (orphan_run acts' _ s' 0 1 0 []) in H; [apply H|]. split; cbn; try reflexivity; discriminate.
Qed.
Print Assumptions c93_refuted.

(** C94: from any reachable settled state with one assignment: if the worker had been released before the revoke (with the markers in the right
    order, as for C50), nothing is applied to any store from the revoke on. Missing: a revoke before that, see the refutation. *)
Theorem c94_synced_partial :
  forall l n acts0 s0 a b s1 s m x i g w,
  (forall m, Mark m ∈ l -> m < n) -> NoDup (marks l) -> run (start l n) acts0 = Some s0 -> settled s0 ->
  run s0 a = Some s1 -> run s1 (ARevoke :: b) = Some s -> oneRound (a ++ ARevoke :: b) ->
  length (syncs s0) <= i -> syncs s !! i = Some (mkSync KWork x g) -> mark_of g = Some m -> EvRelease m ∈ trace s1 ->
  (forall i' x' g', length (syncs s0) <= i' -> syncs s !! i' = Some (mkSync KPrep x' g') -> exists mp a b c, mark_of g' = Some mp /\ log s = a ++ Mark mp :: b ++ Mark m :: c) ->
  trace s = trace s1 ++ w -> forall y, applied y w = [].
Proof.
  intros l n acts0 s0 a b s1 s m x i g w A B R0 T0 R1 R2 O L Y G M K E y. apply elem_of_list_split in M as (u & v1 & Eu).
  assert (R : run s0 (a ++ ARevoke :: b) = Some s).
  { clear - R1 R2. revert s0 R1. induction a as [|e a IH]; intros s0 R1; cbn [run app] in *; [injection R1 as ->; exact R2|]. destruct (step s0 e) as [s2|]; [exact (IH s2 R1)|discriminate]. }
  pose proof (c50_round_partial l n acts0 s0 (a ++ ARevoke :: b) s m x u (v1 ++ w) i g A B R0 T0 R O L Y G) as C. rewrite E, Eu, <- app_assoc in C. specialize (C eq_refl K y).
  rewrite applied_app in C. apply app_eq_nil in C as [_ C]. exact C.
Qed.
Print Assumptions c94_synced_partial.
Example c94_example :
  option_map (fun s => (trace s, store s)) (run (start [Data 5; Data 6] 0) [AAssign; ARegister 0; ASend 0; CPoll 3; CCheck; CEval; CPut; PTake 0; PHandle 0; PHandle 0; PHandle 0; AReturn 0]) =
  Some ([EvApply 0 (Data 5); EvApply 0 (Data 6); EvRelease 0], Some 0) /\
  option_map (fun s => (trace s, store s)) (run (start [Data 5; Data 6] 0) (first ++ second)) =
  Some ([EvApply 0 (Data 5); EvApply 0 (Data 6); EvRelease 0; EvApply 1 (Data 5); EvApply 1 (Data 6); EvApply 1 (Data 7); EvRelease 1; EvRelease 2], Some 1).
Proof. vm_compute. auto. Qed.

(** C94 is false in general: a partition revoked while it is being bootstrapped goes on filling the revoked store *)
Theorem c94_refuted :
  exists a b s1 s, run (start [Data 5; Data 6] 0) (a ++ [ARevoke]) = Some s1 /\ store s1 = None /\ run s1 b = Some s /\ List.filter lifecycle (a ++ [ARevoke] ++ b) = [AAssign; ARevoke] /\
  trace s1 = [EvApply 0 (Data 5)] /\ trace s = [EvApply 0 (Data 5); EvApply 0 (Data 6)].
Proof.
  exists ([AAssign; ARegister 0; ASend 0] ++ feed 2 0 ++ [PHandle 0]), [PHandle 0]. eexists. eexists.
  split; [vm_compute; reflexivity|]. split; [reflexivity|]. split; [vm_compute; reflexivity|]. repeat split; reflexivity.
Qed.
Print Assumptions c94_refuted.
