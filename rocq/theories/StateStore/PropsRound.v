(** C49, C50, C76, C77: every bootstrap of a partition that finds nothing left over from earlier ones. *)
From stdpp Require Import prelude list.
From Verif.StateStore Require Import Model Inv Step Step2 Step3 Proofs Live Again Later.
Open Scope nat_scope.

(** C49: from any reachable settled state (the first one is settled), when the partition is assigned once, perhaps after a preparation: when the
    waiter of a sync call of this time is released, the store of the caller has received exactly the changes before the marker, from the start of
    the log, in the order of the log, each once. Missing: a preparation that is forgotten, see c49_refuted. *)
Theorem c49_round_partial :
  forall l n acts0 s0 acts s m x u v i k g,
  (forall m, Mark m ∈ l -> m < n) -> NoDup (marks l) -> run (start l n) acts0 = Some s0 -> settled s0 -> run s0 acts = Some s -> oneRound acts ->
  length (syncs s0) <= i -> syncs s !! i = Some (mkSync k x g) -> mark_of g = Some m -> trace s = u ++ EvRelease m :: v ->
  exists pre post, log s = pre ++ Mark m :: post /\ applied x u = changes pre.
Proof.
  intros l n acts0 s0 acts s m x u v i k g A B R0 T0 R O. destruct (reached l n acts0 s0 ltac:(intros m' H; apply A, elem_of_marks, H) B R0) as (Q1 & Q2 & Q3 & Q4).
  destruct (round_bounds s0 acts s T0 O R). eapply later_prefix; eassumption.
Qed.
Print Assumptions c49_round_partial.

(** C50: likewise; if the marker of the preparation, in case there was one, comes before the marker of the activation in the log, then after the
    worker is released nothing is applied to any store. Missing: the other order, see c50_refuted. *)
Theorem c50_round_partial :
  forall l n acts0 s0 acts s m x u v i g,
  (forall m, Mark m ∈ l -> m < n) -> NoDup (marks l) -> run (start l n) acts0 = Some s0 -> settled s0 -> run s0 acts = Some s -> oneRound acts ->
  length (syncs s0) <= i -> syncs s !! i = Some (mkSync KWork x g) -> mark_of g = Some m -> trace s = u ++ EvRelease m :: v ->
  (forall i' x' g', length (syncs s0) <= i' -> syncs s !! i' = Some (mkSync KPrep x' g') -> exists mp a b c, mark_of g' = Some mp /\ log s = a ++ Mark mp :: b ++ Mark m :: c) ->
  forall y, applied y v = [].
Proof.
  intros l n acts0 s0 acts s m x u v i g A B R0 T0 R O. destruct (reached l n acts0 s0 ltac:(intros m' H; apply A, elem_of_marks, H) B R0) as (Q1 & Q2 & Q3 & Q4).
  destruct (round_bounds s0 acts s T0 O R). eapply later_no_more; eassumption.
Qed.
Print Assumptions c50_round_partial.

(** C76: likewise; while the bootstrap goes on the consume goroutine neither has panicked nor waits on the nil channel. Missing: after its end, see
    c76_refuted. *)
Theorem c76_round_partial :
  forall l n acts0 s0 acts s,
  (forall m, Mark m ∈ l -> m < n) -> NoDup (marks l) -> run (start l n) acts0 = Some s0 -> settled s0 -> run s0 acts = Some s -> oneRound acts -> state s <> Paused ->
  con s <> CPanic /\ forall b, con s <> CSend b None.
Proof.
  intros l n acts0 s0 acts s A B R0 T0 R O Sp. destruct (reached l n acts0 s0 ltac:(intros m' H; apply A, elem_of_marks, H) B R0) as (Q1 & Q2 & Q3 & Q4).
  destruct (round_bounds s0 acts s T0 O R) as [P _]. assert (G : ~ gone (con s)) by (intros G; apply Sp, (later_gone s0 acts s); assumption).
  split; [intros E|intros b E]; apply G; rewrite E; exact Logic.I.
Qed.
Print Assumptions c76_round_partial.

(** C77: likewise; once the marker of a worker's sync call is in the log, the consume goroutine and the populator have only finitely many steps left,
    and when they have no step left, the waiter has been released. Missing: the marker is not written, see c77_refuted. *)
Theorem c77_round_partial :
  forall l n acts0 s0 acts s i x g m,
  (forall m, Mark m ∈ l -> m < n) -> NoDup (marks l) -> run (start l n) acts0 = Some s0 -> settled s0 -> run s0 acts = Some s -> oneRound acts ->
  length (syncs s0) <= i -> syncs s !! i = Some (mkSync KWork x g) -> mark_of g = Some m -> Mark m ∈ log s ->
  exists N, forall acts' s', Forall internal acts' -> run s acts' = Some s' ->
  length acts' <= N /\ ((forall a s'', internal a -> step s' a <> Some s'') -> EvRelease m ∈ trace s').
Proof.
  intros l n acts0 s0 acts s i x g m A B R0 T0 R O. destruct (reached l n acts0 s0 ltac:(intros m' H; apply A, elem_of_marks, H) B R0) as (Q1 & Q2 & Q3 & Q4).
  destruct (round_bounds s0 acts s T0 O R). eapply later_returns; eassumption.
Qed.
Print Assumptions c77_round_partial.

(** assigned, bootstrapped and revoked; then prepared and assigned again. The second time the log is read from its start into a new store. *)
Definition feed (n j : nat) : list action := [CPoll n; CCheck; CEval; CPut; PTake j].
Definition first : list action := [AAssign; ARegister 0; ASend 0] ++ feed 3 0 ++ [PHandle 0; PHandle 0; PHandle 0; AReturn 0; AWrite 7; ARevoke].
Definition second : list action :=
  [APrepare; ARegister 1; ASend 1] ++ feed 5 1 ++ [PHandle 1; PHandle 1; PHandle 1; PHandle 1; PHandle 1; AReturn 1; AAssign; ARegister 2; ASend 2] ++ feed 1 1 ++ [PHandle 1; AReturn 2].
Example round_start l n : settled (start l n).
Proof. apply settled_start. Qed.
Example round_settled : exists s0, run (start [Data 5; Data 6] 0) first = Some s0 /\ settled s0 /\ length (syncs s0) = 1 /\ pos s0 = 3.
Proof.
  eexists. split; [vm_compute; reflexivity|]. split; [|split; reflexivity]. split; try reflexivity.
  - intros [|j] P H; [injection H as <-; reflexivity|discriminate].
  - intros [|i] y H; [injection H as <-; exists 0; reflexivity|discriminate].
Qed.
Example round_one : oneRound second /\ oneRound first.
Proof. split; [left; exists [ARevoke]|right; exists []]; reflexivity. Qed.
Example round_example :
  option_map (fun s => (log s, trace s, syncs s)) (run (start [Data 5; Data 6] 0) (first ++ second)) =
  Some ([Data 5; Data 6; Mark 0; Data 7; Mark 1; Mark 2],
        [EvApply 0 (Data 5); EvApply 0 (Data 6); EvRelease 0; EvApply 1 (Data 5); EvApply 1 (Data 6); EvApply 1 (Data 7); EvRelease 1; EvRelease 2],
        [mkSync KWork 0 (SDone 0); mkSync KPrep 1 (SDone 1); mkSync KWork 1 (SDone 2)]).
Proof. vm_compute. reflexivity. Qed.
