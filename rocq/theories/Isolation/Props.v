(** Properties C97 and C98. *)
From stdpp Require Import prelude list.
From Coq Require Import Lia.
From Verif.Isolation Require Import Model Proofs.
Open Scope nat_scope.

(** C97, for a partition that is assigned when no earlier worker of it is still waiting for its state: until its worker has got through (Resume), the
    poll loop never stands still because of it, provided that at most three polls return records of it before the worker has paused it *)
Theorem c97_others_go_on_partial cap l1 s0 p s1 l2 l3 s : run cap init l1 = Some s0 ->
  (forall v x, ws s0 !! v = Some x -> part x = p -> stg x = Running) ->
  step cap s0 (Assign p) = Some s1 -> run cap s1 (l2 ++ Pause (length (ws s0)) :: l3) = Some s ->
  Revoke p ∉ l2 ++ l3 -> Resume (length (ws s0)) ∉ l3 -> polls p l2 <= 3 -> ~ blockedAt s (length (ws s0)).
Proof. exact (not_blocked_while_waiting cap l1 s0 p s1 l2 l3 s). Qed.
Print Assumptions c97_others_go_on_partial.

(** C97, whatever other workers do: the new worker stands in the way only after four polls have returned records of its partition *)
Theorem c97_four_polls_partial cap l1 s0 p s1 l2 s : run cap init l1 = Some s0 -> step cap s0 (Assign p) = Some s1 -> run cap s1 l2 = Some s ->
  Revoke p ∉ l2 -> polls p l2 <= 3 -> ~ blockedAt s (length (ws s0)).
Proof. exact (few_polls cap l1 s0 p s1 l2 s). Qed.
Print Assumptions c97_four_polls_partial.

(** C97 is false if the goroutine of the new worker does not get to pause the partition in time *)
Definition batch (p : nat) : list action := [Poll [(p, 1)]; Receive; Add].
Theorem c97_late_pause_refuted : exists acts s, run 100 init acts = Some s /\
  (exists x, ws s !! 1 = Some x /\ part x = 1 /\ stg x = Waiting) /\ blockedAt s 1 /\ rest s = [(0, 1)] /\
  forall more s', Resume 1 ∉ more -> run 100 s more = Some s' -> forall l, Poll l ∉ more.
Proof.
  set (acts := [Assign 0; Pause 0; Resume 0; Assign 1] ++ batch 1 ++ batch 1 ++ batch 1 ++ batch 1 ++ [Poll [(1, 1); (0, 1)]; Receive; Pause 1]).
  destruct (run 100 init acts) as [s|] eqn:R; [|vm_compute in R; discriminate].
  assert (B : blockedAt s 1). { vm_compute in R. injection R as <-. eexists _, _. repeat split. cbn. unfold inputCap. lia. }
  assert (W : exists x, ws s !! 1 = Some x /\ part x = 1 /\ stg x = Waiting). { vm_compute in R. injection R as <-. eexists. repeat split. }
  exists acts, s. split; [reflexivity || exact R|]. split; [exact W|]. split; [exact B|]. split; [vm_compute in R; injection R as <-; reflexivity|].
  clear R acts. intros more. revert s B W. induction more as [|a more IH]; intros s B (x & X & Xp & Xs) s' N H l Hl; [inversion Hl|].
  cbn [run] in H. destruct (step 100 s a) as [s1|] eqn:E; [|discriminate]. apply not_elem_of_cons in N as [N N'].
  assert (Nt : a <> Take 1). { intros ->. cbn in E. rewrite X in E. destruct (q x); [discriminate|]. destruct (cur x); [|discriminate]. case_decide; [congruence|discriminate]. }
  destruct (stuck_step _ _ _ _ _ B Nt E) as (B' & _ & _ & _ & _ & Np). apply elem_of_cons in Hl as [Hl|Hl]; [exact (Np l (eq_sym Hl))|].
  refine (IH s1 B' _ s' N' H l Hl). exact (stage_stays 100 s a s1 1 x E X Xp Xs (fun Z => N (eq_sym Z))).
Qed.
Print Assumptions c97_late_pause_refuted.

(** C97 is false even if every worker pauses its partition at once: the worker of an earlier assignment resumes it *)
Definition immediate (acts : list action) : Prop := forall i p, acts !! i = Some (Assign p) -> exists w, acts !! S i = Some (Pause w).
Theorem c97_earlier_worker_refuted : exists acts s, run 100 init acts = Some s /\ immediate acts /\
  (exists x, ws s !! 1 = Some x /\ part x = 0 /\ stg x = Waiting /\ revoked x = false) /\ blockedAt s 1.
Proof.
  set (acts := [Assign 0; Pause 0; Revoke 0; Assign 0; Pause 1; Resume 0] ++ batch 0 ++ batch 0 ++ batch 0 ++ batch 0 ++ [Poll [(0, 1)]; Receive]).
  destruct (run 100 init acts) as [s|] eqn:R; [|vm_compute in R; discriminate].
  exists acts, s. split; [exact R|]. split; [|split].
  - intros i p H. unfold acts in *. do 20 (destruct i as [|i]; [cbn in H; first [discriminate H|cbn; eexists; reflexivity]|]). cbn in H. discriminate.
  - vm_compute in R. injection R as <-. eexists. repeat split.
  - vm_compute in R. injection R as <-. eexists _, _. repeat split. cbn. unfold inputCap. lia.
Qed.
Print Assumptions c97_earlier_worker_refuted.

(** C98: the poll loop stands still only while a worker has four batches that it has not begun with *)
Theorem c98_waits_only_for_a_full_worker_partial cap acts s : run cap init acts = Some s ->
  (forall w x, ws s !! w = Some x -> length (q x) <= 4) /\
  (forall w n, adding s = Some (w, n) -> (exists s', step cap s Add = Some s') \/ exists x, ws s !! w = Some x /\ length (q x) = 4).
Proof.
  intros R. pose proof (inv_run _ _ _ _ init_inv R) as [L A Re C]. split; [exact C|]. intros w n E. destruct (A _ _ E) as (x & X). cbn. rewrite E, X.
  case_decide as D; [left; eexists; reflexivity|right]. exists x. split; [reflexivity|]. specialize (C _ _ X). unfold inputCap in *. lia.
Qed.
Print Assumptions c98_waits_only_for_a_full_worker_partial.

(** C98: as long as handlers return and no worker that still waits for its state is full, every poll is dealt with, in whatever order the
    goroutines run: only finitely many of their steps are possible, and when none is left the loop is ready for the next poll and all is handled *)
Theorem c98_goes_on_if_handlers_return_partial cap acts s : 1 <= cap -> run cap init acts = Some s ->
  (forall more s', Forall inner more -> run cap s more = Some s' -> length more <= left s) /\
  ((forall a, inner a -> step cap s a = None) -> (forall w x, ws s !! w = Some x -> stg x = Running \/ length (q x) < 4) ->
   rest s = [] /\ adding s = None /\ forall w x, ws s !! w = Some x -> stg x = Running -> q x = [] /\ cur x = 0 /\ ev x = 0 /\ busy x = false).
Proof.
  intros Hc R. split; [intros more s' F H; pose proof (left_run _ _ _ _ F H); lia|].
  exact (inner_done cap s Hc (inv_run _ _ _ _ init_inv R)).
Qed.
Print Assumptions c98_goes_on_if_handlers_return_partial.
(** and then the handler of a partition has been given every record of it that a poll returned since the partition was assigned (or that the loop
    still had from the poll before) *)
Theorem c98_everything_is_handled_partial cap l1 s0 p s1 l2 s : 1 <= cap -> run cap init l1 = Some s0 -> step cap s0 (Assign p) = Some s1 -> run cap s1 l2 = Some s -> Revoke p ∉ l2 ->
  (forall a, inner a -> step cap s a = None) -> (forall w x, ws s !! w = Some x -> stg x = Running \/ length (q x) < 4) ->
  exists x, ws s !! length (ws s0) = Some x /\ part x = p /\ (stg x = Running -> handled x = lens p (rest s0) + fetched p l2).
Proof.
  intros Hc R1 S R2 N D W. assert (R : run cap init (l1 ++ Assign p :: l2) = Some s) by (rewrite run_app, R1; cbn [run]; rewrite S; exact R2).
  destruct (inner_done cap s Hc (inv_run _ _ _ _ init_inv R) D W) as (E1 & E2 & E3). destruct (nothing_lost cap l1 s0 p s1 l2 s R1 S R2 N) as (x & X & P & T).
  exists x. split; [exact X|]. split; [exact P|]. intros G. destruct (E3 _ _ X G) as (Q1 & Q2 & Q3 & _). unfold total, hand, has in T. rewrite X, E1, E2, Q1, Q2, Q3 in T. cbn in T. lia.
Qed.
Print Assumptions c98_everything_is_handled_partial.
Example c98_handled_example :
  match run 1 init [Poll [(0, 2)]; Assign 0; Pause 0; Receive; Add; Resume 0; Take 0; Push 0; Handle 0; Push 0; Return 0; Poll [(0, 1); (1, 3)]; Receive; Add; Receive; Handle 0; Return 0; Take 0; Push 0; Handle 0; Return 0] with
  | Some s => match ws s with [x] => handled x = 3 /\ stg x = Running | _ => False end /\ lens 0 [(0, 2)] + fetched 0 [Poll [(0, 1); (1, 3)]] = 3 /\
              step 1 s Receive = None /\ step 1 s Add = None /\ step 1 s (Take 0) = None /\ step 1 s (Push 0) = None /\ step 1 s (Handle 0) = None /\ step 1 s (Return 0) = None
  | None => False end.
Proof. vm_compute. repeat split. Qed.

(** a partition can be assigned exactly if it is not assigned already, and revoked exactly if it is; so the claims above also speak of
    partitions that come back *)
Theorem c98_can_be_assigned_again cap acts s p : run cap init acts = Some s ->
  ((exists s', step cap s (Assign p) = Some s') <-> holds p false acts = false) /\ ((exists s', step cap s (Revoke p) = Some s') <-> holds p false acts = true).
Proof.
  intros R. pose proof (holds_run cap p acts init s R) as H. change (isSome (find p (live init))) with false in H. rewrite <- H.
  pose proof (i_live s (inv_run _ _ _ _ init_inv R) p) as L. cbn [step]. destruct (find p (live s)) as [w|] eqn:F; cbn [isSome].
  - destruct (L w eq_refl) as (x & X & _). rewrite X. split; split; intros; try reflexivity; try discriminate; [destruct H0; discriminate|eexists; reflexivity].
  - split; split; intros; try reflexivity; try discriminate; [eexists; reflexivity|destruct H0; discriminate].
Qed.
Print Assumptions c98_can_be_assigned_again.
Example c98_again_example : holds 0 false [Assign 0; Assign 1; Revoke 0; Revoke 1; Assign 0; Revoke 0] = false /\
  is_Some (run 100 init [Assign 0; Assign 1; Revoke 0; Revoke 1; Assign 0; Revoke 0; Assign 0]).
Proof. split; [reflexivity|vm_compute; eexists; reflexivity]. Qed.

(** C98 is false: for every capacity of eventInput, one handler that does not return keeps all records from the handlers of another partition,
    for ever, even if its own partition is revoked, and also if the other partition is assigned anew *)
Lemma pushes cap n : forall e c pt h qq l lv pa re ad, e + n <= cap ->
  run cap (mkSt (mkW pt Running false qq (n + c) e true h :: l) lv pa re ad) (replicate n (Push 0)) = Some (mkSt (mkW pt Running false qq c (n + e) true h :: l) lv pa re ad).
Proof.
  induction n as [|n IH]; intros e c pt h qq l lv pa re ad H; [reflexivity|]. cbn [replicate run].
  replace (step cap _ (Push 0)) with (Some (mkSt (mkW pt Running false qq (n + c) (S e) true h :: l) lv pa re ad)).
  - rewrite IH by lia. do 4 f_equal. lia.
  - cbn -[decide]. rewrite decide_True by lia. reflexivity.
Qed.
Definition jamming (cap : nat) : list action :=
  [Assign 0; Assign 1; Pause 0; Pause 1; Resume 0; Resume 1; Poll [(0, S (S cap))]; Receive; Add; Take 0; Push 0; Handle 0] ++
  replicate cap (Push 0) ++ batch 0 ++ batch 0 ++ batch 0 ++ batch 0 ++ [Poll [(0, 1); (1, 1)]; Receive].
Definition jam (cap : nat) : st :=
  mkSt [mkW 0 Running false [1; 1; 1; 1] 1 (cap + 0) true 1; mkW 1 Running false [] 0 0 false 0] [(1, 1); (0, 0)] [] [(1, 1)] (Some (0, 1)).
Lemma jamming_run cap : 1 <= cap -> run cap init (jamming cap) = Some (jam cap).
Proof.
  intros H. unfold jamming. rewrite run_app. destruct cap as [|cap]; [lia|].
  replace (run (S cap) init _) with (Some (mkSt [mkW 0 Running false [] (S cap + 1) 0 true 1; mkW 1 Running false [] 0 0 false 0] [(1, 1); (0, 0)] [] [] None)).
  - rewrite run_app, (pushes (S cap) (S cap) 0 1) by lia. vm_compute. reflexivity.
  - replace (S cap + 1) with (S (S cap)) by lia. cbn -[decide]. repeat (rewrite decide_True by first [lia|split; [repeat constructor; set_solver|repeat constructor; set_solver]|reflexivity]; cbn -[decide]). reflexivity.
Qed.
Theorem c98_refuted cap : 1 <= cap -> exists acts s, run cap init acts = Some s /\
  (exists x, ws s !! 1 = Some x /\ part x = 1 /\ stg x = Running /\ busy x = false) /\ rest s = [(1, 1)] /\
  (exists x, ws s !! 0 = Some x /\ part x = 0 /\ busy x = true) /\
  forall more s', Return 0 ∉ more -> run cap s more = Some s' -> forall v x, ws s' !! v = Some x -> part x = 1 -> handled x = 0.
Proof.
  intros H. exists (jamming cap), (jam cap). split; [exact (jamming_run cap H)|]. split; [eexists; repeat split|]. split; [reflexivity|]. split; [eexists; repeat split|].
  intros more s' N R v x V P.
  assert (J : jammed cap (jam cap) 0). { split; [eexists _, _; repeat split; cbn; unfold inputCap; lia|eexists; repeat split; cbn; lia]. }
  destruct (jammed_run cap 0 more _ s' J N R) as (_ & _ & W). destruct (W _ _ V) as [(_ & E)|(y & Y & Yp & Yw)]; [unfold work in E; lia|].
  destruct v as [|[|v]]; cbn in Y; [injection Y as <-; cbn in Yp; lia| |discriminate]. injection Y as <-. unfold work in Yw. cbn in Yw. lia.
Qed.
Print Assumptions c98_refuted.

(** Two partitions, the second assigned while the first is at work; a slow worker makes the loop wait, its handler returns and the loop goes on *)
Example c97_example :
  let l1 := [Assign 0; Pause 0; Resume 0] in let l2 := batch 1 ++ batch 0 in let l3 := batch 0 ++ batch 0 in
  match run 100 init l1 with Some s0 => match step 100 s0 (Assign 1) with Some s1 => match run 100 s1 (l2 ++ Pause 1 :: l3) with Some s =>
    forallb (fun x => bool_decide (part x = 1 -> stg x = Running)) (ws s0) = true /\ length (ws s0) = 1 /\ polls 1 l2 = 1 /\ (length ∘ q <$> ws s) = [3; 1] /\ (stg <$> ws s) = [Running; Waiting]
  | None => False end | None => False end | None => False end.
Proof. vm_compute. repeat split. Qed.
Example c98_example :
  let l := [Assign 0; Assign 1; Pause 0; Pause 1; Resume 0; Resume 1; Poll [(0, 4)]; Receive; Add; Take 0; Push 0; Handle 0; Push 0; Push 0] ++ batch 0 ++ batch 0 ++ batch 0 ++ batch 0 ++
           [Poll [(0, 1); (1, 1)]; Receive] in
  match run 2 init l with Some s => step 2 s Add = None /\ left s = 35 /\
    match run 2 s [Return 0; Handle 0; Push 0; Take 0; Add; Receive; Add; Take 1; Push 1; Handle 1] with Some s' => (handled <$> ws s') = [2; 1] /\ rest s' = [] | None => False end
  | None => False end.
Proof. vm_compute. repeat split. Qed.
