(** Properties C105, C106, C107 and C108: the partition callbacks of the application. *)
From stdpp Require Import prelude list.
From Coq Require Import Lia.
From Verif.Callbacks Require Import Model Proofs Handlers Told Halted.
Open Scope nat_scope.

(** C105, the three callbacks that the group's goroutine calls: for every partition they come in the order assigned, about to be revoked,
    revoked, assigned, ... *)
Theorem c105_group_callbacks_in_order :
  forall acts s p i c, run init acts = Some s -> groupCalls p (trace s) !! i = Some c ->
  c = match i mod 3 with 0 => Assigned | 1 => WillRevoke | _ => Revoked end.
Proof. exact group_order. Qed.
Print Assumptions c105_group_callbacks_in_order.
(** C105: OnPartitionActivated is called at most once for each time the partition is assigned *)
Theorem c105_activated_at_most_once :
  forall acts s p, run init acts = Some s -> length (List.filter isActivated (calls p (trace s))) <= assigns p acts.
Proof. exact activated_at_most. Qed.
Print Assumptions c105_activated_at_most_once.
(** C105, all four, for histories in which no partition is activated while the group's goroutine is in a call and every partition is activated before
    it is revoked *)
Theorem c105_all_in_order_partial :
  forall acts s p i c, run init acts = Some s ->
  (forall l1 w l2 s1, acts = l1 ++ WActivate w :: l2 -> run init l1 = Some s1 -> cur s1 = []) ->
  (forall l1 ps l2 s1 p, acts = l1 ++ GRevoke ps :: l2 -> run init l1 = Some s1 -> p ∈ ps -> last (calls p (trace s1)) = Some Activated) ->
  calls p (trace s) !! i = Some c ->
  c = match i mod 4 with 0 => Assigned | 1 => Activated | 2 => WillRevoke | _ => Revoked end.
Proof. exact tidy_order. Qed.
Print Assumptions c105_all_in_order_partial.
(** two partitions; the second one comes back *)
Definition good : list action :=
  [GAssign [4; 7]; GStep; GStep; GStep; GStep; WBoot 1; WActivate 1; WBoot 0; WActivate 0; GRevoke [7]; GStep; GStep; GStep; GStep; GAssign [7]; GStep; GStep; WBoot 2; WActivate 2].
Example c105_example : option_map (fun s => (calls 4 (trace s), calls 7 (trace s), cur s)) (run init good) =
  Some ([Assigned; Activated], [Assigned; Activated; WillRevoke; Revoked; Assigned; Activated], []) /\ assigns 7 good = 2.
Proof. vm_compute. auto. Qed.
(** the hypotheses of the partial claim hold for it *)
Fixpoint tidyRun (s : st) (acts : list action) : bool :=
  match acts with
  | [] => true
  | a :: l => match a with
              | WActivate _ => match cur s with [] => true | _ => false end
              | GRevoke ps => forallb (fun p => bool_decide (last (calls p (trace s)) = Some Activated)) ps
              | _ => true end && match step s a with Some s' => tidyRun s' l | None => true end
  end.
Lemma tidyRun_ok acts : forall s, tidyRun s acts = true -> forall l1 a l2 s1, acts = l1 ++ a :: l2 -> run s l1 = Some s1 -> tidy s1 a.
Proof.
  induction acts as [|b acts IH]; intros s T l1 a l2 s1 E R; [destruct l1; discriminate|]. cbn [tidyRun] in T. apply andb_true_iff in T as [T1 T2].
  destruct l1 as [|b' l1]; injection E as <- E.
  - injection R as <-. destruct b; cbn; auto; [|destruct (cur s); [reflexivity|discriminate]]. intros p P. rewrite forallb_forall in T1. apply elem_of_list_In in P. apply T1 in P. exact (bool_decide_eq_true_1 _ P).
  - cbn [run] in R. destruct (step s b) as [s2|]; [|discriminate]. exact (IH s2 T2 l1 a l2 s1 E R).
Qed.
Example c105_partial_example :
  (forall l1 w l2 s1, good = l1 ++ WActivate w :: l2 -> run init l1 = Some s1 -> cur s1 = []) /\
  (forall l1 ps l2 s1 p, good = l1 ++ GRevoke ps :: l2 -> run init l1 = Some s1 -> p ∈ ps -> last (calls p (trace s1)) = Some Activated).
Proof.
  assert (T : tidyRun init good = true) by (vm_compute; reflexivity). pose proof (tidyRun_ok _ _ T) as H. split.
  - intros l1 w l2 s1 E R. exact (H l1 (WActivate w) l2 s1 E R).
  - intros l1 ps l2 s1 p E R. exact (H l1 (GRevoke ps) l2 s1 E R p).
Qed.

(** C105 is false: a worker is started before OnPartitionAssigned is called, so that OnPartitionActivated can come first *)
Theorem c105_activated_first_refuted :
  forall p, exists acts s, run init acts = Some s /\ assigns p acts = 1 /\ calls p (trace s) = [Activated; Assigned].
Proof.
  intros p. exists [GAssign [p]; GStep; WBoot 0; WActivate 0; GStep]. eexists. split; [|split].
  - cbn [run step init cur owned]. rewrite decide_True; [reflexivity|]. split; [apply NoDup_singleton|]. constructor; [apply not_elem_of_nil|constructor].
  - cbn. rewrite bool_decide_eq_true_2 by left. reflexivity.
  - cbn. rewrite Nat.eqb_refl. reflexivity.
Qed.
Print Assumptions c105_activated_first_refuted.
(** C105 is false: a partition that is revoked while its worker still waits for the state store is activated afterwards, also when it has been assigned
    again (then it looks as if the new worker had been activated) *)
Theorem c105_activated_after_revoked_refuted :
  forall p, exists acts s, run init acts = Some s /\ assigns p acts = 2 /\
  calls p (trace s) = [Assigned; WillRevoke; Revoked; Activated; Assigned; Activated].
Proof.
  intros p.
  assert (R1 : run init [GAssign [p]; GStep; GStep] = Some (mkSt [mkW p Boot false 0 [] 0 false] [(p, 0)] [p] [] [EvAssigned p])).
  { cbn [run step init cur owned]. rewrite decide_True by (split; [apply NoDup_singleton|constructor; [apply not_elem_of_nil|constructor]]). reflexivity. }
  assert (R2 : run (mkSt [mkW p Boot false 0 [] 0 false] [(p, 0)] [p] [] [EvAssigned p]) [GRevoke [p]; GStep; GStep; GStep; GStep; WBoot 0; WActivate 0] =
               Some (mkSt [mkW p Active true 0 [] 0 false] [] [] [] [EvAssigned p; EvWill p; EvHalt 0; EvStore p; EvRevoked p; EvBooted 0; EvActivated p 0])).
  { cbn [run step cur owned]. rewrite decide_True by (split; [apply NoDup_singleton|constructor; [left|constructor]]).
    cbn [List.filter ws live owned trace]. rewrite bool_decide_eq_true_2 by left. cbn [negb flat_map map app cur micro_step ws live owned trace].
    unfold find. cbn [List.filter fst]. rewrite Nat.eqb_refl. cbn [head fmap option_fmap option_map snd lookup list_lookup cur micro_step ws live owned trace].
    unfold drop. cbn [List.filter fst]. rewrite Nat.eqb_refl. reflexivity. }
  assert (R3 : run (mkSt [mkW p Active true 0 [] 0 false] [] [] [] [EvAssigned p; EvWill p; EvHalt 0; EvStore p; EvRevoked p; EvBooted 0; EvActivated p 0]) [GAssign [p]; GStep; GStep; WBoot 1; WActivate 1] =
               Some (mkSt [mkW p Active true 0 [] 0 false; mkW p Active false 0 [] 0 false] [(p, 1)] [p] []
                          [EvAssigned p; EvWill p; EvHalt 0; EvStore p; EvRevoked p; EvBooted 0; EvActivated p 0; EvAssigned p; EvBooted 1; EvActivated p 1])).
  { cbn [run step cur owned]. rewrite decide_True by (split; [apply NoDup_singleton|constructor; [apply not_elem_of_nil|constructor]]). reflexivity. }
  exists ([GAssign [p]; GStep; GStep] ++ [GRevoke [p]; GStep; GStep; GStep; GStep; WBoot 0; WActivate 0] ++ [GAssign [p]; GStep; GStep; WBoot 1; WActivate 1]).
  eexists. split; [|split].
  - rewrite run_app, R1, run_app, R2, R3. reflexivity.
  - cbn. rewrite bool_decide_eq_true_2 by left. reflexivity.
  - cbn. rewrite !Nat.eqb_refl. reflexivity.
Qed.
Print Assumptions c105_activated_after_revoked_refuted.

(** C106: when OnPartitionActivated is called the commit log and the state store are there, and no handler is called before *)
Theorem c106_activated_means_ready :
  forall acts s t1 p w t2, run init acts = Some s -> trace s = t1 ++ EvActivated p w :: t2 -> EvBooted w ∈ t1.
Proof. intros acts s t1 p w t2 R E. exact (i_all _ (inv_run _ _ _ inv_init R) _ _ _ E). Qed.
Print Assumptions c106_activated_means_ready.
Theorem c106_no_handler_before_activation :
  forall acts s t1 w c t2, run init acts = Some s -> trace s = t1 ++ EvBegin w c :: t2 -> exists p, EvActivated p w ∈ t1.
Proof. intros acts s t1 w c t2 R E. exact (proj1 (i_all _ (inv_run _ _ _ inv_init R) _ _ _ E)). Qed.
Print Assumptions c106_no_handler_before_activation.
(** the first record is there before the worker has called the callback *)
Definition early_record : list action := [GAssign [3]; GStep; GStep; WBoot 0; WBatch 0 2; WSchedule 0; PLook 0; WActivate 0; WTake 0; WSchedule 0; WEnd 0].
Example c106_example : option_map trace (run init early_record) = Some [EvAssigned 3; EvBooted 0; EvGrant 0 0; EvActivated 3 0; EvBegin 0 0; EvEnd 0] /\
  run init (take 7 early_record ++ [WTake 0]) = None.
Proof. vm_compute. auto. Qed.

(** C107 is false. [revoked_at t p]: OnPartitionRevoked has been called for partition p and its store has been told. Handlers can be at work, and can even
    be called, after that *)
Theorem c107_handler_at_work_refuted :
  exists acts s t1 t2, run init acts = Some s /\ trace s = t1 ++ EvRevoked 3 :: t2 /\ EvStore 3 ∈ t1 /\ (EvBegin 0 0 ∈ t1 /\ EvEnd 0 ∉ t1) /\ EvEnd 0 ∈ t2 /\ EvActivated 3 0 ∈ t1.
Proof.
  exists [GAssign [3]; GStep; GStep; WBoot 0; WActivate 0; WBatch 0 2; WSchedule 0; PLook 0; WTake 0; GRevoke [3]; GStep; GStep; GStep; GStep; WEnd 0].
  eexists. exists [EvAssigned 3; EvBooted 0; EvActivated 3 0; EvGrant 0 0; EvBegin 0 0; EvWill 3; EvHalt 0; EvStore 3], [EvEnd 0].
  split; [vm_compute; reflexivity|]. split; [reflexivity|]. repeat split; try (vm_compute; set_solver).
Qed.
Print Assumptions c107_handler_at_work_refuted.
(** for every number n: n handlers are called after OnPartitionRevoked has returned *)
Lemma queue n : forall k l lv ow cu t m,
  run (mkSt [mkW 3 Active false (n + m) l k false] lv ow cu t) (concat (replicate n [WSchedule 0])) = Some (mkSt [mkW 3 Active false m (l ++ ((fun c => (c, None)) <$> seq k n)) (k + n) false] lv ow cu t).
Proof.
  induction n as [|n IH]; intros k l lv ow cu t m.
  - cbn. rewrite app_nil_r, Nat.add_0_r. reflexivity.
  - cbn [replicate concat app run step]. cbn [ws lookup list_lookup batch]. change (Datatypes.S n + m) with (Datatypes.S (n + m)).
    unfold upd. cbn [ws insert list_insert part stg halted q next busy live owned cur trace]. rewrite app_nil_r.
    rewrite IH, <- app_assoc. cbn [seq]. rewrite fmap_cons. cbn [app]. rewrite Nat.add_succ_r. reflexivity.
Qed.
Lemma look_done b l c l' : look b ((fun c => (c, Some true)) <$> l) = None /\ look b (((fun c => (c, Some true)) <$> l) ++ (c, None) :: l') = Some (c, ((fun c => (c, Some true)) <$> l) ++ (c, Some b) :: l').
Proof. induction l as [|a l [IH1 IH2]]; [auto|]. rewrite !fmap_cons. cbn [app look]. rewrite IH1, IH2. auto. Qed.
Lemma grants n : forall k j lv ow cu t, exists t',
  run (mkSt [mkW 3 Active false 0 (((fun c => (c, Some true)) <$> seq k j) ++ ((fun c => (c, None)) <$> seq (k + j) n)) (k + j + n) false] lv ow cu t) (concat (replicate n [PLook 0])) =
  Some (mkSt [mkW 3 Active false 0 ((fun c => (c, Some true)) <$> seq k (j + n)) (k + j + n) false] lv ow cu t') /\ exists es, t' = t ++ es.
Proof.
  induction n as [|n IH]; intros k j lv ow cu t.
  - exists t. cbn [seq fmap list_fmap replicate concat run]. rewrite app_nil_r, !Nat.add_0_r. split; [reflexivity|]. exists []. rewrite app_nil_r. reflexivity.
  - cbn [replicate concat app run step ws lookup list_lookup q halted]. cbn [seq]. rewrite fmap_cons.
    rewrite (proj2 (look_done (negb false) (seq k j) (k + j) _)). unfold upd. cbn [ws insert list_insert part stg batch next busy live owned cur trace negb].
    replace (((fun c => (c, Some true)) <$> seq k j) ++ (k + j, Some true) :: ((fun c => (c, None)) <$> seq (Datatypes.S (k + j)) n))
      with (((fun c => (c, Some true)) <$> seq k (Datatypes.S j)) ++ ((fun c => (c, @None bool)) <$> seq (k + Datatypes.S j) n)).
    2: { replace (Datatypes.S j) with (j + 1) by lia. rewrite seq_app, fmap_app, <- app_assoc. cbn. replace (k + (j + 1)) with (Datatypes.S (k + j)) by lia. reflexivity. }
    replace (k + j + Datatypes.S n) with (k + Datatypes.S j + n) by lia. destruct (IH k (Datatypes.S j) lv ow cu (t ++ [EvGrant 0 (k + j)])) as (t' & R & T). exists t'. rewrite R.
    replace (Datatypes.S j + n) with (j + Datatypes.S n) by lia. split; [reflexivity|]. destruct T as (es & ->). exists (EvGrant 0 (k + j) :: es). rewrite <- app_assoc. reflexivity.
Qed.
Lemma takes n : forall k m lv ow cu t, 
  run (mkSt [mkW 3 Active true 0 ((fun c => (c, Some true)) <$> seq k n) m false] lv ow cu t) (concat (replicate n [WTake 0; WEnd 0])) =
  Some (mkSt [mkW 3 Active true 0 [] m false] lv ow cu (t ++ concat ((fun c => [EvBegin 0 c; EvEnd 0]) <$> seq k n))).
Proof.
  induction n as [|n IH]; intros k m lv ow cu t; [cbn; rewrite app_nil_r; reflexivity|].
  cbn [seq]. rewrite !fmap_cons. cbn [replicate concat app run step ws lookup list_lookup q busy]. rewrite decide_True by reflexivity. unfold upd. cbn [ws insert list_insert part stg batch next halted live owned cur trace lookup list_lookup busy].
  cbn [q]. rewrite IH. rewrite <- !app_assoc. reflexivity.
Qed.
Theorem c107_handlers_called_refuted :
  forall n, exists acts s t1 t2, run init acts = Some s /\ trace s = t1 ++ EvRevoked 3 :: t2 /\ EvActivated 3 0 ∈ t1 /\ EvStore 3 ∈ t1 /\
  length (List.filter (fun e => match e with EvBegin 0 _ => true | _ => false end) t2) = n.
Proof.
  intros n.
  exists ([GAssign [3]; GStep; GStep; WBoot 0; WActivate 0; WBatch 0 n] ++ concat (replicate n [WSchedule 0]) ++ concat (replicate n [PLook 0]) ++
          [GRevoke [3]; GStep; GStep; GStep; GStep] ++ concat (replicate n [WTake 0; WEnd 0])).
  rewrite run_app.
  replace (run init [GAssign [3]; GStep; GStep; WBoot 0; WActivate 0; WBatch 0 n]) with (Some (mkSt [mkW 3 Active false (n + 0) [] 0 false] [(3, 0)] [3] [] [EvAssigned 3; EvBooted 0; EvActivated 3 0])) by (rewrite Nat.add_0_r; vm_compute; reflexivity).
  rewrite run_app. rewrite queue.
  rewrite run_app. destruct (grants n 0 0 [(3, 0)] [3] [] [EvAssigned 3; EvBooted 0; EvActivated 3 0]) as (t' & R & es & ->).
  change (run (mkSt [mkW 3 Active false 0 ([] ++ ((fun c => (c, None)) <$> seq 0 n)) (0 + n) false] [(3, 0)] [3] [] [EvAssigned 3; EvBooted 0; EvActivated 3 0]) (concat (replicate n [PLook 0])))
    with (run (mkSt [mkW 3 Active false 0 (((fun c => (c, Some true)) <$> seq 0 0) ++ ((fun c => (c, None)) <$> seq (0 + 0) n)) (0 + 0 + n) false] [(3, 0)] [3] [] [EvAssigned 3; EvBooted 0; EvActivated 3 0]) (concat (replicate n [PLook 0]))).
  rewrite R. rewrite run_app.
  set (q0 := (fun c => (c, Some true)) <$> seq 0 (0 + n)). set (t0 := [EvAssigned 3; EvBooted 0; EvActivated 3 0] ++ es).
  replace (run (mkSt [mkW 3 Active false 0 q0 (0 + 0 + n) false] [(3, 0)] [3] [] t0) [GRevoke [3]; GStep; GStep; GStep; GStep])
    with (Some (mkSt [mkW 3 Active true 0 q0 (0 + 0 + n) false] [] [] [] ((((t0 ++ [EvWill 3]) ++ [EvHalt 0]) ++ [EvStore 3]) ++ [EvRevoked 3]))).
  2: { clearbody q0 t0. cbn [run step cur owned]. rewrite decide_True by (split; [apply NoDup_singleton|constructor; [left|constructor]]). cbn. rewrite bool_decide_eq_true_2 by left. reflexivity. }
  unfold q0. rewrite takes. eexists. exists ((((t0 ++ [EvWill 3]) ++ [EvHalt 0]) ++ [EvStore 3])), (concat ((fun c => [EvBegin 0 c; EvEnd 0]) <$> seq 0 (0 + n))).
  split; [reflexivity|]. cbn [trace]. split; [rewrite <- !app_assoc; reflexivity|]. split; [|split].
  - rewrite !elem_of_app. left. left. left. unfold t0. rewrite elem_of_app. left. do 2 right. left.
  - rewrite !elem_of_app. right. left.
  - change (0 + n) with n. clear. cut (forall k, length (List.filter (fun e => match e with EvBegin 0 _ => true | _ => false end) (concat ((fun c => [EvBegin 0 c; EvEnd 0]) <$> seq k n))) = n); [auto|].
    induction n as [|n IH]; intros k; [reflexivity|]. cbn [seq]. rewrite fmap_cons. cbn [concat app List.filter length]. rewrite IH. reflexivity.
Qed.
Print Assumptions c107_handlers_called_refuted.
(** C107, what holds: a handler that is called after the worker has been halted has a context that was put into a transaction before. After the worker's
    loop has ended nothing happens any more. *)
Theorem c107_only_what_was_granted_partial :
  forall acts s t1 w t2 c, run init acts = Some s -> trace s = t1 ++ EvHalt w :: t2 -> EvBegin w c ∈ t2 -> EvGrant w c ∈ t1.
Proof.
  intros acts s t1 w t2 c R E B. apply elem_of_list_split in B as (u1 & u2 & ->).
  assert (E' : trace s = (t1 ++ EvHalt w :: u1) ++ EvBegin w c :: u2) by (rewrite E, <- app_assoc; reflexivity).
  destruct (i_all _ (inv_run _ _ _ inv_init R) _ _ _ E') as (_ & (v1 & v2 & V & N) & _).
  apply app_eq_app in V as (k & [[-> V]|[-> V]]).
  - destruct k as [|y k]; [injection V; discriminate|]. injection V as -> _. rewrite !elem_of_app. right. left.
  - destruct k as [|y k]; [cbn in V; injection V; discriminate|]. exfalso. apply N. injection V as -> _. rewrite elem_of_app. right. left.
Qed.
Print Assumptions c107_only_what_was_granted_partial.
Theorem c107_over_is_over :
  forall acts s t1 w t2, run init acts = Some s -> trace s = t1 ++ EvOver w :: t2 -> (forall c, EvBegin w c ∉ t2) /\ EvEnd w ∉ t2.
Proof.
  intros acts s t1 w t2 R E. pose proof (i_all _ (inv_run _ _ _ inv_init R)) as A. split.
  - intros c B. apply elem_of_list_split in B as (u1 & u2 & ->). assert (E' : trace s = (t1 ++ EvOver w :: u1) ++ EvBegin w c :: u2) by (rewrite E, <- app_assoc; reflexivity).
    destruct (A _ _ _ E') as (_ & _ & N). apply N. rewrite elem_of_app. right. left.
  - intros B. apply elem_of_list_split in B as (u1 & u2 & ->). assert (E' : trace s = (t1 ++ EvOver w :: u1) ++ EvEnd w :: u2) by (rewrite E, <- app_assoc; reflexivity).
    specialize (A _ _ _ E'). apply A. rewrite elem_of_app. right. left.
Qed.
Print Assumptions c107_over_is_over.
(** three records; when the partition is revoked the first is at work, the second has a producer, the third has not *)
Example c107_example : option_map trace (run init ([GAssign [3]; GStep; GStep; WBoot 0; WActivate 0; WBatch 0 3; WSchedule 0; WSchedule 0; PLook 0; PLook 0; WTake 0; GRevoke [3]; GStep; GStep; GStep; GStep;
    WSchedule 0; PLook 0; WEnd 0; WTake 0; WEnd 0; WTake 0; WOver 0])) =
  Some [EvAssigned 3; EvBooted 0; EvActivated 3 0; EvGrant 0 0; EvGrant 0 1; EvBegin 0 0; EvWill 3; EvHalt 0; EvStore 3; EvRevoked 3; EvEnd 0; EvBegin 0 1; EvEnd 0; EvOver 0].
Proof. vm_compute. reflexivity. Qed.

(** C108: OnPartitionWillRevoke is called before the store is told that the partition is revoked, OnPartitionRevoked afterwards *)
Theorem c108_callbacks_enclose_the_revocation_of_the_store :
  forall acts s p i c, run init acts = Some s -> tells p (trace s) !! i = Some c ->
  c = match i mod 4 with 0 => TAssigned | 1 => TWill | 2 => TStore | _ => TRevoked end.
Proof. exact told_order. Qed.
Print Assumptions c108_callbacks_enclose_the_revocation_of_the_store.
(** ... and the worker is told in between, before the store *)
Theorem c108_callbacks_enclose_the_revocation_of_the_worker :
  forall acts s t1 w t2 x, run init acts = Some s -> trace s = t1 ++ EvHalt w :: t2 -> ws s !! w = Some x -> last (tells (part x) t1) = Some TWill.
Proof. exact halt_between. Qed.
Print Assumptions c108_callbacks_enclose_the_revocation_of_the_worker.
(** ... and no worker of the partition is left that has not been told when OnPartitionRevoked is called: whatever step calls it, every worker that the group's
    assignments have brought about for the partition (they are numbered in their order) has been told before *)
Theorem c108_every_worker_told :
  forall acts a s s' p w, run init acts = Some s -> step s a = Some s' -> trace s' = trace s ++ [EvRevoked p] -> made acts !! w = Some p -> EvHalt w ∈ trace s.
Proof. exact all_told. Qed.
Print Assumptions c108_every_worker_told.
(** the second worker of a partition that has come back *)
Example c108_told_example : exists s s', run init [GAssign [4; 7]; GStep; GStep; GStep; GStep; GRevoke [7]; GStep; GStep; GStep; GStep; GAssign [7]; GStep; GStep; GRevoke [7]; GStep; GStep; GStep] = Some s /\
  step s GStep = Some s' /\ trace s' = trace s ++ [EvRevoked 7] /\ made [GAssign [4; 7]; GRevoke [7]; GAssign [7]] = [4; 7; 7] /\ EvHalt 2 ∈ trace s /\ EvHalt 0 ∉ trace s.
Proof. eexists. eexists. repeat split; [vm_compute; set_solver|]. vm_compute. set_solver. Qed.
Example c108_example : option_map (fun s => (trace s, tells 4 (trace s), tells 7 (trace s), map part (ws s))) (run init [GAssign [4; 7]; GStep; GStep; GStep; GStep; GRevoke [7; 4]; GStep; GStep; GStep; GStep; GStep; GStep; GStep; GStep; GAssign [7]; GStep; GStep]) =
  Some ([EvAssigned 4; EvAssigned 7; EvWill 7; EvHalt 1; EvStore 7; EvWill 4; EvHalt 0; EvStore 4; EvRevoked 7; EvRevoked 4; EvAssigned 7],
        [TAssigned; TWill; TStore; TRevoked], [TAssigned; TWill; TStore; TRevoked; TAssigned], [4; 7; 7]).
Proof. vm_compute. reflexivity. Qed.
