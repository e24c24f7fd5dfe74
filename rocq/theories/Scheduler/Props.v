(** C26-C28, C30-C33: the asynchronous job scheduler. Executions: any actions of any number of callers and goroutines, in any order. *)
From stdpp Require Import prelude list.
From Coq Require Import ZArith.
From Verif.ItemQueue Require Model Proofs.
From Verif.Scheduler Require Import Model Base Inv Step Order Live Progress Limits Refute Deadlock Depth.

(** C26: two goroutines are never at jobs of the same key; a goroutine is at a job from handing it to the processor until its
    completion has been delivered *)
Theorem c26_no_overlap :
  forall cf n cc acts s g g' w w' j j' x x', run (start cf n cc) acts = Some s ->
  gs s !! g = Some x -> gs s !! g' = Some x' -> hold x = Some (w, j) -> hold x' = Some (w', j') -> jkey j = jkey j' -> g = g'.
Proof. exact no_overlap. Qed.
Print Assumptions c26_no_overlap.

(** C27: per key, the jobs given to the processor are the first ones of those put into the key's queue, in that order, and all but
    the one in process have been handed back, in that order *)
Theorem c27_key_order :
  forall cf n cc acts s k, run (start cf n cc) acts = Some s ->
  (exists r, jof (keyis k) (inserted s) = jof (keyis k) (started s) ++ r) /\ (exists r, jof (keyis k) (started s) = jof (keyis k) (delivered s) ++ r /\ length r <= 1).
Proof. exact key_order. Qed.
Print Assumptions c27_key_order.
(** per key and caller: what the caller received back, then what was delivered, then what was started, then what Schedule
    accepted, each a first part of the next; so nothing is processed or completed twice or out of order *)
Theorem c27_caller_order :
  forall cf n cc acts s c k, run (start cf n cc) acts = Some s ->
  exists r1 r2 r3, jof (keyis k) (jof (callis c) (accepted s)) = jof (keyis k) (jof (callis c) (started s)) ++ r1 /\
                   jof (keyis k) (jof (callis c) (started s)) = jof (keyis k) (jof (callis c) (delivered s)) ++ r2 /\ length r2 <= 1 /\
                   jof (keyis k) (jof (callis c) (delivered s)) = jof (keyis k) (jof (callis c) (collected s)) ++ r3.
Proof. exact order. Qed.
Print Assumptions c27_caller_order.

(** C28: M and D bound all key limits and depths ever configured. There are Concurrency goroutines, so at most that many jobs
    are processed at once; at most M keys have a job that is queued or in process; at most max(2, D) jobs of a key are queued. *)
Theorem c28_limits_partial :
  forall cf n cc acts s M D, concurrentKeys cf <= M -> WorkerQueueDepth cf <= D -> Forall (within M D) acts -> run (start cf n cc) acts = Some s ->
  length (gs s) = Concurrency cf /\
  (forall ks, NoDup ks -> (forall k, k ∈ ks -> jof (keyis k) (inserted s) <> jof (keyis k) (delivered s)) -> length ks <= M) /\
  (forall k, jn (keyis k) (inserted s) <= jn (keyis k) (taken s) + Nat.max 2 D).
Proof. exact limits. Qed.
Print Assumptions c28_limits_partial.
(** so at most Concurrency goroutines are at a job; *)
Theorem c28_concurrency : forall cf n cc acts s, run (start cf n cc) acts = Some s -> length (filter (fun x => is_Some (hold x)) (gs s)) <= Concurrency cf.
Proof. exact at_once. Qed.
Print Assumptions c28_concurrency.
(** and without run-time changes, with MaxConcurrentKeys at least Concurrency, at most MaxConcurrentKeys keys are active *)
Theorem c28_configured_partial : forall cf n cc acts s ks, Concurrency cf <= MaxConcurrentKeys cf -> Forall (fun a => match a with ASetMax _ | ASetDepth _ => False | _ => True end) acts ->
  run (start cf n cc) acts = Some s -> NoDup ks -> (forall k, k ∈ ks -> jof (keyis k) (inserted s) <> jof (keyis k) (delivered s)) -> length ks <= MaxConcurrentKeys cf.
Proof. exact configured. Qed.
Print Assumptions c28_configured_partial.

(** what is set at run time holds from then on: a depth for each key that is not active at that time, *)
Theorem c28_depth_partial : forall cf n cc acts s1 more s2 D k, run (start cf n cc) acts = Some s1 -> mlookup k (wmap s1) = None -> depth s1 <= D -> Forall (depthUpto D) more -> run s1 more = Some s2 ->
  jn (keyis k) (inserted s2) <= jn (keyis k) (taken s2) + Nat.max 2 D.
Proof. exact depth_later. Qed.
Print Assumptions c28_depth_partial.
(** and a key limit if no more keys than that are active at that time *)
Theorem c28_keys_partial : forall cf n cc acts s1 more s2 M ks, run (start cf n cc) acts = Some s1 -> length (wmap s1) <= M -> maxk s1 <= M -> Forall (keysUpto M) more -> run s1 more = Some s2 ->
  NoDup ks -> (forall k, k ∈ ks -> jof (keyis k) (inserted s2) <> jof (keyis k) (delivered s2)) -> length ks <= M.
Proof. exact keys_later. Qed.
Print Assumptions c28_keys_partial.
(** depth 4, then 2: the worker made for depth 4 is in the pool and is not taken; the third job of the key is refused *)
Definition ex_depth_acts : list action :=
  [ASchedule 0 (mkJ 7 0 0); AGrab 0 None; AEnq 0; GRead 0; GTake 0; GPeek 0; GReturn 0; GAdvance 0; GComplete 0; GRelease 0; GSignal 0; ASetDepth 2; ASetMax 1].
Definition ex_depth_more : list action :=
  [ASchedule 0 (mkJ 7 0 1); AGrab 0 None; AEnq 0; ASchedule 0 (mkJ 7 0 2); AGrab 0 None; ASchedule 0 (mkJ 7 0 3); AGrab 0 None].
Example c28_depth_example : exists s1 s2, run (start (mkC 1 4 2) 1 9) ex_depth_acts = Some s1 /\ pool s1 = [0] /\ wmap s1 = [] /\ depth s1 = 2 /\ maxk s1 = 1 /\
  run s1 [ASchedule 0 (mkJ 7 0 1); AGrab 0 (Some 0)] = None /\ run s1 ex_depth_more = Some s2 /\ map jval (inserted s2) = [0; 1; 2] /\ map jval (taken s2) = [0] /\ callers s2 = [CBlock 1 (mkJ 7 0 3)].
Proof. eexists _, _. split; [vm_compute; reflexivity|]. do 4 (split; [reflexivity|]). split; [vm_compute; reflexivity|]. split; [vm_compute; reflexivity|]. split; [reflexivity|]. split; reflexivity. Qed.

(** a run with two callers and two goroutines: two keys, three jobs *)
Definition cf1 := mkC 2 2 2.
Definition a1 := mkJ 7 0 1. Definition a2 := mkJ 7 1 2. Definition b1 := mkJ 8 0 3.
Definition ex_acts : list action :=
  [ASchedule 0 a1; AGrab 0 None; ASchedule 1 a2; AGrab 1 None; AEnq 0; ASchedule 0 b1; AGrab 0 None; AEnq 0;
   GRead 0; GRead 1; GTake 0; GTake 1; GPeek 1; GPeek 0; GReturn 0; GAdvance 0; GComplete 0; GRelease 0; GEnqueue 0].
Example c26_example : option_map (fun s => (gs s, started s, delivered s)) (run (start cf1 2 5) ex_acts) =
  Some ([GLoop; GRun 1 b1], [b1; a1], [a1]).
Proof. vm_compute. reflexivity. Qed.
Example c28_example : Forall (within 2 2) ex_acts /\ concurrentKeys cf1 = 2.
Proof. split; [repeat constructor|reflexivity]. Qed.
(** C28 is false as stated: MaxConcurrentKeys is replaced by Concurrency when it is smaller (async_scheduler.go:125-130), here two keys are active with MaxConcurrentKeys 1; *)
Definition two_keys : list action := [ASchedule 0 a1; AGrab 0 None; AEnq 0; ASchedule 0 b1; AGrab 0 None; AEnq 0].
Theorem c28_raised_refuted : exists s, run (start (mkC 2 2 1) 1 5) two_keys = Some s /\ forall k, k ∈ [7; 8] -> jof (keyis k) (inserted s) <> jof (keyis k) (delivered s).
Proof. eexists. split; [vm_compute; reflexivity|]. intros k Hk. repeat (apply elem_of_cons in Hk as [->|Hk]; [vm_compute; discriminate|]). by apply elem_of_nil in Hk. Qed.
Print Assumptions c28_raised_refuted.
(** and lowering it at run time does not make active keys inactive *)
Theorem c28_lowered_refuted : exists s, run (start cf1 1 5) (two_keys ++ [ASetMax 1]) = Some s /\ maxk s = 1 /\ forall k, k ∈ [7; 8] -> jof (keyis k) (inserted s) <> jof (keyis k) (delivered s).
Proof. eexists. split; [vm_compute; reflexivity|]. split; [reflexivity|]. intros k Hk. repeat (apply elem_of_cons in Hk as [->|Hk]; [vm_compute; discriminate|]). by apply elem_of_nil in Hk. Qed.
Print Assumptions c28_lowered_refuted.

(** C30, full claim: every accepted job is eventually processed. Not so: a job put into a drained queue by a waiting sender is
    never started, whatever happens, as long as no other job of its key is scheduled. *)
Definition j1 := mkJ 0 0 1. Definition j2 := mkJ 0 0 2. Definition j3 := mkJ 0 0 3.
Definition one_round : list action := [GRead 0; GTake 0; GPeek 0; GReturn 0; GAdvance 0; GComplete 0; GRelease 0; GEnqueue 0].
Definition strand : list action :=
  [ASchedule 0 j1; AGrab 0 None; AEnq 0; ASchedule 0 j2; AGrab 0 None; ASchedule 0 j3; AGrab 0 None] ++ one_round ++ one_round ++ [ABlockSend 0].
Theorem c30_stranded_refuted :
  exists s, run (start (mkC 1 2 1) 1 9) strand = Some s /\ j3 ∈ inserted s /\ callers s = [CIdle] /\ started s = [j1; j2] /\
  forall more s', Forall (other_key 0) more -> run s more = Some s' -> jof (keyis 0) (started s') = [j1; j2].
Proof.
  destruct (run (start (mkC 1 2 1) 1 9) strand) as [s|] eqn:R; [|vm_compute in R; discriminate]. exists s.
  assert (Q : option_map (fun s => (inserted s, callers s, started s, gs s)) (Some s) = Some ([j1; j2; j3], [CIdle], [j1; j2], [GLoop])) by (rewrite <- R; vm_compute; reflexivity).
  assert (Q2 : option_map (fun s => (ws s, wmap s)) (Some s) = Some ([mkW 0 2 (ItemQueue.Model.mkQ 1 None [j3] 1)], [(0, 0)])) by (rewrite <- R; vm_compute; reflexivity).
  cbn in Q, Q2. injection Q as E1 E2 E3 E4. injection Q2 as E5 E6. split; auto. rewrite E1. split; [do 2 right; left|]. split; auto. split; auto.
  intros more s' F H. destruct (run_stranded 0 0 j3 more s s') as (_ & E); auto; [eapply run_inv; eauto; apply start_inv| |rewrite E, E3; reflexivity].
  split; rewrite ?E2, ?E4, ?E5, ?E6.
  - left.
  - eexists. split; [reflexivity|]. cbn. auto.
  - intros [|g] x j' H1; [|destruct g; discriminate]. injection H1 as <-. discriminate.
  - intros [|c] x j' H1 H2; [|destruct c; discriminate]. injection H1 as <-. inversion H2.
Qed.
Print Assumptions c30_stranded_refuted.
(** what holds: as long as no enqueue is refused by a full queue (and the key limit stays at least 1 and is never raised to less
    than the number of active keys), the scheduler and the callers can take only finitely many steps by themselves after the last
    Schedule, and when no step is left every accepted job has been processed and its completion received, provided no caller has
    more jobs outstanding than its completion channel holds *)
Theorem c30_finite_work_partial :
  forall cf n cc acts s, 1 <= Concurrency cf -> steady (start cf n cc) acts -> run (start cf n cc) acts = Some s ->
  exists b, forall more s', forallb internal more = true -> steady s more -> run s more = Some s' -> length more <= b.
Proof. exact bounded_work. Qed.
Print Assumptions c30_finite_work_partial.
Theorem c30_all_done_partial :
  forall cf n cc acts s, 1 <= Concurrency cf -> steady (start cf n cc) acts -> run (start cf n cc) acts = Some s ->
  (forall c, outstanding s c <= cc) -> (forall a, internal a = true -> step s a = None) ->
  (forall c x, callers s !! c = Some x -> x = CIdle) /\ wmap s = [] /\
  forall c, c < n -> comps s c = [] /\ forall k, jof (keyis k) (jof (callis c) (accepted s)) = jof (keyis k) (jof (callis c) (collected s)).
Proof. exact all_done. Qed.
Print Assumptions c30_all_done_partial.
(** the hypotheses are met by the run above carried to its end *)
Definition ex_end : list action :=
  ex_acts ++ [GReturn 1; GAdvance 1; GComplete 1; GRelease 1; GSignal 1; GRead 0; GTake 0; GPeek 0; GReturn 0; GAdvance 0; GComplete 0; GRelease 0; GSignal 0; ACollect 0; ACollect 0; ACollect 1; GRead 0; GRead 1].
Fixpoint steadyb (s : st) (acts : list action) : bool :=
  match acts with
  | [] => true
  | a :: acts' => match a with AClose | ASetMax _ => false | _ => true end &&
                  match step s a with Some s' => forallb (fun x => match x with CBlock _ _ => false | _ => true end) (callers s') && steadyb s' acts' | None => true end
  end.
Lemma steadyb_ok acts : forall s, steadyb s acts = true -> steady s acts.
Proof.
  induction acts as [|a acts IH]; intros s H; cbn in *; auto. apply andb_prop in H as (H1 & H2). split; [destruct a; cbn; auto; discriminate|].
  destruct (step s a) as [s1|]; auto. apply andb_prop in H2 as (H2 & H3). split; auto. intros c w j E. rewrite forallb_forall in H2.
  apply elem_of_list_lookup_2, elem_of_list_In, H2 in E. discriminate.
Qed.
Example c30_example : exists s, steady (start cf1 2 5) ex_end /\ run (start cf1 2 5) ex_end = Some s /\ (forall c, outstanding s c <= 5) /\ (forall a, internal a = true -> step s a = None) /\ collected s = [a1; b1; a2].
Proof.
  destruct (run (start cf1 2 5) ex_end) as [s|] eqn:R; [|vm_compute in R; discriminate]. exists s. split; [apply steadyb_ok; vm_compute; reflexivity|]. split; auto.
  assert (Q : option_map (fun s => (callers s, gs s, chans s, accepted s, collected s, comps s 0, comps s 1)) (Some s) = Some ([CIdle; CIdle], [GSel 0; GSel 0], [[]], [a1; a2; b1], [a1; b1; a2], [], [])) by (rewrite <- R; vm_compute; reflexivity).
  assert (Q2 : option_map (fun s => closed s) (Some s) = Some false) by (rewrite <- R; vm_compute; reflexivity).
  cbn in Q, Q2. injection Q as E1 E2 E3 E4 E5 E6 E7. injection Q2 as E8. split; [|split; auto].
  - intros c. unfold outstanding. rewrite E4, E5. unfold jn, jof. etransitivity; [apply Nat.le_sub_l|]. cbn. repeat case_match; cbn; lia.
  - clear R. intros a Ha. destruct a as [c j|c src|c|c|c|c|c|g|g|g|g|g|g|g|g|g|g|m|m|]; try discriminate Ha; unfold step.
    1-6: rewrite E1; destruct c as [|[|c]]; cbn [lookup list_lookup]; rewrite ?E6, ?E7; reflexivity.
    1-10: rewrite E2; destruct g as [|[|g]]; cbn [lookup list_lookup]; unfold current; rewrite ?E3, ?E8; reflexivity.
Qed.

(** C31, full claim: SetMaxConcurrentKeys never loses a scheduled job. Not so: lowering and then raising the limit to less than
    the number of waiting workers leaves a worker behind in the replaced channel; its job is never started, whatever happens. *)
Definition k0 := mkJ 0 0 0. Definition k1 := mkJ 1 0 0. Definition k2 := mkJ 2 0 0.
Definition lose : list action := [ASchedule 0 k0; AGrab 0 None; AEnq 0; ASchedule 0 k1; AGrab 0 None; AEnq 0; ASchedule 0 k2; AGrab 0 None; AEnq 0; ASetMax 1; ASetMax 2].
Theorem c31_lost_refuted :
  exists s, run (start (mkC 1 2 3) 1 9) lose = Some s /\ k2 ∈ inserted s /\ forall more s', run s more = Some s' -> jof (keyis 2) (started s') = [].
Proof.
  destruct (run (start (mkC 1 2 3) 1 9) lose) as [s|] eqn:R; [|vm_compute in R; discriminate]. exists s.
  assert (Q : option_map (fun s => (inserted s, started s, gs s, chans s, wmap s)) (Some s) = Some ([k0; k1; k2], [], [GLoop], [[2]; [0; 1]], [(2, 2); (1, 1); (0, 0)])) by (rewrite <- R; vm_compute; reflexivity).
  cbn in Q. injection Q as E1 E2 E3 E4 E5. split; auto. rewrite E1. split; [do 2 right; left|]. intros more s' H. rewrite (run_lost 2 2 more s s'); auto; [rewrite E2; reflexivity|eapply run_inv; eauto; apply start_inv|].
  clear R. split; [rewrite E5; left|]. exists 0, [2]. unfold current. rewrite E3, E4. cbn. split; [reflexivity|]. split; [left|]. split; [lia|]. intros [|g] H1; [discriminate|destruct g; discriminate].
Qed.
Print Assumptions c31_lost_refuted.
(** what holds: if the limit is only ever raised to at least the number of active keys, every active key's worker stays in
    exactly one place where it is worked on, and the send of a worker never blocks *)
Theorem c31_kept_partial :
  forall cf n cc acts s, good (start cf n cc) acts -> run (start cf n cc) acts = Some s ->
  (forall k w, (k, w) ∈ wmap s -> here w s = 1) /\ (forall w, 0 < lsum (ctok w) (callers s) + lsum (gtok w) (gs s) -> exists s', sendWorker w s = Some s').
Proof. exact here_once. Qed.
Print Assumptions c31_kept_partial.
Example c31_example : good (start (mkC 1 2 3) 1 9) [ASchedule 0 k0; AGrab 0 None; AEnq 0; ASetMax 1; ASetMax 2; ASetMax 7] /\
  option_map chans (run (start (mkC 1 2 3) 1 9) [ASchedule 0 k0; AGrab 0 None; AEnq 0; ASetMax 1; ASetMax 2; ASetMax 7]) = Some [[]; []; [0]].
Proof. split; [cbn; repeat split; lia|reflexivity]. Qed.

(** C32, full claim: Schedule never answers Complete for a job that will not be processed. Not so: once the run status has ended
    it answers Complete, and nothing is ever started again. *)
Theorem c32_complete_unprocessed_refuted :
  exists s, run (start (mkC 1 2 3) 1 9) [AClose; ASchedule 0 k0] = Some s /\ completed s = [k0] /\ forall more s', run s more = Some s' -> started s' = [].
Proof.
  eexists. split; [vm_compute; reflexivity|]. split; [reflexivity|]. intros more s' H. match type of H with run ?s _ = _ => rewrite (run_closed more s s' eq_refl H) end. reflexivity.
Qed.
Print Assumptions c32_complete_unprocessed_refuted.
(** generally: after the end of the run status nothing is started *)
Theorem c32_closed_starts_nothing_refuted :
  forall cf n cc acts s, run (start cf n cc) acts = Some s -> closed s = true -> forall more s', run s more = Some s' -> started s' = started s.
Proof. intros cf n cc acts s _ C more s' H. exact (run_closed more s s' C H). Qed.
Print Assumptions c32_closed_starts_nothing_refuted.
(** what holds: before that, it never answers Complete *)
Theorem c32_open_partial :
  forall cf n cc acts s, run (start cf n cc) acts = Some s -> closed s = false -> completed s = [].
Proof. intros cf n cc acts s H. eapply run_completed; [|exact H]. intros _. reflexivity. Qed.
Print Assumptions c32_open_partial.

(** C33, full claim: no deadlock between a partition worker and the scheduler. Not so, for every configuration and every size of the
    completion channel: the worker is in Schedule waiting for room in a key's queue, and the goroutine of that key waits for the worker
    to take completions; nothing but the end of the run status changes that. *)
Theorem c33_deadlock_refuted :
  forall cf n cc, 1 <= Concurrency cf -> 1 <= n -> exists acts s, run (start cf n cc) acts = Some s /\ Forall (fun a => a <> AClose) acts /\
  forall more s', Forall (fun a => a <> AClose) more -> run s more = Some s' ->
    exists w j g j', callers s' !! 0 = Some (CBlock w j) /\ gs s' !! g = Some (GDeliver w j') /\ jcaller j' = 0.
Proof. exact deadlock_for_good. Qed.
Print Assumptions c33_deadlock_refuted.
(** what holds: a goroutine never blocks on the completion channel of a caller that has at most as many jobs outstanding as the
    channel holds *)
Theorem c33_room_partial :
  forall cf n cc acts s g w j, run (start cf n cc) acts = Some s -> gs s !! g = Some (GDeliver w j) -> outstanding s (jcaller j) <= cc -> exists s', step s (GComplete g) = Some s'.
Proof.
  intros cf n cc acts s g w j R E O. pose proof (run_sizes _ _ _ R) as (_ & _ & Cc). unfold start in Cc. cbn in Cc. rewrite <- Cc in O.
  pose proof (deliver_room s g w j (run_inv _ _ _ (start_inv cf n cc) R) (runD _ _ _ (start_inv cf n cc) (startD cf n cc) R) E O) as L. cbn [step]. rewrite E.
  destruct (Nat.ltb_spec (length (comps s (jcaller j))) (ccap s)); [eauto|lia].
Qed.
Print Assumptions c33_room_partial.
Example c33_example : option_map (fun s => (gs s, outstanding s 0)) (run (start cf1 2 5) (firstn 16 ex_acts)) = Some ([GDeliver 0 a1; GRun 1 b1], 2).
Proof. vm_compute. reflexivity. Qed.
