(** C63, C64, C65: interjections. *)
From Coq Require Import List Bool Arith ZArith Lia.
From Verif.Base Require Import GoInt.
From Verif.Interject Require Import Jitter JitterProofs Model Proofs.
Import ListNotations.
Open Scope nat_scope.

(** C65: the delay stays within the jitter, for every interval, jitter (of either sign) and random draw. Only intervals whose
    bounds do not fit the 64-bit duration type are excluded. *)
Theorem c65_jitter_bounds :
  forall every jitter k up, (0 <= k < 2 ^ 53)%Z ->
  in_int64 (every - Z.abs jitter) -> in_int64 (every + Z.abs jitter) ->
  (every - Z.abs jitter <= timerDuration every jitter k up <= every + Z.abs jitter)%Z.
Proof. exact jitter_bounds. Qed.
Print Assumptions c65_jitter_bounds.
(** ten minutes with a jitter of one minute, in nanoseconds; and a jitter float64 cannot represent *)
Example c65_example :
  timerDuration 600000000000 60000000000 4503599627370496 true = 630000000000%Z /\
  timerDuration 600000000000 60000000000 9007199254740991 false = 540000000001%Z /\
  timerDuration 0 1152921504606847105 9007199254740991 true = 1152921504606846976%Z.
Proof. vm_compute. auto. Qed.

(** C63, never twice at once: once a run of an interjection has answered Incomplete, the interjection is not run again on this
    partition before that completion has been processed. (A synchronous run is one step.) *)
Theorem c63_never_twice_at_once :
  forall n acts s s1 i acts' s', run (start n) acts = Some s -> step s (AHandle true false) = Some s1 -> runs s1 = runs s ++ [i] ->
  run s1 acts' = Some s' -> ~ In (AAsync i) acts' -> cnt (runs s') i = cnt (runs s1) i.
Proof. exact never_twice. Qed.
Print Assumptions c63_never_twice_at_once.

(** C63, keeps firing (partial: only as long as every run completes synchronously): as long as the partition is
    assigned, each scheduled interjection can run again *)
Theorem c63_fires_again_partial :
  forall n acts s k, Forall syncAct acts -> run (start n) acts = Some s -> k < n ->
  exists acts' s', run s acts' = Some s' /\ cnt (runs s) (Sched k) < cnt (runs s') (Sched k) /\ Forall syncAct acts'.
Proof. intros n acts s k F R K. apply (sync_again n acts s k F R K). Qed.
Print Assumptions c63_fires_again_partial.
Definition ex_acts : list action :=
  [AFire (Sched 1); ASend (Sched 1); APush; AInterject; AHandle true true; APush; AFire (Sched 0); ASend (Sched 0); AHandle true true; APush].
Example c63_example : Forall syncAct ex_acts /\ option_map (fun s => (timers s, evq s, runs s, resolved s)) (run (start 2) ex_acts)
  = Some ([Sched 1], [Sched 0], [Sched 1; Once 0], [Once 0]).
Proof. split; [repeat constructor|vm_compute; reflexivity]. Qed.

(** C63 refuted for asynchronous completion: whenever a scheduled interjection has answered Incomplete, it never runs again on
    this partition, whatever happens next (only the synchronous path re-arms the timer) *)
Theorem c63_async_run_is_the_last_refuted :
  forall n acts s s1 k acts' s', run (start n) acts = Some s -> step s (AHandle true false) = Some s1 -> runs s1 = runs s ++ [Sched k] ->
  run s1 acts' = Some s' -> cnt (runs s') (Sched k) = cnt (runs s1) (Sched k).
Proof. exact async_is_last. Qed.
Print Assumptions c63_async_run_is_the_last_refuted.
Example c63_async_example : option_map (fun s => (timers s, pending s, runs s))
  (run (start 1) [AFire (Sched 0); ASend (Sched 0); APush; AHandle true false]) = Some ([], [Sched 0], [Sched 0]) /\
  option_map (fun s => (timers s, senders s, chan s, evq s, pending s, assigned s))
  (run (start 1) [AFire (Sched 0); ASend (Sched 0); APush; AHandle true false; AAsync (Sched 0)]) = Some ([], [], [], [], [], true).
Proof. split; vm_compute; reflexivity. Qed.

(** C64 (partial: without revocation). Every one-off interjection has reported back exactly once or can still do so; it never
    reports back twice, revocation or not *)
Theorem c64_reports_back_partial :
  forall n acts s k, ~ In ARevoke acts -> run (start n) acts = Some s -> k < calls acts ->
  cnt (resolved s) (Once k) = 1 \/
  (cnt (resolved s) (Once k) = 0 /\ exists acts' s', run s acts' = Some s' /\ cnt (resolved s') (Once k) = 1).
Proof. exact reports_back. Qed.
Print Assumptions c64_reports_back_partial.
Theorem c64_at_most_once : forall n acts s k, run (start n) acts = Some s -> cnt (resolved s) (Once k) <= 1.
Proof. exact at_most_once. Qed.
Print Assumptions c64_at_most_once.
Example c64_example : ~ In ARevoke [AInterject; APush; AInterject; AHandle true false] /\
  option_map (fun s => (chan s, resolved s, fresh s)) (run (start 0) [AInterject; APush; AInterject; AHandle true false]) = Some ([Once 1], [Once 0], 2).
Proof. split; [cbn; intuition discriminate|vm_compute; reflexivity]. Qed.

(** C64, a call after the partition has been revoked: answered at once (ErrPartitionNotAssigned), once, and not run *)
Theorem c64_unassigned_is_answered :
  forall n acts1 acts2 s1 s, run (start n) acts1 = Some s1 -> In ARevoke acts1 -> run s1 (AInterject :: acts2) = Some s ->
  cnt (resolved s) (Once (calls acts1)) = 1 /\ ~ In (Once (calls acts1)) (runs s).
Proof. exact unassigned_answered. Qed.
Print Assumptions c64_unassigned_is_answered.
Example c64_unassigned_example : option_map (fun s => (resolved s, runs s)) (run (start 0) [AInterject; APush; ARevoke; AInterject; AHandle true true])
  = Some ([Once 1; Once 0], [Once 0]) /\ calls [AInterject; APush; ARevoke] = 1.
Proof. vm_compute. auto. Qed.

(** C64 refuted with revocation, on two ways an accepted one-off can be dropped: taken by pushRecords after the
    revocation, and refused by the producer pool. The caller waits forever:
    in no continuation is the channel closed. *)
Lemma gone_forever k : forall acts s s', fresh s > k -> queued s (Once k) = 0 -> cnt (resolved s) (Once k) = 0 ->
  run s acts = Some s' -> cnt (resolved s') (Once k) = 0.
Proof.
  induction acts as [|a acts IH]; intros s s' F Q R E; cbn in E; [congruence|].
  destruct (step s a) as [s1|] eqn:E1; [|discriminate].
  assert (H : fresh s1 > k /\ queued s1 (Once k) = 0 /\ cnt (resolved s1) (Once k) = 0); [|destruct H as (? & ? & ?); eauto].
  destruct s as [ti se ch ev pe si ru re fr sc asg rv pu sp]. unfold queued in *. cbn [timers senders chan evq fresh resolved] in *.
  destruct a as [|x|x|x| | | |g sy|x|]; cbn [step] in E1.
  - destruct asg.
    + destruct (length ch <? 1); [|discriminate]. injection E1 as <-. cbn [timers senders chan evq fresh resolved]. counts.
      destruct (ij_eq_dec (Once fr) (Once k)) as [[= ->]|]; lia.
    + injection E1 as <-. cbn [timers senders chan evq fresh resolved]. counts. destruct (ij_eq_dec (Once fr) (Once k)) as [[= ->]|]; lia.
  - destruct (mem x ti) eqn:M; [|discriminate]. injection E1 as <-. cbn [timers senders chan evq fresh resolved]. counts.
    destruct (ij_eq_dec x (Once k)) as [->|]; lia.
  - destruct (mem x se) eqn:M; cbn [andb] in E1; [|discriminate]. destruct (length ch <? 1); [|discriminate]. injection E1 as <-.
    cbn [timers senders chan evq fresh resolved]. counts. destruct (ij_eq_dec x (Once k)) as [->|]; lia.
  - destruct (mem x se) eqn:M; cbn [andb] in E1; [|discriminate]. destruct (mem x si); [|discriminate]. injection E1 as <-.
    cbn [timers senders chan evq fresh resolved]. counts. lia.
  - destruct ch as [|y ch]; [discriminate|]. destruct pu; [|discriminate]. destruct rv; [|destruct (length ev <? 1); [|discriminate]];
      injection E1 as <-; cbn [timers senders chan evq fresh resolved]; counts; lia.
  - destruct pu, rv; try discriminate. injection E1 as <-. cbn. auto.
  - destruct pu, sp; try discriminate. injection E1 as <-. cbn [timers senders chan evq fresh resolved]. rewrite cnt_filter. cbn. lia.
  - destruct ev as [|y ev]; [discriminate|]. rewrite cnt_cons in Q. destruct (ij_eq_dec y (Once k)) as [->|N]; [lia|]. destruct g.
    + assert (cnt (if isOneOff y then re ++ [y] else re) (Once k) = 0).
      { destruct (isOneOff y); counts; destruct (ij_eq_dec y (Once k)); try congruence; lia. }
      assert (cnt (tick y ti) (Once k) = cnt ti (Once k)).
      { unfold tick. destruct (isOneOff y); counts; destruct (ij_eq_dec y (Once k)); try congruence; lia. }
      destruct sy; injection E1 as <-; cbn [timers senders chan evq fresh resolved]; lia.
    + destruct rv; [|discriminate]. injection E1 as <-. cbn [timers senders chan evq fresh resolved]. lia.
  - destruct (mem x pe); [|discriminate]. injection E1 as <-. cbn [timers senders chan evq fresh resolved]. auto.
  - injection E1 as <-. cbn. auto.
Qed.
Theorem c64_revoked_before_it_ran_refuted :
  forall acts, In acts [[AInterject; ARevoke; APush]; [AInterject; APush; ARevoke; AHandle false true]] ->
  exists s, run (start 0) acts = Some s /\ fresh s = 1 /\
    forall acts' s', run s acts' = Some s' -> cnt (resolved s') (Once 0) = 0.
Proof.
  intros acts [<-|[<-|[]]]; (eexists; split; [vm_compute; reflexivity|split; [reflexivity|]]);
    intros acts' s'; apply gone_forever; cbn; auto.
Qed.
Print Assumptions c64_revoked_before_it_ran_refuted.
