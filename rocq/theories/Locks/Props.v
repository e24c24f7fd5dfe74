(** C91 *)
From stdpp Require Import prelude list.
From Verif.Locks Require Import Model Proofs.
Open Scope nat_scope.

(** C91, with two conditions: no callback calls Interject, and no member is told to forget a partition. Whatever functions run at the same time, however
    often, in any interleaving: unless all have ended, some goroutine can go on; the number of steps is bounded; so all of them can end. *)
Definition never_deadlock (s : list thread) : Prop :=
  forall l s1, run s l = Some s1 ->
    ((forall i, step s1 i = None) -> forall t, t ∈ s1 -> todo t = [] /\ held t = []) /\
    (exists l2 s2, run s1 l2 = Some s2 /\ forall t, t ∈ s2 -> todo t = []) /\
    length l <= list_sum (map (fun t => length (todo t)) s).
Lemma never C s : (forall s, inv C s -> stuck s -> forall t, t ∈ s -> todo t = []) -> inv C s -> never_deadlock s.
Proof.
  intros F I l s1 R. pose proof (inv_run _ _ _ _ I R) as I1. split; [|split; [exact (finishes C s1 F I1)|pose proof (run_bounded _ _ _ R); unfold size in *; lia]].
  intros S t T. pose proof (F _ I1 S t T) as D. split; [exact D|]. apply elem_of_list_lookup in T as [i T]. pose proof (i_wf _ _ I1 _ _ T) as W. by rewrite D in W.
Qed.
Theorem c91_no_deadlock_partial : forall ks,
  (forall k, k ∈ ks -> match k with Assign _ n | Revoke _ n => n = 0 | Parse forget => forget = [] | _ => True end) ->
  never_deadlock (begin false ks).
Proof.
  intros ks H. apply (never ordered); [exact ordered_free|]. apply inv_tasks. intros k K. specialize (H k K). apply ordered_program; destruct k; cbn; auto.
Qed.
(** C91, with other conditions: no callback calls Interject, and the kafka client makes the calls of ParseSyncAssignment, assignPartitions and
    revokePartitions one after the other *)
Theorem c91_serial_partial : forall ks,
  (forall k, k ∈ ks -> match k with Assign _ n | Revoke _ n => n = 0 | _ => True end) ->
  never_deadlock (begin true ks).
Proof.
  intros ks H. apply (never gated); [exact gated_free|]. apply inv_tasks. intros k K. specialize (H k K). apply gated_program; destruct k; cbn; auto.
Qed.
(** C91 does not hold if ParseSyncAssignment and assignPartitions can overlap: the one holds statusLock and waits for preppingMux, the other the reverse *)
Theorem c91_overlap_refuted : exists ks l s, Forall (fun k => calls k = 0) ks /\ run (begin false ks) l = Some s /\ (forall i, step s i = None) /\ Forall (fun t => todo t <> []) s /\ length s = 2.
Proof.
  exists [Assign [] 0; Parse [true]], [0; 0; 1]. eexists. split; [by repeat constructor|]. split; [vm_compute; reflexivity|]. split; [|split; [repeat constructor; discriminate|reflexivity]].
  intros [|[|i]]; reflexivity.
Qed.
(** nor if a callback for an assigned or a revoked partition calls Interject: that call never ends, whatever else happens *)
Theorem c91_callback_refuted : forall serial ks i k l s,
  ks !! i = Some k -> (match k with Assign _ n | Revoke _ n => n | _ => 0 end) > 0 ->
  run (begin serial ks) l = Some s ->
  exists t, s !! i = Some t /\ todo t <> [].
Proof. intros serial ks i k l s K N R. exact (self_calls serial ks i k l s K N R). Qed.

(** an assignment, a revocation, a forget, records and interjections at the same time *)
Example c91_ex1 : exists l s, run (begin true [Assign [true; false] 0; Revoke 2 0; Parse [true; false]; Receive; InterjectAll 3; Prepare false; Prepared; StopStores]) l = Some s
  /\ Forall (fun t => todo t = []) s.
Proof.
  exists (repeat 0 14 ++ repeat 1 8 ++ repeat 2 10 ++ repeat 3 2 ++ repeat 4 8 ++ repeat 5 6 ++ repeat 6 2 ++ repeat 7 2). eexists. split; [vm_compute; reflexivity|]. repeat constructor.
Qed.
(** Receive cannot go on while the partition is being assigned *)
Example c91_ex2 : exists s, run (begin false [Assign [true; false] 0; Receive]) [0] = Some s /\ step s 1 = None.
Proof. eexists. split; [vm_compute; reflexivity|reflexivity]. Qed.
(** a callback that calls Interject, on its own: it stops with both mutexes held *)
Example c91_ex3 : exists s t, run (begin false [Assign [false] 1; Receive]) (repeat 0 8) = Some s /\ (forall i, step s i = None) /\ s !! 0 = Some t /\ held t = [Prep; Worker].
Proof. eexists. eexists. split; [vm_compute; reflexivity|]. split; [intros [|[|i]]; reflexivity|]. split; reflexivity. Qed.

Print Assumptions c91_no_deadlock_partial.
Print Assumptions c91_serial_partial.
Print Assumptions c91_overlap_refuted.
Print Assumptions c91_callback_refuted.
