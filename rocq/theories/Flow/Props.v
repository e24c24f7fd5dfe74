(** C92: workers and the producer pool never block each other *)
From stdpp Require Import prelude list.
From Verif.Flow Require Import Model Proofs Progress Order Jam.
Open Scope nat_scope.

(** Without interjections: once no more events arrive, only boundedly many steps can be taken that are not due to the flush timer, and as long as some event is not committed, a
    step that is not due to the timer is at most two steps of the timer away. *)
Theorem c92_live_partial : forall c n l s, valid c -> Forall noij l -> run c (start c n) l = Some s ->
  exists b, forall l' s', Forall noArrive l' -> run c s l' = Some s' ->
    length (List.filter useful l') <= b /\
    ((forall e, e ∈ accepted 0 l -> e ∈ committed s') \/ exists l2 s2, Forall noArrive l2 /\ length l2 <= 3 /\ existsb useful l2 = true /\ run c s' l2 = Some s2).
Proof.
  intros c n l s V N R. assert (I : inv c (start c n)) by (apply start_inv, V). pose proof (run_inv _ _ _ _ I N R) as I1. exists (mu s). intros l' s' N' R'. split; [pose proof (run_mu _ _ _ _ I1 N' R'); lia|].
  assert (I2 : inv c s') by (eapply run_inv; [exact I1|eapply Forall_impl; [exact N'|apply noArrive_noij]|exact R']). destruct (progress c s' V I2) as [G|G]; [auto|]. left. intros e E. apply G, (still_accepted _ _ _ _ _ _ _ R N' R'), E.
Qed.
Print Assumptions c92_live_partial.

(** and so from every state all events that have arrived can be brought to be committed *)
Theorem c92_drain_partial : forall c n l s, valid c -> Forall noij l -> run c (start c n) l = Some s ->
  exists l' s', Forall noArrive l' /\ run c s l' = Some s' /\ forall e, e ∈ accepted 0 l -> e ∈ committed s'.
Proof.
  intros c n l s V N R. destruct (drain c s V) as (l' & s' & F & R' & G); [eapply run_inv; [apply start_inv, V|exact N|exact R]|].
  exists l', s'. split; [exact F|]. split; [exact R'|]. intros e E. apply G, (still_accepted _ _ _ _ _ _ _ R F R'), E.
Qed.
Print Assumptions c92_drain_partial.
(** What is committed, with interjections too: of each partition the first ones of those it accepted, in that order, and each once; nothing else. *)
Theorem c92_commits_in_order : forall c n l s i, run c (start c n) l = Some s -> (forall e, e ∈ committed s -> e_w e < n /\ e ∈ done s) /\
  exists rest, List.filter (fun e => e_w e =? i) (accepted 0 l) = List.filter (fun e => e_w e =? i) (committed s) ++ rest.
Proof.
  intros c n l s i R. destruct (commits_in_order _ _ _ _ i R) as [A B]. split; [|exact B]. intros e E. split; [exact (A e E)|exact (committed_done _ _ _ _ R e E)].
Qed.
Print Assumptions c92_commits_in_order.
(** the events that are told apart by their numbers *)
Example c92_accepted : accepted 0 [Arrive 0 false; Tok 0; Arrive 1 true; Put 0; Arrive 1 false] = [mkEc 0 0 false; mkEc 1 1 true; mkEc 2 1 false].
Proof. reflexivity. Qed.

(** With interjections: in every configuration two partitions are enough to reach a state from which, whatever happens, an event that has arrived is never completed. *)
Theorem c92_refuted : forall c, valid c -> 2 <= maxPending c ->
  exists l s e, run c (start c 2) l = Some s /\ e ∈ accepted 0 l /\ e_ij e = false /\ forall l' s', run c s l' = Some s' -> e ∉ done s'.
Proof. intros c V M. destruct (jam_reachable c V M) as (l & s & R & A & J). exists l, s, ev0. split; [exact R|]. split; [by apply (in_accepted _ _ _ _ _ R)|]. split; [done|]. intros l' s'. by apply jam_run. Qed.
Print Assumptions c92_refuted.

(** the default configuration (eos_config.go:99-110) *)
Definition cDef : cfg := mkCfg 3 1 (10 * 100) (100 * 100) 1024 (10 * 100) (100 * 300).
Example ex_c92_default : valid cDef /\ 2 <= maxPending cDef.
Proof. unfold valid. cbn [poolSize pendingTxn target maxBatch bufCap evCap maxPending cDef]. lia. Qed.

(** a small configuration: the second event waits for a producer, the third is on its way *)
Definition cS : cfg := mkCfg 1 1 1 2 1024 1 2.
Definition sS : option st := Eval vm_compute in run cS (start cS 2) [Arrive 0 false; Tok 0; Put 0; Send 0; FTake; FTry 0; FDo 0; Arrive 0 false; Tok 0; Put 0; KStart; Arrive 1 false; WEv 0; WGo 0; WAsync 0; Send 0; WEv 0; Arrive 0 false].
Example ex_c92_waiting : exists s, sS = Some s /\ length (arrived s) = 4 /\ committed s = [] /\ map cur (ws s) = [CWait (mkEc 1 0 false); CIdle] /\ given s = [mkEc 0 0 false] /\ step cS s FSwap = None /\ step cS s (Tok 0) = None /\ step cS s KEnd = None.
Proof. eexists. split; [reflexivity|]. vm_compute. done. Qed.
Example ex_c92_drained : exists s s', sS = Some s /\ run cS s [WJob 0 (mkEc 0 0 false); KEnd; FSwap; FTake; FTry 1; FDo 1; KStart; WGo 0; WSync 0; KEnd; FSwap; Tok 0; Tok 1; Put 1; Put 0; Send 0; Send 1; FTake; FTry 1; FDo 1; WEv 1; WGo 1; WSync 1; KStart; KEnd; FSwap; FTake; FTry 0; FDo 0; KStart; WEv 0; WGo 0; WSync 0; KEnd] = Some s' /\ length (committed s') = 4.
Proof. eexists _, _. split; [reflexivity|]. split; vm_compute; reflexivity. Qed.
(** the deadlock in this configuration: the interjection of partition 0 is taken before its event *)
Example ex_c92_jam : exists s, run cS (start cS 2) [Arrive 0 false; Tok 0; Put 0; Send 0; FTake; FTry 0; FDo 0; KStart; Arrive 0 true; Tok 0; Put 0; Send 0; WIj 0] = Some s
  /\ map evIn (ws s) = [[mkEc 0 0 false]; []] /\ map cur (ws s) = [CWait (mkEc 1 0 true); CIdle] /\ kp s = Some [mkEc 0 0 false] /\ buffer s = [mkEc 1 0 true] /\ fp s = FPop /\ free s = 0.
Proof. eexists. split; [vm_compute; reflexivity|]. vm_compute. done. Qed.
