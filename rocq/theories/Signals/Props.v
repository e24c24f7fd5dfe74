(** * WaitForSignals (C112, C113) *)
From stdpp Require Import prelude list.
From Coq Require Import Lia.
From Verif.Signals Require Import Model Proofs.
Open Scope nat_scope.

(** the hook of the example in the documentation: syscall.SIGUSR1 (10) does not close *)
Definition usr1 : option (nat -> bool) := Some (fun x => negb (Nat.eqb x 10)).
Definition ex_close : list action := [Arrive 10; Arrive 15; Step; Arrive 2; Step; Step; Step; Step; Step; SourceDone; Step].

(** What the documentation says, apart from the model: SIGINT and SIGHUP are wanted if no signals are given; a nil hook accepts every signal. *)
Definition wants (signals : list nat) (x : nat) : Prop := (signals = [] /\ (x = 2 \/ x = 1)) \/ x ∈ signals.
Definition accepts (preHook : option (nat -> bool)) (x : nat) (b : bool) : Prop := match preHook with Some h => h x = b | None => b = true end.
#[local] Instance wants_dec signals x : Decision (wants signals x). Proof. unfold wants. apply _. Defined.
Lemma wants_ok signals x : wants signals x <-> x ∈ wanted signals.
Proof. unfold wants, wanted. destruct signals; set_solver. Qed.
Lemma accepts_ok preHook x b : accepts preHook x b <-> b = hook preHook x.
Proof. unfold accepts, hook. destruct preHook; intuition. Qed.

(** the hook is called for signals that have arrived and are wanted, in the order of their arrival and not more often *)
Theorem c112_hook_calls_are_arrivals : forall preHook signals acts s, run preHook signals init acts = Some s ->
  hooks (trace s) `sublist_of` List.filter (fun x => bool_decide (wants signals x)) (sigs (trace s)).
Proof.
  intros preHook signals acts s R. pose proof (hooks_in_order _ _ _ _ R) as H. erewrite List.filter_ext; [exact H|]. intros x. apply bool_decide_ext, wants_ok.
Qed.
Print Assumptions c112_hook_calls_are_arrivals.
(** a return follows its call, without another call in between *)
Theorem c112_one_hook_at_a_time : forall preHook signals acts s t1 x b t2, run preHook signals init acts = Some s -> trace s = t1 ++ EvRet x b :: t2 ->
  accepts preHook x b /\ (exists u v, t1 = u ++ EvHook x :: v /\ (forall y, EvHook y ∉ v) /\ forall y c, EvRet y c ∉ v).
Proof. intros preHook signals acts s t1 x b t2 R T. rewrite accepts_ok. exact (hook_returns _ _ _ _ _ _ _ _ R T). Qed.
Print Assumptions c112_one_hook_at_a_time.
(** Stop is called only after the hook has accepted a signal, once, and the hook is not called afterwards *)
Theorem c112_stop_after_acceptance : forall preHook signals acts s t1 t2, run preHook signals init acts = Some s -> trace s = t1 ++ EvStop :: t2 ->
  (exists x, EvRet x true ∈ t1) /\ EvStop ∉ t1 /\ EvStop ∉ t2 /\ (forall x, EvHook x ∉ t2).
Proof. exact stop_after_acceptance. Qed.
Print Assumptions c112_stop_after_acceptance.
(** the call returns only after Stop has been called and Done has had a value *)
Theorem c112_return_after_stop : forall preHook signals acts s t1 t2, run preHook signals init acts = Some s -> trace s = t1 ++ EvReturn :: t2 -> EvStop ∈ t1 /\ EvDone ∈ t1.
Proof. exact return_after_stop. Qed.
Print Assumptions c112_return_after_stop.
Example c112_ex : (trace <$> run usr1 [2; 1; 10] init ex_close) = Some [EvSig 10; EvSig 15; EvHook 10; EvSig 2; EvRet 10 false; EvHook 2; EvRet 2 true; EvStop; EvDone; EvReturn]
  /\ (trace <$> run None [] init [Arrive 10; Arrive 1; Step; Step; Step; Step]) = Some [EvSig 10; EvSig 1; EvHook 1; EvRet 1 true; EvStop].
Proof. vm_compute. auto. Qed.

(** A signal that the hook would accept need not close the source: while the hook is at work for one signal and another waits, it is lost. *)
Definition ex_lost : list action := [Arrive 10; Step; Arrive 10; Arrive 2; Step; Step; Step].
Theorem c113_every_accepted_signal_closes_refuted : exists acts s, run usr1 [2; 1; 10] init acts = Some s /\ EvSig 2 ∈ trace s /\ accepts usr1 2 true /\ wants [2; 1; 10] 2 /\
  forall l s', (forall x, Arrive x ∉ l) -> run usr1 [2; 1; 10] s l = Some s' -> EvStop ∉ trace s'.
Proof.
  exists ex_lost. eexists. split; [vm_compute; reflexivity|]. split_and!; [set_solver|reflexivity|right; set_solver|].
  assert (K : forall l s s', at_ s = Receive -> buf s = [] -> EvStop ∉ trace s -> (forall x, Arrive x ∉ l) -> run usr1 [2; 1; 10] s l = Some s' -> EvStop ∉ trace s').
  { induction l as [|a l IH]; intros s s' A B N P R; [injection R as <-; exact N|]. cbn [run] in R. destruct a as [x| |]; [destruct (P x); left|..].
    - cbn [step] in R. rewrite A, B in R. discriminate R.
    - cbn [step] in R. destruct (done s); [discriminate|]. eapply IH; [| | | |exact R]; auto; cbn; [set_solver|intros x H; apply (P x); right; exact H]. }
  intros l s' P R. eapply K; [| | | |exact R]; auto. set_solver.
Qed.
Print Assumptions c113_every_accepted_signal_closes_refuted.
(** no wanted signal since the hook was called last *)
Definition calm (signals : list nat) (t : list ev) : bool := fold_left (fun q e => match e with EvHook _ => true | EvSig x => q && negb (bool_decide (wants signals x)) | _ => q end) t true.
Lemma calm_ok signals t : calm signals t = quiet signals t.
Proof.
  unfold calm, quiet. enough (K : forall q, fold_left (fun q e => match e with EvHook _ => true | EvSig x => q && negb (bool_decide (wants signals x)) | _ => q end) t q =
    fold_left (fun q e => match e with EvHook _ => true | EvSig x => q && negb (bool_decide (x ∈ wanted signals)) | _ => q end) t q) by apply K.
  induction t as [|e t IH]; intros q; [reflexivity|]. cbn [fold_left]. rewrite IH. destruct e; try reflexivity. rewrite (bool_decide_ext _ _ (wants_ok signals x)). reflexivity.
Qed.
(** A wanted signal that the hook accepts and that arrives when no other wanted signal has arrived since the hook was called last (or since the start) closes the source:
    the call can make only a bounded number of steps, and where it can make none Stop has been called.  Missing: signals that arrive while another one waits. *)
Theorem c113_every_accepted_signal_closes_partial : forall preHook signals l1 x l2 s1 s, run preHook signals init l1 = Some s1 -> calm signals (trace s1) = true -> run preHook signals s1 (Arrive x :: l2) = Some s ->
  wants signals x -> accepts preHook x true ->
  (exists b, forall n s', run preHook signals s (repeat Step n) = Some s' -> n <= b) /\
  (forall n s', run preHook signals s (repeat Step n) = Some s' -> step preHook signals s' Step = None -> EvStop ∈ trace s').
Proof. intros preHook signals l1 x l2 s1 s R Q A W H. rewrite calm_ok in Q. apply wants_ok in W. apply accepts_ok in H. exact (closes _ _ _ _ _ _ _ R Q A W (eq_sym H)). Qed.
Print Assumptions c113_every_accepted_signal_closes_partial.
Example c113_ex : exists s1 s s', run usr1 [2; 1; 10] init [Arrive 10; Step; Arrive 15] = Some s1 /\ calm [2; 1; 10] (trace s1) = true /\ run usr1 [2; 1; 10] s1 [Arrive 2; Arrive 10] = Some s
  /\ run usr1 [2; 1; 10] s (repeat Step 5) = Some s' /\ step usr1 [2; 1; 10] s' Step = None /\ EvStop ∈ trace s'.
Proof. do 3 eexists. split; [vm_compute; reflexivity|]. split; [vm_compute; reflexivity|]. split; [vm_compute; reflexivity|]. split; [vm_compute; reflexivity|]. split; [reflexivity|]. cbn. set_solver. Qed.
