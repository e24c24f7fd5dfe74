(** Property C59. *)
From Coq Require Import List Bool Arith.
From Verif.RunStatus Require Import Model Proofs.
Import ListNotations.

(** C59: after any program of New, Fork, WithValue and Halt calls a status is stopped exactly if it or a
    status it descends from was halted, where WithValue shares the fate of its receiver in both directions *)
Theorem c59_running_iff_no_ancestor_halted :
  forall os w i r, run world0 os = Some w -> nth_error (w_rs w) i = Some r ->
  (Running (w_ctxs w) r = false <-> stopped (fst (spec_of [] [] os)) (snd (spec_of [] [] os)) i).
Proof. exact running_ok. Qed.
Print Assumptions c59_running_iff_no_ancestor_halted.

(** halting never stops anything that is not below the halted status (in particular no parent, no sibling) *)
Theorem c59_halt_is_local :
  forall os h w w' i r, run world0 os = Some w -> step w (OHalt h) = Some w' ->
  nth_error (w_rs w) i = Some r -> Running (w_ctxs w) r = true ->
  ~ below (fst (spec_of [] [] os)) h i -> Running (w_ctxs w') r = true.
Proof. exact halt_local. Qed.
Print Assumptions c59_halt_is_local.

(** 0 root; 1,2 forks of 0; 3 = 1.WithValue; 4 fork of 3.  Halting 3 stops 1, 3, 4; halting 0 stops all *)
Definition ex_prog : list op := [ONew; OFork 0; OFork 0; OWithValue 1; OFork 3].
Definition states (os : list op) : option (list bool) :=
  option_map (fun w => map (Running (w_ctxs w)) (w_rs w)) (run world0 os).
Example c59_example :
  states ex_prog = Some [true; true; true; true; true] /\
  states (ex_prog ++ [OHalt 3]) = Some [true; false; true; false; false] /\
  states (ex_prog ++ [OHalt 2]) = Some [true; true; false; true; true] /\
  states (ex_prog ++ [OHalt 0; OFork 4]) = Some [false; false; false; false; false; false].
Proof. repeat split; vm_compute; reflexivity. Qed.
Example c59_local_example : ~ below (fst (spec_of [] [] ex_prog)) 4 1.
Proof.
  assert (H : forall i, below (fst (spec_of [] [] ex_prog)) 4 i -> i = 4).
  { intros i B. induction B as [|i p En B IH|i p En B IH|i p En B IH]; auto; subst.
    - destruct i as [|[|[|[|[|[|]]]]]]; cbn in *; discriminate.
    - destruct i as [|[|[|[|[|[|]]]]]]; cbn in *; discriminate.
    - discriminate. }
  intros B. apply H in B. discriminate.
Qed.
