(** C29: the per-key queue. *)
From Coq Require Import List ZArith Arith Lia.
From Verif.ItemQueue Require Import Model Proofs.
Import ListNotations.

(** C29: any operations by any number of senders (waiting ones included) and receivers: what entered is what left followed by
    what is queued, in order; at most max(2, depth) are queued; done exactly when nothing is queued or waiting *)
Theorem c29_bounded_fifo :
  forall (T : Type) m os rs (s : st T), run (start m) os = Some (rs, s) ->
  entered s = left s ++ contents (q s) /\ length (contents (q s)) <= Nat.max 2 m /\ (done (q s) = true <-> contents (q s) = [] /\ waiting s = []).
Proof. exact (@fifo). Qed.
Print Assumptions c29_bounded_fifo.
(** and every answer is the one of a list queue of that size: an enqueue is refused exactly when full, a dequeue gives the oldest,
    a peek that gives an item gives the oldest *)
Theorem c29_answers :
  forall (T : Type) m os rs (s : st T) o r s', run (start m) os = Some (rs, s) -> step s o = Some (r, s') ->
  match o with
  | OEnqueue x => r = RBool (negb (Nat.eqb (length (contents (q s))) (Nat.max 2 m)))
  | ODequeue => r = RItem (hd_error (contents (q s)))
  | OPeek => exists p, r = RItem p /\ (p <> None -> p = hd_error (contents (q s)))
  | ODone => exists b, r = RBool b /\ (b = true <-> contents (q s) = [] /\ waiting s = [])
  | OSend i => exists x, nth_error (waiting s) i = Some x /\ entered s' = entered s ++ [x]
  end.
Proof. exact (@step_answers). Qed.
Print Assumptions c29_answers.
(** as long as no waiting sender has sent, peek gives the oldest item *)
Theorem c30_peek_sees_partial :
  forall (T : Type) m os rs (s : st T), run (start m) os = Some (rs, s) -> (forall i, ~ In (OSend i) os) -> peek (q s) = hd_error (contents (q s)).
Proof. intros T m os rs s. exact (peek_sees os m rs s). Qed.
Print Assumptions c30_peek_sees_partial.
Definition ex_ops : list (op nat) := [OEnqueue 1; OEnqueue 2; OEnqueue 3; ODone; ODequeue; OSend 0; ODequeue; ODequeue; ODone; ODequeue].
Example c29_example : option_map fst (run (start 2) ex_ops) =
  Some [RBool true; RBool true; RBool false; RBool false; RItem (Some 1); RBool true; RItem (Some 2); RItem (Some 3); RBool true; RItem None].
Proof. reflexivity. Qed.
(** but peek misses an item that a waiting sender put into the drained queue (the origin of C30) *)
Theorem c30_peek_misses_refuted :
  exists os rs (s : st nat), run (start 2) os = Some (rs, s) /\ contents (q s) = [3] /\ peek (q s) = None.
Proof.
  exists [OEnqueue 1; OEnqueue 2; OEnqueue 3; ODequeue; ODequeue; OSend 0], [RBool true; RBool true; RBool false; RItem (Some 1); RItem (Some 2); RBool true],
    (mkSt (mkQ 1 None [3] 1) [] [1; 2; 3] [1; 2]). split; [vm_compute; reflexivity|]. split; reflexivity.
Qed.
Print Assumptions c30_peek_misses_refuted.
