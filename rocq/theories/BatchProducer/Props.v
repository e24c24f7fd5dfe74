(** C62: BatchProducer. *)
From Coq Require Import List ZArith Bool Arith Lia.
From Verif.BatchProducer Require Import Model Proofs.
Import ListNotations.
Open Scope nat_scope.

(** C62 (partial: at least one record, and a callback): in every order of answers the callback is scheduled at most once, and
    exactly when every record has its answer; each record then carries its own answer; and from every state all answers can
    still come in *)
Theorem c62_callback_once_partial :
  forall n acts s, 0 < n -> run (Produce n true) acts = Some s ->
  jobs s <= 1 /\ (jobs s = 1 <-> forall i, i < n -> errs s i <> None).
Proof. exact callback_once. Qed.
Print Assumptions c62_callback_once_partial.
Theorem c62_errors_are_stored :
  forall n cb acts s, run (Produce n cb) acts = Some s -> forall i e, In (AAnswer i e) acts -> errs s i = Some e.
Proof. exact answers. Qed.
Print Assumptions c62_errors_are_stored.
Theorem c62_can_finish :
  forall n cb acts s, run (Produce n cb) acts = Some s -> exists acts' s', run s acts' = Some s' /\ forall i, i < n -> errs s' i <> None.
Proof. exact finishes. Qed.
Print Assumptions c62_can_finish.
Definition ex_acts := [AHand; AHand; AAnswer 1 (Some 7); AHand; AAnswer 2 None; AAnswer 0 None].
Example c62_example : option_map (fun s => (jobs s, map (errs s) [0; 1; 2])) (run (Produce 3 true) ex_acts) = Some (1, [Some None; Some (Some 7); Some None]) /\
  option_map jobs (run (Produce 3 true) (firstn 5 ex_acts)) = Some 0.
Proof. split; reflexivity. Qed.

(** C62 refuted without records or without a callback: nothing is ever scheduled, while Produce has answered Incomplete, so the
    event never completes *)
Theorem c62_no_records_or_no_callback_refuted :
  forall n cb acts s, n = 0 \/ cb = false -> run (Produce n cb) acts = Some s -> jobs s = 0.
Proof. exact never. Qed.
Print Assumptions c62_no_records_or_no_callback_refuted.
Example c62_refuted_example : option_map jobs (run (Produce 2 false) [AHand; AHand; AAnswer 0 None; AAnswer 1 None]) = Some 0.
Proof. reflexivity. Qed.
