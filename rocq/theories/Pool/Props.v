(** Property C58. *)
From Coq Require Import ZArith List Bool Arith Strings.String.
From Verif.Record Require Import Model.
From Verif.Pool Require Import Model Proofs.
Import ListNotations.
Open Scope nat_scope.

(** C58, capacity: whatever callers do, even releasing the same record twice *)
Theorem c58_capacity :
  forall size acts rs w, run (world0 size) acts = Some (rs, w) -> List.length (freelist (w_pool w)) <= size.
Proof. exact (fun size acts rs w => capacity_any size acts (world0 size) eq_refl (Nat.le_0_l size) rs w). Qed.
Print Assumptions c58_capacity.

(** C58, reuse: if records are touched and released only while held (held: from the NewRecord that returned them to their
    release), NewRecord returns a record nobody holds, and it is blank *)
Theorem c58_new_record_unshared_and_blank_partial :
  forall size acts rs w w' r,
  run (world0 size) acts = Some (rs, w) -> careful [] acts rs -> step w ANew = Some (w', r) ->
  exists p s, r = Some p /\ ~ In p (holding [] acts rs) /\ nth_error (w_mem w') p = Some s /\ blank s.
Proof. exact new_ok. Qed.
Print Assumptions c58_new_record_unshared_and_blank_partial.
(** and a held record changes only by what is done to it: not by calls of NewRecord, nor by what happens to other records *)
Theorem c58_held_records_untouched_partial :
  forall size acts rs w a w' r q,
  run (world0 size) acts = Some (rs, w) -> careful [] acts rs -> In q (holding [] acts rs) ->
  step w a = Some (w', r) -> a <> ARelease q -> (forall s, a <> AMutate q s) ->
  nth_error (w_mem w') q = nth_error (w_mem w) q.
Proof. exact untouched. Qed.
Print Assumptions c58_held_records_untouched_partial.
(** the pool does pool: with room in it, the record released last is the one NewRecord returns *)
Theorem c58_released_is_reused :
  forall size acts rs w p w' r, run (world0 size) acts = Some (rs, w) -> step w (ARelease p) = Some (w', r) ->
  List.length (freelist (w_pool w)) < size -> option_map snd (step w' ANew) = Some (Some p).
Proof. exact reused. Qed.
Print Assumptions c58_released_is_reused.

Definition dirty : recState :=
  mkRS (mkRecord (str "k") (str "v") (mkKRecord (str "k") None [] (str "t") 3 9) (str "ty")) (Some 1).
Definition ex_acts : list action := [ANew; ANew; AMutate 0 dirty; ARelease 0; ARelease 1; ANew; ANew].
Example c58_example :
  option_map fst (run (world0 1) ex_acts) = Some [Some 0; Some 1; None; None; None; Some 0; Some 2] /\
  careful [] ex_acts [Some 0; Some 1; None; None; None; Some 0; Some 2] /\
  holding [] ex_acts [Some 0; Some 1; None; None; None; Some 0; Some 2] = [2; 0].
Proof. split; [reflexivity|]. split; [cbn; tauto|reflexivity]. Qed.

(** C58 is false without the discipline: after a double release two callers get the same record, and neither has released it *)
Theorem c58_double_release_refuted :
  exists acts p, option_map fst (run (world0 5) (acts ++ [ANew; ANew])) = Some [Some p; None; None; Some p; Some p].
Proof. exists [ANew; ARelease 0; ARelease 0], 0. reflexivity. Qed.
Print Assumptions c58_double_release_refuted.
(** nor is the record blank if somebody goes on writing to it after the release *)
Theorem c58_use_after_release_refuted :
  exists acts p w, run (world0 5) (acts ++ [ANew]) = Some ([Some p; None; None; Some p], w) /\
    exists s, nth_error (w_mem w) p = Some s /\ ~ blank s.
Proof.
  exists [ANew; ARelease 0; AMutate 0 dirty], 0. eexists. split; [reflexivity|]. eexists. split; [reflexivity|].
  intros (H & _). discriminate.
Qed.
Print Assumptions c58_use_after_release_refuted.
