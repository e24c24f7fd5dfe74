(** Properties C10, C13, C73. *)
From Coq Require Import Strings.String Strings.Byte ZArith List Lia.
From Verif.Base Require Import Bytes.
From Verif.Record Require Import Model.
From Verif.Routing Require Import Model Spec Proofs.
Import ListNotations.
Open Scope nat_scope.

(** C10: a record goes to the first registration with its type and to no one else ... *)
Theorem c10_first_registered_handler_partial :
  forall H c d gs r i, first_match (map reg_type gs) (i_recordType r) i ->
  exists g, nth_error gs i = Some g /\
  (reg_decode g r = true -> reg_proc g r <> unknownType ->
     handleEvent H (setup c d gs) r = ([Processed i], Returns (reg_proc g r))).
Proof. exact route_first. Qed.
Print Assumptions c10_first_registered_handler_partial.

(** ... and if there is none, to the default processor and to no one else. *)
Theorem c10_default_otherwise :
  forall H c p gs r, (forall i, ~ first_match (map reg_type gs) (i_recordType r) i) ->
  handleEvent H (setup c (Some p) gs) r = ([DefaultProcessed], Returns (p r)).
Proof. exact route_default. Qed.
Print Assumptions c10_default_otherwise.

Definition ex_gs : list registration :=
  [(str "a", fun _ => true, fun _ => Complete); (str "b", fun _ => true, fun _ => Incomplete);
   (str "a", fun _ => true, fun _ => Fatal); (str "bad", fun _ => false, fun _ => Complete)].
Definition ex_rec (t : bytes) : IncomingRecord := mkIncoming blankKRecord t.
Definition ex_H : nat -> IncomingRecord -> ErrorResponse := fun n _ => if Nat.eqb n 0 then Continue else FailConsumer.
Definition ex_c : handlerConfig := mkHC true (Some 1).
Example c10_example :
  first_match (map reg_type ex_gs) (i_recordType (ex_rec (str "a"))) 0 /\
  first_match (map reg_type ex_gs) (i_recordType (ex_rec (str "b"))) 1 /\
  handleEvent ex_H (setup ex_c (Some (fun _ => Complete)) ex_gs) (ex_rec (str "b")) = ([Processed 1], Returns Incomplete) /\
  handleEvent ex_H (setup ex_c (Some (fun _ => Complete)) ex_gs) (ex_rec (str "zz")) = ([DefaultProcessed], Returns Complete).
Proof.
  split; [|split; [|vm_compute; auto]].
  - split; [reflexivity|]. intros j Hj. inversion Hj.
  - split; [reflexivity|]. intros j Hj. destruct j as [|j]; [vm_compute; discriminate|].
    inversion Hj as [|? X]; inversion X.
Qed.

(** the proviso is needed: a processor returning the reserved state 3 has its record delivered to the
    default processor too *)
Theorem c10_reserved_state_delivers_twice_refuted :
  forall H c p, handleEvent H (setup c (Some p) [(str "a", fun _ => true, fun _ => unknownType)]) (ex_rec (str "a"))
  = ([Processed 0; DefaultProcessed], Returns (p (ex_rec (str "a")))).
Proof. exact (fun H c p => eq_refl). Qed.
Print Assumptions c10_reserved_state_delivers_twice_refuted.

(** C13: the configured handler is consulted exactly when TxnErrorHandler and
    DeserializationErrorHandler are both set or both unset. *)
Theorem c13_configured_handler_consulted_iff :
  forall c, deserializationErrorHandler c = Some (intended c) <->
  (TxnErrorHandler_set c = true <-> DeserializationErrorHandler c <> None).
Proof. exact intended_iff. Qed.
Print Assumptions c13_configured_handler_consulted_iff.

(** false in general: with only a DeserializationErrorHandler configured, it is ignored ... *)
Theorem c13_handler_ignored_refuted :
  exists H c gs r, DeserializationErrorHandler c = Some 1 /\
  handleEvent H (setup c None gs) r = ([ErrorHandled DefaultDeserializationErrorHandler], Returns Complete).
Proof. exact (ex_intro _ ex_H (ex_intro _ (mkHC false (Some 1)) (ex_intro _ ex_gs
  (ex_intro _ (ex_rec (str "bad")) (conj eq_refl eq_refl))))). Qed.
Print Assumptions c13_handler_ignored_refuted.

(** ... and with only a TxnErrorHandler configured, the first undecodable record crashes the process. *)
Theorem c13_nil_handler_crash_refuted :
  exists H c d gs r, DeserializationErrorHandler c = None /\
  handleEvent H (setup c d gs) r = ([], NilCall).
Proof. exact (ex_intro _ ex_H (ex_intro _ (mkHC true None) (ex_intro _ (Some (fun _ => Complete)) (ex_intro _ ex_gs
  (ex_intro _ (ex_rec (str "bad")) (conj eq_refl eq_refl)))))). Qed.
Print Assumptions c13_nil_handler_crash_refuted.

(** the part that holds: whichever handler was selected is asked exactly once, the processor is not
    called, and the answer Continue completes the event.  Missing: that it is the configured one. *)
Theorem c13_selected_handler_decides_partial :
  forall H c d gs r i h, first_match (map reg_type gs) (i_recordType r) i ->
  deserializationErrorHandler c = Some h ->
  exists g, nth_error gs i = Some g /\
  (reg_decode g r = false ->
     handleEvent H (setup c d gs) r =
       ([ErrorHandled h], Returns (match answer H h r with Continue => Complete | _ => Incomplete end))).
Proof. exact route_decode_error. Qed.
Print Assumptions c13_selected_handler_decides_partial.
Example c13_example :
  first_match (map reg_type ex_gs) (str "bad") 3 /\
  handleEvent ex_H (setup (mkHC true (Some 0)) None ex_gs) (ex_rec (str "bad")) = ([ErrorHandled (AppHandler 0)], Returns Complete) /\
  handleEvent ex_H (setup ex_c None ex_gs) (ex_rec (str "bad")) = ([ErrorHandled (AppHandler 1)], Returns Incomplete).
Proof.
  split; [|vm_compute; auto]. split; [reflexivity|]. intros j Hj.
  do 3 (destruct j as [|j]; [vm_compute; discriminate|]). lia.
Qed.

(** C73 is false: without a default processor an unknown record type is a nil function call. *)
Theorem c73_nil_default_crash_refuted :
  exists H c gs r, deserializationErrorHandler c <> None /\
  snd (handleEvent H (setup c None gs) r) = NilCall.
Proof. exists ex_H, ex_c, ex_gs, (ex_rec (str "zz")). split; [discriminate|reflexivity]. Qed.
Print Assumptions c73_nil_default_crash_refuted.

(** with a default processor (and a deserialization handler) dispatch never calls nil.  Missing: the case
    of a nil default processor. *)
Theorem c73_default_present_partial :
  forall H c p gs r, deserializationErrorHandler c <> None ->
  snd (handleEvent H (setup c (Some p) gs) r) <> NilCall.
Proof. exact no_nil_call. Qed.
Print Assumptions c73_default_present_partial.
Example c73_example : deserializationErrorHandler ex_c <> None /\
  snd (handleEvent ex_H (setup ex_c (Some (fun _ => Complete)) ex_gs) (ex_rec [])) = Returns Complete.
Proof. split; [discriminate|reflexivity]. Qed.
