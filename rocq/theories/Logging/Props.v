(** Property C71. *)
From Coq Require Import ZArith List Bool Lia.
From Verif.Logging Require Import Model Proofs.
Import ListNotations.
Open Scope Z_scope.

(** C71: through any stack of wrappers a message comes out once, unchanged, if every level on the way is
    non-zero and not above the message's level, and otherwise not at all *)
Theorem c71_message_passes_iff_all_levels_allow :
  forall msg (l : Logger) m (x : msg),
  (Forall (fun lv => lets_through lv m) (levels l) -> call l m x = [sink l m x]) /\
  (~ Forall (fun lv => lets_through lv m) (levels l) -> call l m x = []).
Proof. exact @call_spec. Qed.
Print Assumptions c71_message_passes_iff_all_levels_allow.

Theorem c71_wrapping_only_suppresses :
  forall msg (l : Logger) level m (x : msg),
  call (WrapLogger l level) m x = call l m x \/ call (WrapLogger l level) m x = [].
Proof. exact @wrap_suppresses. Qed.
Print Assumptions c71_wrapping_only_suppresses.

(** messages of the Kafka driver: filtered by the driver level given to InitLogger, then by the logger *)
Theorem c71_driver_messages :
  forall msg (l : Logger) L m (x : msg), m <> Tracef -> 1 <= L <= 5 ->
  driverLog l (toKgoLoglevel L) (kgo_of m) x = if L <=? rank m then call l m x else [].
Proof. exact @driver_spec. Qed.
Print Assumptions c71_driver_messages.
Theorem c71_driver_silent_when_disabled :
  forall msg (l : Logger) L m (x : msg), ~ 1 <= L <= 5 -> driverLog l (toKgoLoglevel L) (kgo_of m) x = [].
Proof. exact @driver_none. Qed.
Print Assumptions c71_driver_silent_when_disabled.

(** the first InitLogger wins *)
Theorem c71_first_init_wins :
  forall (l : Logger) k cs,
  fold_left (fun g c => InitLogger (fst c) (snd c) g) ((l, k) :: cs) globals0 = mkG l (toKgoLoglevel k) true.
Proof. exact init_once. Qed.
Print Assumptions c71_first_init_wins.

Example c71_example :
  call (WrapLogger (SimpleLogger LogLevelDebug) LogLevelWarn) Errorf 7 = [Printed Errorf 7] /\
  call (WrapLogger (SimpleLogger LogLevelDebug) LogLevelWarn) Infof 7 = [] /\
  call (WrapLogger (AppLogger 3) LogLevelNone) Errorf 7 = [] /\
  Forall (fun lv => lets_through lv Errorf) (levels (WrapLogger (SimpleLogger LogLevelDebug) LogLevelWarn)) /\
  driverLog (SimpleLogger LogLevelInfo) (toKgoLoglevel LogLevelTrace) (kgo_of Infof) 7 = [Printed Infof 7] /\
  driverLog (SimpleLogger LogLevelInfo) (toKgoLoglevel LogLevelTrace) (kgo_of Debugf) 7 = [].
Proof.
  repeat split; try reflexivity. repeat constructor; vm_compute; discriminate.
Qed.
