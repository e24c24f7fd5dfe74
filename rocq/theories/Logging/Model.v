(** Model of streams/log.go. *)
From Coq Require Import ZArith List Bool.
Import ListNotations.
Open Scope Z_scope.

(** log.go:25-34; LogLevel is an int, so any value is possible *)
Definition LogLevelNone : Z := 0.
Definition LogLevelTrace : Z := 1.
Definition LogLevelDebug : Z := 2.
Definition LogLevelInfo : Z := 3.
Definition LogLevelWarn : Z := 4.
Definition LogLevelError : Z := 5.

(** the five methods of the Logger interface, log.go:66-72 *)
Inductive method := Tracef | Debugf | Infof | Warnf | Errorf.

Section Loggers.
  (** application loggers: any behaviour, given by the calls they receive *)
  Context {msg : Type}.

  (** a call reaching the outside: a line printed by SimpleLogger or a call of an application logger *)
  Inductive output := Printed (m : method) (x : msg) | AppCall (id : nat) (m : method) (x : msg).

  Inductive Logger :=
  | SimpleLogger (level : Z)
  | AppLogger (id : nat)
  | logWrapper (level : Z) (logger : Logger).

  (** log.go:85-113, one condition per method *)
  Definition simpleCond (m : method) (sl : Z) : bool :=
    match m with
    | Tracef => (LogLevelTrace >=? sl) && negb (sl =? LogLevelNone)
    | Debugf => (LogLevelDebug >=? sl) && negb (sl =? LogLevelNone)
    | Infof => (LogLevelInfo >=? sl) && negb (sl =? LogLevelNone)
    | Warnf => (LogLevelWarn >=? sl) && negb (sl =? LogLevelNone)
    | Errorf => (LogLevelError >=? sl) && negb (sl =? LogLevelNone)
    end.

  (** log.go:146-174 *)
  Definition wrapCond (m : method) (level : Z) : bool :=
    match m with
    | Tracef => (LogLevelTrace >=? level) && negb (level =? LogLevelNone)
    | Debugf => (LogLevelDebug >=? level) && negb (level =? LogLevelNone)
    | Infof => (LogLevelInfo >=? level) && negb (level =? LogLevelNone)
    | Warnf => (LogLevelWarn >=? level) && negb (level =? LogLevelNone)
    | Errorf => (LogLevelError >=? level) && negb (level =? LogLevelNone)
    end.

  (** calling method [m] with message [x] *)
  Fixpoint call (l : Logger) (m : method) (x : msg) : list output :=
    match l with
    | SimpleLogger sl => if simpleCond m sl then [Printed m x] else []
    | AppLogger id => [AppCall id m x]
    | logWrapper level inner => if wrapCond m level then call inner m x else []
    end.

  (** log.go:139-144 *)
  Definition WrapLogger (logger : Logger) (level : Z) : Logger := logWrapper level logger.

  (** franz-go's kgo.LogLevel: None 0, Error 1, Warn 2, Info 3, Debug 4 (larger is more verbose) *)
  Definition kgoNone : Z := 0.
  Definition kgoError : Z := 1.
  Definition kgoWarn : Z := 2.
  Definition kgoInfo : Z := 3.
  Definition kgoDebug : Z := 4.

  (** log.go:37-50 *)
  Definition toKgoLoglevel (level : Z) : Z :=
    if (level =? LogLevelTrace) || (level =? LogLevelDebug) then kgoDebug
    else if level =? LogLevelInfo then kgoInfo
    else if level =? LogLevelWarn then kgoWarn
    else if level =? LogLevelError then kgoError
    else kgoNone.

  (** log.go:185-196 kgoLogWrapper.Log with the global logger [log] *)
  Definition kgoLog (log : Logger) (level : Z) (x : msg) : list output :=
    if level =? kgoDebug then call log Debugf x
    else if level =? kgoInfo then call log Infof x
    else if level =? kgoWarn then call log Warnf x
    else if level =? kgoError then call log Errorf x
    else [].

  (** The driver calls Log only for messages with level <= Level() (franz-go's wrappedLogger). *)
  Definition driverLog (log : Logger) (kgoLogger : Z) (level : Z) (x : msg) : list output :=
    if level <=? kgoLogger then kgoLog log level x else [].

  (** log.go:176-177, 198: package variables *)
  Record globals := mkG { g_log : Logger; g_kgo : Z; g_once : bool }.
  Definition globals0 : globals := mkG (SimpleLogger LogLevelError) kgoError false.
  (** log.go:212-218 *)
  Definition InitLogger (l : Logger) (kafkaDriverLogLevel : Z) (g : globals) : globals :=
    if g_once g then g else mkG l (toKgoLoglevel kafkaDriverLogLevel) true.
End Loggers.
Arguments Logger : clear implicits.
