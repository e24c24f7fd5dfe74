(** Model of event dispatch: streams/event_source.go:354-445, the deserialization error handler choice in
    streams/source.go:143-155 and streams/error_handling.go:24-53. *)
From Coq Require Import Strings.Byte ZArith List Bool.
From Verif.Base Require Import Bytes.
From Verif.Record Require Import Model.
Import ListNotations.
Open Scope nat_scope.

(** partition_worker.go:34-41 *)
Inductive ExecutionState := Complete | Incomplete | Fatal | unknownType.
(** error_handling.go:24-34 *)
Inductive ErrorResponse := Continue | FailConsumer | FatallyExit.

(** A Go func value for deserialization errors: application function number [n], or the library default.
    What an application function answers is given by an oracle. *)
Inductive errHandler := DefaultDeserializationErrorHandler | AppHandler (n : nat).

(** source.go: the two handler fields of EventSourceConfig, None = nil *)
Record handlerConfig := mkHC { TxnErrorHandler_set : bool; DeserializationErrorHandler : option nat }.

(** source.go:150-155 [deserializationErrorHandler]: None = the nil function value *)
Definition deserializationErrorHandler (c : handlerConfig) : option errHandler :=
  if negb (TxnErrorHandler_set c) then Some DefaultDeserializationErrorHandler
  else match DeserializationErrorHandler c with Some n => Some (AppHandler n) | None => None end.

(** event_source.go:397-407: a registered processor.  [decode] tells whether the decoder succeeds,
    [proc] what the EventProcessor returns; both are application code. *)
Record wrapper := mkWrapper {
  eventType : bytes;
  decode : IncomingRecord -> bool;
  proc : IncomingRecord -> ExecutionState;
  handleDeserializationError : option errHandler;
}.

Record EventSource := mkES {
  chain : list wrapper;                                   (* rootProcessor .. tailProcessor *)
  defaultProcessor : option (IncomingRecord -> ExecutionState); (* None = nil *)
  handlers : handlerConfig;
}.

(** event_source.go:372-380 RegisterEventType: the linked list root..tail is a list, next pointers
    append at the tail *)
Definition RegisterEventType (et : bytes) (dec : IncomingRecord -> bool)
    (p : IncomingRecord -> ExecutionState) (es : EventSource) : EventSource :=
  mkES (chain es ++ [mkWrapper et dec p (deserializationErrorHandler (handlers es))])
       (defaultProcessor es) (handlers es).
(** event_source.go:384-386 *)
Definition RegisterDefaultHandler (p : IncomingRecord -> ExecutionState) (es : EventSource) : EventSource :=
  mkES (chain es) (Some p) (handlers es).

(** what application code gets to see *)
Inductive call :=
| Processed (index : nat)            (* the index-th registered EventProcessor is invoked *)
| ErrorHandled (h : errHandler)      (* a deserialization error handler is invoked *)
| DefaultProcessed.                  (* the default processor is invoked *)

(** result of a call: the state returned, or a nil function is called (panic) *)
Inductive result := Returns (s : ExecutionState) | NilCall.

Section dispatch.
(** the answers of application error handlers *)
Variable appHandler : nat -> IncomingRecord -> ErrorResponse.

(** error_handling.go:44-47 and application handlers *)
Definition answer (h : errHandler) (r : IncomingRecord) : ErrorResponse :=
  match h with DefaultDeserializationErrorHandler => Continue | AppHandler n => appHandler n r end.

(** event_source.go:409-418 *)
Definition Exec (index : nat) (w : wrapper) (r : IncomingRecord) : list call * result :=
  if decode w r then ([Processed index], Returns (proc w r))
  else match handleDeserializationError w with
       | None => ([], NilCall)
       | Some h => ([ErrorHandled h],
                    Returns (match answer h r with Continue => Complete | _ => Incomplete end))
       end.

(** event_source.go:437-445; the recursion over next pointers *)
Fixpoint process (index : nat) (l : list wrapper) (r : IncomingRecord) : list call * result :=
  match l with
  | [] => ([], Returns unknownType)
  | w :: l' => if bytes_eqb (i_recordType r) (eventType w) then Exec index w r
               else process (S index) l' r
  end.

(** event_source.go:359-368; an empty chain is the nil rootProcessor *)
Definition handleEvent (es : EventSource) (r : IncomingRecord) : list call * result :=
  let '(calls, res) := process 0 (chain es) r in
  match res with
  | Returns unknownType =>
      match defaultProcessor es with
      | Some p => (calls ++ [DefaultProcessed], Returns (p r))
      | None => (calls, NilCall)
      end
  | _ => (calls, res)
  end.
End dispatch.
