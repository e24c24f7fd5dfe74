(** * WaitForSignals: the signals, the hook of the user and Stop

    streams/event_source.go:191-210.  Signals are numbers (syscall.SIGHUP is 1, syscall.SIGINT is 2).  The operating system delivers a
    signal to the channel without waiting (package os/signal: "Package signal will not block sending to c"), so that a signal for which the channel has no
    room is lost.  The hook of the user is a function of the signal; its call and its return are separate steps.
    What Stop does until Done has a value is in Lifecycle; here Done has a value at an arbitrary moment.
    After signal.Reset a signal has its default effect again, which mostly ends the process: such arrivals are no steps. *)
From stdpp Require Import prelude list.
Open Scope nat_scope.

Inductive ev :=
| EvSig (x : nat)            (* the process gets signal x *)
| EvHook (x : nat)           (* the hook is called *)
| EvRet (x : nat) (b : bool) (* it returns *)
| EvStop                     (* es.Stop() *)
| EvDone                     (* a value for the channel Done *)
| EvReturn.
#[global] Instance ev_dec : EqDecision ev. Proof. solve_decision. Defined.

(** where the caller is: lines 203 (at the receive), 204 (in the hook), 205, 209, 210, after the call *)
Inductive pc := Receive | Hook (x : nat) | Reset | Stop | Wait | Returned.
#[global] Instance pc_dec : EqDecision pc. Proof. solve_decision. Defined.
Record st := mkSt { at_ : pc; buf : list nat; notify : bool; done : bool; trace : list ev }.

(** lines 192-194 *)
Definition wanted (signals : list nat) : list nat := match signals with [] => [2; 1] | _ => signals end.
(** lines 195-199 *)
Definition hook (preHook : option (nat -> bool)) : nat -> bool := match preHook with Some h => h | None => fun _ => true end.
(** lines 200-201: a channel for one signal *)
Definition room : nat := 1.
Definition init : st := mkSt Receive [] true false [].

Inductive action := Arrive (x : nat) | Step | SourceDone.

Definition step (preHook : option (nat -> bool)) (signals : list nat) (s : st) (a : action) : option st :=
  match a with
  | Arrive x => if notify s then
                  Some (mkSt (at_ s) (if bool_decide (x ∈ wanted signals) && (length (buf s) <? room) then buf s ++ [x] else buf s) (notify s) (done s) (trace s ++ [EvSig x]))
                else None
  | SourceDone => if done s then None else Some (mkSt (at_ s) (buf s) (notify s) true (trace s ++ [EvDone]))
  | Step => match at_ s with
            | Receive => match buf s with x :: l => Some (mkSt (Hook x) l (notify s) (done s) (trace s ++ [EvHook x])) | [] => None end
            | Hook x => Some (mkSt (if hook preHook x then Reset else Receive) (buf s) (notify s) (done s) (trace s ++ [EvRet x (hook preHook x)]))
            | Reset => Some (mkSt Stop (buf s) false (done s) (trace s))
            | Stop => Some (mkSt Wait (buf s) (notify s) (done s) (trace s ++ [EvStop]))
            | Wait => if done s then Some (mkSt Returned (buf s) (notify s) false (trace s ++ [EvReturn])) else None
            | Returned => None
            end
  end.
Fixpoint run (h : option (nat -> bool)) (sg : list nat) (s : st) (acts : list action) : option st :=
  match acts with [] => Some s | a :: l => match step h sg s a with Some s' => run h sg s' l | None => None end end.
