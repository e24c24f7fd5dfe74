(** * WaitForChannel: several calls that share a channel of the user

    streams/event_source.go:240-247.  Any number of calls, each for a source (a number), all with the same channel c (the example of the
    documentation, lines 219-238).  The user sends values to c or closes it; a value that a sender offers and one that lies in the buffer of
    the channel are the same here.  What Stop does until the source has left the group is in Lifecycle: here it ends at an arbitrary moment,
    and StopNow (lines 282-289) ends at an arbitrary moment too.  The callback of the user returns. *)
From stdpp Require Import prelude list.
Open Scope nat_scope.

Inductive ev :=
| EvCall (i j : nat)      (* call number i of WaitForChannel, of source j *)
| EvSend | EvClose        (* the user's use of c *)
| EvStop (i : nat)        (* call i calls Stop *)
| EvEnded (j : nat)       (* the goroutine of Stop, or StopNow, of source j gets to its send to done *)
| EvTaken (j : nat)       (* somebody else receives from Done of source j *)
| EvCallback (i : nat)
| EvReturn (i : nat).
#[global] Instance ev_dec : EqDecision ev. Proof. solve_decision. Defined.

(** lines 241, 242, 243, 244-246, 247, after the call *)
Inductive pc := Recv | AtStop | Wait | AtCallback | AtReturn | Returned.
#[global] Instance pc_dec : EqDecision pc. Proof. solve_decision. Defined.
Record call := mkCall { src : nat; cb : bool (* callback != nil *); at_ : pc }.
Record st := mkSt {
  calls : list call;
  values : nat; closed : bool;   (* of the channel c *)
  once : list nat;               (* the sources whose stopOnce has been used, line 263 *)
  leaving : list nat;            (* those whose goroutine of Stop, lines 264-271, is at work *)
  full : list nat;               (* those whose channel done, capacity 1 (line 84), holds a value *)
  trace : list ev }.
Definition init : st := mkSt [] 0 false [] [] [] [].

Definition has (j : nat) (l : list nat) : bool := bool_decide (j ∈ l).
Definition del (j : nat) (l : list nat) : list nat := filter (fun x => x <> j) l.
(** the select with default of lines 267-270 and 285-288 *)
Definition put (j : nat) (l : list nat) : list nat := if has j l then l else j :: l.
Definition go (i : nat) (c : call) (x : pc) (s : st) : list call := <[i := mkCall (src c) (cb c) x]> (calls s).

Inductive action := Call (j : nat) (b : bool) | Send | Close | Step (i : nat) | Finish (j : nat) | StopNow (j : nat) | Other (j : nat).
Definition step (s : st) (a : action) : option st :=
  match a with
  | Call j b => Some (mkSt (calls s ++ [mkCall j b Recv]) (values s) (closed s) (once s) (leaving s) (full s) (trace s ++ [EvCall (length (calls s)) j]))
  | Send => if closed s then None else Some (mkSt (calls s) (S (values s)) (closed s) (once s) (leaving s) (full s) (trace s ++ [EvSend]))
  | Close => if closed s then None else Some (mkSt (calls s) (values s) true (once s) (leaving s) (full s) (trace s ++ [EvClose]))
  | Finish j => if has j (leaving s) then Some (mkSt (calls s) (values s) (closed s) (once s) (del j (leaving s)) (put j (full s)) (trace s ++ [EvEnded j])) else None
  | StopNow j => Some (mkSt (calls s) (values s) (closed s) (once s) (leaving s) (put j (full s)) (trace s ++ [EvEnded j]))
  | Other j => if has j (full s) then Some (mkSt (calls s) (values s) (closed s) (once s) (leaving s) (del j (full s)) (trace s ++ [EvTaken j])) else None
  | Step i =>
      match calls s !! i with
      | None => None
      | Some c =>
          match at_ c with
          | Recv => match values s with
                    | S n => Some (mkSt (go i c AtStop s) n (closed s) (once s) (leaving s) (full s) (trace s))
                    | 0 => if closed s then Some (mkSt (go i c AtStop s) 0 (closed s) (once s) (leaving s) (full s) (trace s)) else None
                    end
          | AtStop => if has (src c) (once s)
                      then Some (mkSt (go i c Wait s) (values s) (closed s) (once s) (leaving s) (full s) (trace s ++ [EvStop i]))
                      else Some (mkSt (go i c Wait s) (values s) (closed s) (src c :: once s) (src c :: leaving s) (full s) (trace s ++ [EvStop i]))
          | Wait => if has (src c) (full s) then Some (mkSt (go i c AtCallback s) (values s) (closed s) (once s) (leaving s) (del (src c) (full s)) (trace s)) else None
          | AtCallback => Some (mkSt (go i c AtReturn s) (values s) (closed s) (once s) (leaving s) (full s) (trace s ++ if cb c then [EvCallback i] else []))
          | AtReturn => Some (mkSt (go i c Returned s) (values s) (closed s) (once s) (leaving s) (full s) (trace s ++ [EvReturn i]))
          | Returned => None
          end
      end
  end.
Fixpoint run (s : st) (acts : list action) : option st :=
  match acts with [] => Some s | a :: l => match step s a with Some s' => run s' l | None => None end end.
