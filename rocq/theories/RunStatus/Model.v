(** Model of streams/sak/context.go, on a model of Go's cancellable contexts. *)
From Coq Require Import List Bool Arith.
Import ListNotations.

(** A context is Background (no entry), or an entry in the list of contexts created so far: a cancelCtx or a
    valueCtx with its parent (None = Background).  [cancelled] is the state behind Err() of a cancelCtx. *)
Inductive kind := Cancel | Value.
Record ctxNode := mkCtx { n_kind : kind; n_parent : option nat; n_cancelled : bool }.
Definition contexts := list ctxNode.

Definition default_node : ctxNode := mkCtx Value None false.
Definition node (cs : contexts) (i : nat) : ctxNode := nth i cs default_node.

(** Err() of a context: a valueCtx delegates to its parent.  Parents are older (smaller index); [fuel] = index + 1 *)
Fixpoint errF (fuel : nat) (cs : contexts) (c : option nat) : bool :=
  match fuel with
  | O => false
  | S f =>
      match c with
      | None => false
      | Some i => match n_kind (node cs i) with
                  | Cancel => n_cancelled (node cs i)
                  | Value => errF f cs (n_parent (node cs i))
                  end
      end
  end.
Definition ctxErr (cs : contexts) (c : option nat) : bool :=
  match c with None => false | Some i => errF (S i) cs c end.

(** context.WithCancel: the new context is cancelled at once if its parent is (propagateCancel) *)
Definition WithCancel (cs : contexts) (parent : option nat) : contexts * nat :=
  (cs ++ [mkCtx Cancel parent (ctxErr cs parent)], length cs).
(** context.WithValue *)
Definition WithValueCtx (cs : contexts) (parent : option nat) : contexts * nat :=
  (cs ++ [mkCtx Value parent false], length cs).

(** the CancelFunc of context [i]: cancels it and everything created below it, youngest last *)
Definition markChild (acc : contexts) (n : ctxNode) (self : bool) : ctxNode :=
  match n_kind n with
  | Value => n
  | Cancel => mkCtx Cancel (n_parent n) (n_cancelled n || self || ctxErr acc (n_parent n))
  end.
Fixpoint cancelFrom (acc rest : contexts) (i : nat) : contexts :=
  match rest with
  | [] => acc
  | n :: rest' => cancelFrom (acc ++ [markChild acc n (length acc =? i)]) rest' i
  end.
Definition doCancel (cs : contexts) (i : nat) : contexts := cancelFrom [] cs i.

(** context.go:21-24 RunStatus: a context and a CancelFunc, the latter given by the context it cancels *)
Record RunStatus := mkRS { rs_ctx : nat; rs_cancel : nat }.

(** context.go:27-33 *)
Definition NewRunStatus (cs : contexts) (parent : option nat) : contexts * RunStatus :=
  let '(cs', c) := WithCancel cs parent in (cs', mkRS c c).
(** context.go:41-46 *)
Definition WithValue (cs : contexts) (rs : RunStatus) : contexts * RunStatus :=
  let '(cs', c) := WithValueCtx cs (Some (rs_ctx rs)) in (cs', mkRS c (rs_cancel rs)).
(** context.go:58-60 *)
Definition Running (cs : contexts) (rs : RunStatus) : bool := negb (ctxErr cs (Some (rs_ctx rs))).
(** context.go:62-64 *)
Definition Halt (cs : contexts) (rs : RunStatus) : contexts := doCancel cs (rs_cancel rs).
(** context.go:71-73 *)
Definition Fork (cs : contexts) (rs : RunStatus) : contexts * RunStatus := NewRunStatus cs (Some (rs_ctx rs)).

(** a program: statuses are numbered in order of creation *)
Inductive op := ONew | OFork (h : nat) | OWithValue (h : nat) | OHalt (h : nat).
Record world := mkW { w_ctxs : contexts; w_rs : list RunStatus }.
Definition world0 : world := mkW [] [].

Definition step (w : world) (o : op) : option world :=
  match o with
  | ONew => let '(cs, rs) := NewRunStatus (w_ctxs w) None in Some (mkW cs (w_rs w ++ [rs]))
  | OFork h => match nth_error (w_rs w) h with
               | Some r => let '(cs, rs) := Fork (w_ctxs w) r in Some (mkW cs (w_rs w ++ [rs]))
               | None => None end
  | OWithValue h => match nth_error (w_rs w) h with
               | Some r => let '(cs, rs) := WithValue (w_ctxs w) r in Some (mkW cs (w_rs w ++ [rs]))
               | None => None end
  | OHalt h => match nth_error (w_rs w) h with
               | Some r => Some (mkW (Halt (w_ctxs w) r) (w_rs w))
               | None => None end
  end.
Fixpoint run (w : world) (os : list op) : option world :=
  match os with
  | [] => Some w
  | o :: os' => match step w o with Some w' => run w' os' | None => None end
  end.
