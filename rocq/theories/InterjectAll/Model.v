(** Model of InterjectAll and InterjectAllSync (streams/event_source.go:317-352, streams/source_consumer.go:313-349): one call, on a consumer
    whose partitions come and go, together with what Interject does (source_consumer.go:288-312) and the way of an interjection through a worker
    (partition_worker.go:141-204, 268-282). Other interjections (scheduled ones and those of other callers) are there too. Events, transactions and
    the limit on pending items are left out: they only delay the steps below. *)
From stdpp Require Import prelude list.
Open Scope nat_scope.

(** An interjection: [Some p] is the one that the call has made for partition p, [None] any other *)
Definition ij := option nat.

(** partitionWorker, partition_worker.go:61-79 *)
Record worker := mkW {
  part : nat;              (* topicPartition.Partition *)
  ready : bool;            (* lines 117-119, 225 *)
  halted : bool;           (* runStatus is halted *)
  gone : bool;             (* pushRecords has seen that, lines 150-152 *)
  chan : list ij;          (* interjectionInput, capacity 1 *)
  evq : list ij;           (* interjectionEventInput, capacity 1 *)
  busy : option ij         (* the interjector that is at work *)
}.

(** What an observer sees *)
Inductive ev :=
| EvCall (ps : list nat)             (* the call, with the partitions in the order in which the map gives them *)
| EvBegin (p : nat) | EvEnd (p : nat)   (* the interjector is called for partition p; it returns *)
| EvErr (p : nat)                    (* "Could not interject", source_consumer.go:324, 347 *)
| EvReturn.                          (* the call returns *)
#[global] Instance ev_dec : EqDecision ev. Proof. solve_decision. Defined.

Record st := mkSt {
  ws : list worker;
  live : list (nat * nat);          (* sc.workers: partition, number of the worker *)
  started : bool;                   (* the call has been made *)
  todo : list nat;                  (* the rest of the loop of lines 322 or 340 *)
  sending : option (nat * nat);     (* the send on line 302, with workerMux held: partition, worker *)
  waiting : list nat;               (* channels still to be received from, lines 323 or 345 *)
  ans : list (nat * bool);          (* channels that are closed (true) or hold an error (false) *)
  trace : list ev
}.
Definition init : st := mkSt [] [] false [] None [] [] [].

Definition find (p : nat) (l : list (nat * nat)) : option nat := snd <$> (head (List.filter (fun x => Nat.eqb (fst x) p) l)).
Definition drop (p : nat) (l : list (nat * nat)) : list (nat * nat) := List.filter (fun x => negb (Nat.eqb (fst x) p)) l.

Inductive action :=
| Assign (p : nat) | Revoke (p : nat)   (* assignPartitions, revokePartitions; both need workerMux *)
| Ready (w : nat)                       (* partition_worker.go:225 *)
| Other (w : nat)                       (* another interjection is sent to the worker *)
| Pull (w : nat)                        (* pushRecords takes one, lines 148-149, 190-204 *)
| Leave (w : nat)                       (* pushRecords ends, lines 150-158 *)
| Take (w : nat) (granted : bool)       (* handleInterjection, lines 268-275 *)
| End (w : nat)                         (* the interjector returns, source_consumer.go:306-308 *)
| Call (ps : list nat)                  (* source_consumer.go:319-321, 335-337 *)
| Next                                  (* interject for the next partition, lines 289-302 *)
| Send                                  (* the send on line 302 *)
| Await                                 (* the receive on lines 323 or 345 *)
| Return.

Definition setW (w : nat) (x : worker) (es : list ev) (s : st) : st :=
  mkSt (<[w := x]> (ws s)) (live s) (started s) (todo s) (sending s) (waiting s) (ans s) (trace s ++ es).
(** the channel that is returned when the partition has no worker or its worker is not ready holds an error, lines 294-301 *)
Definition refuse (p : nat) (l : list nat) (s : st) : st :=
  mkSt (ws s) (live s) (started s) l None (waiting s ++ [p]) (ans s ++ [(p, false)]) (trace s).

(** [sync]: InterjectAllSync *)
Definition step (sync : bool) (s : st) (a : action) : option st :=
  match a with
  | Assign p => match sending s, find p (live s) with
                | None, None => Some (mkSt (ws s ++ [mkW p false false false [] [] None]) ((p, length (ws s)) :: live s) (started s) (todo s) None (waiting s) (ans s) (trace s))
                | _, _ => None end
  | Revoke p => match sending s, find p (live s) with
                | None, Some w => match ws s !! w with
                                  | Some x => Some (mkSt (<[w := mkW (part x) (ready x) true (gone x) (chan x) (evq x) (busy x)]> (ws s)) (drop p (live s)) (started s) (todo s) None (waiting s) (ans s) (trace s))
                                  | None => None end
                | _, _ => None end
  | Ready w => match ws s !! w with
               | Some x => if ready x then None else Some (setW w (mkW (part x) true (halted x) (gone x) (chan x) (evq x) (busy x)) [] s)
               | None => None end
  | Other w => match ws s !! w with
               | Some x => match ready x, chan x with true, [] => Some (setW w (mkW (part x) (ready x) (halted x) (gone x) [None] (evq x) (busy x)) [] s) | _, _ => None end
               | None => None end
  | Pull w => match ws s !! w with
              | Some x => match ready x, gone x, chan x with
                          | true, false, i :: l =>
                              if halted x then Some (setW w (mkW (part x) (ready x) (halted x) (gone x) l (evq x) (busy x)) [] s)
                              else match evq x with
                                   | [] => Some (setW w (mkW (part x) (ready x) (halted x) (gone x) l [i] (busy x)) [] s)
                                   | _ => None end
                          | _, _, _ => None end
              | None => None end
  | Leave w => match ws s !! w with
               | Some x => match ready x, halted x, gone x with
                           | true, true, false => Some (setW w (mkW (part x) (ready x) (halted x) true (chan x) (evq x) (busy x)) [] s)
                           | _, _, _ => None end
               | None => None end
  | Take w g => match ws s !! w with
                | Some x => match evq x, busy x with
                            | i :: l, None =>
                                if g then Some (setW w (mkW (part x) (ready x) (halted x) (gone x) (chan x) l (Some i)) (match i with Some p => [EvBegin p] | None => [] end) s)
                                else if halted x then Some (setW w (mkW (part x) (ready x) (halted x) (gone x) (chan x) l None) [] s) else None
                            | _, _ => None end
                | None => None end
  | End w => match ws s !! w with
             | Some x => match busy x with
                         | Some i => let s' := setW w (mkW (part x) (ready x) (halted x) (gone x) (chan x) (evq x) None) (match i with Some p => [EvEnd p] | None => [] end) s in
                             Some (match i with
                                   | Some p => mkSt (ws s') (live s') (started s') (todo s') (sending s') (waiting s') (ans s' ++ [(p, true)]) (trace s')
                                   | None => s' end)
                         | None => None end
             | None => None end
  | Call ps => if started s then None
               else if decide (ps ≡ₚ map fst (live s)) then Some (mkSt (ws s) (live s) true ps None [] [] (trace s ++ [EvCall ps])) else None
  | Next => match todo s, sending s with
            | p :: l, None =>
                if sync && negb (bool_decide (waiting s = [])) then None
                else match find p (live s) with
                     | None => Some (refuse p l s)
                     | Some w => match ws s !! w with
                                 | None => None
                                 | Some x => if ready x then Some (mkSt (ws s) (live s) (started s) l (Some (p, w)) (waiting s) (ans s) (trace s)) else Some (refuse p l s) end
                     end
            | _, _ => None end
  | Send => match sending s with
            | Some (p, w) => match ws s !! w with
                             | Some x => match chan x with
                                         | [] => Some (mkSt (<[w := mkW (part x) (ready x) (halted x) (gone x) [Some p] (evq x) (busy x)]> (ws s)) (live s) (started s) (todo s) None (waiting s ++ [p]) (ans s) (trace s))
                                         | _ => None end
                             | None => None end
            | None => None end
  | Await => match waiting s, sending s with
             | p :: l, None =>
                 if negb sync && negb (bool_decide (todo s = [])) then None
                 else if bool_decide ((p, true) ∈ ans s) then Some (mkSt (ws s) (live s) (started s) (todo s) None l (ans s) (trace s))
                 else if bool_decide ((p, false) ∈ ans s) then Some (mkSt (ws s) (live s) (started s) (todo s) None l (ans s) (trace s ++ [EvErr p]))
                 else None
             | _, _ => None end
  | Return => match started s, todo s, sending s, waiting s with
              | true, [], None, [] => if bool_decide (EvReturn ∈ trace s) then None else Some (mkSt (ws s) (live s) (started s) [] None [] (ans s) (trace s ++ [EvReturn]))
              | _, _, _, _ => None end
  end.
Fixpoint run (sync : bool) (s : st) (acts : list action) : option st :=
  match acts with [] => Some s | a :: l => match step sync s a with Some s' => run sync s' l | None => None end end.
