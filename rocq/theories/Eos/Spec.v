(** What a trace shows, for stating the properties. *)
From stdpp Require Import prelude list sorting.
From Verif.Eos Require Import Model.
Open Scope nat_scope.

(** the transactions that were committed, in the order in which they ended *)
Definition committed (tr : list ev) : list nat := flat_map (fun x => match x with EvEnd t true => [t] | _ => [] end) tr.
(** the events of partition p in transaction t, in the order in which they were made part of it *)
Definition evsOf (t p : nat) (tr : list ev) : list ec :=
  flat_map (fun x => match x with EvAdd t' e => if decide (t' = t /\ e_p e = p) then [e] else [] | _ => [] end) tr.
(** the events of partition p that were given to the pool; that were accepted (not rejected) *)
Definition arrived (p : nat) (tr : list ev) : list ec := flat_map (fun x => match x with EvArr e => if decide (e_p e = p) then [e] else [] | _ => [] end) tr.
Definition accepted (p : nat) (tr : list ev) : list ec := flat_map (fun x => match x with EvTake e => if decide (e_p e = p) then [e] else [] | _ => [] end) tr.
(** the resume offsets in the commit records for partition p handed to Kafka in transaction t *)
Definition resume (t p : nat) (tr : list ev) : list nat :=
  flat_map (fun x => match x with EvSend t' e (Mark w) => if decide (t' = t /\ e_p e = p) then [w] else [] | _ => [] end) tr.
(** the offsets of events; interjections have none *)
Definition offs (l : list ec) : list nat := omap e_off l.
(** all records handed to ProduceRecord for event e; all handed to Kafka for e; those handed to Kafka for e in transaction t *)
Definition callsFor (e : ec) (tr : list ev) : list orec := flat_map (fun x => match x with EvCall _ e' r => if decide (e' = e) then [r] else [] | _ => [] end) tr.
Definition sentFor (e : ec) (tr : list ev) : list orec := flat_map (fun x => match x with EvSend _ e' r => if decide (e' = e) then [r] else [] | _ => [] end) tr.
Definition sentIn (t : nat) (e : ec) (tr : list ev) : list orec :=
  flat_map (fun x => match x with EvSend t' e' r => if decide (t' = t /\ e' = e) then [r] else [] | _ => [] end) tr.
(** records for events of partition p, by transaction: those handed to ProduceRecord, those handed to Kafka *)
Definition callsIn (t p : nat) (tr : list ev) : list (ec * orec) :=
  flat_map (fun x => match x with EvCall t' e r => if decide (t' = t /\ e_p e = p) then [(e, r)] else [] | _ => [] end) tr.
Definition sendsIn (t p : nat) (tr : list ev) : list (ec * orec) :=
  flat_map (fun x => match x with EvSend t' e r => if decide (t' = t /\ e_p e = p) then [(e, r)] else [] | _ => [] end) tr.
(** everything of partition p in committed transactions, in the order of the transactions: offsets of events; resume offsets *)
Definition committedOffs (p : nat) (tr : list ev) : list nat := flat_map (fun t => offs (evsOf t p tr)) (committed tr).
Definition committedMarks (p : nat) (tr : list ev) : list nat := flat_map (fun t => resume t p tr) (committed tr).
(** all events of partition p come from one worker *)
Definition oneWorker (p : nat) (tr : list ev) : Prop := forall e e', e ∈ arrived p tr -> e' ∈ arrived p tr -> e_w e = e_w e'.
(** the events in transaction t; the records handed to ProduceRecord in it; those of them that handlers of event e have produced *)
Definition eventsIn (t : nat) (tr : list ev) : list ec := flat_map (fun x => match x with EvAdd t' e => if decide (t' = t) then [e] else [] | _ => [] end) tr.
Definition recordsIn (t : nat) (tr : list ev) : list orec := flat_map (fun x => match x with EvCall t' _ r => if decide (t' = t) then [r] else [] | _ => [] end) tr.
Definition outs (e : ec) (tr : list ev) : list nat := flat_map (fun x => match x with EvCall _ e' (Out r) => if decide (e' = e) then [r] else [] | _ => [] end) tr.
