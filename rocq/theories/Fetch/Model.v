(** Where a newly assigned partition starts to read: streams/source_consumer.go:118-131 (adjustOffsetsBeforeAssign), together with the first steps of
    the partition worker, streams/partition_worker.go:206-222, and its filter, lines 170-177. One partition, seen from the consumer it is assigned to.
    Left out: batches and the pausing of the partition (both only delay records), state stores, what the handlers do. *)
From stdpp Require Import prelude list.
Open Scope nat_scope.

(** Records of the partition's commit-log partition that matter here: commit records with the offset at which to go on (commit_log.go:76-82), and
    the marker that lastProcessed writes (lines 124-135). Markers of others and other partitions change nothing (C06, C07). *)
Inductive item := Commit (w : nat) | Marker.
#[global] Instance item_dec : EqDecision item. Proof. solve_decision. Defined.
Fixpoint lastCommit (l : list item) (d : option nat) : option nat :=
  match l with [] => d | Commit w :: l' => lastCommit l' (Some w) | Marker :: l' => lastCommit l' d end.

Record st := mkSt {
  log : list item;             (* the commit log, as it is on the broker *)
  seen : nat;                  (* how many of its records the consumer's goroutine has read *)
  group : nat;                 (* offset committed for the group the usual way; 0: none, reading starts at the beginning, kgo's default *)
  start : option nat;          (* offset from which the kafka client fetches; None before the assignment *)
  marked : bool;               (* lastProcessed has written its marker *)
  high : option (option nat);  (* the worker's highestOffset; None before lastProcessed has returned; Some None is -1 *)
  fetched : list nat;          (* offsets of the records given to worker.add *)
  taken : nat;                 (* how many of them went through the filter *)
  handed : list nat            (* offsets of those that got a context *)
}.
Definition init : st := mkSt [] 0 0 None false None [] 0 [].

(** commit_log.go:137-144; None is -1 *)
Definition watermark (s : st) : option nat := lastCommit (take (seen s) (log s)) None.
(** source_consumer.go:118-131; a commit record never says 0 *)
Definition adjust (w : option nat) (offset : nat) : nat := match w with Some (S o) => S o | _ => offset end.
(** partition_worker.go:172 *)
Definition passes (h : option nat) (o : nat) : bool := match h with Some w => w <=? o | None => true end.

Inductive action :=
| LCommit (w : nat)    (* a transaction of any consumer of the group is committed *)
| LConsume             (* the consumer reads the next record of the commit log *)
| GMark (b : nat)      (* an event source with CommitOffsets commits to the group, which it does for committed transactions only (eos_producer.go:396-405) *)
| GLegacy (b : nat)    (* another kind of consumer, which had the partition, commits to the group *)
| AAssign              (* the partition is assigned: adjustOffsetsBeforeAssign *)
| AMark                (* lastProcessed writes its marker *)
| ASync                (* lastProcessed returns: the marker has been read *)
| FFetch               (* the client fetches the next record *)
| FHand.               (* scheduleTxnAndExecution looks at the next record *)

Definition step (input : list nat) (s : st) (a : action) : option st :=
  match a with
  | LCommit w => Some (mkSt (log s ++ [Commit w]) (seen s) (group s) (start s) (marked s) (high s) (fetched s) (taken s) (handed s))
  | LConsume => if seen s <? length (log s) then Some (mkSt (log s) (S (seen s)) (group s) (start s) (marked s) (high s) (fetched s) (taken s) (handed s)) else None
  | GMark b => if existsb (fun x => match x with Commit w => b <=? w | Marker => false end) (log s)
               then Some (mkSt (log s) (seen s) b (start s) (marked s) (high s) (fetched s) (taken s) (handed s)) else None
  | GLegacy b => Some (mkSt (log s) (seen s) b (start s) (marked s) (high s) (fetched s) (taken s) (handed s))
  | AAssign => match start s with
               | None => Some (mkSt (log s) (seen s) (group s) (Some (adjust (watermark s) (group s))) (marked s) (high s) (fetched s) (taken s) (handed s))
               | Some _ => None end
  | AMark => match start s, marked s with
             | Some _, false => Some (mkSt (log s ++ [Marker]) (seen s) (group s) (start s) true (high s) (fetched s) (taken s) (handed s))
             | _, _ => None end
  | ASync => match high s with
             | None => if bool_decide (Marker ∈ take (seen s) (log s)) then Some (mkSt (log s) (seen s) (group s) (start s) (marked s) (Some (watermark s)) (fetched s) (taken s) (handed s)) else None
             | Some _ => None end
  | FFetch => match start s with
              | Some a => match filter (fun o => a <= o) input !! length (fetched s) with
                          | Some o => Some (mkSt (log s) (seen s) (group s) (start s) (marked s) (high s) (fetched s ++ [o]) (taken s) (handed s))
                          | None => None end
              | None => None end
  | FHand => match high s, fetched s !! taken s with
             | Some h, Some o => Some (mkSt (log s) (seen s) (group s) (start s) (marked s) (high s) (fetched s) (S (taken s)) (if passes h o then handed s ++ [o] else handed s))
             | _, _ => None end
  end.
Fixpoint run (input : list nat) (s : st) (acts : list action) : option st :=
  match acts with [] => Some s | a :: l => match step input s a with Some s' => run input s' l | None => None end end.
