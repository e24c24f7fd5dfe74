(** The offsets marked for the consumer group, on top of the pool of producers: SourceConfig.CommitOffsets (source.go:139-141), with which the
    Kafka client of the consumer commits marked offsets from time to time (source_consumer.go:85-87) and clearState marks the records of a
    transaction (eos_producer.go:395-407). *)
From stdpp Require Import prelude list.
From Verif.Eos Require Import Model.
Open Scope nat_scope.

(** the calls of MarkCommitRecords for one node, eos_producer.go:397-406: for each partition from the newest event to the oldest, interjections left
    out. A call is the partition and the offset of its record. The order of the partitions is that of a Go map; here that of their first events, and
    nothing that is claimed depends on it. *)
Definition markCalls (x : node) : list (nat * nat) :=
  flat_map (fun p => omap (fun e => pair p <$> e_off e) (rev (ofPart p (n_ecs x)))) (parts (n_ecs x)).

(** source.go:139-141 ([on] is CommitOffsets), eos_producer.go:376-407: clearState runs when EndTransaction has returned without an error, and not
    after a failure (lines 371-374, 378-380, 386-389) *)
Definition newCalls (on : bool) (s : st) (a : action) : list (nat * nat) :=
  match a, kp s with KEnd, KFin n _ _ _ => if on then markCalls (nodes s n) else [] | _, _ => [] end.

(** an execution of the pool together with the calls of MarkCommitRecords; the calls of one clearState are one step, as the rest of it *)
Fixpoint grun (c : cfg) (on : bool) (s : st) (calls : list (nat * nat)) (acts : list action) : option (st * list (nat * nat)) :=
  match acts with
  | [] => Some (s, calls)
  | a :: acts' => match step c s a with Some s' => grun c on s' (calls ++ newCalls on s a) acts' | None => None end
  end.

(** what the client commits for partition p: MarkCommitRecords of franz-go keeps one plus the highest offset that was marked, and does not go back.
    Left out: that it ignores partitions the client no longer owns, and when the commits happen. *)
Definition groupOffset (p : nat) (calls : list (nat * nat)) : option nat :=
  fold_left (fun g c => if decide (fst c = p) then Some (match g with Some w => w `max` S (snd c) | None => S (snd c) end) else g) calls None.
(** no commit fails *)
Definition noFail (acts : list action) : Prop := Forall (fun a => forall ok, a <> KFail ok) acts.
