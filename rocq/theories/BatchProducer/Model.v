(** Model of BatchProducer, streams/producer.go:116-178. The Kafka client calls the promise of each produced record
    exactly once, at any time after the record was handed over, in any order, with an error or without (trusted). *)
From Coq Require Import List ZArith Bool.
Import ListNotations.
Open Scope Z_scope.

(** produceBatcher (producer.go:116-122) with the state of the call: [next] records have been handed to the client, [waiting]
    are those without an answer, [errs] the errors stored in the records, [jobs] counts calls of AsyncJobComplete *)
Record st := mkSt { total : nat; hasCallback : bool; pending : Z; next : nat; waiting : list nat; errs : nat -> option (option nat); jobs : nat }.

(** producer.go:152-162: pending is set before the first record is handed over *)
Definition Produce (n : nat) (cb : bool) : st := mkSt n cb (Z.of_nat n) 0 [] (fun _ => None) 0.

Inductive action :=
| AHand                               (* produceBatch hands over the next record, producer.go:164-171 *)
| AAnswer (i : nat) (e : option nat). (* the promise of record i is called with error e, producer.go:173-178 *)

Definition inb (i : nat) (l : list nat) : bool := existsb (Nat.eqb i) l.
Definition step (s : st) (a : action) : option st :=
  match a with
  | AHand => if Nat.ltb (next s) (total s)
             then Some (mkSt (total s) (hasCallback s) (pending s) (S (next s)) (waiting s ++ [next s]) (errs s) (jobs s)) else None
  | AAnswer i e =>
      if inb i (waiting s) then
        let p := pending s - 1 in (* recordComplete, producer.go:135-139; atomic *)
        Some (mkSt (total s) (hasCallback s) p (next s) (filter (fun x => negb (Nat.eqb x i)) (waiting s))
                   (fun x => if Nat.eqb x i then Some e else errs s x)
                   (if (p =? 0) && hasCallback s then S (jobs s) else jobs s))
      else None
  end.
Fixpoint run (s : st) (acts : list action) : option st :=
  match acts with [] => Some s | a :: acts' => match step s a with Some s' => run s' acts' | None => None end end.
