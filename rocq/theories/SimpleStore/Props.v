(** Properties C52, C53. *)
From Coq Require Import Strings.String Strings.Byte ZArith List Bool Lia.
From Verif.Base Require Import Bytes.
From Verif.Record Require Import Model.
From Verif.BTree Require Import Model Proofs.
From Verif.SimpleStore Require Import Model Proofs.
Import ListNotations.

(** C52: any sequence of Put, Get and Delete gives the results of a map, panics exactly when an item cannot be
    encoded, and the entries, as they appear in the change log, are key + encoded value, or key + tombstone
    for a Delete of a present key *)
Theorem c52_behaves_as_a_map_and_reports_changes :
  forall T (itemKey : T -> bytes) enc os,
  match run itemKey enc [] os, spec_run itemKey enc (fun _ => None) os with
  | Some (l, r, s'), Some (l', r', m') => (forall k, GetItem s' k = m' k) /\ map entry_view l = l' /\ r = r'
  | None, None => True
  | _, _ => False
  end.
Proof. exact @store_ok. Qed.
Print Assumptions c52_behaves_as_a_map_and_reports_changes.

Definition exKey (i : bytes * bytes) : bytes := fst i.
Definition exEnc (i : bytes * bytes) : option bytes := Some (x01 :: (fst i ++ [x00] ++ snd i)).
Fixpoint split0 (b : bytes) : bytes * bytes :=
  match b with
  | [] => ([], [])
  | x :: b' => if Byte.eqb x x00 then ([], b') else let '(p, q) := split0 b' in (x :: p, q)
  end.
Definition exDec (b : bytes) : (bytes * bytes) * bool :=
  match b with
  | x01 :: b' => (split0 b', false)
  | _ => (([], []), true)
  end.
Definition exOps : list (op (bytes * bytes)) :=
  [OPut (str "a", str "1"); OPut (str "b", str "2"); OPut (str "a", str "3"); ODelete (str "b", []); OGet (str "a"); OGet (str "b")].
Example c52_example :
  option_map (fun x => (map entry_view (fst (fst x)), snd (fst x))) (run exKey exEnc [] exOps) =
  Some ([(str "a", [x01; x61; x00; x31]); (str "b", [x01; x62; x00; x32]); (str "a", [x01; x61; x00; x33]); (str "b", [])],
        [None; None; None; None; Some (str "a", str "3"); None]).
Proof. vm_compute. reflexivity. Qed.

(** C53 is refuted for every codec that decodes without error: the replayed store is always empty, so replay
    reproduces the contents only if there are none (ReceiveChange stores the item if decoding failed) *)
Theorem c53_replay_is_always_empty_refuted :
  forall T (itemKey : T -> bytes) enc dec os l r s, decodes enc dec -> run itemKey enc [] os = Some (l, r, s) ->
  (forall k, GetItem (replay itemKey dec [] l) k = GetItem s k) <-> (forall k, GetItem s k = None).
Proof. exact @replay_iff. Qed.
Print Assumptions c53_replay_is_always_empty_refuted.

Theorem c53_refuted :
  exists T (itemKey : T -> bytes) enc dec os l r s k,
  roundtrips enc dec /\ decodes enc dec /\ run itemKey enc [] os = Some (l, r, s) /\
  GetItem (replay itemKey dec [] l) k <> GetItem s k.
Proof.
  exists bytes, (fun i => i), (fun i => Some (x01 :: i)), (fun b => (tl b, false)), [OPut (str "a")].
  do 3 eexists. exists (str "a"). split; [|split; [|split]].
  - intros i b [= <-]. split; [discriminate|reflexivity].
  - intros i b _ _. reflexivity.
  - vm_compute. reflexivity.
  - vm_compute. discriminate.
Qed.
Print Assumptions c53_refuted.

(** and a value that does not decode is stored (under the key of whatever Decode returned) *)
Example c53_undecodable_is_stored :
  GetItem (replay exKey exDec [] [WriteKey [str "a"] (WriteValue [str "garbage"] blankRecord)]) [] = Some ([], []).
Proof. vm_compute. reflexivity. Qed.

(** the recording half is right: applying the entries in order, each as it was meant, gives the contents *)
Theorem c53_log_suffices_partial :
  forall T (itemKey : T -> bytes) enc dec os l r s, roundtrips enc dec -> run itemKey enc [] os = Some (l, r, s) ->
  forall k, fold_left (apply_entry dec) (map entry_view l) (fun _ => None) k = GetItem s k.
Proof. exact @log_suffices. Qed.
Print Assumptions c53_log_suffices_partial.
Example c53_example :
  option_map (fun x => map (fold_left (apply_entry exDec) (map entry_view (fst (fst x))) (fun _ => None)) [str "a"; str "b"])
    (run exKey exEnc [] exOps) = Some [Some (str "a", str "3"); None].
Proof. vm_compute. reflexivity. Qed.
