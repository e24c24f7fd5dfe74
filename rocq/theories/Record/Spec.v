(** Independent description of what an application builds with the Record / ChangeLogEntry API. *)
From Coq Require Import ZArith List Strings.Byte.
Import ListNotations.

Inductive build_op :=
| OpKey (bs : list (list byte))
| OpValue (bs : list (list byte))
| OpTopic (t : list byte)
| OpPartition (p : Z)
| OpType (t : list byte)
| OpHeader (k v : list byte).

(** key and value: everything written, concatenated *)
Definition written_key (ops : list build_op) : list byte :=
  concat (concat (map (fun o => match o with OpKey bs => bs | _ => [] end) ops)).
Definition written_value (ops : list build_op) : list byte :=
  concat (concat (map (fun o => match o with OpValue bs => bs | _ => [] end) ops)).
(** headers: in the order added *)
Definition written_headers (ops : list build_op) : list (list byte * list byte) :=
  concat (map (fun o => match o with OpHeader k v => [(k, v)] | _ => [] end) ops).
(** topic, partition, type: the last one set *)
Definition last_of {A} (f : build_op -> option A) (d : A) (ops : list build_op) : A :=
  fold_left (fun acc o => match f o with Some a => a | None => acc end) ops d.
Definition written_topic := last_of (fun o => match o with OpTopic t => Some t | _ => None end) [].
Definition written_partition := last_of (fun o => match o with OpPartition p => Some p | _ => None end) (-1)%Z.
Definition written_type := last_of (fun o => match o with OpType t => Some t | _ => None end) [].
