(** What a commit log means, independently of how it is encoded and who reads it. *)
From Coq Require Import Strings.Byte ZArith List.
Import ListNotations.
Open Scope Z_scope.

(** an abstract commit-log entry *)
Inductive entry :=
| Commit (topic : list byte) (partition offset : Z)
| Mark (mark : list byte).

(** offsets committed for (topic, partition), oldest first *)
Fixpoint offsets_of (topic : list byte) (partition : Z) (l : list entry) : list Z :=
  match l with
  | [] => []
  | Commit t p o :: l' =>
      if list_eq_dec Byte.byte_eq_dec t topic then
        if Z.eq_dec p partition then o :: offsets_of topic partition l' else offsets_of topic partition l'
      else offsets_of topic partition l'
  | Mark _ :: l' => offsets_of topic partition l'
  end.

(** where to resume after these commits: behind the last one, -1 when there is none *)
Fixpoint resume_of (os : list Z) : Z :=
  match os with
  | [] => -1
  | [o] => o + 1
  | _ :: os' => resume_of os'
  end.

(** [compacts key l l']: l' results from l by log compaction: order is kept and a record may be dropped
    only if a later record of l has the same key. *)
Inductive compacts {A K} (key : A -> K) : list A -> list A -> Prop :=
| compacts_nil : compacts key [] []
| compacts_keep x l l' : compacts key l l' -> compacts key (x :: l) (x :: l')
| compacts_drop x y l l' : compacts key l l' -> In y l -> key y = key x -> compacts key (x :: l) l'.
