(** Property C57. *)
From Coq Require Import ZArith List Bool Arith.
From Verif.DList Require Import Model Spec Proofs.
Import ListNotations.

(** C57 (missing: Init on a list that still has elements, see below): any sequence of operations on any number
    of lists, with any elements as arguments (of the same list, of other lists, removed ones), runs without nil
    dereference, gives the results that the sequences give, and leaves lists whose traversals forwards and backwards,
    lengths and values are those of the sequences *)
Theorem c57_lists_refine_sequences_partial :
  forall T (zero : T) os, disciplined (s0 zero) os ->
  exists rs m s, run (mem0 zero) os = Some (rs, m) /\ spec_run (s0 zero) os rs s /\
    forall l, walk (Next m) (length (seq s l)) (Front m l) = seq s l /\
              walk (Prev m) (length (seq s l)) (Back m l) = rev (seq s l) /\
              Len m l = Z.of_nat (length (seq s l)) /\ map (val m) (seq s l) = map (sval s) (seq s l).
Proof. exact @list_ok. Qed.
Print Assumptions c57_lists_refine_sequences_partial.

(** elements are named 0, 1, 2 … in the order of their allocation *)
Definition ex_ops : list (op nat) :=
  [OPushBack 0 10; OPushBack 0 11; OPushFront 0 12; OPushBack 1 20; OMoveBefore 0 0 2; OInsertAfter 0 13 0; OMoveToBack 0 3;
   ORemove 1 0; OMoveAfter 0 3 9; OPushBackList 0 0; OInit 2; OPushFrontList 2 0; ORemove 0 1; ONext 1; ONext 0; OPrev 4; OBack 2].
Example c57_example_disciplined : disciplined (s0 0) ex_ops.
Proof.
  unfold ex_ops.
  repeat (cbn [disciplined]; split;
    [ first [discriminate | intros l [= <-]; vm_compute; reflexivity]
    | let H := fresh in intros ? ? H; cbn [spec_step] in H;
      repeat match type of H with context [if ?b then _ else _] => let v := eval vm_compute in b in change b with v in H; cbn iota in H end;
      first [destruct H as (_ & ->) | destruct H as (-> & _)] ]).
  exact I.
Qed.
Example c57_example :
  option_map (fun '(rs, m) => (skipn 13 rs, map (val m) (walk (Next m) 20 (Front m 0)), map (val m) (walk (Prev m) 20 (Back m 0)),
                               map (val m) (walk (Next m) 20 (Front m 2)), Len m 0)) (run (mem0 0) ex_ops) =
  Some ([RElem None; RElem (Some (El 4)); RElem (Some (El 0)); RElem (Some (El 9))],
        [10; 13; 12; 10; 13; 12; 11], [11; 12; 13; 10; 12; 13; 10], [10; 13; 12; 11; 10; 13; 12; 11], 7%Z).
Proof. vm_compute. reflexivity. Qed.

(** Init on a list with elements is refuted as an operation on sequences: the cleared element still names the
    list as its owner, and removing it afterwards (which should leave the list alone) makes the length -1 *)
Theorem c57_init_of_a_filled_list_refuted :
  exists os rs, option_map fst (run (mem0 0) os) = Some rs /\ forall s, ~ spec_run (s0 0) os rs s.
Proof.
  exists [OPushBack 0 10; OInit 0; ORemove 0 0; OLen 0], [RElem (Some (El 0)); RUnit; RVal 10; RLen (-1)].
  split; [vm_compute; reflexivity|]. intros s H.
  inversion H as [|? ? ? ? s1 ? ? E1 H1]; clear H; subst. destruct E1 as (_ & ->).
  inversion H1 as [|? ? ? ? s2 ? ? E2 H2]; clear H1; subst. destruct E2 as (_ & ->).
  inversion H2 as [|? ? ? ? s3 ? ? E3 H3]; clear H2; subst. destruct E3 as (_ & ->).
  inversion H3 as [|? ? ? ? s4 ? ? E4 H4]; clear H3; subst. destruct E4 as (E4 & _).
  vm_compute in E4. discriminate.
Qed.
Print Assumptions c57_init_of_a_filled_list_refuted.
