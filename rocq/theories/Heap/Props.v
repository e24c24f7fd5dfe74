(** C55, C56: the min-max heap of the stores package. *)
From Coq Require Import List Bool Arith Lia Permutation.
From Verif.BTree Require Import Proofs.
From Verif.Heap Require Import Model Proofs Ops Fix MaxRemove.
Import ListNotations.

(** C55 (partial: an item may only be pushed when the last maximum shown by Max has been popped or nothing was
    asked since; what happens otherwise is refuted below). Any initial contents, any sequence of operations: every
    result is one the bag of items allows, and the items at the end are the ones the bag holds. *)
Theorem c55_pops_in_priority_order_partial :
  forall {P} (lt : P -> P -> bool), weak_order lt -> forall zero its os,
    proper (seq 0 (length its)) false os (fst (run lt (NewMinMaxHeap lt zero its) os)) ->
    exists bag, spec_run lt (seq 0 (length its)) (fun x => nth x its zero) os (fst (run lt (NewMinMaxHeap lt zero its) os)) bag /\
      Permutation bag (items (snd (run lt (NewMinMaxHeap lt zero its) os))).
Proof. intros. apply heap_ok; assumption. Qed.
Print Assumptions c55_pops_in_priority_order_partial.

Lemma nat_weak : weak_order Nat.ltb.
Proof.
  split.
  - intros a. apply Nat.ltb_irrefl.
  - intros a b c. rewrite !Nat.ltb_lt. lia.
  - intros a b c. rewrite !Nat.ltb_ge. lia.
Qed.
Definition ex_its : list nat := [5; 3; 8; 3; 9; 1; 7].
Definition ex_os : list (op nat) := [OMin; OPush 7 0; OMax; OPopMin; OPopMax; OPush 8 4; OPopMin; OPopMax; OPopMin; OPopMin; OMax; OPopMax; OPopMin; OPopMax; OPopMin; OMin].
Example c55_example_proper : proper (seq 0 (length ex_its)) false ex_os (fst (run Nat.ltb (NewMinMaxHeap Nat.ltb 0 ex_its) ex_os)).
Proof. replace (fst (run Nat.ltb (NewMinMaxHeap Nat.ltb 0 ex_its) ex_os)) with
  [Some 5; None; Some 4; Some 7; Some 4; None; Some 5; Some 2; Some 1; Some 3; Some 6; Some 6; Some 8; Some 0; None; None] by (vm_compute; reflexivity).
  cbn. repeat split; auto; intuition discriminate.
Qed.
(** the items by number (0..6 initially, 7 and 8 pushed): the two 3s (items 1 and 3) come out one after the other *)
Example c55_example : fst (run Nat.ltb (NewMinMaxHeap Nat.ltb 0 ex_its) ex_os) =
  [Some 5; None; Some 4; Some 7; Some 4; None; Some 5; Some 2; Some 1; Some 3; Some 6; Some 6; Some 8; Some 0; None; None].
Proof. vm_compute. reflexivity. Qed.

(** Pushing while the maximum shown by Max is parked in the last slot is refuted: the parked maximum is then out of
    its place in the tree, and a later Max shows an item that precedes another one *)
Theorem c55_push_after_max_refuted :
  exists its os rs, fst (run Nat.ltb (NewMinMaxHeap Nat.ltb 0 its) os) = rs /\
    forall bag, ~ spec_run Nat.ltb (seq 0 (length its)) (fun x => nth x its 0) os rs bag.
Proof.
  exists [1; 1; 1; 2], [OMax; OPush 4 0; OMax], [Some 3; None; Some 2]. split; [vm_compute; reflexivity|].
  intros bag H. inversion H as [|? ? ? ? ? b1 v1 ? ? E1 H1]; clear H; subst. destruct E1 as (-> & -> & _).
  inversion H1 as [|? ? ? ? ? b2 v2 ? ? E2 H2]; clear H1; subst. destruct E2 as (_ & -> & ->).
  inversion H2 as [|? ? ? ? ? b3 v3 ? ? E3 H3]; clear H2; subst. destruct E3 as (_ & _ & _ & E3).
  assert (F : Nat.ltb (nth 2 [1; 1; 1; 2] 0) (nth 3 [1; 1; 1; 2] 0) = false) by (apply (E3 3); cbn; auto 6).
  vm_compute in F. discriminate.
Qed.
Print Assumptions c55_push_after_max_refuted.

(** C56 (partial). Which item is removed or moved: in a heap that has only been built, read, popped, updated and removed
    from, Remove removes exactly the given item and Update keeps the items. What is missing: pushed items (refuted
    below) and, in this theorem, the order of the rest. *)
Theorem c56_remove_takes_the_item_partial :
  forall {P} (lt : P -> P -> bool) zero h x, reach_np lt zero h -> In x (items h) ->
    exists h', Remove lt h x = Some h' /\ Permutation (items h) (x :: items h') /\ value h' = value h.
Proof. intros P lt zero h x. apply np_remove_ok. Qed.
Print Assumptions c56_remove_takes_the_item_partial.
Theorem c56_update_keeps_the_items_partial :
  forall {P} (lt : P -> P -> bool) zero h x v, reach_np lt zero h -> In x (items h) ->
    exists h', Update lt (setValue h x v) x = Some h' /\ Permutation (items h) (items h') /\ value h' = upd (value h) x v.
Proof. intros P lt zero h x v. apply np_update_ok. Qed.
Print Assumptions c56_update_keeps_the_items_partial.

(** The order afterwards: in every heap reached by the operations (pushes included), if the item knows its slot and the
    value that goes into the slot does not go beyond the slot's parent, or the slot has no children, then the heap goes
    on popping in priority order. Removing the last slot and the first three slots always qualifies. *)
Theorem c56_remove_keeps_the_order_partial :
  forall {P} (lt : P -> P -> bool), weak_order lt -> forall zero h x, reach lt zero h -> maxed h = false -> placed h x ->
    (idx h x = len h - 1 \/ fits lt h (idx h x) (len h - 1) (val h (len h - 1))) ->
    exists h', Remove lt h x = Some h' /\ Permutation (items h) (x :: items h') /\ value h' = value h /\
      forall os, proper (items h') false os (fst (run lt h' os)) -> exists bag, spec_run lt (items h') (value h) os (fst (run lt h' os)) bag /\
        Permutation bag (items (snd (run lt h' os))).
Proof. intros P lt W zero h x. apply reach_remove_ok; assumption. Qed.
Print Assumptions c56_remove_keeps_the_order_partial.
Theorem c56_update_keeps_the_order_partial :
  forall {P} (lt : P -> P -> bool), weak_order lt -> forall zero h x v, reach lt zero h -> maxed h = false -> placed h x ->
    fits lt h (idx h x) (len h) v ->
    exists h', Update lt (setValue h x v) x = Some h' /\ Permutation (items h) (items h') /\ value h' = upd (value h) x v /\
      forall os, proper (items h) false os (fst (run lt h' os)) -> exists bag, spec_run lt (items h) (upd (value h) x v) os (fst (run lt h' os)) bag /\
        Permutation bag (items (snd (run lt h' os))).
Proof. intros P lt W zero h x v. apply reach_update_ok; assumption. Qed.
Print Assumptions c56_update_keeps_the_order_partial.

(** Removing the item that Max has just shown always works: it is a greatest one, and afterwards the heap gives the rest in order. *)
Theorem c56_remove_of_the_shown_max_partial :
  forall {P} (lt : P -> P -> bool), weak_order lt -> forall zero h x h1, reach lt zero h -> Max lt h = (Some x, h1) ->
    exists h', Remove lt h1 x = Some h' /\ Permutation (items h) (x :: items h') /\ value h' = value h /\
      (forall y, In y (items h) -> lt (value h x) (value h y) = false) /\
      forall os, proper (items h') false os (fst (run lt h' os)) -> exists bag, spec_run lt (items h') (value h) os (fst (run lt h' os)) bag /\
        Permutation bag (items (snd (run lt h' os))).
Proof. intros P lt W zero h x h1. apply max_remove; assumption. Qed.
Print Assumptions c56_remove_of_the_shown_max_partial.

(** item 1 (value 3) of the example is in slot 4, without children in a heap of seven; item 5 (value 1) is the root *)
Definition ex_h : heap nat := NewMinMaxHeap Nat.ltb 0 ex_its.
Example c56_example_hypotheses : reach Nat.ltb 0 ex_h /\ reach_np Nat.ltb 0 ex_h /\ maxed ex_h = false /\ placed ex_h 1 /\
  fits Nat.ltb ex_h (idx ex_h 1) (len ex_h - 1) (val ex_h (len ex_h - 1)) /\ fits Nat.ltb ex_h (idx ex_h 1) (len ex_h) 9 /\
  placed ex_h 5 /\ fits Nat.ltb ex_h (idx ex_h 5) (len ex_h) 9.
Proof.
  split; [apply reach_new|]. split; [apply np_new|]. split; [vm_compute; reflexivity|]. unfold placed, fits.
  assert (E1 : idx ex_h 1 = 4) by (vm_compute; reflexivity). assert (E5 : idx ex_h 5 = 0) by (vm_compute; reflexivity).
  assert (L : len ex_h = 7) by (vm_compute; reflexivity). assert (A3 : arr ex_h 4 = 1) by (vm_compute; reflexivity).
  assert (A0 : arr ex_h 0 = 5) by (vm_compute; reflexivity). rewrite E1, E5, L, A3, A0.
  split; [split; [lia|reflexivity]|]. split; [left; lia|]. split; [left; lia|]. split; [split; [lia|reflexivity]|]. right. left. reflexivity.
Qed.
Definition pops {P} (lt : P -> P -> bool) (o : option (heap P)) (k : nat) (mx : bool) : option (list (option P)) :=
  option_map (fun h => map (option_map (value h)) (fst (run lt h (repeat (if mx then OPopMax else OPopMin) k)))) o.
(** twice the greatest one is shown and removed, then the rest comes in order *)
Example c56_example_shown :
  let '(m1, h1) := Max Nat.ltb ex_h in let h2 := match m1 with Some x => Remove Nat.ltb h1 x | None => None end in
  let '(m2, h3) := match h2 with Some h => Max Nat.ltb h | None => (None, ex_h) end in
  (option_map (value ex_h) m1, option_map (value ex_h) m2, pops Nat.ltb (match m2 with Some x => Remove Nat.ltb h3 x | None => None end) 6 true) =
  (Some 9, Some 8, Some [Some 7; Some 5; Some 3; Some 3; Some 1; None]).
Proof. vm_compute. reflexivity. Qed.
Example c56_example : pops Nat.ltb (Remove Nat.ltb ex_h 1) 7 false = Some [Some 1; Some 3; Some 5; Some 7; Some 8; Some 9; None] /\
  pops Nat.ltb (Update Nat.ltb (setValue ex_h 5 9) 5) 7 false = Some [Some 3; Some 3; Some 5; Some 7; Some 8; Some 9; Some 9].
Proof. split; vm_compute; reflexivity. Qed.

(** Refuted, three ways. Push does not tell the item its slot: after pushing 5 onto a heap that holds 1, Remove of the
    pushed item takes out the 1 *)
Theorem c56_remove_of_a_pushed_item_refuted :
  exists h x, reach Nat.ltb 0 h /\ In x (items h) /\ option_map (@items nat) (Remove Nat.ltb h x) = Some [x].
Proof.
  exists (snd (step Nat.ltb (NewMinMaxHeap Nat.ltb 0 [1]) (OPush 1 5))), 1. split; [|split; vm_compute; auto].
  apply reach_step; [apply reach_new|]. intros x p [= <- <-]. vm_compute. split; auto. intros [H|[]]. discriminate.
Qed.
Print Assumptions c56_remove_of_a_pushed_item_refuted.
(** Remove can leave a heap whose pops are out of order: twelve items, the fourth (value 2) removed *)
Theorem c56_remove_order_refuted :
  exists its x, pops Nat.ltb (Remove Nat.ltb (NewMinMaxHeap Nat.ltb 0 its) x) 5 true = Some [Some 12; Some 10; Some 9; Some 8; Some 11].
Proof. exists [10; 7; 9; 2; 5; 11; 1; 3; 6; 8; 4; 12], 3. vm_compute. reflexivity. Qed.
Print Assumptions c56_remove_order_refuted.
(** Update can too: eight items, the fourth set from 8 to 0 *)
Theorem c56_update_order_refuted :
  exists its x v, pops Nat.ltb (Update Nat.ltb (setValue (NewMinMaxHeap Nat.ltb 0 its) x v) x) 3 false = Some [Some 1; Some 0; Some 2].
Proof. exists [4; 5; 7; 8; 2; 1; 3; 6], 3, 0. vm_compute. reflexivity. Qed.
Print Assumptions c56_update_order_refuted.
