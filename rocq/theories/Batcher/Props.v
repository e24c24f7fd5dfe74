(** C34-C39, C103, C104: the asynchronous batcher. Executions: any number of Add calls with their per-item lock sections interleaved in any way,
    timers expiring at any time, executors returning at any time. *)
From stdpp Require Import prelude list gmap.
From Coq Require Import ZArith.
From Verif.Batcher Require Import Model Base Inv Step Step2 Step3 Proofs Order Live Leak.
Open Scope nat_scope.

(** C34: calls of the BatchExecutor are numbered apart; each gets at least one and at most maxBatchSize items; at most
    maxConcurrentBatches calls have not returned *)
Theorem c34_limits :
  forall size conc acts s, 1 <= size -> run (start size conc) acts = Some s ->
  NoDup (callIds (trace s)) /\
  (forall c l, EvCall c l ∈ trace s -> 1 <= length l <= size) /\
  (forall cs, NoDup cs -> (forall c, c ∈ cs -> exists l, isOpen (trace s) c l) -> length cs <= conc).
Proof. exact limits. Qed.
Print Assumptions c34_limits.

(** C35: two calls that have not returned have no key in common *)
Theorem c35_key_once :
  forall size conc acts s c1 c2 l1 l2 i1 i2, run (start size conc) acts = Some s -> isOpen (trace s) c1 l1 -> isOpen (trace s) c2 l2 ->
  i1 ∈ l1 -> i2 ∈ l2 -> i_k i1 = i_k i2 -> c1 = c2.
Proof. exact key_once. Qed.
Print Assumptions c35_key_once.

(** C36: of each key, the items handed to the executor are the first ones added, in that order; none is handed over twice *)
Theorem c36_order :
  forall size conc acts s, run (start size conc) acts = Some s ->
  NoDup (handed (trace s)) /\ forall k, fk k (handed (trace s)) `prefix_of` fk k (nm (added (trace s))).
Proof. exact order. Qed.
Print Assumptions c36_order.

(** C37: no callback is delivered twice; when it is, every item has been in a call that has returned; nothing of a BatchItems
    without items is handed to the executor. That the callback is delivered at all is C39. *)
Theorem c37_callbacks :
  forall size conc acts s b, run (start size conc) acts = Some s ->
  NoDup (cbs (trace s)) /\
  (forall x it u v, batches s !! b = Some x -> it ∈ itemsOf b x -> i_n it <> None -> trace s = u ++ EvCb b :: v -> exists c l, it ∈ l /\ EvCall c l ∈ u /\ EvRet c ∈ u) /\
  (forall x, batches s !! b = Some x -> b_items x = [] -> fb b (handed (trace s)) = []).
Proof. exact callbacks. Qed.
Print Assumptions c37_callbacks.

(** two BatchItems over two executors of two items: the second shares key 4 with the first and also has key 5; the third is empty *)
Definition ex_acts : list action :=
  [AStart 4 [4; 4; 4]; AItem 0; AItem 0; AStart 4 [4; 5]; AItem 0; AItem 1; AItem 1; AStart 9 []; AItem 2; AGo 0 0; AGo 1 0].
Definition i0 := mkI 0 4 (Some 0). Definition i1 := mkI 0 4 (Some 1). Definition i2 := mkI 0 4 (Some 2).
Definition j0 := mkI 1 4 (Some 0). Definition j1 := mkI 1 5 (Some 1). Definition p0 := mkI 2 9 None.
Example c34_example : option_map trace (run (start 2 2) ex_acts) =
  Some [EvAdd i0; EvAdd i1; EvAdd i2; EvAdd j0; EvAdd j1; EvAdd p0; EvCall 0 [i0; i1]; EvCall 1 [j1]].
Proof. vm_compute. reflexivity. Qed.
Definition ex_end : list action :=
  ex_acts ++ [AGo 0 0; AGo 1 0; AGo 1 0; AGo 1 0; AGo 1 0; AGo 1 0; AGo 0 0; AGo 0 0; AGo 0 0; AGo 0 0; AGo 0 0; AGo 0 0; AGo 0 0; AGo 0 0; AGo 0 0; AGo 0 0].
Example c37_example : option_map trace (run (start 2 2) ex_end) =
  Some [EvAdd i0; EvAdd i1; EvAdd i2; EvAdd j0; EvAdd j1; EvAdd p0; EvCall 0 [i0; i1]; EvCall 1 [j1]; EvRet 0; EvRet 1; EvComp j1; EvComp p0; EvCb 2;
        EvComp i0; EvComp i1; EvCall 2 [i2; j0]; EvRet 2; EvComp i2; EvCb 0; EvComp j0; EvCb 1].
Proof. vm_compute. reflexivity. Qed.

(** C38, full claim: if all items of two BatchItems have one key and the first was added before the second, the callback of the first
    is delivered before that of the second. Not so when the first has no items: its placeholder waits in the same executor for
    the items of the second. *)
Definition overtake : list action := [AStart 7 []; AItem 0; AStart 7 [7]; AItem 1; AFire 0; ATimer 0; AGo 0 0; AGo 0 0; AGo 0 0; AGo 0 0; AGo 0 0].
Theorem c38_overtaken_refuted :
  exists s xa xb, run (start 5 1) overtake = Some s /\ batches s !! 0 = Some xa /\ batches s !! 1 = Some xb /\
  (forall it, it ∈ itemsOf 0 xa ++ itemsOf 1 xb -> i_k it = 7) /\
  (forall i j, i ∈ itemsOf 0 xa -> j ∈ itemsOf 1 xb -> before (trace s) (EvAdd i) (EvAdd j)) /\
  before (trace s) (EvCb 1) (EvCb 0) /\ EvCb 0 ∈ trace s.
Proof.
  destruct (run (start 5 1) overtake) as [s|] eqn:R; [|vm_compute in R; discriminate]. exists s, (mkB 7 [] 0 1), (mkB 7 [7] 1 1).
  assert (Q : option_map (fun s => (batches s, trace s)) (Some s) = Some ([mkB 7 [] 0 1; mkB 7 [7] 1 1],
    [EvAdd (mkI 0 7 None); EvAdd (mkI 1 7 (Some 0)); EvCall 0 [mkI 1 7 (Some 0)]; EvRet 0; EvComp (mkI 1 7 (Some 0)); EvCb 1; EvComp (mkI 0 7 None); EvCb 0])) by (rewrite <- R; vm_compute; reflexivity).
  cbn in Q. injection Q as E1 E2. clear R. rewrite E1, E2. split; [reflexivity|]. split; [reflexivity|]. split; [reflexivity|]. split; [|split; [|split]].
  - intros it H. cbn in H. repeat (apply elem_of_cons in H as [->|H]; [reflexivity|]). inversion H.
  - intros i j Hi Hj. apply elem_of_list_singleton in Hi, Hj. subst. cbn. intros u v T. destruct u as [|? [|? u]]; try discriminate; injection T as ? T; subst; try left.
  - intros u v T. do 5 (destruct u as [|? u]; [discriminate|injection T as ? T; subst]). destruct u as [|? u]; [discriminate|injection T as ? T; subst]. do 5 right. left.
  - do 7 right. left.
Qed.
Print Assumptions c38_overtaken_refuted.
(** what holds: the order is kept whenever the first has items or the second has none *)
Theorem c38_order_partial :
  forall size conc acts s a b xa xb k, run (start size conc) acts = Some s -> batches s !! a = Some xa -> batches s !! b = Some xb -> a <> b ->
  (forall it, it ∈ itemsOf a xa ++ itemsOf b xb -> i_k it = k) -> b_items xa <> [] \/ b_items xb = [] ->
  (forall i j, i ∈ itemsOf a xa -> j ∈ itemsOf b xb -> before (trace s) (EvAdd i) (EvAdd j)) -> before (trace s) (EvCb a) (EvCb b).
Proof. exact callback_order. Qed.
Print Assumptions c38_order_partial.
Example c38_example : option_map trace (run (start 5 1) [AStart 7 [7]; AItem 0; AStart 7 []; AItem 1; AFire 0; ATimer 0; AGo 0 0; AGo 0 0; AGo 0 0; AGo 0 0; AGo 0 0]) =
  Some [EvAdd (mkI 0 7 (Some 0)); EvAdd (mkI 1 7 None); EvCall 0 [mkI 0 7 (Some 0)]; EvRet 0; EvComp (mkI 0 7 (Some 0)); EvCb 0; EvComp (mkI 1 7 None); EvCb 1].
Proof. vm_compute. reflexivity. Qed.

(** C39: after the last Add call started, only finitely many steps are left, and when no step is left every callback has been
    delivered and every item handed to the executor; one executor is enough, any batch size will do *)
Theorem c39_nothing_stuck :
  forall size conc acts s, 1 <= conc -> run (start size conc) acts = Some s ->
  (exists n, forall more s', forallb internal more = true -> run s more = Some s' -> length more <= n) /\
  (forall more s', forallb internal more = true -> run s more = Some s' -> (forall a, internal a = true -> step s' a = None) -> done s').
Proof. exact nothing_stuck. Qed.
Print Assumptions c39_nothing_stuck.
(** the run above is at its end *)
Example c39_example : exists s, run (start 2 2) ex_end = Some s /\ (forall a, internal a = true -> step s a = None) /\ cbs (trace s) = [2; 0; 1].
Proof.
  destruct (run (start 2 2) ex_end) as [s|] eqn:R; [|vm_compute in R; discriminate]. exists s. split; [reflexivity|].
  assert (Q : option_map (fun s => (map b_next (batches s), map b_items (batches s), map e_go (execs s), map t_st (timers s), cbs (trace s))) (Some s) =
    Some ([3; 2; 1], [[4; 4; 4]; [4; 5]; []], [[]; []], [TOver; TOver; TOver], [2; 0; 1])) by (rewrite <- R; vm_compute; reflexivity).
  cbn in Q. injection Q as E1 E2 E3 E4 E5. clear R. split; [|exact E5]. intros a Ha. destruct a as [k ks|b|t|t|e j]; [discriminate| | | |]; cbn [step].
  - destruct (batches s) as [|x0 [|x1 [|x2 [|? ?]]]]; try discriminate. destruct x0, x1, x2. cbn in E1, E2. injection E1 as -> -> ->. injection E2 as -> -> ->. destruct b as [|[|[|b]]]; reflexivity.
  - destruct (timers s) as [|x0 [|x1 [|x2 [|? ?]]]]; try discriminate. destruct x0, x1, x2. cbn in E4. injection E4 as -> -> ->. destruct t as [|[|[|t]]]; reflexivity.
  - destruct (timers s) as [|x0 [|x1 [|x2 [|? ?]]]]; try discriminate. destruct x0, x1, x2. cbn in E4. injection E4 as -> -> ->. destruct t as [|[|[|t]]]; reflexivity.
  - unfold goStep. destruct (execs s) as [|x0 [|x1 [|? ?]]]; try discriminate. destruct x0, x1. cbn in E3. injection E3 as -> ->. destruct e as [|[|e]]; reflexivity.
Qed.

(** C103. Nothing is left to do ([idle]: no Add call, timer or goroutine can go on). The batcher then holds no items and no
    placeholders, and it remembers the executor of a key only if a BatchItems without items was added for the key. *)
Theorem c103_idle_holds_no_items :
  forall size conc acts s, 1 <= conc -> run (start size conc) acts = Some s -> idle s ->
  (forall e x, execs s !! e = Some x -> e_items x = [] /\ e_noops x = []) /\ pending s = [] /\
  (forall k e, assign s !! k = Some e -> AStart k [] ∈ acts).
Proof. exact nothing_held. Qed.
Print Assumptions c103_idle_holds_no_items.
(** missing: BatchItems without items *)
Theorem c103_idle_holds_no_keys_partial :
  forall size conc acts s, 1 <= conc -> run (start size conc) acts = Some s -> idle s -> (forall k, AStart k [] ∉ acts) -> assign s = ∅.
Proof. exact no_keys_held. Qed.
Print Assumptions c103_idle_holds_no_keys_partial.
(** with them, the map of assignments of a batcher that has completed everything can have any size *)
Theorem c103_keys_pile_up_refuted :
  forall n, exists acts s, run (start 1 1) acts = Some s /\ idle s /\ done s /\ size (assign s) = n.
Proof. exact pile_up. Qed.
Print Assumptions c103_keys_pile_up_refuted.
Example c103_example : option_map (fun s => (assign s !! 4, assign s !! 5, assign s !! 9, pending s, map e_all (execs s))) (run (start 2 2) ex_end) =
  Some (None, None, Some 1, [], [[]; []]).
Proof. vm_compute. reflexivity. Qed.

(** C104. The only thing left that can happen by itself is that a call of the BatchExecutor returns. An item that has been
    added and not handed over then waits for a call with its key, or for one of as many calls as there are executors. Missing:
    BatchItems without items. *)
Theorem c104_waits_for_calls_only_partial :
  forall size conc acts s it, run (start size conc) acts = Some s ->
  (forall a s', internal a = true -> step s a = Some s' -> exists c, trace s' = trace s ++ [EvRet c]) -> (forall k, AStart k [] ∉ acts) ->
  EvAdd it ∈ trace s -> it ∉ handed (trace s) ->
  (exists c l it', isOpen (trace s) c l /\ it' ∈ l /\ i_k it' = i_k it) \/
  (exists cs, NoDup cs /\ length cs = conc /\ forall c, c ∈ cs -> exists l, isOpen (trace s) c l).
Proof. exact waits_only. Qed.
Print Assumptions c104_waits_for_calls_only_partial.
(** With them: executor 0 has had a BatchItems of key 5 without items. It is now in a call with key 6. An item of key 5 waits for it,
    although no call has its key and executor 1 is free. *)
Definition sticky : list action := [AStart 5 []; AItem 0; AGo 0 0; AGo 0 0; AGo 0 0; AStart 6 [6]; AItem 1; AGo 0 0; AStart 5 [5]; AItem 2].
Theorem c104_waits_for_another_key_refuted :
  exists s, run (start 1 2) sticky = Some s /\
  (forall a s', internal a = true -> step s a = Some s' -> exists c, trace s' = trace s ++ [EvRet c]) /\
  EvAdd (mkI 2 5 (Some 0)) ∈ trace s /\ mkI 2 5 (Some 0) ∉ handed (trace s) /\
  (forall c l, isOpen (trace s) c l -> c = 0 /\ forall it, it ∈ l -> i_k it = 6).
Proof.
  destruct (run (start 1 2) sticky) as [s|] eqn:R; [|vm_compute in R; discriminate]. exists s. split; [reflexivity|].
  assert (Q : option_map (fun s => (batches s, execs s, timers s, trace s)) (Some s) =
    Some ([mkB 5 [] 0 1; mkB 6 [6] 0 1; mkB 5 [5] 0 1], [mkE [mkI 1 6 (Some 0)] [] true None [PExec 0] [mkI 1 6 (Some 0)]; mkE [] [] false None [] []], [],
          [EvAdd (mkI 0 5 None); EvComp (mkI 0 5 None); EvCb 0; EvAdd (mkI 1 6 (Some 0)); EvCall 0 [mkI 1 6 (Some 0)]; EvAdd (mkI 2 5 (Some 0))])) by (rewrite <- R; vm_compute; reflexivity).
  cbn in Q. injection Q as E1 E2 E3 E4. clear R. split; [|rewrite E4; split; [do 5 right; left|split]].
  - intros a s' Ha Hs. destruct a as [k ks|b|t|t|e j]; [discriminate| | | |]; cbn [step] in Hs.
    + rewrite E1 in Hs. destruct b as [|[|[|b]]]; discriminate.
    + rewrite E3 in Hs. discriminate.
    + rewrite E3 in Hs. discriminate.
    + unfold goStep in Hs. rewrite E2 in Hs. destruct e as [|[|e]]; [destruct j as [|j]; [|discriminate]|discriminate|discriminate].
      cbn [lookup list_lookup e_go] in Hs. injection Hs as <-. exists 0. rewrite setGo_trace. reflexivity.
  - intros H. cbn in H. apply elem_of_list_singleton in H. discriminate.
  - intros c l (H & _). repeat (apply elem_of_cons in H as [H|H]; [try discriminate|]); [|inversion H].
    injection H as -> ->. split; [reflexivity|]. intros it I. apply elem_of_list_singleton in I as ->. reflexivity.
Qed.
Print Assumptions c104_waits_for_another_key_refuted.
(** a case for the partial claim: one item of key 6 waits for the call with an earlier one, although executor 1 is free *)
Example c104_example : exists s, run (start 1 2) [AStart 6 [6; 6]; AItem 0; AItem 0; AGo 0 0] = Some s /\
  (forall a s', internal a = true -> step s a = Some s' -> exists c, trace s' = trace s ++ [EvRet c]) /\
  trace s = [EvAdd (mkI 0 6 (Some 0)); EvAdd (mkI 0 6 (Some 1)); EvCall 0 [mkI 0 6 (Some 0)]].
Proof.
  destruct (run (start 1 2) [AStart 6 [6; 6]; AItem 0; AItem 0; AGo 0 0]) as [s|] eqn:R; [|vm_compute in R; discriminate]. exists s. split; [reflexivity|].
  assert (Q : option_map (fun s => (batches s, execs s, timers s, trace s)) (Some s) =
    Some ([mkB 6 [6; 6] 0 2], [mkE [mkI 0 6 (Some 0)] [] true None [PExec 0] [mkI 0 6 (Some 0)]; mkE [] [] false None [] []], [],
          [EvAdd (mkI 0 6 (Some 0)); EvAdd (mkI 0 6 (Some 1)); EvCall 0 [mkI 0 6 (Some 0)]])) by (rewrite <- R; vm_compute; reflexivity).
  cbn in Q. injection Q as E1 E2 E3 E4. clear R. split; [|exact E4].
  intros a s' Ha Hs. destruct a as [k ks|b|t|t|e j]; [discriminate| | | |]; cbn [step] in Hs.
  - rewrite E1 in Hs. destruct b as [|b]; discriminate.
  - rewrite E3 in Hs. discriminate.
  - rewrite E3 in Hs. discriminate.
  - unfold goStep in Hs. rewrite E2 in Hs. destruct e as [|[|e]]; [destruct j as [|j]; [|discriminate]|discriminate|discriminate].
    cbn [lookup list_lookup e_go] in Hs. injection Hs as <-. exists 0. rewrite setGo_trace. reflexivity.
Qed.
