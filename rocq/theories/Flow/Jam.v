(** An interjection that is taken before an event given to the pool before it blocks its worker and the pool for good. *)
From stdpp Require Import prelude list.
From Verif.Flow Require Import Model Proofs Progress.
Open Scope nat_scope.

Definition allof (w : worker) : list ec := prepool (push w) ++ psend (push w) ++ evIn w ++ ijIn w ++ waitl (cur w) ++ runl (cur w) ++ async w.
Definition blocked (c : cfg) (s : st) : Prop := (fp s = FPush /\ pendingTxn c <= length (queue s)) \/ (fp s = FPop /\ free s = 0).
Record jam (c : cfg) (e0 : ec) (s : st) : Prop := {
  j_kp : exists d, kp s = Some d /\ e0 ∈ d;
  j_done : e0 ∉ done s;
  j_blocked : blocked c s;
  j_w : exists w ij, ws s !! e_w e0 = Some w /\ cur w = CWait ij /\ ij ∉ given s /\ async w = [];
  j_own : forall i w e, ws s !! i = Some w -> i <> e_w e0 -> e ∈ allof w -> e_w e <> e_w e0;
}.
Lemma jam_w c e0 s i w0 w s' : jam c e0 s -> ws s !! i = Some w0 -> ws s' = <[i := w]> (ws s) -> fp s' = fp s -> queue s' = queue s -> kp s' = kp s -> free s' = free s -> given s' = given s ->
  (forall e, e ∈ done s' -> e ∈ done s \/ e ∈ runl (cur w0) \/ e ∈ async w0) ->
  (i = e_w e0 -> cur w0 <> CIdle /\ (forall e, cur w0 <> CRun e) -> async w0 = [] -> cur w = cur w0 /\ async w = []) ->
  (forall e, e ∈ allof w -> e ∈ allof w0 \/ e_w e = i) -> jam c e0 s'.
Proof.
  intros [(d & K1 & K2) D B (w1 & ij & W1 & W2 & W3 & W4) O] L E1 E2 E3 E4 E5 E6 HD HC HA.
  assert (U : forall j x, ws s' !! j = Some x -> (j = i /\ x = w) \/ (j <> i /\ ws s !! j = Some x)) by (intros j x; rewrite E1; by eapply ws_upd).
  constructor.
  - rewrite E4. eauto.
  - intros X. destruct (HD e0 X) as [Y|Y]; [done|]. destruct (decide (i = e_w e0)) as [->|N].
    + rewrite W1 in L. injection L as <-. rewrite W2, W4 in Y. cbn in Y. destruct Y as [Y|Y]; by apply elem_of_nil in Y.
    + apply (O i w0 e0 L N); [|done]. unfold allof. rewrite !elem_of_app. tauto.
  - unfold blocked. by rewrite E2, E3, E5.
  - destruct (decide (i = e_w e0)) as [->|N].
    + rewrite W1 in L. injection L as <-. destruct HC as [C1 C2]; [done|rewrite W2; split; [done|intros; discriminate]|done|]. exists w, ij. rewrite E1, E6, list_lookup_insert by (by apply lookup_lt_Some in W1). rewrite C1. done.
    + exists w1, ij. rewrite E1, E6, list_lookup_insert_ne by done. done.
  - intros j x e J Nj X. destruct (U j x J) as [[-> ->]|[_ J']]; [|by eapply O]. destruct (HA e X) as [Y|Y]; [by eapply O|by rewrite Y].
Qed.
Ltac own := unfold allof; cbn; intros z Hz; rewrite ?elem_of_app, ?elem_of_cons in *; set_solver.
Lemma jam_step c e0 s a s' : jam c e0 s -> step c s a = Some s' -> jam c e0 s'.
Proof.
  intros J E. destruct a as [i ij|i|i|i|i|i|i|i|i|i e| |r| |r| | | |]; cbn [step] in E.
  - destruct (ws s !! i) as [[[] v j k n y]|] eqn:L; try discriminate. injection E as <-. eapply jam_w; [exact J|exact L|reflexivity..|cbn; tauto|cbn; tauto|]. unfold allof. cbn. intros z Hz. apply elem_of_cons in Hz as [->|Hz]; [by right|by left].
  - destruct (ws s !! i) as [[[] v j k n y]|] eqn:L; try discriminate. destruct (n <? maxPending c); [|discriminate]. injection E as <-. eapply jam_w; [exact J|exact L|reflexivity..|cbn; tauto|cbn; tauto|]. own.
  - destruct (ws s !! i) as [[[] v j k n y]|] eqn:L; try discriminate. destruct (length (buffer s) <? bufCap c); [|discriminate]. injection E as <-. eapply jam_w; [exact J|exact L|reflexivity..|cbn; tauto|cbn; tauto|]. own.
  - destruct (ws s !! i) as [[[] v j k n y]|] eqn:L; try discriminate. destruct (e_ij e).
    + destruct j; [|discriminate]. injection E as <-. eapply jam_w; [exact J|exact L|reflexivity..|cbn; tauto|cbn; tauto|]. own.
    + destruct (length v <? evCap c); [|discriminate]. injection E as <-. eapply jam_w; [exact J|exact L|reflexivity..|cbn; tauto|cbn; tauto|]. own.
  - destruct (ws s !! i) as [[p [|e v] j [] n y]|] eqn:L; try discriminate. injection E as <-. eapply jam_w; [exact J|exact L|reflexivity..|cbn; tauto|cbn; tauto|]. own.
  - destruct (ws s !! i) as [[p v [|e j] [] n y]|] eqn:L; try discriminate. injection E as <-. eapply jam_w; [exact J|exact L|reflexivity..|cbn; tauto|cbn; tauto|]. own.
  - destruct (ws s !! i) as [[p v j [|e|] n y]|] eqn:L; try discriminate. destruct (decide (e ∈ given s)) as [G|]; [|discriminate]. injection E as <-. eapply jam_w; [exact J|exact L|reflexivity..|cbn; tauto| |own].
    intros ->. exfalso. destruct (j_w _ _ _ J) as (w & ij & W1 & W2 & W3 & _). rewrite L in W1. injection W1 as <-. cbn in W2. injection W2 as ->. done.
  - destruct (ws s !! i) as [[p v j [| |e] n y]|] eqn:L; try discriminate. injection E as <-. eapply jam_w; [exact J|exact L|reflexivity..| | |own].
    + cbn. intros z Hz. apply elem_of_cons in Hz as [->|Hz]; [right; left; by left|by left].
    + cbn. intros _ [_ X]. by destruct (X e).
  - destruct (ws s !! i) as [[p v j [| |e] n y]|] eqn:L; try discriminate. injection E as <-. eapply jam_w; [exact J|exact L|reflexivity..|cbn; tauto| |own].
    cbn. intros _ [_ X]. by destruct (X e).
  - destruct (ws s !! i) as [[p v j k n y]|] eqn:L; [|discriminate].
    assert (X : exists s1, (if decide (e ∈ y) then Some (set_w i (mkW p v j k (pred n) (filter (fun x => x <> e) y)) (set_done e s)) else None) = Some s1 /\ s1 = s') by (destruct k; try discriminate; eauto).
    destruct X as (s1 & X & ->). destruct (decide (e ∈ y)) as [Hy|]; [|discriminate]. injection X as <-. eapply jam_w; [exact J|exact L|reflexivity..| | |].
    + cbn. intros z Hz. apply elem_of_cons in Hz as [->|Hz]; [right; by right|by left].
    + cbn. intros _ _ ->. by apply elem_of_nil in Hy.
    + unfold allof. cbn [push evIn ijIn cur async]. intros z Hz. left. rewrite !elem_of_app, ?elem_of_list_filter in *. tauto.
  - destruct (j_blocked _ _ _ J) as [[F _]|[F _]]; rewrite F in E; discriminate.
  - destruct (j_blocked _ _ _ J) as [[F _]|[F _]]; rewrite F in E; discriminate.
  - destruct (j_blocked _ _ _ J) as [[F _]|[F _]]; rewrite F in E; discriminate.
  - destruct (j_blocked _ _ _ J) as [[F _]|[F _]]; rewrite F in E; discriminate.
  - destruct (j_blocked _ _ _ J) as [[F Q]|[F _]]; rewrite F in E; [|discriminate]. destruct (Nat.ltb_spec (length (queue s)) (pendingTxn c)); [lia|discriminate].
  - destruct (j_blocked _ _ _ J) as [[F _]|[F Q]]; rewrite F in E; [discriminate|]. rewrite Q in E. discriminate.
  - destruct (j_kp _ _ _ J) as (d & K & _). rewrite K in E. discriminate.
  - destruct (j_kp _ _ _ J) as (d & K & H). rewrite K in E. destruct (forallb _ d) eqn:F; [|discriminate]. exfalso. rewrite forallb_forall in F. specialize (F e0 (proj1 (elem_of_list_In _ _) H)). apply bool_decide_eq_true in F. by apply (j_done _ _ _ J).
Qed.
Lemma jam_run c e0 s l s' : jam c e0 s -> run c s l = Some s' -> e0 ∉ done s'.
Proof.
  revert s. induction l as [|a l IH]; intros s J E; cbn in E; [injection E as <-; by apply J|]. destruct (step c s a) eqn:S1; [|discriminate]. eapply IH; [|exact E]. by eapply jam_step.
Qed.

#[local] Arguments size : simpl never.
#[local] Arguments Nat.ltb : simpl never.
#[local] Arguments Nat.leb : simpl never.
#[local] Arguments Nat.eqb : simpl never.
Definition ev0 : ec := mkEc 0 0 false.
Definition wA : worker := mkW PIdle [ev0] [] CIdle 1 [].
Definition wB : worker := mkW PIdle [] [] CIdle 0 [].
Definition round : list action := [Arrive 1 false; Tok 1; Put 1; Send 1; FTake; WEv 1; WGo 1; WSync 1].
Definition pool2 (f : fst_) (dk : list ec) (qs : list (list ec)) (n : nat) (g d a : list ec) : st := mkSt [wA; wB] [] f dk qs (Some [ev0]) n g d [] a.
Lemma round_ok c qs n g d a : valid c ->
  let e := mkEc (length a) 1 false in
  run c (pool2 FIdle [] qs n g d a) (round ++ [FTry (maxBatch c); FDo (maxBatch c)]) = Some (pool2 FPush [e] qs n (e :: g) (e :: d) (e :: a)).
Proof.
  intros (V1 & V2 & V3 & V4 & V5 & V6) e. unfold round. cbn.
  assert (H6 : (0 <? maxPending c) = true) by (apply Nat.ltb_lt; lia). rewrite H6. cbn.
  assert (H4 : (0 <? bufCap c) = true) by (apply Nat.ltb_lt; lia). rewrite H4. cbn.
  assert (H5 : (0 <? evCap c) = true) by (apply Nat.ltb_lt; lia). rewrite H5. cbn.
  rewrite decide_True by (by left). cbn.
  assert (SZ : forall x, size (maxBatch c) [x] = maxBatch c) by (intros; unfold size; cbn [length]; lia). rewrite !SZ.
  assert (H3 : (target c <=? maxBatch c) = true) by (apply Nat.leb_le; lia). rewrite H3. cbn. rewrite ?SZ, Nat.eqb_refl. reflexivity.
Qed.
(** the pool fills up behind the transaction of [ev0] *)
Lemma fill c n : valid c -> forall qs g d a, length qs <= pendingTxn c -> ev0 ∉ d -> ev0 ∈ a -> (forall e, e ∈ g -> e_id e < length a) ->
  exists l dk f qs' n' g' d' a', run c (pool2 FIdle [] qs n g d a) l = Some (pool2 f dk qs' n' g' d' a') /\ ((f = FPush /\ pendingTxn c <= length qs') \/ (f = FPop /\ n' = 0)) /\ ev0 ∉ d' /\ ev0 ∈ a' /\ (forall e, e ∈ g' -> e_id e < length a').
Proof.
  intros V. induction n as [|n IH]; intros qs g d a Q D A G; set (e := mkEc (length a) 1 false).
  all: assert (D' : ev0 ∉ e :: d) by (apply not_elem_of_cons; split; [discriminate|done]).
  all: assert (G' : forall z, z ∈ e :: g -> e_id z < length (e :: a)) by (intros z Hz; cbn; apply elem_of_cons in Hz as [->|Hz]; [cbn; lia|specialize (G z Hz); lia]).
  - destruct (Nat.ltb_spec (length qs) (pendingTxn c)) as [Hq|Hq].
    + exists ((round ++ [FTry (maxBatch c); FDo (maxBatch c)]) ++ [FPushed]), [], FPop, (qs ++ [[e]]), 0, (e :: g), (e :: d), (e :: a). rewrite run_app, round_ok by done. cbn. apply Nat.ltb_lt in Hq. rewrite Hq. split; [reflexivity|]. split; [by right|]. split; [done|]. split; [by right|exact G'].
    + exists (round ++ [FTry (maxBatch c); FDo (maxBatch c)]), [e], FPush, qs, 0, (e :: g), (e :: d), (e :: a). rewrite round_ok by done. split; [reflexivity|]. split; [by left|]. split; [done|]. split; [by right|exact G'].
  - destruct (Nat.ltb_spec (length qs) (pendingTxn c)) as [Hq|Hq].
    + destruct (IH (qs ++ [[e]]) (e :: g) (e :: d) (e :: a)) as (l & dk & f & qs' & n' & g' & d' & a' & R & B & X & Y); [rewrite app_length; cbn; lia|done|by right|exact G'|].
      exists (((round ++ [FTry (maxBatch c); FDo (maxBatch c)]) ++ [FPushed; FSwap]) ++ l), dk, f, qs', n', g', d', a'. split; [|done]. rewrite run_app, run_app, round_ok by done. cbn. apply Nat.ltb_lt in Hq. rewrite Hq. exact R.
    + exists (round ++ [FTry (maxBatch c); FDo (maxBatch c)]), [e], FPush, qs, (Datatypes.S n), (e :: g), (e :: d), (e :: a). rewrite round_ok by done. split; [reflexivity|]. split; [by left|]. split; [done|]. split; [by right|exact G'].
Qed.
Lemma last_steps c f dk qs n g d a : valid c -> 2 <= maxPending c -> (f = FPush /\ pendingTxn c <= length qs) \/ (f = FPop /\ n = 0) -> ev0 ∉ d -> (forall e, e ∈ g -> e_id e < length a) ->
  exists s, run c (pool2 f dk qs n g d a) [Arrive 0 true; Tok 0; Put 0; Send 0; WIj 0] = Some s /\ jam c ev0 s /\ arrived s = mkEc (length a) 0 true :: a.
Proof.
  intros (V1 & V2 & V3 & V4 & V5 & V6) M B D G. unfold wA. cbn.
  assert (H6 : (1 <? maxPending c) = true) by (apply Nat.ltb_lt; lia). rewrite H6. cbn.
  assert (H4 : (0 <? bufCap c) = true) by (apply Nat.ltb_lt; lia). rewrite H4. cbn.
  eexists. split; [reflexivity|]. split; [|reflexivity]. constructor; cbn.
  - exists [ev0]. split; [done|by left].
  - done.
  - exact B.
  - eexists _, _. split; [reflexivity|]. cbn. split; [reflexivity|]. split; [|done]. intros X. apply G in X. cbn in X. lia.
  - intros [|[|i]] w e L N X; cbn in L; [done| |discriminate]. injection L as <-. cbn in X. by apply elem_of_nil in X.
Qed.
Lemma first_steps c : valid c -> exists l n, run c (start c 2) l = Some (pool2 (if poolSize c =? 1 then FPop else FIdle) [] [] n [ev0] [] [ev0]) /\ (poolSize c = 1 -> n = 0).
Proof.
  intros (V1 & V2 & V3 & V4 & V5 & V6).
  set (mid := fun f => mkSt [wA; wB] [] f [ev0] [] None (poolSize c - 1) [ev0] [] [] [ev0]).
  assert (A : run c (start c 2) [Arrive 0 false; Tok 0; Put 0; Send 0; FTake] = Some (mid FTried)).
  { unfold start. cbn. assert (H6 : (0 <? maxPending c) = true) by (apply Nat.ltb_lt; lia). rewrite H6. cbn.
    assert (H4 : (0 <? bufCap c) = true) by (apply Nat.ltb_lt; lia). rewrite H4. cbn. assert (H5 : (0 <? evCap c) = true) by (apply Nat.ltb_lt; lia). rewrite H5. reflexivity. }
  assert (B : exists l, run c (mid FTried) l = Some (mid FFlush)).
  { destruct (target c <=? size 0 [ev0]) eqn:T; [exists [FTry 0]|exists [FTry 0; FTick]]; cbn [run step mid fp set_fp deck]; rewrite T; reflexivity. }
  destruct B as [lB B].
  assert (Q : (0 <? pendingTxn c) = true) by (apply Nat.ltb_lt; lia).
  assert (C : exists l, run c (mid FFlush) l = Some (pool2 FPop [] [] (poolSize c - 1) [ev0] [] [ev0])).
  { destruct (size 0 [ev0] =? maxBatch c) eqn:T; [exists [FDo 0; FPushed; KStart]|exists [FDo 0; KStart]]; unfold mid; cbn [run step fp set_fp deck queue]; rewrite T; unfold mid; cbn [fp set_fp queue deck length]; rewrite Q; reflexivity. }
  destruct C as [lC C].
  destruct (Nat.eqb_spec (poolSize c) 1) as [P|P].
  - exists ([Arrive 0 false; Tok 0; Put 0; Send 0; FTake] ++ lB ++ lC), (poolSize c - 1). split; [|intros; lia]. rewrite run_app, A, run_app, B. exact C.
  - exists ([Arrive 0 false; Tok 0; Put 0; Send 0; FTake] ++ lB ++ lC ++ [FSwap]), (poolSize c - 2). split; [|intros; lia]. rewrite run_app, A, run_app, B, run_app, C. cbn. destruct (poolSize c - 1) as [|m] eqn:Em; [lia|]. assert (poolSize c - 2 = m) as -> by lia. reflexivity.
Qed.
Lemma jam_reachable c : valid c -> 2 <= maxPending c -> exists l s, run c (start c 2) l = Some s /\ ev0 ∈ arrived s /\ jam c ev0 s.
Proof.
  intros V M. destruct (first_steps c V) as (l1 & n & R1 & P1).
  assert (G : forall e, e ∈ [ev0] -> e_id e < length [ev0]) by (intros e He; apply elem_of_list_singleton in He as ->; cbn; lia).
  assert (X : exists l2 dk f qs' n' g' d' a', run c (pool2 (if poolSize c =? 1 then FPop else FIdle) [] [] n [ev0] [] [ev0]) l2 = Some (pool2 f dk qs' n' g' d' a') /\ ((f = FPush /\ pendingTxn c <= length qs') \/ (f = FPop /\ n' = 0)) /\ ev0 ∉ d' /\ ev0 ∈ a' /\ (forall e, e ∈ g' -> e_id e < length a')).
  { destruct (Nat.eqb_spec (poolSize c) 1) as [P|P].
    - exists [], [], FPop, [], n, [ev0], [], [ev0]. split; [reflexivity|]. split; [right; auto|]. split; [apply not_elem_of_nil|]. split; [by left|exact G].
    - apply fill; [done|cbn; lia|apply not_elem_of_nil|by left|exact G]. }
  destruct X as (l2 & dk & f & qs' & n' & g' & d' & a' & R2 & B & D & A & G').
  destruct (last_steps c f dk qs' n' g' d' a' V M B D G') as (s & R3 & J & E).
  exists (l1 ++ l2 ++ [Arrive 0 true; Tok 0; Put 0; Send 0; WIj 0]), s. split; [rewrite run_app, R1, run_app, R2; exact R3|]. split; [|exact J]. rewrite E. by right.
Qed.
