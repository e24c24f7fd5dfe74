(** C23: a worker stops only after its events are resolved. *)
From stdpp Require Import prelude list sorting.
From Coq Require Import ZArith.
From Verif.Eos Require Import Model Base Struct Struct2 Step1 Own Own2 Fin Own3 Fin2 Fin3 Rev Spec Ends Main Wait.
Open Scope nat_scope.

Lemma step_at c s a s' x u v : step c s a = Some s' -> quiet_ev x = false -> trace s' = u ++ x :: v ->
  (exists v', trace s = u ++ x :: v') \/ (trace s = u /\ v = []).
Proof.
  intros H Q E. destruct (step_rv c s a s' H) as [(w & Ew & Hq & _)|[(y & Ey & _)|(w & _ & _ & Ew & _)]].
  - rewrite Ew in E. apply app_eq_app in E as (l & [[E1 E]|[E1 E]]).
    + destruct l as [|y l]; cbn in E.
      * exfalso. subst w. apply Forall_inv in Hq. destruct (quiet_ev x); done.
      * injection E as <- E. left. exists l. done.
    + exfalso. subst w. rewrite Forall_app in Hq. destruct Hq as [_ Hq]. apply Forall_inv in Hq. destruct (quiet_ev x); done.
  - rewrite Ey in E. apply app_eq_app in E as (l & [[E1 E]|[E1 E]]).
    + destruct l as [|z l]; cbn in E; [injection E as <- <-; rewrite app_nil_r in E1; right; done|]. injection E as <- E. left. exists l. done.
    + destruct l as [|z l]; cbn in E; [injection E as <- <-; rewrite app_nil_r in E1; right; done|]. injection E as <- E. by destruct l.
  - rewrite Ew in E. left. eauto.
Qed.
Lemma run_at c acts s x u v : run c (start c) acts = Some s -> quiet_ev x = false -> trace s = u ++ x :: v ->
  exists acts1 a acts2 s1 s2, acts = acts1 ++ a :: acts2 /\ run c (start c) acts1 = Some s1 /\ step c s1 a = Some s2 /\ trace s1 = u /\ trace s2 = u ++ [x].
Proof.
  intros R Q. revert s v R. induction acts as [|a acts IH] using rev_ind; intros s v R E.
  - cbn in R. injection R as <-. cbn in E. by destruct u.
  - rewrite run_app in R. destruct (run c (start c) acts) as [s0|] eqn:R0; [|done]. cbn in R. destruct (step c s0 a) as [s'|] eqn:H; [|done]. injection R as <-.
    destruct (step_at c s0 a s' x u v H Q E) as [(v' & E0)|[E0 ->]].
    + destruct (IH s0 v' eq_refl E0) as (a1 & b & a2 & s1 & s2 & -> & H1 & H2 & H3 & H4). exists a1, b, (a2 ++ [a]), s1, s2. rewrite <- app_assoc. done.
    + exists acts, a, [], s0, s'. done.
Qed.
Lemma stop_at c acts s w u v : run c (start c) acts = Some s -> trace s = u ++ EvStop w :: v ->
  exists acts1 acts2 s1, acts = acts1 ++ acts2 /\ run c (start c) acts1 = Some s1 /\ trace s1 = u /\ waits s1 w = 0%Z.
Proof.
  intros R E. destruct (run_at c acts s (EvStop w) u v R eq_refl E) as (a1 & a & a2 & s1 & s2 & -> & R1 & H & E1 & E2). exists a1, (a :: a2), s1. do 3 (split; [done|]).
  destruct (step_rv c s1 a s2 H) as [(z & Ez & Hq & _)|[(y & Ey & _ & _ & Hy)|(z & _ & _ & Ew & _)]].
  - rewrite E2, E1 in Ez. apply app_inv_head in Ez. subst z. apply Forall_inv in Hq. done.
  - rewrite E2, E1 in Ey. apply app_inv_head in Ey. injection Ey as <-. apply Hy.
  - rewrite E2, E1 in Ew. apply (f_equal length) in Ew. rewrite app_length in Ew. cbn in Ew. lia.
Qed.

Section Run.
Context {c : cfg} {acts : list action} {s : st} (V : valid c) (N : noSkip acts) (R : run c (start c) acts = Some s).
Let J : Inv c s := Inv_run c acts s V N R.
Let I := i_str _ _ J.

Lemma open_txn t e : (t, e) ∈ added (trace s) -> t ∉ map fst (ends (trace s)) -> exists n, n ∈ busy s /\ e ∈ n_ecs (nodes s n) /\ (forall m, kn s = [m] -> n = m -> exists cur mk todo, kp s = KFin m cur mk todo).
Proof.
  intros Ha Ht. pose proof (str_lt _ _ I _ _ Ha) as Hlt. destruct (str_txn _ _ I) as (k & T1 & T2 & T3). rewrite T3, elem_of_seq in Ht.
  assert (t ∈ map (txn s) (busy s)) as Hb. { rewrite T1, elem_of_seq. lia. }
  apply elem_of_list_fmap in Hb as (n & -> & Hb). exists n. split; [done|].
  assert (forall m, kn s = [m] -> n = m -> exists cur mk todo, kp s = KFin m cur mk todo) as Hm.
  { intros m K ->. destruct (busy_head _ _ _ I K) as (l & E & _). rewrite E in T1. cbn in T1. injection T1 as T1 _. unfold over in Ht. unfold kn in K. destruct (kp s) eqn:Ek; try done; injection K as ->; [eauto|exfalso; lia..]. }
  split; [|done]. rewrite (str_adds _ _ I _ Hb). assert (e ∈ adds (txn s n) (trace s)) as Hin by (by apply elem_of_txn). unfold cut. destruct (kp s) as [| | |m todo|] eqn:Ek; try done.
  case_decide; [|done]. subst m. exfalso. destruct (Hm n) as (? & ? & ? & ?); [unfold kn; by rewrite Ek|done|done].
Qed.
Lemma sum_zero {A} (f : A -> nat) l x : x ∈ l -> list_sum (map f l) = 0 -> f x = 0.
Proof. intros Hx. induction l as [|y l IH]; [by apply elem_of_nil in Hx|]. unfold list_sum in *. cbn. intros H. apply elem_of_cons in Hx as [->|Hx]; [lia|]. apply IH; [done|lia]. Qed.
Lemma all_resolved w : (forall p, oneWorker p (trace s)) -> waits s w = 0%Z -> forall e, EvArr e ∈ trace s -> e_w e = w -> EvRej e ∈ trace s \/ exists t ok, EvAdd t e ∈ trace s /\ EvEnd t ok ∈ trace s.
Proof.
  intros W Hz e He Hw. pose proof (Wt_run c acts s V N R w) as L. rewrite Hz in L. assert (load s w = 0) as L0 by lia. unfold load in L0.
  assert (e ∈ arrs (trace s)) as Ha by (by apply elem_arrs). rewrite (str_arr _ _ I), elem_of_app in Ha. destruct Ha as [Ha|Ha]; [|pose proof (cnt_in w e _ Ha Hw); lia].
  assert (EvRej e ∈ trace s \/ EvTake e ∈ trace s) as [?|Ht]; [|by left|].
  { clear -Ha. unfold taken in Ha. apply elem_of_flat_map' in Ha as (x & Hx & Hin). destruct x; try (by apply elem_of_nil in Hin); apply elem_of_list_singleton in Hin as ->; auto. }
  apply elem_takes in Ht. rewrite (str_take _ _ I), elem_of_app in Ht. destruct Ht as [Ht|Ht].
  2: { assert (e ∈ chk s) as Hc by (unfold chk; destruct (fp s); done). pose proof (cnt_in w e _ Hc Hw). lia. }
  right. apply elem_of_list_fmap in Ht as ([t e'] & He' & Ht). cbn in He'. subst e'. destruct (decide (t ∈ map fst (ends (trace s)))) as [Hend|Hend].
  - apply elem_of_list_fmap in Hend as ([t' ok] & Ht' & Hend). cbn in Ht'. subst t'. exists t, ok. split; [by apply elem_added|by apply elem_ends].
  - exfalso. destruct (open_txn t e Ht Hend) as (n & Hb & Hn & Hk). apply elem_of_list_filter in Hb as [_ Hb]. unfold pipe in Hb. rewrite !elem_of_app in Hb.
    assert (n ∈ queue s ++ deck s -> False) as Hq.
    { intros Hq. assert (nload s w n = 0) as H0 by (apply (sum_zero (nload s w) (queue s ++ deck s)); [done|lia]). unfold nload in H0. pose proof (cnt_in w e _ Hn Hw). lia. }
    destruct (decide (n ∈ kn s)) as [Hkn|Hkn]; [|apply Hq; rewrite elem_of_app; tauto]. unfold kn in Hkn, Hk. unfold kload in L0.
    assert (kn s = [n]) as K. { unfold kn. destruct (kp s); try (by apply elem_of_nil in Hkn); apply elem_of_list_singleton in Hkn as <-; done. }
    destruct (Hk n K eq_refl) as (cur & mk & todo & Ek). rewrite Ek in L0. assert (roots w (n_ecs (nodes s n)) = 0) as H0 by lia. unfold roots in H0. apply nil_length_inv in H0.
    assert (e_p e ∈ parts (n_ecs (nodes s n))) as Hp by (apply elem_parts; eauto). assert (e_p e ∈ filter (isRoot w (n_ecs (nodes s n))) (parts (n_ecs (nodes s n)))) as H; [|rewrite H0 in H; by apply elem_of_nil in H].
    apply elem_of_list_filter. split; [|done]. unfold isRoot. assert (e ∈ ofPart (e_p e) (n_ecs (nodes s n))) as Hin by (by apply elem_of_list_filter).
    destruct (ofPart (e_p e) (n_ecs (nodes s n))) as [|r l] eqn:Eo; [by apply elem_of_nil in Hin|].
    assert (r ∈ ofPart (e_p e) (n_ecs (nodes s n))) as Hr by (rewrite Eo; by left). apply elem_of_list_filter in Hr as [Hrp Hr]. rewrite <- Hw. apply (W (e_p e)); apply elem_arrived; [|done].
    split; [|done]. assert (n ∈ busy s) as Hb2 by (destruct (busy_head _ _ _ I K) as (l' & -> & _); by left). rewrite (str_adds _ _ I _ Hb2) in Hr. unfold cut in Hr. rewrite Ek in Hr. apply elem_of_txn in Hr.
    apply elem_arrs. rewrite (str_arr _ _ I), elem_of_app. left. assert (r ∈ takes (trace s)) as Htk. { rewrite (str_take _ _ I), elem_of_app. left. apply elem_of_list_fmap. by exists (txn s n, r). }
    clear -Htk. unfold takes, taken in *. apply elem_of_flat_map' in Htk as (x & Hx & Hin). apply elem_of_flat_map'. exists x. split; [done|]. destruct x; try (by apply elem_of_nil in Hin); done.
Qed.
End Run.

Theorem stop_resolved c acts s w u v : valid c -> noSkip acts -> run c (start c) acts = Some s -> (forall p, oneWorker p u) -> trace s = u ++ EvStop w :: v ->
  forall e, EvArr e ∈ trace s -> e_w e = w -> EvRej e ∈ u \/ exists t ok, EvAdd t e ∈ u /\ EvEnd t ok ∈ u.
Proof.
  intros V N R W E e He Hw. destruct (rv_stop _ (Rv_run c acts s R) u w v E) as (_ & _ & Hv). destruct (stop_at c acts s w u v R E) as (a1 & a2 & s1 & -> & R1 & <- & Hz).
  apply (all_resolved (c := c) (acts := a1) V) with w; try done.
  - unfold noSkip in *. by apply Forall_app in N as [N _].
  - rewrite E, elem_of_app in He. destruct He as [He|He]; [done|]. apply elem_of_cons in He as [He|He]; [done|]. by apply Hv in He.
Qed.
Theorem waiter_not_negative c acts s w : valid c -> noSkip acts -> run c (start c) acts = Some s -> (0 <= waits s w)%Z.
Proof. intros V N R. pose proof (Wt_run c acts s V N R w). lia. Qed.
Theorem after_revoke_taken_before c acts s w u v t e : valid c -> noSkip acts -> run c (start c) acts = Some s -> trace s = u ++ EvRevoke w :: v -> EvAdd t e ∈ v -> e_w e = w ->
  EvTake e ∈ u /\ forall t' e', EvAdd t' e' ∈ v -> e_w e' = w -> e' = e /\ t' = t.
Proof.
  intros V N R E Ha Hw. pose proof (Inv_run c acts s V N R) as J.
  destruct (run_at c acts s (EvRevoke w) u v R eq_refl E) as (a1 & a & a2 & s1 & s2 & Ea & R1 & _ & E1 & _).
  assert (noSkip a1) as N1. { subst acts. unfold noSkip in *. by apply Forall_app in N as [N _]. } pose proof (Inv_run c a1 s1 V N1 R1) as J1.
  assert (forall t e, EvAdd t e ∈ v -> e_w e = w -> EvTake e ∈ u /\ fp s1 = FChecked e) as H.
  { intros t0 e0 Ha0 Hw0. assert (EvAdd t0 e0 ∈ trace s) as Ha2 by (rewrite E, elem_of_app; right; by right).
    assert (EvTake e0 ∈ trace s) as Ht. { apply elem_takes. rewrite (str_take _ _ (i_str _ _ J)), elem_of_app. left. apply elem_added in Ha2. apply elem_of_list_fmap. by exists (t0, e0). }
    assert (EvTake e0 ∈ u) as Hu.
    { rewrite E, elem_of_app, elem_of_cons in Ht. destruct Ht as [?|[?|Ht]]; [done|done|]. exfalso. apply elem_of_list_split in Ht as (v1 & v2 & ->).
      apply (rv_take _ (Rv_run c acts s R) (u ++ EvRevoke w :: v1) e0 v2); [by rewrite E, <- app_assoc|]. rewrite Hw0, elem_of_app. right. by left. }
    split; [done|]. rewrite <- E1 in Hu. apply elem_takes in Hu. rewrite (str_take _ _ (i_str _ _ J1)), elem_of_app in Hu. destruct Hu as [Hu|Hu].
    - exfalso. apply elem_of_list_fmap in Hu as ([t1 e1] & He1 & Hu). cbn in He1. subst e1. pose proof (added_nodup J) as ND. rewrite E, added_app, map_app in ND. apply NoDup_app in ND as (_ & ND & _).
      apply (ND e0); [rewrite <- E1; apply elem_of_list_fmap; by exists (t1, e0)|]. apply elem_of_list_fmap. exists (t0, e0). split; [done|]. apply elem_added. by right.
    - destruct (fp s1); try (by apply elem_of_nil in Hu). by apply elem_of_list_singleton in Hu as ->. }
  destruct (H t e Ha Hw) as [H1 H2]. split; [done|]. intros t' e' Ha' Hw'. destruct (H t' e' Ha' Hw') as [_ H3]. rewrite H2 in H3. injection H3 as <-. split; [done|]. apply (added_once J t' t e); rewrite E, elem_of_app; right; by right.
Qed.
