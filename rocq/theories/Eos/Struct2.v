(** The structural invariant is preserved: the remaining steps. *)
From stdpp Require Import prelude list sorting.
From Coq Require Import ZArith.
From Verif.Eos Require Import Model Base Struct.
Open Scope nat_scope.

Lemma busy_head c s n : Str c s -> kn s = [n] -> exists l, busy s = n :: l /\ n ∉ l.
Proof.
  intros I E. pose proof (busy_nodup _ _ I) as ND.
  assert (busy s = n :: filter (fun n => evs s n <> 0) (queue s ++ deck s)) as Eb.
  { unfold busy, pipe. rewrite E. cbn [app]. rewrite filter_cons_True; [done|]. apply (str_kq _ _ I). rewrite E. by left. }
  rewrite Eb in ND. apply NoDup_cons in ND. rewrite Eb. eexists. split; [done|]. apply ND.
Qed.
Lemma busy_setkp s k : kn (set_kp k s) = kn s -> busy (set_kp k s) = busy s.
Proof. intros E. unfold busy, pipe. rewrite E. reflexivity. Qed.

Lemma Str_end c s n cur m todo ok w k : Str c s -> kp s = KFin n cur m todo -> k = KEnded n \/ k = KDead n ->
  Str c (set_kp k (emit (EvEnd (txn s n) ok) (set_waits w s))).
Proof.
  intros I Ek Hk. set (s' := set_kp _ _).
  assert (kn s' = [n] /\ kn s = [n] /\ over s' = 1 /\ over s = 0) as (K1 & K2 & O1 & O2).
  { unfold kn, over. rewrite Ek. cbn. destruct Hk as [-> | ->]; done. }
  assert (pipe s' = pipe s) as Ep by (unfold pipe; rewrite K1, K2; reflexivity).
  assert (busy s' = busy s) as Eb by (unfold busy; rewrite Ep; reflexivity).
  assert (added (trace s') = added (trace s)) as Ea by (cbn; rewrite added_app, app_nil_r; done).
  assert (forall x l, cut s' x l = l /\ cut s x l = l) as Ec. { intros x l. unfold cut. rewrite Ek. cbn. destruct Hk as [-> | ->]; done. }
  destruct (busy_head _ _ _ I K2) as (l & El & _).
  destruct (str_txn _ _ I) as (j & T1 & T2 & T3).
  constructor.
  - rewrite Ep. apply I.
  - rewrite K1. intros x H. rewrite <- K2 in H. by apply (str_kq _ _ I).
  - apply I.
  - apply I.
  - apply I.
  - exists j. rewrite Eb, O1. split; [exact T1|]. split; [exact T2|]. cbn. rewrite ends_app, map_app, T3, O2. cbn. rewrite El in T1. cbn in T1. injection T1 as T1 _.
    rewrite Nat.add_0_r, seq_app. f_equal. by rewrite T1.
  - intros x H. rewrite Eb in H. rewrite (proj1 (Ec _ _)). pose proof (str_adds _ _ I x H) as E. rewrite (proj2 (Ec _ _)) in E. unfold adds. rewrite Ea. exact E.
  - intros x H. rewrite Eb in H. pose proof (str_nev _ _ I x H) as E. unfold adds. rewrite Ea. exact E.
  - intros t e. rewrite Ea. apply I.
  - rewrite Ea. apply I.
  - pose proof (str_take _ _ I) as H. rewrite Ea. cbn. rewrite takes_app, app_nil_r. exact H.
  - pose proof (str_arr _ _ I) as H. cbn. rewrite arrs_app, taken_app, !app_nil_r. exact H.
  - pose proof (str_ids _ _ I) as H. cbn. rewrite arrs_app, !app_nil_r. exact H.
Qed.

Lemma filter_id {A} (P : A -> Prop) `{!forall x, Decision (P x)} (l : list A) : (forall x, x ∈ l -> P x) -> filter P l = l.
Proof.
  induction l as [|x l IH]; intros HH; [done|]. rewrite filter_cons_True by (apply HH; by left). f_equal. apply IH. intros y Hy. apply HH. by right.
Qed.
Lemma filter_nil_all {A} (P : A -> Prop) `{!forall x, Decision (P x)} (l : list A) : (forall x, x ∈ l -> ~ P x) -> filter P l = [].
Proof.
  induction l as [|x l IH]; intros HH; [done|]. rewrite filter_cons_False by (apply HH; by left). apply IH. intros y Hy. apply HH. by right.
Qed.
Lemma filter_and {A} (P Q R : A -> Prop) `{!forall x, Decision (P x), !forall x, Decision (Q x), !forall x, Decision (R x)} (l : list A) :
  (forall x, R x <-> P x /\ Q x) -> filter P (filter Q l) = filter R l.
Proof.
  intros HR. induction l as [|x l IH]; [done|]. destruct (decide (Q x)) as [q|q].
  - rewrite (filter_cons_True Q) by done. destruct (decide (P x)) as [p|p].
    + rewrite !filter_cons_True; [by f_equal|by apply HR|done].
    + rewrite !filter_cons_False; [done| |done]. rewrite HR. tauto.
  - rewrite (filter_cons_False Q) by done. rewrite (filter_cons_False R); [done|]. rewrite HR. tauto.
Qed.
Lemma elem_parts p l : p ∈ parts l <-> exists e, e ∈ l /\ e_p e = p.
Proof.
  unfold parts. rewrite elem_of_remove_dups, elem_of_list_fmap. split; intros (e & H1 & H2); eauto.
Qed.

Lemma Str_lock c s n : Str c s -> kp s = KEnded n -> Str c (set_kp (KRel n (parts (n_ecs (nodes s n)))) s).
Proof.
  intros I Ek. set (s' := set_kp _ _).
  assert (kn s' = kn s /\ over s' = over s) as (K1 & O1) by (unfold kn, over; rewrite Ek; done).
  assert (pipe s' = pipe s) as Ep by (unfold pipe; rewrite K1; reflexivity).
  assert (busy s' = busy s) as Eb by (by apply busy_setkp).
  constructor; try (rewrite ?Ep, ?K1, ?Eb, ?O1; apply I).
  intros x H. rewrite Eb in H. pose proof (str_adds _ _ I x H) as E. unfold cut in *. rewrite Ek in E. cbn. case_decide; [|exact E]. subst x.
  change (trace s') with (trace s). change (txn s' n) with (txn s n). rewrite <- E. symmetry. apply filter_id. intros e He. apply elem_parts. eauto.
Qed.

Lemma relinquish_eq k n p s : n ∉ ring k n ->
  relinquish k n p s =
  let X := mkNode (filter (fun e => e_p e <> p) (n_ecs (nodes s n))) (n_pend (nodes s n)) (n_prod (nodes s n)) (n_ev (nodes s n)) (n_txn (nodes s n)) in
  match List.find (holds s p) (ring k n) with
  | Some m =>
    let Y := mkNode (n_ecs (nodes s m)) (filter (fun er => e_p (fst er) <> p) (n_pend (nodes s m))) (n_prod (nodes s m)) (n_ev (nodes s m)) (n_txn (nodes s m)) in
    emits (sendAll (txn s m) (filter (fun er => e_p (fst er) = p) (n_pend (nodes s m))))
      (set_owners (upd p (Some m) (owners s)) (set_nodes (upd n X (upd m Y (nodes s))) s))
  | None => set_owners (upd p None (owners s)) (set_nodes (upd n X (nodes s)) s)
  end.
Proof.
  intros Hn. unfold relinquish. destruct (List.find _ _) as [m|] eqn:E; [|reflexivity].
  apply find_some in E as [Hm _]. assert (n <> m) by (intros ->; apply Hn; by apply elem_of_list_In).
  unfold setNode, flushPartition, emits, set_nodes, set_owners, txn; cbn. rewrite (upd_ne m n) by done. done.
Qed.

Lemma relinquish_frame k n p s : n ∉ ring k n -> exists nd ow w, relinquish k n p s = emits w (set_owners ow (set_nodes nd s)) /\
  (arrs w = [] /\ taken w = [] /\ takes w = [] /\ added w = [] /\ ends w = [] /\ called w = [] /\ dones w = []) /\
  (forall j, n_ev (nd j) = n_ev (nodes s j) /\ n_txn (nd j) = n_txn (nodes s j) /\ n_prod (nd j) = n_prod (nodes s j) /\
    n_ecs (nd j) = (if decide (j = n) then filter (fun e => e_p e <> p) (n_ecs (nodes s j)) else n_ecs (nodes s j)) /\
    (n_pend (nodes s j) = [] -> n_pend (nd j) = [])).
Proof.
  intros Hn. rewrite relinquish_eq by done. cbn zeta. destruct (List.find _ _) as [m|] eqn:E.
  - apply find_some in E as [Hm _]. assert (n <> m) by (intros ->; apply Hn; by apply elem_of_list_In).
    do 3 eexists. split; [reflexivity|]. split; [apply sendAll_other|].
    intros j. unfold upd. repeat case_decide; subst; try done. cbn. do 4 (split; [done|]). by intros ->.
  - exists (upd n (mkNode (filter (fun e => e_p e <> p) (n_ecs (nodes s n))) (n_pend (nodes s n)) (n_prod (nodes s n)) (n_ev (nodes s n)) (n_txn (nodes s n))) (nodes s)), (upd p None (owners s)), [].
    split; [unfold emits, set_owners, set_nodes; cbn; by rewrite app_nil_r|]. split; [done|].
    intros j. unfold upd. repeat case_decide; subst; done.
Qed.

Lemma head_ring c s n : Str c s -> kn s = [n] -> n ∉ ring (poolSize c) n.
Proof.
  intros I E. pose proof (Str_nodup _ _ I) as ND. unfold pipe in ND. rewrite E in ND. cbn in ND.
  erewrite ring_tail; [|exact I|unfold pipe; rewrite E; reflexivity]. apply NoDup_cons in ND. apply ND.
Qed.

Lemma Str_relinq c s n p todo : Str c s -> kp s = KRel n todo ->
  Str c (set_kp (KRel n (filter (fun q => q <> p) todo)) (relinquish (poolSize c) n p s)).
Proof.
  intros I Ek. assert (kn s = [n]) as K by (unfold kn; by rewrite Ek).
  destruct (relinquish_frame (poolSize c) n p s) as (nd & ow & w & -> & (W1 & W2 & W3 & W4 & W5 & W6 & W7) & Hnd); [by eapply head_ring|].
  set (s' := set_kp _ _).
  assert (kn s' = kn s /\ over s' = over s) as (K1 & O1) by (unfold kn, over; rewrite Ek; done).
  assert (pipe s' = pipe s) as Ep by (unfold pipe; rewrite K1; reflexivity).
  assert (forall j, evs s' j = evs s j /\ txn s' j = txn s j) as Hj. { intros j. destruct (Hnd j) as (? & ? & _). done. }
  assert (busy s' = busy s) as Eb. { unfold busy. rewrite Ep. apply list_filter_iff. intros j. by destruct (Hj j) as [-> _]. }
  assert (map (txn s') (busy s') = map (txn s) (busy s)) as Em. { rewrite Eb. apply map_ext. intros j. apply Hj. }
  assert (added (trace s') = added (trace s)) as Ea by (cbn; rewrite added_app, W4, app_nil_r; done).
  assert (ends (trace s') = ends (trace s)) as Ee by (cbn; rewrite ends_app, W5, app_nil_r; done).
  constructor.
  - rewrite Ep. apply I.
  - rewrite K1. intros j H. destruct (Hj j) as [-> _]. by apply (str_kq _ _ I).
  - pose proof (str_deck _ _ I) as D. cbn. destruct (fp s); try done; by destruct (Hj (onDeck s)) as [-> _].
  - intros j H. destruct (Hj j) as [E _]. rewrite E in H. destruct (str_idle _ _ I j H) as (E1 & E2 & E3). destruct (Hnd j) as (_ & _ & P & Q & R). cbn.
    rewrite Q, P, E1, E2, R by done. case_decide; done.
  - intros j H. destruct (Hj j) as [-> _]. by apply (str_free _ _ I).
  - rewrite Em, Eb, Ee, O1. apply I.
  - intros j H. rewrite Eb in H. destruct (Hnd j) as (_ & _ & _ & Q & _). pose proof (str_adds _ _ I j H) as E. unfold adds. rewrite Ea. destruct (Hj j) as [_ ->].
    cbn. rewrite Q, E. unfold cut, adds. rewrite Ek. cbn. case_decide; [|done]. apply filter_and. intros e. rewrite elem_of_list_filter. done.
  - intros j H. rewrite Eb in H. unfold adds. rewrite Ea. destruct (Hj j) as [-> ->]. by apply (str_nev _ _ I).
  - intros t e. rewrite Ea. apply I.
  - rewrite Ea. apply I.
  - pose proof (str_take _ _ I) as H. rewrite Ea. cbn. rewrite takes_app, W3, app_nil_r. exact H.
  - pose proof (str_arr _ _ I) as H. cbn. rewrite arrs_app, taken_app, W1, W2, !app_nil_r. exact H.
  - pose proof (str_ids _ _ I) as H. cbn. rewrite arrs_app, W1, !app_nil_r. exact H.
Qed.

Lemma Str_free c s n : Str c s -> kp s = KRel n [] ->
  Str c (set_kp KIdle (set_freeq (freeq s ++ [n]) (setNode n (mkNode (n_ecs (nodes s n)) [] 0 0 (n_txn (nodes s n))) s))).
Proof.
  intros I Ek. assert (kn s = [n]) as K by (unfold kn; by rewrite Ek). set (s' := set_kp _ _).
  assert (pipe s = n :: pipe s') as Ep by (unfold pipe; rewrite K; reflexivity).
  destruct (busy_head _ _ _ I K) as (l & El & Hl).
  pose proof (Str_nodup _ _ I) as ND. rewrite Ep in ND. cbn in ND. apply NoDup_cons in ND as [Hn ND].
  assert (n ∉ pipe s') as Hnp. { intros H. apply Hn. rewrite elem_of_app. by left. }
  assert (n ∉ freeq s) as Hnf. { intros H. apply Hn. rewrite elem_of_app. by right. }
  assert (forall j, j <> n -> nodes s' j = nodes s j) as Ho by (intros j H; cbn; by rewrite upd_ne).
  assert (n_ecs (nodes s n) = []) as En.
  { rewrite (str_adds _ _ I n). - unfold cut. rewrite Ek, decide_True by done. apply filter_nil_all. intros x _ H. by apply elem_of_nil in H. - rewrite El. by left. }
  assert (nodes s' n = mkNode [] [] 0 0 (n_txn (nodes s n))) as Enn. { cbn. by rewrite upd_eq, En. }
  assert (busy s' = l) as Eb.
  { unfold busy in El. rewrite Ep in El. rewrite filter_cons_True in El by (apply (str_kq _ _ I); rewrite K; by left). injection El as <-. unfold busy.
    apply filter_eq_in. intros j Hj. unfold evs. rewrite Ho; [done|]. intros ->. done. }
  assert (map (txn s') l = map (txn s) l) as Em. { apply map_ext_in. intros j Hj. unfold txn. rewrite Ho; [done|]. intros ->. by rewrite <- elem_of_list_In in Hj. }
  destruct (str_txn _ _ I) as (k & T1 & T2 & T3). rewrite El in T1, T2. cbn in T1, T2. injection T1 as T0 T1.
  assert (forall j, j ∈ busy s' -> j ∈ busy s /\ j <> n) as Hb. { intros j H. rewrite Eb in H. split; [rewrite El; by right|]. by intros ->. }
  assert (over s = 1) as O by (unfold over; by rewrite Ek).
  constructor.
  - destruct (str_ring _ _ I) as (h & Hh & E). rewrite Ep in E. cbn [app] in E. injection E as -> E.
    exists (S h mod poolSize c). split; [apply Nat.mod_upper_bound; lia|].
    change (freeq s') with (freeq s ++ [h]). rewrite app_assoc, E. by apply ring_rot.
  - intros j H. assert (j ∈ pipe s') as Hj. { unfold pipe. rewrite app_assoc, elem_of_app. by left. }
    unfold evs. rewrite Ho; [|by intros ->]. apply (str_kq _ _ I). rewrite K. by right.
  - pose proof (str_deck _ _ I) as D. cbn. assert (fp s <> FPop -> onDeck s <> n) as Hd.
    { intros Hf E. apply Hnp. rewrite deck_pipe by done. rewrite elem_of_app, elem_of_list_singleton. right. done. }
    unfold evs in *. destruct (fp s); try done; rewrite Ho; try done; by apply Hd.
  - intros j H. destruct (decide (j = n)) as [->|Hj]; [by rewrite Enn|]. unfold evs in H. rewrite Ho in * by done. by apply (str_idle _ _ I).
  - intros j H. cbn in H. rewrite elem_of_app, elem_of_list_singleton in H. unfold evs. destruct H as [H | ->]; [|by rewrite Enn].
    rewrite Ho; [by apply (str_free _ _ I)|]. by intros ->.
  - exists (S k). rewrite Eb, Em. split; [done|]. split; [cbn; lia|]. change (trace s') with (trace s). rewrite T3, O. change (over s') with 0. f_equal. lia.
  - intros j H. destruct (Hb j H) as [H1 H2]. unfold cut; cbn [kp s' set_kp]. unfold txn. rewrite Ho by done. pose proof (str_adds _ _ I j H1) as E. unfold cut in E. rewrite Ek in E.
    by rewrite decide_False in E by done.
  - intros j H. destruct (Hb j H) as [H1 H2]. unfold evs, txn. rewrite Ho by done. by apply (str_nev _ _ I).
  - apply I.
  - apply I.
  - apply I.
  - apply I.
  - apply I.
Qed.

Lemma Str_swap c s m q : Str c s -> fp s = FPop -> freeq s = m :: q -> Str c (set_fp FIdle (set_onDeck m (set_freeq q s))).
Proof.
  intros I Ef Eq. set (s' := set_fp _ _).
  assert (pipe s' = pipe s ++ [m]) as Ep. { unfold pipe, deck. rewrite Ef. cbn. rewrite app_nil_r. by rewrite app_assoc. }
  assert (evs s m = 0) as E0. { apply (str_free _ _ I). rewrite Eq. by left. }
  assert (busy s' = busy s) as Eb. { unfold busy. rewrite Ep, filter_app. rewrite (filter_cons_False _ m) by (unfold evs in *; cbn; lia). rewrite filter_nil, app_nil_r. reflexivity. }
  constructor; try (rewrite ?Eb; apply I).
  - rewrite Ep, <- app_assoc. cbn. rewrite <- Eq. apply I.
  - done.
  - intros j H. apply (str_free _ _ I). rewrite Eq. by right.
  - pose proof (str_take _ _ I) as H. rewrite Ef in H. exact H.
Qed.

Lemma Str_start c : valid c -> Str c (start c).
Proof.
  intros (Hp & _). constructor; try done.
  - exists 0. split; [lia|]. cbn. f_equal. unfold ring. cbn. rewrite <- (map_id (seq 1 _)) at 1. apply map_ext_in. intros i H. apply in_seq in H. symmetry. apply Nat.mod_small. lia.
  - cbn. intros n H. by apply elem_of_nil in H.
  - exists 0. done.
  - intros t e H. by apply elem_of_nil in H.
  - constructor.
Qed.
