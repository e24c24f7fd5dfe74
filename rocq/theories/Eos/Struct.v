(** The structural invariant is preserved. *)
From stdpp Require Import prelude list sorting.
From Coq Require Import ZArith.
From Verif.Eos Require Import Model Base.
Open Scope nat_scope.

(** who holds a producer, and how far the commit of a node is *)
Record Giv (s : st) : Prop := {
  giv_busy : forall n e, (n, e) ∈ given s -> e ∉ done s -> n ∈ busy s /\ e ∈ n_ecs (nodes s n) /\ match kp s with KEnded m | KRel m _ => n <> m | _ => True end;
  giv_fin : match kp s with KFin n cur _ todo => forall e, e ∈ n_ecs (nodes s n) -> e ∈ done s \/ e ∈ cur \/ e_p e ∈ todo | _ => True end;
  giv_fp : match fp s with FAdded e | FOwned e => e ∈ n_ecs (nodes s (onDeck s)) /\ forall n, (n, e) ∉ given s | _ => True end;
  giv_added : forall n e, (n, e) ∈ given s -> e ∈ map snd (added (trace s));
  giv_done : forall e, e ∈ done s <-> e ∈ dones (trace s);
}.

Definition prod_w (n : nat) (e : ec) (r : orec) (s : st) : list ev :=
  EvCall (txn s n) e r :: (if decide (owners s (e_p e) = Some n) then [EvSend (txn s n) e r] else []).
Definition prod_x (n : nat) (e : ec) (r : orec) (s : st) : node :=
  mkNode (n_ecs (nodes s n)) (if decide (owners s (e_p e) = Some n) then n_pend (nodes s n) else n_pend (nodes s n) ++ [(e, r)]) (S (n_prod (nodes s n))) (n_ev (nodes s n)) (n_txn (nodes s n)).
Lemma produceRecord_eq n e r s : produceRecord n e r s = emits (prod_w n e r s) (setNode n (prod_x n e r s) s).
Proof.
  unfold produceRecord, prod_w, prod_x, emit, emits, setNode, set_nodes, txn; cbn. case_decide; cbn; f_equal. by rewrite <- app_assoc.
Qed.
Lemma prod_w_other n e r s : arrs (prod_w n e r s) = [] /\ taken (prod_w n e r s) = [] /\ takes (prod_w n e r s) = [] /\ added (prod_w n e r s) = [] /\ ends (prod_w n e r s) = [] /\ dones (prod_w n e r s) = [].
Proof. unfold prod_w. case_decide; done. Qed.
Lemma upd_eq {A} n (x : A) f : upd n x f n = x. Proof. unfold upd. by rewrite decide_True. Qed.
Lemma upd_ne {A} n m (x : A) f : m <> n -> upd n x f m = f m. Proof. intros. unfold upd. by rewrite decide_False. Qed.

Lemma Str_quiet c s s' : Str c s -> pipe s' = pipe s -> freeq s' = freeq s ->
  (forall n, n ∈ kn s' ++ queue s' -> n ∈ kn s ++ queue s \/ evs s n <> 0) ->
  match fp s' with FAdded _ | FOwned _ | FTried | FPush => evs s' (onDeck s') <> 0 | _ => True end ->
  (forall n, evs s' n = evs s n /\ txn s' n = txn s n /\ n_ecs (nodes s' n) = n_ecs (nodes s n)) ->
  (forall n, evs s n = 0 -> n_prod (nodes s' n) = n_prod (nodes s n) /\ n_pend (nodes s' n) = n_pend (nodes s n)) ->
  over s' = over s -> (forall n l, cut s' n l = cut s n l) -> ntxn s' = ntxn s ->
  added (trace s') = added (trace s) -> ends (trace s') = ends (trace s) ->
  takes (trace s') = map snd (added (trace s')) ++ match fp s' with FChecked e => [e] | _ => [] end ->
  arrs (trace s') = taken (trace s') ++ buffer s' -> map e_id (arrs (trace s')) = seq 0 (narr s') -> Str c s'.
Proof.
  intros I Ep Ef Hkq Hd Hn Hi Eo Ec Et Ea Ee H1 H2 H3.
  assert (busy s' = busy s) as Eb.
  { unfold busy. rewrite Ep. apply list_filter_iff. intros n. by destruct (Hn n) as (-> & _). }
  assert (map (txn s') (busy s') = map (txn s) (busy s)) as Em.
  { rewrite Eb. apply map_ext. intros n. apply (Hn n). }
  constructor.
  - rewrite Ep, Ef. apply I.
  - intros n H. destruct (Hn n) as (-> & _). destruct (Hkq n H); [|done]. by apply (str_kq _ _ I).
  - done.
  - intros n H. destruct (Hn n) as (E & _ & ->). rewrite E in H. destruct (str_idle _ _ I n H) as (? & ? & ?). destruct (Hi n H) as (-> & ->). done.
  - intros n H. destruct (Hn n) as (-> & _). rewrite Ef in H. by apply (str_free _ _ I).
  - destruct (str_txn _ _ I) as (k & H). exists k. rewrite Em, Eb, Et, Ee, Eo. done.
  - intros n H. rewrite Eb in H. destruct (Hn n) as (_ & E & ->). rewrite (str_adds _ _ I n H), Ec, E. unfold adds. by rewrite Ea.
  - intros n H. rewrite Eb in H. destruct (Hn n) as (-> & E & _). rewrite (str_nev _ _ I n H), E. unfold adds. by rewrite Ea.
  - intros t e. rewrite Ea, Et. apply I.
  - rewrite Ea. apply I.
  - done.
  - done.
  - done.
Qed.

Ltac trs := rewrite ?arrs_app, ?taken_app, ?takes_app, ?added_app, ?ends_app, ?dones_app; cbn [arrs taken takes added ends dones flat_map app]; rewrite ?app_nil_r.

Lemma deck_pipe s : fp s <> FPop -> pipe s = (kn s ++ queue s) ++ [onDeck s].
Proof. intros H. unfold pipe, deck. rewrite app_assoc. destruct (fp s); done. Qed.
Lemma Str_produce c s n e r : Str c s -> evs s n <> 0 -> Str c (produceRecord n e r s).
Proof.
  intros I Hn. rewrite produceRecord_eq.
  destruct (prod_w_other n e r s) as (E1 & E2 & E3 & E4 & E5 & _).
  eapply Str_quiet; [exact I|reflexivity..| | | | | | | | | | | | ]; cbn -[prod_w]; try done.
  - auto.
  - pose proof (str_deck _ _ I). destruct (fp s); try done. all: unfold evs in *; cbn; unfold upd; case_decide; subst; done.
  - intros m. unfold evs, txn; cbn. unfold upd. case_decide; subst; done.
  - intros m Hm. unfold upd. rewrite decide_False; [done|]. intros ->. done.
  - rewrite added_app, E4. apply app_nil_r.
  - rewrite ends_app, E5. apply app_nil_r.
  - rewrite takes_app, added_app, E3, E4, !app_nil_r. apply I.
  - rewrite arrs_app, taken_app, E1, E2, !app_nil_r. apply I.
  - rewrite arrs_app, E1, !app_nil_r. apply I.
Qed.
Lemma Str_addWait c s w d : Str c s -> Str c (addWait w d s).
Proof. intros I. eapply Str_quiet; [exact I|reflexivity..| | | | | | | | | | | | ]; try done; auto; try apply I. Qed.
Lemma Str_setkp c s k : Str c s -> pipe (set_kp k s) = pipe s -> kn (set_kp k s) ++ queue s = kn s ++ queue s ->
  over (set_kp k s) = over s -> (forall n l, cut (set_kp k s) n l = cut s n l) -> Str c (set_kp k s).
Proof.
  intros I H1 H2 H3 H4. eapply Str_quiet; [exact I|..]; try done; try apply I.
  intros n. cbn [queue set_kp]. rewrite H2. auto.
Qed.
Lemma releaseRoots_frame l ps s : exists w, releaseRoots l ps s = set_waits w s.
Proof.
  induction ps as [|p ps (w & IH)]; [exists (waits s); by destruct s|].
  change (releaseRoots l (p :: ps) s) with (match ofPart p l with e :: _ => addWait (e_w e) (-1) (releaseRoots l ps s) | [] => releaseRoots l ps s end).
  rewrite IH. destruct (ofPart p l); eexists; [done|]. unfold addWait. reflexivity.
Qed.

Lemma Str_FAdd c s e : Str c s -> fp s = FChecked e -> (forall n l, kp s <> KRel n l) -> Str c (set_fp (FAdded e) (addEc e s)).
Proof.
  intros I Ef Hk.
  set (x := nodes s (onDeck s)). set (t := if n_ev x =? 0 then ntxn s else n_txn x).
  assert (exists w, set_fp (FAdded e) (addEc e s) = emit (EvAdd t e) (set_ntxn (if n_ev x =? 0 then S (ntxn s) else ntxn s)
    (setNode (onDeck s) (mkNode (n_ecs x ++ [e]) (n_pend x) (n_prod x) (S (n_ev x)) t) (set_fp (FAdded e) (set_waits w s))))) as [w ->].
  { unfold addEc. fold x. case_decide; [exists (waits s)|eexists]; reflexivity. }
  set (s' := emit _ _).
  assert (pipe s' = pipe s) as Ep by (unfold pipe, deck, kn; cbn; by rewrite Ef).
  assert (pipe s = (kn s ++ queue s) ++ [onDeck s]) as Epd by (apply deck_pipe; congruence).
  pose proof (Str_nodup_pipe _ _ I) as ND. rewrite Epd in ND. apply NoDup_app in ND. destruct ND as (_ & ND & _).
  assert (forall n, n ∈ kn s ++ queue s -> n <> onDeck s) as Hne.
  { intros n H ->. apply (ND _ H). by apply elem_of_list_singleton. }
  assert (evs s' (onDeck s) <> 0) as Hev.
  { unfold evs; cbn. by rewrite upd_eq. }
  assert (forall n, n <> onDeck s -> nodes s' n = nodes s n) as Hother.
  { intros n H. cbn. by rewrite upd_ne. }
  assert (filter (fun n => evs s' n <> 0) (kn s ++ queue s) = filter (fun n => evs s n <> 0) (kn s ++ queue s)) as Ekq.
  { apply filter_eq_in. intros n H. unfold evs. rewrite Hother by auto. done. }
  assert (busy s' = filter (fun n => evs s n <> 0) (kn s ++ queue s) ++ [onDeck s]) as Eb.
  { unfold busy. rewrite Ep, Epd, filter_app, Ekq. f_equal. rewrite filter_cons_True by done. done. }
  assert (map (txn s') (filter (fun n => evs s n <> 0) (kn s ++ queue s)) = map (txn s) (filter (fun n => evs s n <> 0) (kn s ++ queue s))) as Emk.
  { apply map_ext_in. intros n H. rewrite <- elem_of_list_In, elem_of_list_filter in H. unfold txn. rewrite Hother; [done|]. apply Hne, H. }
  assert (txn s' (onDeck s) = t) as Et. { unfold txn; cbn. by rewrite upd_eq. }
  assert (forall n l, cut s' n l = l) as Ecut'. { intros n l. unfold cut; cbn. destruct (kp s); try done. by destruct (Hk n0 todo). }
  assert (forall n l, cut s n l = l) as Ecut. { intros n l. unfold cut; cbn. destruct (kp s); try done. by destruct (Hk n0 todo). }
  assert (added (trace s') = added (trace s) ++ [(t, e)]) as Eadd by (cbn; by rewrite added_app).
  assert (forall n, n ∈ busy s -> n <> onDeck s -> txn s n <> t) as Hdist.
  { intros n Hn Hd E. destruct (str_txn _ _ I) as (k & H1 & H2 & _).
    assert (txn s n < ntxn s). { assert (txn s n ∈ map (txn s) (busy s)) as H by (apply elem_of_list_fmap; eauto). rewrite H1, elem_of_seq in H. lia. }
    unfold t in E. destruct (n_ev x =? 0) eqn:E0; [lia|]. apply Nat.eqb_neq in E0.
    assert (NoDup (map (txn s) (busy s))) as ND' by (rewrite H1; apply NoDup_seq).
    assert (onDeck s ∈ busy s) as Hb. { apply elem_busy. split; [done|]. rewrite Epd. apply elem_of_app. right. by apply elem_of_list_singleton. }
    apply elem_of_list_lookup in Hn as [i Hi]. apply elem_of_list_lookup in Hb as [j Hj].
    assert (i = j) as ->. { eapply NoDup_lookup; [exact ND'|rewrite list_lookup_fmap, Hi; reflexivity|rewrite list_lookup_fmap, Hj; by rewrite E]. }
    congruence. }
  assert (over s' = over s) as Eo by done.
  destruct (str_txn _ _ I) as (k & T1 & T2 & T3).
  assert (busy s = filter (fun n => evs s n <> 0) (kn s ++ queue s) ++ (if n_ev x =? 0 then [] else [onDeck s])) as Ebs.
  { unfold busy. rewrite Epd, filter_app. f_equal. destruct (n_ev x =? 0) eqn:E0.
    - apply Nat.eqb_eq in E0. rewrite filter_cons_False by (unfold evs; fold x; lia). done.
    - apply Nat.eqb_neq in E0. rewrite filter_cons_True by done. done. }
  assert (ends (trace s') = ends (trace s)) as Een by (cbn; by rewrite ends_app, app_nil_r).
  assert (t < ntxn s' /\ ntxn s <= ntxn s') as [Htl Hnl].
  { cbn. unfold t. destruct (n_ev x =? 0) eqn:E0; [lia|]. split; [|lia].
    assert (txn s (onDeck s) ∈ map (txn s) (busy s)) as H. { rewrite Ebs. rewrite map_app, elem_of_app. right. cbn. by apply elem_of_list_singleton. }
    rewrite T1, elem_of_seq in H. unfold txn in H. fold x in H. lia. }
  assert (adds t (trace s) = n_ecs x /\ n_ev x = length (n_ecs x)) as [Eax Enx].
  { unfold t. destruct (n_ev x =? 0) eqn:E0.
    - apply Nat.eqb_eq in E0. destruct (str_idle _ _ I (onDeck s) E0) as (E & _). fold x in E. rewrite E, E0. split; [|done].
      apply elem_of_nil_inv. intros y Hy. apply elem_of_txn in Hy. apply (str_lt _ _ I) in Hy. lia.
    - assert (onDeck s ∈ busy s) as Hb. { rewrite Ebs, elem_of_app. right. by apply elem_of_list_singleton. }
      pose proof (str_adds _ _ I _ Hb) as E. rewrite Ecut in E. fold x in E. unfold txn in E. fold x in E. split; [done|].
      pose proof (str_nev _ _ I _ Hb) as E'. unfold evs, txn in E'. fold x in E'. by rewrite E', E. }
  constructor.
  - rewrite Ep. apply I.
  - intros n H. change (n ∈ kn s ++ queue s) in H. unfold evs. rewrite Hother by auto. by apply (str_kq _ _ I).
  - done.
  - intros n H. destruct (decide (n = onDeck s)) as [->|Hd]; [by destruct Hev|]. unfold evs in *. rewrite Hother in * by done. by apply (str_idle _ _ I).
  - intros n H. unfold evs. rewrite Hother; [by apply (str_free _ _ I)|]. intros ->.
    pose proof (Str_nodup _ _ I) as D. apply NoDup_app in D. destruct D as (_ & D & _). apply (D (onDeck s)); [|exact H].
    rewrite Epd, elem_of_app. right. by apply elem_of_list_singleton.
  - exists k. rewrite Een, Eo. rewrite Eb, map_app, Emk. cbn [map]. rewrite Et.
    rewrite Ebs in T1, T2. rewrite map_app, app_length, seq_app in T1.
    apply app_inj_1 in T1 as [T1 T1']; [|by rewrite map_length, seq_length].
    rewrite !app_length, !seq_app, T1. cbn. rewrite app_length in T2.
    unfold t in *. destruct (n_ev x =? 0) eqn:E0; cbn in T1', T2.
    + replace (ntxn s) with (k + length (filter (fun n => evs s n <> 0) (kn s ++ queue s))) by lia. split; [done|]. split; [lia|]. rewrite T3. by rewrite seq_app.
    + split; [|split; [lia|by rewrite T3, seq_app]]. f_equal. unfold txn in T1'. fold x in T1'. congruence.
  - intros n H. rewrite Eb in H. rewrite Ecut'. unfold adds. rewrite Eadd, of_txn_app. fold (adds (txn s' n) (trace s)).
    destruct (decide (n = onDeck s)) as [->|Hd].
    + rewrite Et, Eax. cbn [nodes s' emit emits set_ntxn setNode set_nodes]. rewrite upd_eq. cbn. f_equal. symmetry. apply of_txn_one.
    + rewrite elem_of_app, elem_of_list_singleton in H. destruct H as [H|H]; [|done].
      assert (n ∈ busy s) as Hb by (rewrite Ebs, elem_of_app; by left).
      assert (txn s' n = txn s n) as -> by (unfold txn; by rewrite Hother). rewrite Hother by done.
      rewrite (str_adds _ _ I n Hb), Ecut. rewrite of_txn_one_ne by (by apply Hdist). by rewrite app_nil_r.
  - intros n H. rewrite Eb in H. unfold adds. rewrite Eadd, of_txn_app. fold (adds (txn s' n) (trace s)).
    destruct (decide (n = onDeck s)) as [->|Hd].
    + rewrite Et, Eax. unfold evs. cbn [nodes s' emit emits set_ntxn setNode set_nodes]. rewrite upd_eq. cbn [n_ev]. rewrite app_length, Enx, of_txn_one. cbn. lia.
    + rewrite elem_of_app, elem_of_list_singleton in H. destruct H as [H|H]; [|done].
      assert (n ∈ busy s) as Hb by (rewrite Ebs, elem_of_app; by left).
      assert (txn s' n = txn s n) as -> by (unfold txn; by rewrite Hother). unfold evs. rewrite Hother by done.
      pose proof (str_nev _ _ I n Hb) as E. unfold evs in E. rewrite E. rewrite of_txn_one_ne by (by apply Hdist). by rewrite app_nil_r.
  - intros t' e' H. rewrite Eadd, elem_of_app in H. destruct H as [H|H].
    + pose proof (str_lt _ _ I _ _ H). lia.
    + apply elem_of_list_singleton in H. injection H as -> ->. done.
  - rewrite Eadd, map_app. cbn. apply SSorted_snoc; [apply I|].
    intros a Ha. apply elem_of_list_fmap in Ha as ([t' e'] & -> & Ha). cbn.
    pose proof (str_lt _ _ I _ _ Ha) as Hl. unfold t. destruct (n_ev x =? 0) eqn:E0; [lia|].
    rewrite Ebs in T1, T2. rewrite map_app, app_length, seq_app in T1.
    apply app_inj_1 in T1 as [T1 T1']; [|by rewrite map_length, seq_length]. cbn in T1'. rewrite app_length in T2. cbn in T2.
    unfold txn in T1'. fold x in T1'. injection T1' as T1'. lia.
  - pose proof (str_take _ _ I) as H. rewrite Ef in H. cbn [trace s' emit emits]. rewrite takes_app. cbn. rewrite added_app, map_app, H. cbn. by rewrite !app_nil_r.
  - pose proof (str_arr _ _ I) as H. cbn. rewrite arrs_app, taken_app. cbn. rewrite !app_nil_r. exact H.
  - pose proof (str_ids _ _ I) as H. cbn. rewrite arrs_app. cbn. rewrite !app_nil_r. exact H.
Qed.
