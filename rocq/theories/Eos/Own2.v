(** The invariant about owners is preserved. *)
From stdpp Require Import prelude list sorting.
From Coq Require Import ZArith.
From Verif.Eos Require Import Model Base Struct Struct2 Step1 Own.
Open Scope nat_scope.

Lemma called_prod n e r s : called (prod_w n e r s) = [(txn s n, (e, r))].
Proof. unfold prod_w. case_decide; done. Qed.
Lemma sent_prod n e r s : sent (prod_w n e r s) = if decide (owners s (e_p e) = Some n) then [(txn s n, (e, r))] else [].
Proof. unfold prod_w. case_decide; done. Qed.

Lemma cut_sub s n l x : x ∈ cut s n l -> x ∈ l.
Proof. unfold cut. destruct (kp s); try done. destruct (decide (n = n0)); [|done]. intros H. apply elem_of_list_filter in H. apply H. Qed.
Lemma Own_produce c s n e r : Str c s -> Own s -> n ∈ busy s -> e ∈ n_ecs (nodes s n) -> (exists m, owners s (e_p e) = Some m /\ first s (e_p e) = Some m) ->
  Own (produceRecord n e r s).
Proof.
  intros I O Hn He (o & Ho & Hfo). rewrite produceRecord_eq. set (w := prod_w n e r s). set (s' := emits w _).
  assert (trace s' = trace s ++ w) as Et by done.
  assert (forall m, nodes s' m = if decide (m = n) then prod_x n e r s else nodes s m) as En by done.
  assert (forall m, n_ecs (nodes s' m) = n_ecs (nodes s m)) as Ee by (intros m; rewrite En; case_decide; by subst).
  assert (forall m, txn s' m = txn s m) as Etx by (intros m; unfold txn; rewrite En; case_decide; by subst).
  assert (busy s' = busy s) as Eb. { apply busy_same; [done|]. intros m. unfold evs. rewrite En. case_decide; by subst. }
  destruct (prod_w_other n e r s) as (_ & _ & _ & W4 & W5 & _). fold w in W4, W5.
  pose proof (called_prod n e r s) as Wc. pose proof (sent_prod n e r s) as Ws. fold w in Wc, Ws.
  assert (forall m, m ∈ busy s -> m <> n -> txn s m <> txn s n) as Hdist by (intros m H1 H2 E; apply H2; by eapply txn_inj).
  assert (forall t p, t <> txn s n -> callsOf t p w = [] /\ sendsOf t p w = []) as Hother.
  { intros t p H. unfold callsOf, sendsOf. rewrite Wc, Ws. rewrite of_txn_one_ne by done. case_decide; [rewrite of_txn_one_ne by done|]; done. }
  assert (forall p, callsOf (txn s n) p w = filter (fun er => e_p (fst er) = p) [(e, r)]) as Hc.
  { intros p. unfold callsOf. by rewrite Wc, of_txn_one. }
  assert (forall p, sendsOf (txn s n) p w = if decide (owners s (e_p e) = Some n) then filter (fun er => e_p (fst er) = p) [(e, r)] else []) as Hs.
  { intros p. unfold sendsOf. rewrite Ws. case_decide; [by rewrite of_txn_one|done]. }
  constructor.
  - intros p. rewrite (first_ext s s') by done. rewrite Ee. apply O.
  - intros m e' r' H1 H2. rewrite Eb in H1. rewrite Ee. rewrite En in H2. case_decide; [subst m|by apply (own_pend _ O m e' r')].
    unfold prod_x in H2; cbn in H2. case_decide as D; [by apply (own_pend _ O n e' r')|]. rewrite elem_of_app, elem_of_list_singleton in H2.
    destruct H2 as [H2|H2]; [by apply (own_pend _ O n e' r')|]. injection H2 as -> ->. split; [done|]. exists o. split; [done|]. congruence.
  - intros m p H. rewrite Eb in H. rewrite Etx, Et, callsOf_app, sendsOf_app, En. destruct (decide (m = n)) as [->|D].
    + rewrite Hc, Hs, (own_calls _ O n p) by done. unfold prod_x. destruct (decide (owners s (e_p e) = Some n)) as [D|D]; cbn [n_pend].
      * destruct (decide (e_p e = p)) as [<-|Hp].
        -- assert (filter (fun er : ec * orec => e_p (fst er) = e_p e) (n_pend (nodes s n)) = []) as ->.
           { apply filter_nil_all. intros [e' r'] Hin Hp. cbn in Hp. destruct (own_pend _ O n e' r' Hn Hin) as (_ & m & Hm & Hne). rewrite Hp in Hm. congruence. }
           by rewrite !app_nil_r.
        -- rewrite filter_cons_False by done. rewrite filter_nil, !app_nil_r. done.
      * by rewrite app_nil_r, filter_app, app_assoc.
    + destruct (Hother (txn s m) p) as [-> ->]; [by apply Hdist|]. rewrite !app_nil_r. by apply (own_calls _ O).
  - intros t p H. rewrite Eb in H. assert (map (txn s') (busy s) = map (txn s) (busy s)) as Em by (apply map_ext; done). rewrite Em in H.
    rewrite Et, callsOf_app, sendsOf_app. destruct (Hother t p) as [-> ->]. { intros ->. apply H. apply elem_of_list_fmap. eauto. }
    rewrite !app_nil_r. by apply (own_calls' _ O).
  - intros t e' r' H. rewrite Et in *. rewrite called_app, Wc, elem_of_app, elem_of_list_singleton in H. rewrite added_app, W4, app_nil_r. destruct H as [H|H]; [by eapply (own_added _ O)|].
    injection H as -> -> ->. rewrite (str_adds _ _ I _ Hn) in He. apply elem_of_txn. eapply cut_sub; exact He.
  - intros m H. rewrite Eb in H. rewrite Etx, Et, called_app, Wc, of_txn_app, app_length, En. destruct (decide (m = n)) as [->|D].
    + cbn [prod_x n_prod]. rewrite (own_prod _ O n) by done. rewrite of_txn_one. cbn. lia.
    + rewrite of_txn_one_ne by (by apply Hdist). rewrite (own_prod _ O m) by done. cbn. lia.
  - rewrite Et. apply ordered_sends; [apply O|done|]. intros u v t e1 r1 E t' e' Hlt Hin Hp.
    assert ((t, (e1, r1)) ∈ sent w) as Hw. { rewrite E, sent_app, elem_of_app. right. change (sent (EvSend t e1 r1 :: v)) with ((t, (e1, r1)) :: sent v). by left. }
    rewrite Ws in Hw. case_decide as D; [|by apply elem_of_nil in Hw]. apply elem_of_list_singleton in Hw. injection Hw as -> -> ->.
    eapply (first_order c s); [done| |exact Hlt|exact Hin|exact Hp]. congruence.
Qed.

(** a new event *)
Lemma Own_add c s e : Str c s -> Str c (set_fp (FAdded e) (addEc e s)) -> Own s -> fp s = FChecked e -> Own (set_fp (FAdded e) (addEc e s)).
Proof.
  intros I I' O Ef.
  set (x := nodes s (onDeck s)). set (t := if n_ev x =? 0 then ntxn s else n_txn x). set (s' := set_fp _ _) in *.
  assert (trace s' = trace s ++ [EvAdd t e] /\ nodes s' (onDeck s) = mkNode (n_ecs x ++ [e]) (n_pend x) (n_prod x) (S (n_ev x)) t /\
    (forall n, n <> onDeck s -> nodes s' n = nodes s n) /\ owners s' = owners s /\ onDeck s' = onDeck s /\ fp s' = FAdded e /\ queue s' = queue s /\ kp s' = kp s /\
    ntxn s' = if n_ev x =? 0 then S (ntxn s) else ntxn s) as (Et & End & Eno & Eow & Eod & Efp & Eq & Ek & Ent).
  { unfold s', addEc. fold x. case_decide; cbn; (split; [done|]); (split; [by rewrite upd_eq|]); (split; [intros; by rewrite upd_ne|]); done. }
  assert (pipe s' = pipe s) as Ep. { unfold pipe, deck, kn. by rewrite Eq, Ek, Efp, Ef, Eod. }
  assert (pipe s = (kn s ++ queue s) ++ [onDeck s]) as Epd by (apply deck_pipe; congruence).
  assert (onDeck s ∈ pipe s) as Hdp by (rewrite Epd, elem_of_app, elem_of_list_singleton; by right).
  assert (onDeck s ∈ busy s') as Hdb. { apply elem_busy. rewrite Ep. split; [|done]. unfold evs. by rewrite End. }
  assert (txn s' (onDeck s) = t) as Etd by (unfold txn; by rewrite End).
  assert (forall n, n ∈ busy s' -> n <> onDeck s -> n ∈ busy s /\ nodes s' n = nodes s n /\ txn s' n = txn s n) as Hbo.
  { intros n H1 H2. apply elem_busy in H1 as [H1 H3]. unfold evs, txn in *. rewrite Eno in * by done. split; [|done]. apply elem_busy. rewrite Ep in H3. done. }
  assert (forall n, n ∈ busy s -> n ∈ busy s') as Hbb.
  { intros n H1. destruct (decide (n = onDeck s)) as [->|Hd]; [done|]. apply elem_busy in H1 as [H1 H2]. apply elem_busy. rewrite Ep. unfold evs. by rewrite Eno. }
  assert (callsOf t = (fun p tr => callsOf t p tr)) as _ by done.
  assert (forall t' p, callsOf t' p (trace s') = callsOf t' p (trace s) /\ sendsOf t' p (trace s') = sendsOf t' p (trace s)) as Hcs.
  { intros t' p. rewrite Et, callsOf_app, sendsOf_app, (callsOf_nil _ _ [_]), (sendsOf_nil _ _ [_]) by done. by rewrite !app_nil_r. }
  assert (called (trace s') = called (trace s)) as Ec by (rewrite Et, called_app; apply app_nil_r).
  assert (n_ev x = 0 -> n_pend x = [] /\ n_prod x = 0 /\ n_ecs x = []) as Hidle. { intros E. destruct (str_idle _ _ I _ E) as (? & ? & ?). done. }
  assert (forall t' y, (t', y) ∈ called (trace s) -> t' < ntxn s) as Hclt. { intros t' [e' r'] H. apply (own_added _ O) in H. by apply (str_lt _ _ I) in H. }
  constructor.
  - intros p. rewrite Eow, Eod. assert (p = e_p e \/ first s' p = first s p) as Hp.
    { destruct (decide (p = e_p e)); [by left|right]. unfold first. rewrite Ep. apply find_ext_in. intros m _. apply eq_bool_prop_intro. rewrite !Is_true_true, !holds_spec.
      destruct (decide (m = onDeck s)) as [->|Hm]; [|by rewrite Eno]. rewrite End. cbn. fold x. split; intros (y & Hy & <-); exists y; [|rewrite elem_of_app; auto].
      rewrite elem_of_app, elem_of_list_singleton in Hy. destruct Hy as [Hy | ->]; [auto|done]. }
    destruct Hp as [-> | ->]. 2: { destruct (own_eq _ O p) as [?|(_ & _ & e' & E & _)]; [by left|congruence]. }
    destruct (own_eq _ O (e_p e)) as [E|(_ & _ & e' & E & _)]; [|congruence]. rewrite E.
    assert (forall m, m ∈ kn s ++ queue s -> holds s' (e_p e) m = holds s (e_p e) m) as Hh.
    { intros m Hm. unfold holds. rewrite Eno; [done|]. intros ->. pose proof (Str_nodup_pipe _ _ I) as ND. rewrite Epd in ND. apply NoDup_app in ND as (_ & ND & _). apply (ND _ Hm). by apply elem_of_list_singleton. }
    assert (holds s' (e_p e) (onDeck s) = true) as Hd. { apply holds_spec. rewrite End. cbn. exists e. rewrite elem_of_app, elem_of_list_singleton. auto. }
    unfold first. rewrite Ep, Epd, !(find_app' _ (kn s ++ queue s)). rewrite (find_ext_in (holds s' (e_p e)) (holds s (e_p e)) (kn s ++ queue s)) by done.
    destruct (List.find (holds s (e_p e)) (kn s ++ queue s)) eqn:E1; [by left|]. cbn [List.find]. rewrite Hd.
    destruct (holds s (e_p e) (onDeck s)) eqn:E2; [by left|]. right. split; [done|]. split; [done|]. exists e. split; [done|]. split; [done|].
    rewrite End. cbn [n_ecs]. unfold ofPart. rewrite filter_app. rewrite (filter_cons_True _ e) by done. rewrite filter_nil_all; [done|].
    intros y Hy Hp. assert (holds s (e_p e) (onDeck s) = true); [|congruence]. apply holds_spec. eauto.
  - intros n e' r H1 H2. rewrite Eow. destruct (decide (n = onDeck s)) as [->|Hd].
    + rewrite End in *. cbn in *. destruct (decide (n_ev x = 0)) as [E0|E0]; [destruct (Hidle E0) as [E1 _]; rewrite E1 in H2; by apply elem_of_nil in H2|].
      destruct (own_pend _ O (onDeck s) e' r) as [A B]; [by apply elem_busy|done|]. split; [|done]. rewrite elem_of_app. by left.
    + destruct (Hbo n H1 Hd) as (H3 & E & _). rewrite E in *. by apply (own_pend _ O n e' r).
  - intros n p H. destruct (Hcs (txn s' n) p) as [-> ->]. destruct (decide (n = onDeck s)) as [->|Hd].
    + rewrite End, Etd. cbn. unfold t. destruct (n_ev x =? 0) eqn:E0.
      * apply Nat.eqb_eq in E0. destruct (Hidle E0) as [-> _]. rewrite filter_nil, app_nil_r. apply (own_calls' _ O). intros H'. apply elem_of_list_fmap in H' as (m & Em & Hm). pose proof (txn_busy_lt _ _ _ I Hm). lia.
      * apply Nat.eqb_neq in E0. apply (own_calls _ O (onDeck s)). by apply elem_busy.
    + destruct (Hbo n H Hd) as (H3 & -> & ->). by apply (own_calls _ O).
  - intros t' p H. destruct (Hcs t' p) as [-> ->]. apply (own_calls' _ O). intros H'. apply H. apply elem_of_list_fmap in H' as (m & -> & Hm). apply elem_of_list_fmap. exists m. split; [|auto].
    destruct (decide (m = onDeck s)) as [->|Hd]; [|unfold txn; by rewrite Eno]. rewrite Etd. unfold t. apply elem_busy in Hm as [Hm _]. unfold evs in Hm. fold x in Hm. destruct (n_ev x =? 0) eqn:E0; [apply Nat.eqb_eq in E0; lia|done].
  - intros t' e' r H. rewrite Ec in H. rewrite Et, added_app, elem_of_app. left. by eapply (own_added _ O).
  - intros n H. rewrite Ec. destruct (decide (n = onDeck s)) as [->|Hd].
    + rewrite End, Etd. cbn. unfold t. destruct (n_ev x =? 0) eqn:E0.
      * apply Nat.eqb_eq in E0. destruct (Hidle E0) as (_ & -> & _). assert (of_txn (ntxn s) (called (trace s)) = []) as ->; [|done].
        apply elem_of_nil_inv. intros y Hy. apply elem_of_txn in Hy. apply Hclt in Hy. lia.
      * apply Nat.eqb_neq in E0. apply (own_prod _ O (onDeck s)). by apply elem_busy.
    + destruct (Hbo n H Hd) as (H3 & -> & ->). by apply (own_prod _ O).
  - rewrite Et. apply ordered_add; [apply O|]. intros t' [e' r'] H.
    assert (t' < ntxn s) as Hlt.
    { destruct (decide (t' ∈ map (txn s) (busy s))) as [Hin|Hin].
      - apply elem_of_list_fmap in Hin as (m & -> & Hm). by eapply txn_busy_lt.
      - pose proof (own_calls' _ O t' (e_p e') Hin) as E. assert ((e', r') ∈ sendsOf t' (e_p e') (trace s)) as Hs. { unfold sendsOf. rewrite elem_of_list_filter. split; [done|]. by apply elem_of_txn. }
        rewrite <- E in Hs. unfold callsOf in Hs. apply elem_of_list_filter in Hs as [_ Hs]. apply elem_of_txn in Hs. by eapply Hclt. }
    unfold t. destruct (n_ev x =? 0) eqn:E0; [lia|].
    pose proof (str_txn _ _ I') as (k & T1 & T2 & _). assert (busy s' = filter (fun n => evs s' n <> 0) (kn s ++ queue s) ++ [onDeck s]) as Eb.
    { unfold busy. rewrite Ep, Epd, filter_app. f_equal. rewrite filter_cons_True; [done|]. by apply elem_busy in Hdb as [? _]. }
    rewrite Eb, map_app, app_length, seq_app in T1. apply app_inj_1 in T1 as [_ T1]; [|by rewrite map_length, seq_length]. cbn in T1. injection T1 as T1. rewrite Etd in T1. unfold t in T1. try rewrite E0 in T1.
    rewrite Eb, app_length in T2. rewrite Ent in T2. cbn [length] in T2. lia.
Qed.

Lemma holds_node s s' p n : n_ecs (nodes s' n) = n_ecs (nodes s n) -> holds s' p n = holds s p n.
Proof. intros E. unfold holds. by rewrite E. Qed.

Lemma Own_relinq c s n p todo : Str c s -> Own s -> kp s = KRel n todo -> Str c (set_kp (KRel n (filter (fun q => q <> p) todo)) (relinquish (poolSize c) n p s)) ->
  Own (set_kp (KRel n (filter (fun q => q <> p) todo)) (relinquish (poolSize c) n p s)).
Proof.
  intros I O Ek I'. assert (kn s = [n]) as K by (unfold kn; by rewrite Ek).
  pose proof (head_ring _ _ _ I K) as Hr. pose proof (pend_head _ _ _ I O K) as Pn.
  assert (pipe s = n :: queue s ++ deck s) as Ep by (unfold pipe; by rewrite K).
  assert (ring (poolSize c) n = (queue s ++ deck s) ++ freeq s) as Er by (eapply ring_tail; [exact I|by rewrite Ep]).
  assert (List.find (holds s p) (ring (poolSize c) n) = List.find (holds s p) (queue s ++ deck s)) as Ef.
  { rewrite Er, find_app'. destruct (List.find _ (queue s ++ deck s)); [done|]. apply find_none'. intros m Hm. apply (str_free _ _ I) in Hm. destruct (str_idle _ _ I _ Hm) as (E & _). unfold holds. rewrite E. done. }
  assert (n ∉ queue s ++ deck s) as Hnq. { pose proof (Str_nodup_pipe _ _ I) as ND. rewrite Ep in ND. apply NoDup_cons in ND. apply ND. }
  destruct (busy_head _ _ _ I K) as (l & El & Hl).
  rewrite relinquish_eq in * by done. cbn zeta in *. rewrite Ef in *.
  set (X := mkNode (filter (fun e => e_p e <> p) (n_ecs (nodes s n))) (n_pend (nodes s n)) (n_prod (nodes s n)) (n_ev (nodes s n)) (n_txn (nodes s n))) in *.
  assert (forall s', onDeck s' = onDeck s -> fp s' = fp s -> queue s' = queue s -> kn s' = [n] ->
     (forall m, m <> n -> n_ecs (nodes s' m) = n_ecs (nodes s m)) -> n_ecs (nodes s' n) = n_ecs X -> 
     (forall q, first s' q = if decide (q = p) then List.find (holds s p) (queue s ++ deck s) else first s q)) as Hfirst.
  { intros s' E1 E2 E3 E4 E5 E6 q. unfold first. rewrite Ep. assert (pipe s' = n :: queue s ++ deck s) as ->. { unfold pipe, deck. by rewrite E1, E2, E3, E4. }
    cbn. rewrite (find_ext_in (holds s' q) (holds s q)); [|intros m Hm; apply holds_node, E5; by intros ->].
    destruct (decide (q = p)) as [->|Hq].
    - destruct (holds s' p n) eqn:Hh; [|done]. apply holds_spec in Hh as (e & He & Hp). rewrite E6 in He. unfold X in He. cbn [n_ecs] in He. apply elem_of_list_filter in He as [He _]. done.
    - replace (holds s' q n) with (holds s q n); [done|]. apply eq_bool_prop_intro. rewrite !Is_true_true, !holds_spec, E6. unfold X. cbn [n_ecs]. split; intros (e & He & Hp); exists e.
      + rewrite elem_of_list_filter. split; [split; [congruence|done]|done].
      + apply elem_of_list_filter in He as [_ He]. done. }
  destruct (List.find (holds s p) (queue s ++ deck s)) as [m|] eqn:Em.
  - set (Y := mkNode (n_ecs (nodes s m)) (filter (fun er => e_p (fst er) <> p) (n_pend (nodes s m))) (n_prod (nodes s m)) (n_ev (nodes s m)) (n_txn (nodes s m))) in *.
    set (W := sendAll (txn s m) (filter (fun er => e_p (fst er) = p) (n_pend (nodes s m)))) in *. set (s' := set_kp _ _) in *.
    assert (m <> n) as Hmn. { intros ->. apply find_some in Em as [Em _]. apply elem_of_list_In in Em. done. }
    assert (nodes s' n = X) as Nn by (cbn; by rewrite upd_eq).
    assert (nodes s' m = Y) as Nm by (cbn; by rewrite upd_ne, upd_eq).
    assert (forall j, j <> n -> j <> m -> nodes s' j = nodes s j) as No by (intros; cbn; by rewrite !upd_ne).
    assert (forall j, j <> n -> n_ecs (nodes s' j) = n_ecs (nodes s j)) as Ne. { intros j Hj. destruct (decide (j = m)) as [->|]; [by rewrite Nm|by rewrite No]. }
    assert (forall j, txn s' j = txn s j /\ evs s' j = evs s j) as Ntx.
    { intros j. unfold txn, evs. destruct (decide (j = n)) as [->|]; [by rewrite Nn|]. destruct (decide (j = m)) as [->|]; [by rewrite Nm|by rewrite No]. }
    assert (kn s' = [n]) as K' by done.
    assert (pipe s' = pipe s) as Epp by (rewrite Ep; reflexivity).
    assert (busy s' = busy s) as Eb by (apply busy_same; [done|apply Ntx]).
    assert (m ∈ busy s) as Hmb. { apply elem_busy. apply find_some in Em as [E1 E2]. split; [|rewrite Ep; right; by apply elem_of_list_In].
      intros E. destruct (str_idle _ _ I _ E) as (E' & _). apply holds_spec in E2 as (e & He & _). rewrite E' in He. by apply elem_of_nil in He. }
    destruct (sendAll_other (txn s m) (filter (fun er => e_p (fst er) = p) (n_pend (nodes s m)))) as (_ & _ & _ & W4 & W5 & W6 & _). fold W in W4, W5, W6.
    assert (trace s' = trace s ++ W) as Et by done.
    assert (forall q, first s' q = if decide (q = p) then Some m else first s q) as Hfirst'. { apply Hfirst; try done. by rewrite Nn. }
    assert (forall t q, sendsOf t q W = if decide (t = txn s m /\ q = p) then filter (fun er => e_p (fst er) = p) (n_pend (nodes s m)) else []) as HW.
    { intros t q. unfold sendsOf, W. rewrite sent_sendAll. destruct (decide (t = txn s m)) as [->|Ht].
      - rewrite of_txn_same. destruct (decide (q = p)) as [->|Hq]; [rewrite decide_True by done; apply filter_id; intros [e r] H; by apply elem_of_list_filter in H as [? _]|].
        rewrite decide_False by tauto. apply filter_nil_all. intros [e r] H E. apply elem_of_list_filter in H as [H _]. congruence.
      - rewrite of_txn_other by done. rewrite decide_False by tauto. done. }
    constructor.
    + intros q. rewrite Hfirst'. change (owners s' q) with (upd p (Some m) (owners s) q). unfold upd. destruct (decide (q = p)) as [->|Hq]; [by left|].
      destruct (own_eq _ O q) as [?|(? & E & e & F & P & Q)]; [by left|right]. split; [done|]. split; [done|]. exists e. split; [done|]. split; [done|].
      change (onDeck s') with (onDeck s). rewrite Ne; [done|]. intros Hd. eapply not_head_deck; [exact I|exact K|congruence|done].
    + intros j e r H1 H2. rewrite Eb in H1. change (owners s' (e_p e)) with (upd p (Some m) (owners s) (e_p e)).
      destruct (decide (j = n)) as [->|Hj]. { rewrite Nn in H2. unfold X in H2; cbn [n_pend] in H2. rewrite Pn in H2. by apply elem_of_nil in H2. }
      rewrite Ne by done. destruct (decide (j = m)) as [->|Hjm].
      * rewrite Nm in H2. unfold Y in H2; cbn [n_pend] in H2. apply elem_of_list_filter in H2 as [H2 H3]. cbn in H2. rewrite upd_ne by done. by apply (own_pend _ O m e r).
      * rewrite No in H2 by done. destruct (own_pend _ O j e r H1 H2) as (A & B). split; [done|]. unfold upd. destruct (decide (e_p e = p)); [|done]. eauto.
    + intros j q H. rewrite Eb in H. destruct (Ntx j) as [-> _]. rewrite Et, callsOf_app, sendsOf_app, (callsOf_nil _ _ W), app_nil_r, HW by done. rewrite (own_calls _ O j q) by done.
      destruct (decide (j = m)) as [->|Hjm].
      * rewrite Nm. unfold Y; cbn [n_pend]. destruct (decide (q = p)) as [->|Hq].
        -- rewrite decide_True by done. rewrite (filter_nil_all _ (filter _ (n_pend (nodes s m)))); [by rewrite app_nil_r|]. intros [e r] H' E. apply elem_of_list_filter in H' as [H' _]. done.
        -- rewrite decide_False by tauto. rewrite app_nil_r. f_equal. symmetry. apply filter_and. intros [e r]; cbn. split; [|tauto]. intros <-. done.
      * rewrite decide_False by (intros [E _]; apply Hjm; apply (txn_inj c s j m); done). rewrite app_nil_r. f_equal. f_equal.
        destruct (decide (j = n)) as [->|Hj]; [by rewrite Nn|by rewrite No].
    + intros t q H. rewrite Eb in H. assert (map (txn s') (busy s) = map (txn s) (busy s)) as Emm by (apply map_ext; intros; apply Ntx). rewrite Emm in H.
      rewrite Et, callsOf_app, sendsOf_app, (callsOf_nil _ _ W), app_nil_r, HW by done. rewrite decide_False; [rewrite app_nil_r; by apply (own_calls' _ O)|].
      intros [-> _]. apply H. apply elem_of_list_fmap. eauto.
    + intros t e r. rewrite Et, called_app, added_app, W6, W4, !app_nil_r. apply O.
    + intros j H. rewrite Eb in H. destruct (Ntx j) as [-> _]. rewrite Et, called_app, W6, app_nil_r. rewrite <- (own_prod _ O j) by done.
      destruct (decide (j = n)) as [->|]; [by rewrite Nn|]. destruct (decide (j = m)) as [->|]; [by rewrite Nm|by rewrite No].
    + rewrite Et. apply ordered_sends; [apply O|done|]. intros u v t e r E t' e' Hlt Hin Hp.
      assert ((t, (e, r)) ∈ sent W) as Hw. { rewrite E, sent_app, elem_of_app. right. change (sent (EvSend t e r :: v)) with ((t, (e, r)) :: sent v). by left. }
      unfold W in Hw. rewrite sent_sendAll in Hw. apply elem_of_list_fmap in Hw as ([e1 r1] & Ew & Hw). injection Ew as -> -> ->. apply elem_of_list_filter in Hw as [Hw _]. cbn in Hw.
      assert (t' ∈ map fst (ends (trace s'))) as Hend.
      { eapply (first_order c s' p m); [exact I'|by rewrite Hfirst', decide_True|by destruct (Ntx m) as [-> _]| |rewrite <- Hw; exact Hp]. rewrite Et, added_app, W4, app_nil_r. exact Hin. }
      rewrite Et, ends_app, W5, app_nil_r in Hend. done.
  - set (s' := set_kp _ _) in *.
    assert (nodes s' n = X) as Nn by (cbn; by rewrite upd_eq).
    assert (forall j, j <> n -> nodes s' j = nodes s j) as No by (intros; cbn; by rewrite upd_ne).
    assert (forall j, txn s' j = txn s j /\ evs s' j = evs s j) as Ntx.
    { intros j. unfold txn, evs. destruct (decide (j = n)) as [->|]; [by rewrite Nn|]. by rewrite No. }
    assert (pipe s' = pipe s) as Epp by (rewrite Ep; reflexivity).
    assert (busy s' = busy s) as Eb by (apply busy_same; [done|apply Ntx]).
    assert (forall q, first s' q = if decide (q = p) then None else first s q) as Hfirst'. { apply Hfirst; try done. - intros j Hj. by rewrite No. - by rewrite Nn. }
    constructor.
    + intros q. rewrite Hfirst'. change (owners s' q) with (upd p None (owners s) q). unfold upd. destruct (decide (q = p)) as [->|Hq]; [by left|].
      destruct (own_eq _ O q) as [?|(? & E & e & F & P & Q)]; [by left|right]. split; [done|]. split; [done|]. exists e. split; [done|]. split; [done|].
      change (onDeck s') with (onDeck s). rewrite No; [done|]. intros Hd. eapply not_head_deck; [exact I|exact K|congruence|done].
    + intros j e r H1 H2. rewrite Eb in H1. change (owners s' (e_p e)) with (upd p None (owners s) (e_p e)).
      destruct (decide (j = n)) as [->|Hj]. { rewrite Nn in H2. unfold X in H2; cbn [n_pend] in H2. rewrite Pn in H2. by apply elem_of_nil in H2. }
      rewrite No in * by done. destruct (own_pend _ O j e r H1 H2) as (A & B). split; [done|]. unfold upd. destruct (decide (e_p e = p)) as [Hp|]; [|done].
      exfalso. apply elem_busy in H1 as [_ H1]. rewrite Ep in H1. apply elem_of_cons in H1 as [H1|H1]; [done|]. eapply find_none in Em; [|apply elem_of_list_In; exact H1].
      assert (holds s p j = true); [|congruence]. apply holds_spec. eauto.
    + intros j q H. rewrite Eb in H. destruct (Ntx j) as [-> _]. change (trace s') with (trace s). rewrite (own_calls _ O j q) by done.
      destruct (decide (j = n)) as [->|Hj]; [by rewrite Nn|by rewrite No].
    + intros t q H. rewrite Eb in H. assert (map (txn s') (busy s) = map (txn s) (busy s)) as Emm by (apply map_ext; intros; apply Ntx). rewrite Emm in H. by apply (own_calls' _ O).
    + apply O.
    + intros j H. rewrite Eb in H. destruct (Ntx j) as [-> _]. change (trace s') with (trace s). rewrite <- (own_prod _ O j) by done.
      destruct (decide (j = n)) as [->|]; [by rewrite Nn|]. by rewrite No.
    + apply O.
Qed.

Lemma Own_free c s n : Str c s -> Own s -> kp s = KRel n [] ->
  Own (set_kp KIdle (set_freeq (freeq s ++ [n]) (setNode n (mkNode (n_ecs (nodes s n)) [] 0 0 (n_txn (nodes s n))) s))).
Proof.
  intros I O Ek. assert (kn s = [n]) as K by (unfold kn; by rewrite Ek). pose proof (pend_head _ _ _ I O K) as Pn. set (s' := set_kp _ _).
  assert (pipe s = n :: pipe s') as Ep by (unfold pipe; rewrite K; reflexivity).
  destruct (busy_head _ _ _ I K) as (l & El & Hl).
  pose proof (Str_nodup_pipe _ _ I) as ND. rewrite Ep in ND. apply NoDup_cons in ND as [Hn ND].
  assert (forall j, j <> n -> nodes s' j = nodes s j) as Ho by (intros j H; cbn; by rewrite upd_ne).
  assert (n_ecs (nodes s n) = []) as En.
  { rewrite (str_adds _ _ I n). - unfold cut. rewrite Ek, decide_True by done. apply filter_nil_all. intros x _ H. by apply elem_of_nil in H. - rewrite El. by left. }
  assert (forall j, n_ecs (nodes s' j) = n_ecs (nodes s j)) as Ne. { intros j. destruct (decide (j = n)) as [->|]; [cbn; by rewrite upd_eq|by rewrite Ho]. }
  assert (busy s' = l) as Eb.
  { unfold busy in El. rewrite Ep in El. rewrite filter_cons_True in El by (apply (str_kq _ _ I); rewrite K; by left). injection El as <-. unfold busy.
    apply filter_eq_in. intros j Hj. unfold evs. rewrite Ho; [done|]. intros ->. done. }
  assert (forall j, j ∈ busy s' -> j ∈ busy s /\ j <> n /\ nodes s' j = nodes s j /\ txn s' j = txn s j) as Hb.
  { intros j H. rewrite Eb in H. split; [rewrite El; by right|]. assert (j <> n) as Hj by (by intros ->). unfold txn. rewrite Ho by done. done. }
  assert (forall p, first s' p = first s p) as Hf.
  { intros p. unfold first. rewrite Ep. cbn. assert (holds s p n = false) as ->. { unfold holds. by rewrite En. } apply find_ext_in. intros m _. by apply holds_node. }
  constructor.
  - intros p. rewrite Hf. change (onDeck s') with (onDeck s). rewrite Ne. apply O.
  - intros j e r H1 H2. destruct (Hb j H1) as (H3 & H4 & E & _). rewrite E in *. by apply (own_pend _ O j e r).
  - intros j p H1. destruct (Hb j H1) as (H3 & H4 & -> & ->). by apply (own_calls _ O).
  - intros t p H. change (trace s') with (trace s). destruct (decide (t = txn s n)) as [->|Ht].
    + rewrite (own_calls _ O n p) by (rewrite El; by left). rewrite Pn, filter_nil, app_nil_r. done.
    + apply (own_calls' _ O). rewrite El. cbn. rewrite not_elem_of_cons. split; [done|]. intros Hin. apply H. rewrite Eb.
      replace (map (txn s') l) with (map (txn s) l); [done|]. apply map_ext_in. intros j Hj. apply elem_of_list_In in Hj. symmetry. apply (Hb j). by rewrite Eb.
  - apply O.
  - intros j H1. destruct (Hb j H1) as (H3 & H4 & -> & ->). by apply (own_prod _ O).
  - apply O.
Qed.

Lemma Own_swap c s m q : Str c s -> Own s -> fp s = FPop -> freeq s = m :: q -> Own (set_fp FIdle (set_onDeck m (set_freeq q s))).
Proof.
  intros I O Ef Eq. set (s' := set_fp _ _).
  assert (pipe s' = pipe s ++ [m]) as Ep. { unfold pipe, deck. rewrite Ef. cbn. rewrite app_nil_r. by rewrite app_assoc. }
  assert (evs s m = 0) as E0. { apply (str_free _ _ I). rewrite Eq. by left. }
  assert (busy s' = busy s) as Eb. { unfold busy. rewrite Ep, filter_app. rewrite (filter_cons_False _ m) by (unfold evs in *; cbn; lia). rewrite filter_nil, app_nil_r. reflexivity. }
  constructor; rewrite ?Eb; try apply O.
  intros p. left. destruct (own_eq _ O p) as [E|(_ & _ & e & F & _)]; [|congruence]. change (owners s' p) with (owners s p). rewrite E. unfold first. rewrite Ep, find_app'.
  change (holds s' p) with (holds s p). destruct (List.find _ (pipe s)); [done|]. cbn. destruct (str_idle _ _ I _ E0) as (E1 & _). unfold holds. by rewrite E1.
Qed.
