(** Commit records and ended transactions: the invariant. *)
From stdpp Require Import prelude list sorting.
From Coq Require Import ZArith.
From Verif.Eos Require Import Model Base Struct Struct2 Step1 Own Own2.
Open Scope nat_scope.

Definition mark (er : ec * orec) : option nat := match snd er with Mark w => Some w | Out _ => None end.
(** the resume offsets in the commit records of transaction t for partition p *)
Definition marksOf (t p : nat) (tr : list ev) : list nat := omap mark (callsOf t p tr).
(** the commit record for a list of events: that of the last one with an offset *)
Definition lastMark (l : list ec) : list nat := match last (omap e_off l) with Some o => [S o] | None => [] end.
Global Arguments marksOf : simpl never. Global Arguments lastMark : simpl never. Global Arguments ofPart : simpl never.

Record Fin (s : st) : Prop := {
  fin_run : forall n cur marked todo, kp s = KFin n cur marked todo ->
    (forall p, p ∈ todo -> marksOf (txn s n) p (trace s) = []) /\
    (forall e, e ∈ cur -> e_p e ∉ todo) /\
    (forall e e', e ∈ cur -> e' ∈ cur -> e_p e = e_p e') /\
    (forall p, p ∉ todo -> exists wt, ofPart p (n_ecs (nodes s n)) = rev (ofPart p cur) ++ wt /\ (forall e, e ∈ wt -> e ∈ done s) /\
       marksOf (txn s n) p (trace s) = lastMark wt /\ (p ∈ map e_p cur -> (marked = true <-> lastMark wt <> [])));
  fin_wait : forall n p, n ∈ busy s -> n ∉ kn s -> marksOf (txn s n) p (trace s) = [];
  fin_ended : forall u t v, trace s = u ++ EvEnd t true :: v ->
    (forall p, marksOf t p u = lastMark (ofPart p (adds t u))) /\ (forall e, e ∈ adds t u -> e ∈ dones u) /\
    adds t v = [] /\ of_txn t (called v) = [] /\ of_txn t (sent v) = [] /\ t ∉ map fst (ends u) /\ t ∉ map fst (ends v);
  fin_aborted : forall u t v, trace s = u ++ EvEnd t false :: v ->
    adds t v = [] /\ ((exists n, kp s = KDead n /\ ends v = []) \/ forall e, e ∈ adds t u -> e_off e = None);
}.

Lemma elem_ofPart e p l : e ∈ ofPart p l <-> e_p e = p /\ e ∈ l.
Proof. unfold ofPart. by rewrite elem_of_list_filter. Qed.
Lemma fin_cur s n cur marked todo e : Fin s -> kp s = KFin n cur marked todo -> e ∈ cur -> e ∈ n_ecs (nodes s n).
Proof.
  intros F K He. destruct (fin_run _ F _ _ _ _ K) as (_ & F2 & _ & F4). destruct (F4 (e_p e) (F2 e He)) as (wt & E & _).
  assert (e ∈ ofPart (e_p e) (n_ecs (nodes s n))) as H; [|apply elem_ofPart in H; apply H]. rewrite E, elem_of_app. left.
  apply elem_of_list_In. rewrite <- in_rev. apply elem_of_list_In, elem_ofPart. done.
Qed.
Lemma marksOf_app t p u v : marksOf t p (u ++ v) = marksOf t p u ++ marksOf t p v.
Proof. unfold marksOf. by rewrite callsOf_app, omap_app. Qed.
Lemma lastMark_nil : lastMark [] = []. Proof. done. Qed.
Lemma last_nonnil {A} (x : A) l : l <> [] -> last (x :: l) = last l.
Proof. destruct l; done. Qed.
Lemma lastMark_cons e l : lastMark (e :: l) = match lastMark l, e_off e with [], Some o => [S o] | k, _ => k end.
Proof.
  unfold lastMark. cbn. destruct (e_off e) as [o|]; [|destruct (last _); done].
  destruct (omap e_off l) as [|x k] eqn:E; [done|]. rewrite last_nonnil by done. destruct (last (x :: k)) eqn:E2; [done|]. by apply last_None in E2.
Qed.
Lemma lastMark_none l : lastMark l = [] <-> forall e, e ∈ l -> e_off e = None.
Proof.
  induction l as [|e l IH]. { split; [|done]. intros _ e He. by apply elem_of_nil in He. }
  rewrite lastMark_cons. split.
  - destruct (lastMark l) eqn:E; [|by destruct (e_off e)]. destruct (e_off e) eqn:E'; [done|]. intros _ x Hx. apply elem_of_cons in Hx as [->|Hx]; [done|]. by apply IH.
  - intros H. rewrite (proj2 IH) by (intros x Hx; apply H; by right). rewrite (H e) by (by left). done.
Qed.
Lemma over_cases s : over s = 1 <-> (exists n, kp s = KEnded n) \/ (exists n l, kp s = KRel n l) \/ (exists n, kp s = KDead n).
Proof. unfold over. destruct (kp s); split; try lia; try (intros [(? & ?)|[(? & ? & ?)|(? & ?)]]; done); eauto 10. Qed.
Lemma ended_head c s n : Str c s -> n ∈ busy s -> txn s n ∈ map fst (ends (trace s)) -> over s = 1 /\ kn s = [n].
Proof.
  intros I Hn He. destruct (str_txn _ _ I) as (k & T1 & T2 & T3). rewrite T3 in He. apply elem_of_seq in He.
  apply elem_of_list_lookup in Hn as [i Hi]. assert (map (txn s) (busy s) !! i = Some (txn s n)) as Hx by (rewrite list_lookup_fmap, Hi; done).
  rewrite T1 in Hx. apply lookup_seq in Hx as [Hx _]. assert (over s = 1 \/ over s = 0) as [Ho|Ho] by (unfold over; destruct (kp s); auto); [|lia].
  split; [done|]. assert (i = 0) as -> by lia. assert (exists m, kn s = [m]) as [m Km]. { unfold kn. unfold over in Ho. destruct (kp s); try lia; eauto. }
  destruct (busy_head _ _ _ I Km) as (l & El & _). rewrite El in Hi. injection Hi as ->. done.
Qed.

(** what a step records *)
Lemma step_trace c s a s' : Str c s -> Giv s -> Own s -> Fin s -> step c s a = Some s' -> a <> KSkip ->
  exists w, trace s' = trace s ++ w /\
    (forall t e, EvAdd t e ∈ w -> t ∉ map fst (ends (trace s))) /\
    (forall t e r, (EvCall t e r ∈ w \/ EvSend t e r ∈ w) -> exists n, n ∈ busy s /\ txn s n = t /\ e ∈ n_ecs (nodes s n) /\
       match kp s with KEnded m | KRel m _ => n <> m | KDead m => n = m -> EvCall t e r ∈ w /\ e ∉ done s | _ => True end).
Proof.
  intros I G O F H Ha.
  assert (forall s2, s2 = s' -> (exists w, trace s2 = trace s ++ w /\ called w = [] /\ sent w = [] /\ added w = []) ->
    exists w, trace s2 = trace s ++ w /\
    (forall t e, EvAdd t e ∈ w -> t ∉ map fst (ends (trace s))) /\
    (forall t e r, (EvCall t e r ∈ w \/ EvSend t e r ∈ w) -> exists n, n ∈ busy s /\ txn s n = t /\ e ∈ n_ecs (nodes s n) /\
       match kp s with KEnded m | KRel m _ => n <> m | KDead m => n = m -> EvCall t e r ∈ w /\ e ∉ done s | _ => True end)) as FR.
  { intros s2 -> (w & E & W1 & W2 & W3). exists w. split; [done|]. split.
    - intros t e Hw. apply elem_added in Hw. rewrite W3 in Hw. by apply elem_of_nil in Hw.
    - intros t e r [Hw|Hw]; [apply elem_called in Hw; rewrite W1 in Hw|apply elem_sent in Hw; rewrite W2 in Hw]; by apply elem_of_nil in Hw. }
  destruct a; cbn [step] in H.
  - case_decide; try done; injection H as <-; apply FR; try done; eexists; split; [cbn; reflexivity|done].
  - case_decide; try done; injection H as <-; apply FR; try done; eexists; split; [cbn; reflexivity|done].
  - case_decide; try done; injection H as <-; apply FR; try done. exists []. rewrite app_nil_r. done.
  - case_decide; try done; injection H as <-; apply FR; try done; eexists; split; [cbn; reflexivity|done].
  - case_decide as D; [|done]. injection H as <-. destruct D as [D1 D2]. destruct (giv_busy _ G n e D1 D2) as (B1 & B2 & B3). rewrite produceRecord_eq. exists (prod_w n e (Out r) s).
    split; [done|]. destruct (prod_w_other n e (Out r) s) as (_ & _ & _ & W4 & _). split.
    + intros t x Hw. apply elem_added in Hw. rewrite W4 in Hw. by apply elem_of_nil in Hw.
    + intros t x y Hw. assert (t = txn s n /\ x = e /\ y = Out r) as (-> & -> & ->).
      { unfold prod_w in Hw. case_decide; set_unfold in Hw; unfold txn; naive_solver. }
      exists n. split; [done|]. split; [done|]. split; [done|]. destruct (kp s); try done. intros _. split; [|done]. unfold prod_w. case_decide; set_solver.
  - case_decide; try done; injection H as <-; apply FR; try done; eexists; split; [cbn; reflexivity|done].
  - destruct (fp s) eqn:Ef; try done. destruct (buffer s) as [|e b] eqn:Eb; [done|]. injection H as <-. case_decide.
    all: apply FR; try done; eexists; (split; [cbn; reflexivity|done]).
  - assert (exists e, fp s = FChecked e /\ s' = set_fp (FAdded e) (addEc e s)) as (e & Ef & ->).
    { destruct (fp s); try done. destruct (kp s); try done; injection H as <-; eauto 10. }
    assert (exists t, trace (set_fp (FAdded e) (addEc e s)) = trace s ++ [EvAdd t e] /\ t = if n_ev (nodes s (onDeck s)) =? 0 then ntxn s else txn s (onDeck s)) as (t & Et & Ht).
    { unfold addEc. case_decide; eexists; split; cbn; reflexivity. }
    exists [EvAdd t e]. split; [done|]. split; [|intros ? ? ? [Hw|Hw]; by apply elem_of_list_singleton in Hw].
    intros t' e' Hw Hin. apply elem_of_list_singleton in Hw. injection Hw as -> ->.
    destruct (n_ev (nodes s (onDeck s)) =? 0) eqn:E0.
    + destruct (str_txn _ _ I) as (k & T1 & T2 & T3). rewrite T3 in Hin. apply elem_of_seq in Hin. 
      assert (over s <= length (busy s)); [|lia]. unfold over. destruct (kp s) eqn:Ek; try lia.
      * destruct (busy_head c s n I) as (l & El & _); [unfold kn; by rewrite Ek|rewrite El; cbn; lia].
      * destruct (busy_head c s n I) as (l & El & _); [unfold kn; by rewrite Ek|rewrite El; cbn; lia].
      * destruct (busy_head c s n I) as (l & El & _); [unfold kn; by rewrite Ek|rewrite El; cbn; lia].
    + apply Nat.eqb_neq in E0. assert (onDeck s ∈ busy s) as Hb. { apply elem_busy. split; [done|]. rewrite deck_pipe by congruence. apply elem_of_app. right. by apply elem_of_list_singleton. }
      rewrite Ht in Hin. destruct (ended_head _ _ _ I Hb Hin) as [_ K]. eapply not_head_deck; [exact I|exact K|congruence|done].
  - destruct (fp s) eqn:Ef; try done. injection H as <-. apply FR; [done|]. exists []. rewrite app_nil_r. unfold claim. destruct (owners _ _); done.
  - destruct (fp s) eqn:Ef; try done. injection H as <-. apply FR; [done|]. exists []. by rewrite app_nil_r.
  - destruct (fp s) eqn:Ef; try done. injection H as <-. apply FR; [done|]. exists []. by rewrite app_nil_r.
  - destruct (fp s) eqn:Ef; try done. injection H as <-. apply FR; [done|]. exists []. by rewrite app_nil_r.
  - destruct (fp s) eqn:Ef; try done. injection H as <-. apply FR; [done|]. exists []. rewrite app_nil_r. by repeat case_match.
  - destruct (fp s) eqn:Ef; try done. destruct (length (queue s) <? pendingTxn c); [|done]. injection H as <-. apply FR; [done|]. exists []. by rewrite app_nil_r.
  - destruct (fp s) eqn:Ef; try done. destruct (freeq s) as [|m q] eqn:Eq; [done|]. injection H as <-. apply FR; [done|]. exists []. by rewrite app_nil_r.
  - destruct (kp s) eqn:Ek; try done. destruct (queue s) as [|n q] eqn:Eq; [done|]. injection H as <-.
    exists (sendAll (n_txn (nodes s n)) (n_pend (nodes s n))). split; [done|]. assert (n ∈ busy s) as Hb.
    { apply elem_busy. split; [|unfold pipe, kn; rewrite Ek, Eq; by left]. apply (str_kq _ _ I). unfold kn. rewrite Ek, Eq. by left. }
    destruct (sendAll_other (n_txn (nodes s n)) (n_pend (nodes s n))) as (_ & _ & _ & W4 & _ & W6 & _). split.
    + intros t x Hw. apply elem_added in Hw. rewrite W4 in Hw. by apply elem_of_nil in Hw.
    + intros t x y [Hw|Hw]. { apply elem_called in Hw. rewrite W6 in Hw. by apply elem_of_nil in Hw. }
      apply elem_sent in Hw. rewrite sent_sendAll in Hw. apply elem_of_list_fmap in Hw as ([e r] & E & Hw). injection E as -> -> ->. exists n. split; [done|]. split; [done|].
      split; [|done]. by apply (own_pend _ O n e r).
  - destruct (kp s) as [|n [|] ? ?| | | ] eqn:Ek; try done. case_decide; [|done]. injection H as <-. apply FR; [done|]. exists []. by rewrite app_nil_r.
  - destruct (kp s) as [|n [|e cur] marked todo| | | ] eqn:Ek; try done. case_decide as D; [|done].
    destruct marked, (e_off e) as [o|]; injection H as <-; try (apply FR; [done|]; exists []; by rewrite app_nil_r).
    rewrite produceRecord_eq. exists (prod_w n e (Mark (S o)) s). split; [done|]. destruct (prod_w_other n e (Mark (S o)) s) as (_ & _ & _ & W4 & _). split.
    + intros t x Hw. apply elem_added in Hw. rewrite W4 in Hw. by apply elem_of_nil in Hw.
    + intros t x y Hw. assert (t = txn s n /\ x = e /\ y = Mark (S o)) as (-> & -> & ->).
      { unfold prod_w in Hw. case_decide; set_unfold in Hw; unfold txn; naive_solver. }
      exists n. split. { destruct (busy_head c s n I) as (l & -> & _); [unfold kn; by rewrite Ek|]. by left. }
      split; [done|]. split; [|done]. eapply fin_cur; [done|done|by left].
  - destruct (kp s) as [|n [|] ? [|]| | | ] eqn:Ek; try done. injection H as <-. destruct (releaseRoots_frame (n_ecs (nodes s n)) (parts (n_ecs (nodes s n))) s) as [w Hw]. rewrite Hw in *.
    apply FR; [done|]. eexists. split; [cbn; reflexivity|done].
  - destruct (kp s) eqn:Ek; try done. injection H as <-. apply FR; [done|]. exists []. by rewrite app_nil_r.
  - destruct (kp s) as [| | |n todo|] eqn:Ek; try done. case_decide as D; [|done]. injection H as <-. assert (kn s = [n]) as K by (unfold kn; by rewrite Ek).
    pose proof (head_ring _ _ _ I K) as Hr. rewrite relinquish_eq by done. cbn zeta.
    destruct (List.find (holds s p) (ring (poolSize c) n)) as [m|] eqn:Em.
    + apply find_some in Em as [Em Hh]. apply elem_of_list_In in Em. assert (pipe s ++ freeq s = n :: queue s ++ deck s ++ freeq s) as Ep by (unfold pipe; rewrite K; cbn; by rewrite <- app_assoc).
      pose proof (ring_tail _ _ _ _ I Ep) as Er. assert (m <> n) as Hmn by (by intros ->).
      assert (evs s m <> 0) as Hm0. { intros E. destruct (str_idle _ _ I _ E) as (E' & _). apply holds_spec in Hh as (e & He & _). rewrite E' in He. by apply elem_of_nil in He. }
      assert (m ∈ busy s) as Hb.
      { apply elem_busy. split; [done|]. rewrite Er in Em. unfold pipe. rewrite K. rewrite !elem_of_app in Em. rewrite !elem_of_app. destruct Em as [Em|[Em|Em]]; [by right; left|by right; right|].
        by apply (str_free _ _ I) in Em. }
      exists (sendAll (n_txn (nodes s m)) (filter (fun er => e_p (fst er) = p) (n_pend (nodes s m)))). split; [reflexivity|].
      destruct (sendAll_other (n_txn (nodes s m)) (filter (fun er => e_p (fst er) = p) (n_pend (nodes s m)))) as (_ & _ & _ & W4 & _ & W6 & _). split.
      * intros t x Hw. apply elem_added in Hw. rewrite W4 in Hw. by apply elem_of_nil in Hw.
      * intros t x y [Hw|Hw]. { apply elem_called in Hw. rewrite W6 in Hw. by apply elem_of_nil in Hw. }
        apply elem_sent in Hw. rewrite sent_sendAll in Hw. apply elem_of_list_fmap in Hw as ([e r] & E & Hw). injection E as -> -> ->. exists m. split; [done|]. split; [done|].
        apply elem_of_list_filter in Hw as [_ Hw]. split; [by apply (own_pend _ O m e r)|done].
    + eexists []. split; [cbn; by rewrite app_nil_r|]. split; [intros ? ? Hw; by apply elem_of_nil in Hw|intros ? ? ? [Hw|Hw]; by apply elem_of_nil in Hw].
  - destruct (kp s) as [| | |n [|]|] eqn:Ek; try done. injection H as <-. apply FR; [done|]. exists []. by rewrite app_nil_r.
  - destruct (kp s) as [|n cur m todo| | | ] eqn:Ek; try done. destruct (ok && _); [done|]. injection H as <-.
    apply FR; [done|]. eexists. split; [cbn; reflexivity|done].
  - done.
Qed.
