(** The owner invariant is kept by every step. *)
From stdpp Require Import prelude list sorting.
From Coq Require Import ZArith.
From Verif.Eos Require Import Model Base Struct Struct2 Step1 Own Own2 Fin.
Open Scope nat_scope.

Lemma owner_queue c s n q e : Str c s -> Own s -> kp s = KIdle -> queue s = n :: q -> e ∈ n_ecs (nodes s n) -> owners s (e_p e) = Some n.
Proof.
  intros I O Ek Eq He. assert (first s (e_p e) = Some n) as Hf.
  { unfold first, pipe, kn. rewrite Ek, Eq. cbn. assert (holds s (e_p e) n = true) as -> by (apply holds_spec; eauto). done. }
  destruct (own_eq _ O (e_p e)) as [E|(_ & E & x & F & _)]; [congruence|]. exfalso. rewrite Hf in E. injection E as E.
  pose proof (Str_nodup_pipe _ _ I) as ND. unfold pipe, kn, deck in ND. rewrite Ek, Eq, F in ND. cbn in ND. apply NoDup_cons in ND as [ND _]. apply ND. rewrite E, elem_of_app, elem_of_list_singleton. by right.
Qed.

Lemma Own_kstart c s n q : Str c s -> Own s -> kp s = KIdle -> queue s = n :: q ->
  let x := nodes s n in let ps := parts (n_ecs x) in
  Own (set_kp (KFin n [] false ps) (set_owners (fun p => if decide (p ∈ ps) then Some n else owners s p) (emits (sendAll (n_txn x) (n_pend x)) (set_queue q s)))).
Proof.
  intros I O Ek Eq x ps. assert (n_pend x = []) as E.
  { assert (n ∈ busy s) as Hb. { apply elem_busy. split; [|unfold pipe, kn; rewrite Ek, Eq; by left]. apply (str_kq _ _ I). unfold kn. rewrite Ek, Eq. by left. }
    destruct (n_pend x) as [|[e r] l] eqn:El; [done|]. exfalso. destruct (own_pend _ O n e r Hb) as (He & m & Ho & Hm).
    - change (nodes s n) with x. rewrite El. by left.
    - rewrite (owner_queue c s n q e) in Ho by done. injection Ho as <-. done. }
  rewrite E. cbn [sendAll map]. set (s' := set_kp _ _).
  assert (pipe s' = pipe s) as Ep. { unfold pipe, kn, deck; cbn. by rewrite Ek, Eq. }
  apply (Own_frame s); try done.
  - intros p. cbn. case_decide as D; [|done]. apply elem_parts in D as (e & He & <-). symmetry. eapply owner_queue; eauto.
  - intros p. by apply first_ext.
  - intros e Hf. by left.
  - by apply busy_same.
  - exists []. split; [reflexivity|]. done.
Qed.

Lemma Own_claim c s e : Str c s -> Giv s -> Own s -> fp s = FAdded e -> Own (set_fp (FOwned e) (claim (e_p e) (onDeck s) s)).
Proof.
  intros I G O Ef. pose proof (giv_fp _ G) as Gp. rewrite Ef in Gp. destruct Gp as [Gp _].
  assert (forall s', fp s' = FOwned e -> kp s' = kp s -> onDeck s' = onDeck s -> queue s' = queue s -> pipe s' = pipe s) as Hp.
  { intros s' E1 E2 E3 E4. unfold pipe, kn, deck. by rewrite E1, E2, E3, E4, Ef. }
  assert (exists m, first s (e_p e) = Some m) as [m Hm].
  { apply (first_some s _ (onDeck s)); [rewrite deck_pipe by congruence; apply elem_of_app; right; by apply elem_of_list_singleton|]. apply holds_spec. eauto. }
  unfold claim. destruct (owners s (e_p e)) as [o|] eqn:Eo.
  - apply (Own_frame s); try done.
    + intros p. apply first_ext; [by apply Hp|done].
    + intros e' E. right. rewrite Ef in E. injection E as <-. by rewrite Eo.
    + apply busy_same; [by apply Hp|done].
    + exists []. rewrite app_nil_r. done.
  - set (s' := set_fp _ _).
    assert (pipe s' = pipe s) as Ep by (by apply Hp). assert (busy s' = busy s) as Eb by (by apply busy_same).
    assert (forall p, first s' p = first s p) as Hf by (intros p; by apply first_ext).
    assert (forall p, owners s' p = if decide (p = e_p e) then Some (onDeck s) else owners s p) as Ho by done.
    constructor; rewrite ?Eb; try apply O.
    + intros p. rewrite Hf, Ho. case_decide as D; [subst p; left|left].
      * destruct (own_eq _ O (e_p e)) as [E|(_ & E & _)]; congruence.
      * destruct (own_eq _ O p) as [E|(_ & _ & e' & F & P & _)]; [done|congruence].
    + intros n e' r H1 H2. change (nodes s' n) with (nodes s n) in *. rewrite Ho. destruct (own_pend _ O n e' r H1 H2) as (A & m' & B & C). split; [done|].
      case_decide as D; [rewrite D in B; congruence|eauto].
Qed.

Lemma Own_step c s a s' : Str c s -> Str c s' -> Giv s -> Own s -> Fin s -> step c s a = Some s' -> a <> KSkip -> Own s'.
Proof.
  intros I I' G O FF H Ha.
  assert (forall s2, s2 = s' -> owners s2 = owners s -> pipe s2 = pipe s -> onDeck s2 = onDeck s -> (forall e, fp s = FAdded e -> fp s2 = FAdded e) -> nodes s2 = nodes s ->
    (exists w, trace s2 = trace s ++ w /\ called w = [] /\ sent w = [] /\ added w = []) -> Own s2) as FR.
  { intros s2 -> F1 F2 F3 F4 F5 F6. apply (Own_frame s); try done.
    - intros p. by rewrite F1.
    - intros p. apply first_ext; [done|]. by rewrite F5.
    - intros e He. left. auto.
    - intros n. unfold txn. by rewrite F5.
    - apply busy_same; [done|]. unfold evs. by rewrite F5. }
  destruct a; cbn [step] in H.
  - case_decide; try done; injection H as <-; apply FR; try done; eexists; split; [cbn; reflexivity|done].
  - case_decide; try done; injection H as <-; apply FR; try done; eexists; split; [cbn; reflexivity|done].
  - case_decide; try done; injection H as <-; apply FR; try done. exists []. rewrite app_nil_r. done.
  - case_decide; try done; injection H as <-; apply FR; try done; eexists; split; [cbn; reflexivity|done].
  - case_decide as D; [|done]. injection H as <-. destruct D as [D1 D2]. destruct (giv_busy _ G n e D1 D2) as (B1 & B2 & _). apply (Own_produce c); try done.
    apply (owner_of c s n); try done. intros e' F ->. pose proof (giv_fp _ G) as Gp. rewrite F in Gp. destruct Gp as [_ Gp]. by apply (Gp n).
  - case_decide; try done; injection H as <-; apply FR; try done; eexists; split; [cbn; reflexivity|done].
  - destruct (fp s) eqn:Ef; try done. destruct (buffer s) as [|e b] eqn:Eb; [done|]. injection H as <-. case_decide.
    all: apply FR; try done; try (unfold pipe, kn, deck; cbn; by rewrite ?Ef); eexists; (split; [cbn; reflexivity|done]).
  - assert (exists e, fp s = FChecked e /\ s' = set_fp (FAdded e) (addEc e s)) as (e & Ef & ->).
    { destruct (fp s); try done. destruct (kp s); try done; injection H as <-; eauto 10. } by apply (Own_add c).
  - destruct (fp s) eqn:Ef; try done. injection H as <-. by apply (Own_claim c).
  - destruct (fp s) eqn:Ef; try done. injection H as <-. apply FR; try done; try (unfold pipe, kn, deck; cbn; by rewrite ?Ef). exists []. rewrite app_nil_r. done.
  - destruct (fp s) eqn:Ef; try done. injection H as <-. destruct (target c <=? _); (apply FR; try done; try (unfold pipe, kn, deck; cbn; by rewrite ?Ef); exists []; rewrite app_nil_r; done).
  - destruct (fp s) eqn:Ef; try done. injection H as <-. apply FR; try done; try (unfold pipe, kn, deck; cbn; by rewrite ?Ef). exists []. rewrite app_nil_r. done.
  - destruct (fp s) eqn:Ef; try done. injection H as <-. repeat case_match; (apply FR; try done; try (unfold pipe, kn, deck; cbn; rewrite ?Ef, ?app_nil_r; done); exists []; rewrite app_nil_r; done).
  - destruct (fp s) eqn:Ef; try done. destruct (length (queue s) <? pendingTxn c); [|done]. injection H as <-. apply FR; try done; try (unfold pipe, kn, deck; cbn; rewrite ?Ef, ?app_nil_r; done). exists []. rewrite app_nil_r. done.
  - destruct (fp s) eqn:Ef; try done. destruct (freeq s) as [|m q] eqn:Eq; [done|]. injection H as <-. by apply (Own_swap c).
  - destruct (kp s) eqn:Ek; try done. destruct (queue s) as [|n q] eqn:Eq; [done|]. injection H as <-. by apply (Own_kstart c).
  - destruct (kp s) as [|n [|] ? ?| | | ] eqn:Ek; try done. case_decide; [|done]. injection H as <-. apply FR; try done; try (unfold pipe, kn, deck; cbn; by rewrite ?Ek). exists []. rewrite app_nil_r. done.
  - destruct (kp s) as [|n [|e cur] marked todo| | | ] eqn:Ek; try done. case_decide as D; [|done].
    assert (forall s2 k, Own s2 -> kp s2 = kp s -> k = KFin n cur marked todo \/ k = KFin n cur true todo -> Own (set_kp k (addWait (e_w e) (-1) s2))) as FR2.
    { intros s2 k O2 K2 Hk. assert (pipe (set_kp k (addWait (e_w e) (-1) s2)) = pipe s2) as Ep. { unfold pipe, kn, deck; cbn. rewrite K2, Ek. by destruct Hk as [-> | ->]. }
      apply (Own_frame s2); try done.
      - intros p. by apply first_ext.
      - by left.
      - by apply busy_same.
      - exists []. by rewrite app_nil_r. }
    assert (e ∈ n_ecs (nodes s n)) as He by (eapply fin_cur; [done|done|by left]).
    destruct marked, (e_off e) as [o|]; injection H as <-; try (apply FR2; auto; done).
    apply FR2; [|by rewrite produceRecord_eq|auto]. assert (kn s = [n]) as K by (unfold kn; by rewrite Ek). apply (Own_produce c); try done.
    + destruct (busy_head _ _ _ I K) as (l & -> & _). by left.
    + exists n. split; [by eapply owner_head|]. eapply first_head; [done|]. apply holds_spec. eauto.
  - destruct (kp s) as [|n [|] ? [|]| | | ] eqn:Ek; try done. injection H as <-. destruct (releaseRoots_frame (n_ecs (nodes s n)) (parts (n_ecs (nodes s n))) s) as [w Hw]. rewrite Hw in *.
    apply FR; try done; try (unfold pipe, kn, deck; cbn; by rewrite ?Ek). eexists. split; [cbn; reflexivity|done].
  - destruct (kp s) eqn:Ek; try done. injection H as <-. apply FR; try done; try (unfold pipe, kn, deck; cbn; by rewrite ?Ek). exists []. by rewrite app_nil_r.
  - destruct (kp s) eqn:Ek; try done. case_decide; [|done]. injection H as <-. by apply Own_relinq.
  - destruct (kp s) as [| | |n [|]|] eqn:Ek; try done. injection H as <-. by apply (Own_free c).
  - destruct (kp s) as [|n cur m todo| | | ] eqn:Ek; try done. destruct (ok && _); [done|]. injection H as <-.
    apply FR; try done; try (unfold pipe, kn, deck; cbn; by rewrite ?Ek). eexists. split; [cbn; reflexivity|done].
  - done.
Qed.
