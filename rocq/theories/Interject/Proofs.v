From Coq Require Import List Bool Arith Lia FinFun.
From Verif.Interject Require Import Model.
Import ListNotations.

Notation cnt := (count_occ ij_eq_dec).
Lemma rem1_cnt i l j : In i l -> cnt (rem1 i l) j = cnt l j - (if ij_eq_dec i j then 1 else 0).
Proof.
  induction l as [|x l IH]; intros H; [destruct H|]. cbn [rem1]. destruct (ij_eq_dec x i) as [->|N].
  - cbn [count_occ]. destruct (ij_eq_dec i j); lia.
  - destruct H as [?|H]; [congruence|]. cbn [count_occ]. rewrite (IH H).
    destruct (ij_eq_dec x j) as [->|]; auto. destruct (ij_eq_dec i j); [congruence|lia].
Qed.
Lemma mem_In i l : mem i l = true <-> In i l.
Proof. unfold mem. destruct (in_dec ij_eq_dec i l); split; auto; discriminate. Qed.
Lemma mem_cnt i l : mem i l = true -> 0 < cnt l i.
Proof. rewrite mem_In. apply count_occ_In. Qed.
Lemma cnt1 i j : cnt [i] j = if ij_eq_dec i j then 1 else 0.
Proof. cbn. destruct (ij_eq_dec i j); auto. Qed.
Lemma cnt_cons i l j : cnt (i :: l) j = (if ij_eq_dec i j then 1 else 0) + cnt l j.
Proof. cbn. destruct (ij_eq_dec i j); lia. Qed.
Lemma cnt_filter f l j : cnt (filter f l) j = if f j then cnt l j else 0.
Proof.
  induction l as [|x l IH]; cbn [filter]; [destruct (f j); auto|]. destruct (f x) eqn:F; rewrite !cnt_cons, ?IH.
  - destruct (ij_eq_dec x j) as [->|]; [rewrite F; auto|destruct (f j); auto].
  - destruct (ij_eq_dec x j) as [->|]; [rewrite F; auto|destruct (f j); auto].
Qed.

(** how often an interjection is somewhere between its timer and its completion *)
Definition places (s : st) (i : ij) : nat := cnt (timers s) i + cnt (senders s) i + cnt (chan s) i + cnt (evq s) i + cnt (pending s) i.
Definition queued (s : st) (i : ij) : nat := cnt (timers s) i + cnt (senders s) i + cnt (chan s) i + cnt (evq s) i.

Record inv (s : st) : Prop := {
  inv_once : forall i, places s i <= 1;
  inv_fresh : forall k, fresh s <= k -> places s (Once k) = 0 /\ cnt (resolved s) (Once k) = 0;
  inv_res : forall k, cnt (resolved s) (Once k) + queued s (Once k) <= 1;
  inv_t : forall k, cnt (timers s) (Once k) + cnt (senders s) (Once k) = 0;
  inv_cap : length (chan s) <= 1 /\ length (evq s) <= 1;
  inv_push : pushing s = false -> revoked s = true;
  inv_asg : assigned s = negb (revoked s);
  inv_sig : revoked s = false -> signals s = [] }.

Lemma start_inv n : inv (start n).
Proof.
  assert (C : forall i, cnt (map Sched (seq 0 n)) i <= 1).
  { intros i. apply NoDup_count_occ. apply FinFun.Injective_map_NoDup; [congruence|apply seq_NoDup]. }
  assert (C0 : forall k, cnt (map Sched (seq 0 n)) (Once k) = 0).
  { intros k. apply count_occ_not_In. rewrite in_map_iff. intros (x & ? & _). discriminate. }
  split; unfold places, queued; cbn [start timers senders chan evq pending resolved fresh length pushing revoked assigned signals]; cbn [count_occ].
  - intros i. specialize (C i). lia.
  - intros k _. rewrite C0. auto.
  - intros k. rewrite C0. lia.
  - intros k. rewrite C0. auto.
  - cbn. lia.
  - discriminate.
  - reflexivity.
  - reflexivity.
Qed.

Ltac counts := repeat (rewrite ?count_occ_app, ?cnt_cons, ?cnt1 in *; cbn [count_occ] in * );
  repeat match goal with |- context [cnt (rem1 ?i ?l) ?j] => rewrite (rem1_cnt i l j) by (apply mem_In; assumption) end;
  repeat match goal with H : context [cnt (rem1 ?i ?l) ?j] |- _ => rewrite (rem1_cnt i l j) in H by (apply mem_In; assumption) end;
  repeat match goal with H : mem ?i ?l = true |- _ => pose proof (mem_cnt i l H); clear H end.

Lemma step_inv s a s' : inv s -> step s a = Some s' -> inv s'.
Proof.
  intros [I1 I2 I3 I4 (I5 & I6) I7 I8 I9] E. destruct s as [ti se ch ev pe si ru re fr sc asg rv pu sp].
  unfold places, queued in *. cbn [timers senders chan evq pending resolved fresh pushing revoked assigned signals] in *.
  destruct a as [|i|i|i| | | |g sy|i|]; cbn [step] in E.
  - destruct asg.
    + destruct (Nat.ltb_spec (length ch) 1) as [L|]; [|discriminate]. injection E as <-.
      split; unfold places, queued; cbn [timers senders chan evq pending resolved fresh pushing revoked assigned signals].
      * intros j. specialize (I1 j). counts. destruct (ij_eq_dec (Once fr) j) as [<-|]; [|lia]. destruct (I2 fr (le_n _)). lia.
      * intros k K. destruct (I2 k ltac:(lia)). counts. destruct (ij_eq_dec (Once fr) (Once k)) as [[= ->]|]; lia.
      * intros k. specialize (I3 k). counts. destruct (ij_eq_dec (Once fr) (Once k)) as [[= ->]|]; [|lia]. destruct (I2 k (le_n _)). lia.
      * exact I4.
      * rewrite app_length. cbn. lia.
      * exact I7.
      * exact I8.
      * exact I9.
    + injection E as <-. split; unfold places, queued; cbn [timers senders chan evq pending resolved fresh pushing revoked assigned signals].
      * exact I1.
      * intros k K. destruct (I2 k ltac:(lia)). counts. destruct (ij_eq_dec (Once fr) (Once k)) as [[= ->]|]; lia.
      * intros k. specialize (I3 k). counts. destruct (ij_eq_dec (Once fr) (Once k)) as [[= ->]|]; [|lia]. destruct (I2 k (le_n _)). lia.
      * exact I4.
      * auto.
      * exact I7.
      * exact I8.
      * exact I9.
  - destruct (mem i ti) eqn:M; [|discriminate]. injection E as <-.
    assert (No : isOneOff i = false).
    { destruct i as [n|n]; auto. specialize (I4 n). apply mem_cnt in M. lia. }
    split; unfold places, queued; cbn [timers senders chan evq pending resolved fresh pushing revoked assigned signals]; auto.
    + intros j. specialize (I1 j). counts. destruct (ij_eq_dec i j) as [<-|]; lia.
    + intros k K. destruct (I2 k K). counts. destruct (ij_eq_dec i (Once k)) as [->|]; [discriminate|lia].
    + intros k. specialize (I3 k). counts. destruct (ij_eq_dec i (Once k)) as [->|]; [discriminate|lia].
    + intros k. specialize (I4 k). counts. destruct (ij_eq_dec i (Once k)) as [->|]; [discriminate|lia].
  - apply andb_false_iff in E || idtac. destruct (mem i se) eqn:M; cbn [andb] in E; [|discriminate].
    destruct (Nat.ltb_spec (length ch) 1) as [L|]; [|discriminate]. injection E as <-.
    assert (No : isOneOff i = false).
    { destruct i as [n|n]; auto. specialize (I4 n). apply mem_cnt in M. lia. }
    split; unfold places, queued; cbn [timers senders chan evq pending resolved fresh pushing revoked assigned signals]; auto.
    + intros j. specialize (I1 j). counts. destruct (ij_eq_dec i j) as [<-|]; lia.
    + intros k K. destruct (I2 k K). counts. destruct (ij_eq_dec i (Once k)) as [->|]; [discriminate|lia].
    + intros k. specialize (I3 k). counts. destruct (ij_eq_dec i (Once k)) as [->|]; [discriminate|lia].
    + intros k. specialize (I4 k). counts. destruct (ij_eq_dec i (Once k)) as [->|]; [discriminate|lia].
    + rewrite app_length. cbn. lia.
  - destruct (mem i se) eqn:M; cbn [andb] in E; [|discriminate]. destruct (mem i si) eqn:M2; [|discriminate]. injection E as <-.
    split; unfold places, queued; cbn [timers senders chan evq pending resolved fresh pushing revoked assigned signals]; auto.
    + intros j. specialize (I1 j). counts. lia.
    + intros k K. destruct (I2 k K). counts. lia.
    + intros k. specialize (I3 k). counts. lia.
    + intros k. specialize (I4 k). counts. lia.
    + intros Q. rewrite (I9 Q) in M2. discriminate.
  - destruct ch as [|i ch]; [discriminate|]. destruct pu; [|discriminate]. cbn in I5. destruct rv.
    + injection E as <-. split; unfold places, queued; cbn [timers senders chan evq pending resolved fresh pushing revoked assigned signals]; auto.
      * intros j. specialize (I1 j). counts. lia.
      * intros k K. destruct (I2 k K). counts. lia.
      * intros k. specialize (I3 k). counts. lia.
      * cbn. lia.
    + destruct (Nat.ltb_spec (length ev) 1) as [L|]; [|discriminate]. injection E as <-.
      split; unfold places, queued; cbn [timers senders chan evq pending resolved fresh pushing revoked assigned signals]; auto.
      * intros j. specialize (I1 j). counts. lia.
      * intros k K. destruct (I2 k K). counts. lia.
      * intros k. specialize (I3 k). counts. lia.
      * rewrite app_length. cbn. lia.
  - destruct pu, rv; try discriminate. injection E as <-. split; cbn; auto.
  - destruct pu, sp; try discriminate. cbn [negb andb] in E. injection E as <-.
    split; unfold places, queued; cbn [timers senders chan evq pending resolved fresh pushing revoked assigned signals]; auto.
    + intros j. specialize (I1 j). rewrite cnt_filter. destruct (isOneOff j); lia.
    + intros k K. destruct (I2 k K). rewrite cnt_filter. cbn. lia.
    + intros k. specialize (I3 k). rewrite cnt_filter. cbn. lia.
    + intros k. specialize (I4 k). rewrite cnt_filter. cbn. lia.
    + intros Q. rewrite (I7 eq_refl) in Q. discriminate.
  - destruct ev as [|i ev]; [discriminate|]. cbn in I6. destruct g.
    + set (re' := if isOneOff i then re ++ [i] else re) in *.
      assert (R : forall k, cnt re' (Once k) = cnt re (Once k) + if ij_eq_dec i (Once k) then 1 else 0).
      { intros k. unfold re'. destruct i as [n|n]; cbn [isOneOff]; counts; [destruct (ij_eq_dec (Sched n) (Once k)); [discriminate|lia]|auto]. }
      assert (T : forall j, cnt (tick i ti) j = cnt ti j + if ij_eq_dec i j then (if isOneOff i then 0 else 1) else 0).
      { intros j. unfold tick. destruct (isOneOff i); counts; destruct (ij_eq_dec i j); lia. }
      destruct sy; injection E as <-; split; unfold places, queued; cbn [timers senders chan evq pending resolved fresh pushing revoked assigned signals]; auto; try lia.
      * intros j. specialize (I1 j). rewrite T. counts. destruct (ij_eq_dec i j), (isOneOff i); lia.
      * intros k K. destruct (I2 k K). rewrite T, R. counts. destruct (ij_eq_dec i (Once k)), (isOneOff i); lia.
      * intros k. specialize (I3 k). rewrite T, R. counts. destruct (ij_eq_dec i (Once k)) as [->|]; cbn [isOneOff] in *; lia.
      * intros k. specialize (I4 k). rewrite T. destruct (ij_eq_dec i (Once k)) as [->|]; cbn [isOneOff] in *; lia.
      * intros j. specialize (I1 j). counts. destruct (ij_eq_dec i j), (isOneOff i); lia.
      * intros k K. destruct (I2 k K). rewrite R. counts. destruct (ij_eq_dec i (Once k)), (isOneOff i); lia.
      * intros k. specialize (I3 k). rewrite R. counts. destruct (ij_eq_dec i (Once k)) as [->|]; cbn [isOneOff] in *; lia.
    + destruct rv; [|discriminate]. injection E as <-. split; unfold places, queued; cbn [timers senders chan evq pending resolved fresh pushing revoked assigned signals]; auto; try lia.
      * intros j. specialize (I1 j). counts. lia.
      * intros k K. destruct (I2 k K). counts. lia.
      * intros k. specialize (I3 k). counts. lia.
  - destruct (mem i pe) eqn:M; [|discriminate]. injection E as <-.
    split; unfold places, queued; cbn [timers senders chan evq pending resolved fresh pushing revoked assigned signals]; auto.
    + intros j. specialize (I1 j). counts. lia.
    + intros k K. destruct (I2 k K). counts. lia.
  - injection E as <-. split; cbn; auto. discriminate.
Qed.
Lemma run_inv acts : forall s s', inv s -> run s acts = Some s' -> inv s'.
Proof.
  induction acts as [|a acts IH]; intros s s' I E; cbn in E; [congruence|].
  destruct (step s a) as [s1|] eqn:E1; [|discriminate]. eauto using step_inv.
Qed.

(** never twice at once *)
Lemma no_overlap n acts s sync s' i : run (start n) acts = Some s -> step s (AHandle true sync) = Some s' -> runs s' = runs s ++ [i] ->
  ~ In i (pending s).
Proof.
  intros R E H. pose proof (run_inv _ _ _ (start_inv n) R) as I. pose proof (inv_once _ I i) as P. unfold places in P.
  destruct s as [ti se ch ev pe si ru re fr sc asg rv pu sp]. cbn in *. destruct ev as [|x ev]; [discriminate|].
  destruct sync; injection E as <-; cbn in H; apply app_inv_head in H; injection H as ->; rewrite (count_occ_In ij_eq_dec); cbn in P;
    destruct (ij_eq_dec i i); lia || congruence.
Qed.

(** an asynchronous run is the last one *)
Lemma step_dead s a s' i : isOneOff i = false -> queued s i = 0 -> step s a = Some s' -> queued s' i = 0 /\ cnt (runs s') i = cnt (runs s) i.
Proof.
  intros No Q E. destruct s as [ti se ch ev pe si ru re fr sc asg rv pu sp]. unfold queued in *. cbn [timers senders chan evq] in Q.
  destruct a as [|x|x|x| | | |g sy|x|]; cbn [step] in E.
  - destruct asg.
    + destruct (length ch <? 1); [|discriminate]. injection E as <-. cbn [timers senders chan evq runs]. counts.
      destruct (ij_eq_dec (Once fr) i) as [<-|]; [discriminate|]. split; lia.
    + injection E as <-. cbn [timers senders chan evq runs]. split; lia.
  - destruct (mem x ti) eqn:M; [|discriminate]. injection E as <-. cbn [timers senders chan evq runs]. counts. destruct (ij_eq_dec x i) as [->|]; split; lia.
  - destruct (mem x se) eqn:M; cbn [andb] in E; [|discriminate]. destruct (length ch <? 1); [|discriminate]. injection E as <-.
    cbn [timers senders chan evq runs]. counts. destruct (ij_eq_dec x i) as [->|]; split; lia.
  - destruct (mem x se) eqn:M; cbn [andb] in E; [|discriminate]. destruct (mem x si); [|discriminate]. injection E as <-.
    cbn [timers senders chan evq runs]. counts. split; lia.
  - destruct ch as [|y ch]; [discriminate|]. destruct pu; [|discriminate]. destruct rv; [|destruct (length ev <? 1); [|discriminate]];
      injection E as <-; cbn [timers senders chan evq runs]; counts; split; lia.
  - destruct pu, rv; try discriminate. injection E as <-. auto.
  - destruct pu, sp; try discriminate. injection E as <-. cbn [timers senders chan evq runs]. rewrite cnt_filter, No. split; lia.
  - destruct ev as [|y ev]; [discriminate|]. rewrite cnt_cons in Q. destruct (ij_eq_dec y i) as [->|N]; [lia|]. destruct g.
    + destruct sy; injection E as <-; cbn [timers senders chan evq runs].
      * unfold tick. destruct (isOneOff y); counts; destruct (ij_eq_dec y i); try congruence; split; lia.
      * counts. destruct (ij_eq_dec y i); try congruence; split; lia.
    + destruct rv; [|discriminate]. injection E as <-. cbn [timers senders chan evq runs]. split; lia.
  - destruct (mem x pe); [|discriminate]. injection E as <-. cbn [timers senders chan evq runs]. auto.
  - injection E as <-. auto.
Qed.
Lemma run_dead acts : forall s s' i, isOneOff i = false -> queued s i = 0 -> run s acts = Some s' -> cnt (runs s') i = cnt (runs s) i.
Proof.
  induction acts as [|a acts IH]; intros s s' i No Q E; cbn in E; [congruence|].
  destruct (step s a) as [s1|] eqn:E1; [|discriminate]. destruct (step_dead _ _ _ _ No Q E1) as (Q1 & <-). eauto.
Qed.
Lemma async_last n acts s i acts' s' : run (start n) acts = Some s -> In i (pending s) -> isOneOff i = false ->
  run s acts' = Some s' -> cnt (runs s') i = cnt (runs s) i.
Proof.
  intros R P No. apply run_dead; auto. pose proof (run_inv _ _ _ (start_inv n) R) as I. pose proof (inv_once _ I i) as O.
  apply (count_occ_In ij_eq_dec) in P. unfold places, queued in *. lia.
Qed.

(** synchronous runs go on *)
Definition syncAct (a : action) : Prop := match a with AHandle _ false | ARevoke => False | _ => True end.
Lemma step_sync s a s' : inv s -> revoked s = false -> syncAct a -> step s a = Some s' ->
  revoked s' = false /\ scheduled s' = scheduled s /\
  (forall k, k < scheduled s -> queued s (Sched k) = 1 -> queued s' (Sched k) = 1) /\
  (forall k, cnt (resolved s) (Once k) + queued s (Once k) = 1 -> cnt (resolved s') (Once k) + queued s' (Once k) = 1) /\
  (forall k, k < fresh s' -> k < fresh s \/ cnt (resolved s') (Once k) + queued s' (Once k) = 1).
Proof.
  intros I Rv Sy E. pose proof (inv_push _ I) as Pu. pose proof (inv_asg _ I) as As. pose proof (inv_fresh _ I) as Fr. pose proof (inv_sig _ I Rv) as Sg. rewrite Rv in As, Pu.
  assert (Pu' : pushing s = true) by (destruct (pushing s); auto; specialize (Pu eq_refl); discriminate). clear Pu.
  destruct s as [ti se ch ev pe si ru re fr sc asg rv pu sp].
  cbn [revoked pushing assigned fresh signals] in *. subst rv pu asg si. unfold queued, places in *. cbn [timers senders chan evq pending resolved scheduled] in *.
  destruct a as [|x|x|x| | | |g sy|x|]; cbn [step negb] in E; try contradiction.
  - destruct (length ch <? 1); [|discriminate]. injection E as <-. cbn [revoked timers senders chan evq scheduled fresh resolved].
    split; [auto|]. split; [auto|]. split; [|split].
    + intros k K Q. counts. destruct (ij_eq_dec (Once fr) (Sched k)); [discriminate|lia].
    + intros k Q. counts. destruct (ij_eq_dec (Once fr) (Once k)) as [[= ->]|]; [|lia]. destruct (Fr k (le_n _)). lia.
    + intros k K. destruct (Nat.eq_dec k fr) as [->|]; [|left; lia]. right. destruct (Fr fr (le_n _)). counts.
      destruct (ij_eq_dec (Once fr) (Once fr)); [lia|congruence].
  - destruct (mem x ti) eqn:M; [|discriminate]. injection E as <-. cbn [revoked timers senders chan evq scheduled fresh resolved].
    split; [auto|]. split; [auto|]. split; [|split]; [| |auto].
    + intros k K Q. counts. destruct (ij_eq_dec x (Sched k)) as [->|]; lia.
    + intros k Q. counts. destruct (ij_eq_dec x (Once k)) as [->|]; lia.
  - destruct (mem x se) eqn:M; cbn [andb] in E; [|discriminate]. destruct (length ch <? 1); [|discriminate]. injection E as <-.
    cbn [revoked timers senders chan evq scheduled fresh resolved].
    split; [auto|]. split; [auto|]. split; [|split]; [| |auto].
    + intros k K Q. counts. destruct (ij_eq_dec x (Sched k)) as [->|]; lia.
    + intros k Q. counts. destruct (ij_eq_dec x (Once k)) as [->|]; lia.
  - destruct (mem x se); cbn in E; discriminate.
  - destruct ch as [|y ch]; [discriminate|]. destruct (length ev <? 1); [|discriminate]. injection E as <-.
    cbn [revoked timers senders chan evq scheduled fresh resolved].
    split; [auto|]. split; [auto|]. split; [|split]; [| |auto].
    + intros k K Q. counts. lia.
    + intros k Q. counts. lia.
  - discriminate.
  - discriminate.
  - destruct ev as [|y ev]; [discriminate|]. destruct g; [|discriminate]. destruct sy; [|contradiction]. injection E as <-.
    cbn [revoked timers senders chan evq scheduled fresh resolved].
    split; [auto|]. split; [auto|]. split; [|split]; [| |auto].
    + intros k K Q. unfold tick. destruct (isOneOff y) eqn:O; counts; destruct (ij_eq_dec y (Sched k)) as [->|]; try discriminate; lia.
    + intros k Q. unfold tick. destruct (isOneOff y) eqn:O; counts; destruct (ij_eq_dec y (Once k)) as [->|]; try discriminate; lia.
  - destruct (mem x pe); [|discriminate]. injection E as <-. cbn [revoked timers senders chan evq scheduled fresh resolved]. repeat split; auto.
Qed.

Lemma run_sync acts : forall s s', inv s -> revoked s = false -> Forall syncAct acts -> run s acts = Some s' ->
  (forall k, k < scheduled s -> queued s (Sched k) = 1) ->
  (forall k, k < fresh s -> cnt (resolved s) (Once k) + queued s (Once k) = 1) ->
  revoked s' = false /\ scheduled s' = scheduled s /\
  (forall k, k < scheduled s -> queued s' (Sched k) = 1) /\
  (forall k, k < fresh s' -> cnt (resolved s') (Once k) + queued s' (Once k) = 1).
Proof.
  induction acts as [|a acts IH]; intros s s' I Rv F E Q1 Q2; cbn in E.
  - injection E as <-. auto.
  - destruct (step s a) as [s1|] eqn:E1; [|discriminate]. inversion F as [|? ? Fa Fs]; subst.
    destruct (step_sync _ _ _ I Rv Fa E1) as (A & B & C & D & G). rewrite <- B. apply IH; auto.
    + eapply step_inv; eauto.
    + intros k K. rewrite B in K. auto.
    + intros k K. destruct (G k K); auto.
Qed.

Lemma run_cons s a s1 acts s' : step s a = Some s1 -> run s1 acts = Some s' -> run s (a :: acts) = Some s'.
Proof. intros E R. cbn [run]. rewrite E. exact R. Qed.

(** draining the two channels lets any queued interjection run *)
Lemma can_run s i : inv s -> revoked s = false -> 0 < queued s i ->
  exists acts s', run s acts = Some s' /\ cnt (runs s) i < cnt (runs s') i /\ Forall syncAct acts /\ ~ In AInterject acts.
Proof.
  intros I Rv Q.
  assert (Pu : pushing s = true) by (pose proof (inv_push _ I); destruct (pushing s); auto; rewrite Rv in *; specialize (H eq_refl); discriminate).
  pose proof (inv_cap _ I) as (C1 & C2). pose proof (inv_t _ I) as T. clear I.
  assert (Last : forall ru, cnt ru i < cnt (ru ++ [i]) i) by (intros ru; counts; destruct (ij_eq_dec i i); [lia|congruence]).
  assert (Mono : forall ru x, cnt ru i <= cnt (ru ++ [x]) i) by (intros ru x; counts; lia).
  destruct s as [ti se ch ev pe si ru re fr sc asg rv pu sp]. unfold queued in Q.
  cbn [revoked pushing timers senders chan evq] in *. subst rv pu.
  (* four stages: waiting timer, sender, channel, event queue *)
  assert (Fin : forall ti se ch pe re ru0, exists s', run (mkSt ti se ch [i] pe si ru0 re fr sc asg false true sp) [AHandle true true] = Some s' /\ runs s' = ru0 ++ [i])
    by (intros; eexists; split; [reflexivity|reflexivity]).
  assert (Ch : forall ti se ev pe re ru0, length ev <= 1 -> cnt ev i = 0 -> exists acts s',
            run (mkSt ti se [i] ev pe si ru0 re fr sc asg false true sp) acts = Some s' /\ cnt ru0 i < cnt (runs s') i /\ Forall syncAct acts /\ ~ In AInterject acts).
  { intros ti0 se0 ev0 pe0 re0 ru0 L N. destruct ev0 as [|y [|? ?]]; [| |cbn in L; lia].
    - exists [APush; AHandle true true]. eexists. split; [reflexivity|]. cbn [runs]. split; [auto|]. split; [repeat constructor|cbn; intuition discriminate].
    - exists [AHandle true true; APush; AHandle true true]. eexists. split; [reflexivity|]. cbn [runs]. split; [eapply Nat.le_lt_trans; [apply Mono|apply Last]|].
      split; [repeat constructor|cbn; intuition discriminate]. }
  destruct (Nat.eq_dec (cnt ev i) 0) as [E0|N0].
  2: { destruct ev as [|y [|? ?]]; cbn in N0, C2; [lia| |lia]. destruct (ij_eq_dec y i) as [->|]; [|lia].
       exists [AHandle true true]. eexists. split; [reflexivity|]. cbn [runs]. split; [auto|]. split; [repeat constructor|cbn; intuition discriminate]. }
  destruct (Nat.eq_dec (cnt ch i) 0) as [E1|N1].
  2: { destruct ch as [|y [|? ?]]; cbn in N1, C1; [lia| |lia]. destruct (ij_eq_dec y i) as [->|]; [|lia]. apply Ch; auto. }
  assert (Sd : forall ti se ch ev pe re ru0, length ch <= 1 -> length ev <= 1 -> cnt ch i = 0 -> cnt ev i = 0 -> 0 < cnt se i -> exists acts s',
            run (mkSt ti se ch ev pe si ru0 re fr sc asg false true sp) acts = Some s' /\ cnt ru0 i < cnt (runs s') i /\ Forall syncAct acts /\ ~ In AInterject acts).
  { intros ti0 se0 ch0 ev0 pe0 re0 ru0 L1 L2 A1 A2 S0.
    assert (M : mem i se0 = true) by (apply mem_In; apply (count_occ_In ij_eq_dec); lia).
    destruct ch0 as [|y [|? ?]]; [| |cbn in L1; lia].
    - destruct (Ch ti0 (rem1 i se0) ev0 pe0 re0 ru0 L2 A2) as (acts & s' & R & X & Y & Z).
      exists (ASend i :: acts), s'. cbn [run step]. rewrite M. cbn [andb length Nat.ltb Nat.leb app]. split; [exact R|]. split; auto.
      split; [constructor; [exact I|auto]|]. cbn. intuition discriminate.
    - destruct ev0 as [|z [|? ?]]; [| |cbn in L2; lia].
      + destruct (Ch ti0 (rem1 i se0) [y] pe0 re0 ru0) as (acts & s' & R & X & Y & Z); [cbn; lia|exact A1|].
        exists (APush :: ASend i :: acts), s'. split; [eapply run_cons; [reflexivity|]; eapply run_cons; [cbn; rewrite M; reflexivity|]; exact R|]. split; auto.
        split; [constructor; [exact I|constructor; [exact I|auto]]|]. cbn. intuition discriminate.
      + destruct (Ch (tick z ti0) (rem1 i se0) [y] pe0 (if isOneOff z then re0 ++ [z] else re0) (ru0 ++ [z])) as (acts & s' & R & X & Y & Z); [cbn; lia|exact A1|].
        exists (AHandle true true :: APush :: ASend i :: acts), s'.
        split; [eapply run_cons; [reflexivity|]; eapply run_cons; [reflexivity|]; eapply run_cons; [cbn; rewrite M; reflexivity|]; exact R|]. split; [eapply Nat.le_lt_trans; [apply Mono|exact X]|]. split; [repeat (constructor; [exact I|]); auto|]. cbn. intuition discriminate. }
  destruct (Nat.eq_dec (cnt se i) 0) as [E2|N2]; [|apply Sd; auto; lia].
  assert (M : mem i ti = true) by (apply mem_In; apply (count_occ_In ij_eq_dec); lia).
  destruct (Sd (rem1 i ti) (se ++ [i]) ch ev pe re ru) as (acts & s' & R & X & Y & Z); auto.
  { counts. destruct (ij_eq_dec i i); [lia|congruence]. }
  exists (AFire i :: acts), s'. cbn [run step]. rewrite M. split; [exact R|]. split; auto. split; [constructor; [exact I|auto]|]. cbn. intuition discriminate.
Qed.

Lemma start_q n : (forall k, k < scheduled (start n) -> queued (start n) (Sched k) = 1) /\
  (forall k, k < fresh (start n) -> cnt (resolved (start n)) (Once k) + queued (start n) (Once k) = 1).
Proof.
  split; [|cbn; lia]. intros k K. cbn in K. unfold queued. cbn [start timers senders chan evq count_occ].
  assert (cnt (map Sched (seq 0 n)) (Sched k) = 1); [|lia].
  assert (0 < cnt (map Sched (seq 0 n)) (Sched k)) by (apply count_occ_In, in_map, in_seq; lia).
  pose proof (inv_once _ (start_inv n) (Sched k)) as O. unfold places in O. cbn [start timers senders chan evq pending count_occ] in O. lia.
Qed.
Lemma sync_again n acts s k : Forall syncAct acts -> run (start n) acts = Some s -> k < n ->
  ~ In (Sched k) (pending s) /\ exists acts' s', run s acts' = Some s' /\ cnt (runs s) (Sched k) < cnt (runs s') (Sched k) /\ Forall syncAct acts'.
Proof.
  intros F R K. pose proof (run_inv _ _ _ (start_inv n) R) as I. destruct (start_q n) as (A & B).
  destruct (run_sync _ _ _ (start_inv n) eq_refl F R A B) as (Rv & Sc & Q & _). specialize (Q k K).
  split.
  - intros P. apply (count_occ_In ij_eq_dec) in P. pose proof (inv_once _ I (Sched k)). unfold places, queued in *. lia.
  - destruct (can_run s (Sched k) I Rv ltac:(lia)) as (acts' & s' & R' & X & Y & _). exists acts', s'. auto.
Qed.

(** one-off interjections *)
Definition keepAct (a : action) : Prop := a <> ARevoke.
Lemma step_keep s a s' : inv s -> revoked s = false -> a <> ARevoke -> step s a = Some s' ->
  revoked s' = false /\
  (forall k, cnt (resolved s) (Once k) + queued s (Once k) = 1 -> cnt (resolved s') (Once k) + queued s' (Once k) = 1) /\
  (forall k, k < fresh s' -> k < fresh s \/ cnt (resolved s') (Once k) + queued s' (Once k) = 1).
Proof.
  intros I Rv N E. destruct a as [|x|x|x| | | |g [|]|x|];
    try (pose proof (fun H => step_sync s _ s' I Rv H E) as SS; destruct (SS Logic.I) as (A & _ & _ & B & C); exact (conj A (conj B C))); [|congruence].
  destruct s as [ti se ch ev pe si ru re fr sc asg rv pu sp]. cbn [revoked] in Rv. subst rv. unfold queued. cbn [step] in E.
  destruct ev as [|y ev]; [discriminate|]. destruct g; [|discriminate]. injection E as <-.
  cbn [revoked timers senders chan evq scheduled fresh resolved]. split; [auto|]. split; [|auto].
  intros k Q. destruct (isOneOff y) eqn:O; counts; destruct (ij_eq_dec y (Once k)) as [->|]; try discriminate; lia.
Qed.
Lemma run_keep acts : forall s s', inv s -> revoked s = false -> ~ In ARevoke acts -> run s acts = Some s' ->
  (forall k, k < fresh s -> cnt (resolved s) (Once k) + queued s (Once k) = 1) ->
  revoked s' = false /\ (forall k, k < fresh s' -> cnt (resolved s') (Once k) + queued s' (Once k) = 1).
Proof.
  induction acts as [|a acts IH]; intros s s' I Rv F E Q; cbn in E.
  - injection E as <-. auto.
  - destruct (step s a) as [s1|] eqn:E1; [|discriminate]. cbn in F.
    destruct (step_keep _ _ _ I Rv (fun H => F (or_introl H)) E1) as (A & B & C). apply (IH s1); auto.
    + eapply step_inv; eauto.
    + intros k K. destruct (C k K); auto.
Qed.
Lemma at_most_once n acts s k : run (start n) acts = Some s -> cnt (resolved s) (Once k) <= 1.
Proof. intros R. pose proof (inv_res _ (run_inv _ _ _ (start_inv n) R) k). lia. Qed.
Lemma oneoff_ok n acts s k : ~ In ARevoke acts -> run (start n) acts = Some s -> k < fresh s ->
  cnt (resolved s) (Once k) = 1 \/
  (cnt (resolved s) (Once k) = 0 /\ exists acts' s', run s acts' = Some s' /\ cnt (resolved s') (Once k) = 1).
Proof.
  intros F R K. pose proof (run_inv _ _ _ (start_inv n) R) as I. destruct (start_q n) as (_ & B).
  destruct (run_keep _ _ _ (start_inv n) eq_refl F R B) as (Rv & Q). pose proof (Q k K) as Qk.
  destruct (Nat.eq_dec (cnt (resolved s) (Once k)) 0) as [Z|]; [|left; lia]. right. split; auto.
  destruct (can_run s (Once k) I Rv ltac:(lia)) as (acts' & s' & R' & X & Y & _). exists acts', s'. split; auto.
  assert (RI : forall acts s s', inv s -> run s acts = Some s' -> cnt (runs s') (Once k) - cnt (runs s) (Once k) <= cnt (resolved s') (Once k) - cnt (resolved s) (Once k) /\
                 cnt (runs s) (Once k) <= cnt (runs s') (Once k) /\ cnt (resolved s) (Once k) <= cnt (resolved s') (Once k)).
  { clear. induction acts as [|a acts IH]; intros s s' I E; cbn in E; [injection E as <-; lia|].
    destruct (step s a) as [s1|] eqn:E1; [|discriminate]. destruct (IH s1 s') as (A & B & C); auto; [eapply step_inv; eauto|].
    enough (cnt (runs s1) (Once k) - cnt (runs s) (Once k) <= cnt (resolved s1) (Once k) - cnt (resolved s) (Once k) /\
            cnt (runs s) (Once k) <= cnt (runs s1) (Once k) /\ cnt (resolved s) (Once k) <= cnt (resolved s1) (Once k)) by lia.
    clear - E1. destruct s as [ti se ch ev pe si ru re fr sc asg rv pu sp].
    destruct a as [|x|x|x| | | |g sy|x|]; cbn [step] in E1;
      repeat match goal with H : (if ?b then _ else _) = _ |- _ => destruct b end; try discriminate;
      try (injection E1 as <-; cbn [runs resolved]; counts; lia).
    - destruct ch as [|y ch]; [discriminate|]. repeat match goal with H : (if ?b then _ else _) = _ |- _ => destruct b end; try discriminate;
        injection E1 as <-; cbn [runs resolved]; lia.
    - destruct ev as [|y ev]; [discriminate|]. destruct g.
      + assert (cnt (ru ++ [y]) (Once k) - cnt ru (Once k) <= cnt (if isOneOff y then re ++ [y] else re) (Once k) - cnt re (Once k) /\
                cnt re (Once k) <= cnt (if isOneOff y then re ++ [y] else re) (Once k)).
        { destruct (isOneOff y) eqn:O; counts; destruct (ij_eq_dec y (Once k)) as [->|]; try discriminate; lia. }
        destruct sy; injection E1 as <-; cbn [runs resolved]; counts; lia.
      + destruct rv; [|discriminate]. injection E1 as <-. cbn [runs resolved]. lia. }
  destruct (RI _ _ _ I R') as (A1 & A2 & A3). pose proof (at_most_once n (acts ++ acts') s' k) as M.
  assert (Ra : run (start n) (acts ++ acts') = Some s').
  { clear - R R'. revert R. generalize (start n). induction acts as [|a acts IH]; intros s0 R; cbn in *; [injection R as ->; auto|].
    destruct (step s0 a); [auto|discriminate]. }
  specialize (M Ra). lia.
Qed.

(** the same, told by what happens rather than by the state: a run that has answered Incomplete keeps every further run out until
    its completion has been processed *)
Lemma step_no_rerun s a s' i : inv s -> In i (pending s) -> a <> AAsync i -> step s a = Some s' ->
  In i (pending s') /\ cnt (runs s') i = cnt (runs s) i.
Proof.
  intros I P N E. pose proof (inv_once _ I i) as O. unfold places in O. pose proof (proj1 (count_occ_In ij_eq_dec _ _) P) as P1.
  destruct s as [ti se ch ev pe si ru re fr sc asg rv pu sp]. cbn [timers senders chan evq pending runs] in *.
  destruct a as [|x|x|x| | | |g sy|x|]; cbn [step] in E;
    try (repeat match goal with H : (if ?b then _ else _) = _ |- _ => destruct b end; try discriminate; injection E as <-; cbn [pending runs]; auto; fail).
  - destruct ch as [|y ch]; [discriminate|]. repeat match goal with H : (if ?b then _ else _) = _ |- _ => destruct b end; try discriminate;
      injection E as <-; cbn [pending runs]; auto.
  - destruct ev as [|y ev]; [discriminate|]. rewrite cnt_cons in O. destruct (ij_eq_dec y i) as [->|Ny]; [lia|]. destruct g.
    + destruct sy; injection E as <-; cbn [pending runs]; counts; destruct (ij_eq_dec y i); try congruence; (split; [|lia]); auto.
      apply in_or_app. auto.
    + destruct rv; [|discriminate]. injection E as <-. cbn [pending runs]. auto.
  - destruct (mem x pe) eqn:M; [|discriminate]. injection E as <-. cbn [pending runs]. split; auto.
    apply (count_occ_In ij_eq_dec). counts. destruct (ij_eq_dec x i) as [->|]; [congruence|lia].
Qed.
Lemma run_no_rerun acts : forall s s' i, inv s -> In i (pending s) -> ~ In (AAsync i) acts -> run s acts = Some s' -> cnt (runs s') i = cnt (runs s) i.
Proof.
  induction acts as [|a acts IH]; intros s s' i I P N E; cbn in E; [congruence|].
  destruct (step s a) as [s1|] eqn:E1; [|discriminate]. cbn in N.
  destruct (step_no_rerun s a s1 i I P) as (P1 & <-); auto. apply (IH s1); auto. eapply step_inv; eauto.
Qed.
Lemma handled_pending s s' i : step s (AHandle true false) = Some s' -> runs s' = runs s ++ [i] -> In i (pending s').
Proof.
  destruct s as [ti se ch ev pe si ru re fr sc asg rv pu sp]. cbn [step]. destruct ev as [|x ev]; [discriminate|]. intros [= <-] H. cbn in *.
  apply app_inv_head in H. injection H as ->. apply in_or_app. right. left. auto.
Qed.
Lemma never_twice n acts s s1 i acts' s' : run (start n) acts = Some s -> step s (AHandle true false) = Some s1 -> runs s1 = runs s ++ [i] ->
  run s1 acts' = Some s' -> ~ In (AAsync i) acts' -> cnt (runs s') i = cnt (runs s1) i.
Proof.
  intros R E H R' N. pose proof (run_inv _ _ _ (start_inv n) R) as I. eapply run_no_rerun; eauto.
  - eapply step_inv; eauto.
  - eapply handled_pending; eauto.
Qed.
Lemma run_app acts1 : forall s acts2, run s (acts1 ++ acts2) = match run s acts1 with Some s1 => run s1 acts2 | None => None end.
Proof. induction acts1 as [|a acts1 IH]; intros s acts2; cbn; auto. destruct (step s a); auto. Qed.
Lemma async_is_last n acts s s1 k acts' s' : run (start n) acts = Some s -> step s (AHandle true false) = Some s1 -> runs s1 = runs s ++ [Sched k] ->
  run s1 acts' = Some s' -> cnt (runs s') (Sched k) = cnt (runs s1) (Sched k).
Proof.
  intros R E H R'. apply (async_last n (acts ++ [AHandle true false]) s1 (Sched k) acts' s'); auto.
  - rewrite run_app, R. cbn [run]. rewrite E. auto.
  - eapply handled_pending; eauto.
Qed.
(** the k-th call of Interject is number k *)
Definition calls (acts : list action) : nat := length (filter (fun a => match a with AInterject => true | _ => false end) acts).
Lemma fresh_calls acts : forall s s', run s acts = Some s' -> fresh s' = fresh s + calls acts.
Proof.
  induction acts as [|a acts IH]; intros s s' E; cbn in E; [injection E as <-; unfold calls; cbn; lia|].
  destruct (step s a) as [s1|] eqn:E1; [|discriminate]. rewrite (IH _ _ E).
  assert (fresh s1 = fresh s + match a with AInterject => 1 | _ => 0 end).
  { clear - E1. destruct s as [ti se ch ev pe si ru re fr sc asg rv pu sp]. destruct a as [|x|x|x| | | |g sy|x|]; cbn [step] in E1;
      try destruct ch; try destruct ev;
      repeat match goal with H : (if ?b then _ else _) = _ |- _ => destruct b end; try discriminate; injection E1 as <-; cbn [fresh]; lia. }
  unfold calls in *. destruct a; cbn in *; lia.
Qed.
Lemma reports_back n acts s k : ~ In ARevoke acts -> run (start n) acts = Some s -> k < calls acts ->
  cnt (resolved s) (Once k) = 1 \/
  (cnt (resolved s) (Once k) = 0 /\ exists acts' s', run s acts' = Some s' /\ cnt (resolved s') (Once k) = 1).
Proof. intros F R K. eapply oneoff_ok; eauto. rewrite (fresh_calls _ _ _ R). exact K. Qed.
(** calls after the partition has been revoked *)
Lemma step_runs_resolved s a s' k : step s a = Some s' ->
  cnt (runs s') (Once k) + cnt (resolved s) (Once k) <= cnt (runs s) (Once k) + cnt (resolved s') (Once k).
Proof.
  intros E1. destruct s as [ti se ch ev pe si ru re fr sc asg rv pu sp].
  destruct a as [|x|x|x| | | |g sy|x|]; cbn [step] in E1;
    repeat match goal with H : (if ?b then _ else _) = _ |- _ => destruct b end; try discriminate;
    try (injection E1 as <-; cbn [runs resolved]; counts; lia).
  - destruct ch as [|y ch]; [discriminate|]. repeat match goal with H : (if ?b then _ else _) = _ |- _ => destruct b end; try discriminate;
      injection E1 as <-; cbn [runs resolved]; lia.
  - destruct ev as [|y ev]; [discriminate|]. destruct g.
    + assert (cnt (ru ++ [y]) (Once k) + cnt re (Once k) <= cnt ru (Once k) + cnt (if isOneOff y then re ++ [y] else re) (Once k)).
      { destruct (isOneOff y) eqn:O; counts; destruct (ij_eq_dec y (Once k)) as [->|]; try discriminate; lia. }
      destruct sy; injection E1 as <-; cbn [runs resolved]; lia.
    + destruct rv; [|discriminate]. injection E1 as <-. cbn [runs resolved]. lia.
Qed.
Lemma run_runs_resolved k acts : forall s s', run s acts = Some s' ->
  cnt (runs s') (Once k) + cnt (resolved s) (Once k) <= cnt (runs s) (Once k) + cnt (resolved s') (Once k).
Proof.
  induction acts as [|a acts IH]; intros s s' E; cbn in E; [injection E as <-; lia|].
  destruct (step s a) as [s1|] eqn:E1; [|discriminate]. pose proof (IH _ _ E). pose proof (step_runs_resolved _ _ _ k E1). lia.
Qed.
Lemma run_assigned acts : forall s s', run s acts = Some s' -> assigned s = false \/ In ARevoke acts -> assigned s' = false.
Proof.
  induction acts as [|a acts IH]; intros s s' E A; cbn in E; [injection E as <-; destruct A as [|[]]; auto|].
  destruct (step s a) as [s1|] eqn:E1; [|discriminate]. apply (IH s1); auto.
  destruct A as [A|[->|A]]; auto; left; destruct s as [ti se ch ev pe si ru re fr sc asg rv pu sp];
    [|cbn in E1; injection E1 as <-; auto].
  cbn in A. subst asg. destruct a as [|x|x|x| | | |g sy|x|]; cbn [step] in E1; try destruct ch; try destruct ev;
    repeat match goal with H : (if ?b then _ else _) = _ |- _ => destruct b end; try discriminate; injection E1 as <-; auto.
Qed.
Lemma unassigned_answered n acts1 acts2 s1 s : run (start n) acts1 = Some s1 -> In ARevoke acts1 ->
  run s1 (AInterject :: acts2) = Some s -> cnt (resolved s) (Once (calls acts1)) = 1 /\ ~ In (Once (calls acts1)) (runs s).
Proof.
  intros R1 Rv R2. pose proof (run_assigned _ _ _ R1 (or_intror Rv)) as A. pose proof (fresh_calls _ _ _ R1) as F. cbn in F.
  pose proof (run_runs_resolved (calls acts1) _ _ _ R1) as X1. cbn [start runs resolved] in X1.
  cbn [run] in R2. destruct (step s1 AInterject) as [s2|] eqn:E; [|discriminate].
  assert (E' : cnt (resolved s2) (Once (calls acts1)) = S (cnt (resolved s1) (Once (calls acts1))) /\ runs s2 = runs s1).
  { destruct s1 as [ti se ch ev pe si ru re fr sc asg rv pu sp]. cbn in A, F. subst asg fr. cbn [step] in E. injection E as <-.
    cbn [resolved runs]. split; auto. counts. destruct (ij_eq_dec _ _); [lia|congruence]. }
  destruct E' as (E' & Eru).
  assert (R : run (start n) (acts1 ++ AInterject :: acts2) = Some s) by (rewrite run_app, R1; cbn [run]; rewrite E; exact R2).
  assert (M2 : cnt (resolved s2) (Once (calls acts1)) <= 1).
  { apply (at_most_once n (acts1 ++ [AInterject])). rewrite run_app, R1. cbn [run]. rewrite E. reflexivity. }
  pose proof (at_most_once _ _ _ (calls acts1) R) as M. pose proof (run_runs_resolved (calls acts1) _ _ _ R2) as X2. rewrite Eru in X2.
  change (cnt [] (Once (calls acts1))) with 0 in X1. split.
  - pose proof (count_occ_In ij_eq_dec (runs s) (Once (calls acts1))). unfold cnt in *.
    assert (count_occ ij_eq_dec (resolved s2) (Once (calls acts1)) <= count_occ ij_eq_dec (resolved s) (Once (calls acts1))); [|lia].
    clear - R2. revert s2 R2. induction acts2 as [|a l IH]; intros s2 R2; cbn in R2; [injection R2 as <-; lia|].
    destruct (step s2 a) as [s3|] eqn:E3; [|discriminate]. etransitivity; [|apply (IH _ R2)]. clear - E3.
    destruct s2 as [ti se ch ev pe si ru re fr sc asg rv pu sp]. destruct a as [|x|x|x| | | |g sy|x|]; cbn [step] in E3; try destruct ch; try destruct ev as [|y ev];
      repeat match goal with H : (if ?b then _ else _) = _ |- _ => destruct b end; try discriminate; injection E3 as <-; cbn [resolved]; try lia;
      try destruct (isOneOff y); rewrite ?count_occ_app; lia.
  - intros H. apply (count_occ_In ij_eq_dec) in H. unfold cnt in *. lia.
Qed.
