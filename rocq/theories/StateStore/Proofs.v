(** Facts used for C49, C50, C76, C77. *)
From stdpp Require Import prelude list.
From Verif.StateStore Require Import Model Inv Step Step2 Step3.
Open Scope nat_scope.

Lemma run_app a : forall b s s', run s (a ++ b) = Some s' -> exists s1, run s a = Some s1 /\ run s1 b = Some s'.
Proof. induction a as [|x a IH]; intros b s s' H; cbn in *; [eauto|]. destruct (step s x); [|discriminate]. exact (IH b s0 s' H). Qed.

(** what the threads hold was read from the log *)
Definition inLog (s : st) (l : list record) : Prop := forall r, r ∈ l -> r ∈ log s.
Record fromLog (s : st) : Prop := mkFrom {
  f_con : inLog s (held (con s));
  f_chan : forall c ch, chans s !! c = Some ch -> inLog s (concat (c_q ch));
  f_pop : forall j P, pops s !! j = Some P -> inLog s (p_rest P);
  f_rel : forall m, EvRelease m ∈ trace s -> Mark m ∈ log s;
  f_app : forall x r, EvApply x r ∈ trace s -> r ∈ log s /\ exists n, r = Data n }.

Definition grows (s s' : st) : Prop := exists t, log s' = log s ++ t.
Lemma inLog_grows s s' l : grows s s' -> inLog s l -> inLog s' l.
Proof. intros [t E] H r R. rewrite E. apply elem_of_app. left. apply H, R. Qed.

Lemma from_frame s s' : fromLog s -> grows s s' -> con s' = con s -> chans s' = chans s -> pops s' = pops s -> trace s' = trace s -> fromLog s'.
Proof.
  intros [A B C D E] G E1 E2 E3 E4. split; rewrite ?E1, ?E2, ?E3, ?E4.
  - eapply inLog_grows; eassumption.
  - intros c ch H. eapply inLog_grows; [exact G|eapply B, H].
  - intros j P H. eapply inLog_grows; [exact G|eapply C, H].
  - intros m H. destruct G as [t ->]. apply elem_of_app. left. apply D, H.
  - intros x r H. destruct (E x r H) as [Q1 Q2]. split; [|exact Q2]. destruct G as [t ->]. apply elem_of_app. auto.
Qed.
Lemma grows_refl s s' : log s' = log s -> grows s s'.
Proof. intros E. exists []. rewrite app_nil_r. exact E. Qed.

Lemma from_prep i x s : fromLog s -> fromLog (prep i x s).
Proof.
  intros [A B C D E]. split; cbn; try assumption.
  - intros c ch H. apply lookup_snoc in H as [H| ->]; [eapply B, H|]. intros r R. inversion R.
  - intros j P H. apply lookup_snoc in H as [H| ->]; [eapply C, H|]. intros r R. inversion R.
Qed.
Lemma from_cancel s : fromLog s -> fromLog (cancel s).
Proof.
  intros F. unfold cancel. assert (F1 : fromLog (pause s)) by (apply (from_frame s); try reflexivity; [exact F|apply grows_refl; reflexivity]). destruct (buf (pause s)) as [c|]; [|exact F1]. unfold closeCh. destruct (chans (pause s) !! c) as [ch|] eqn:E.
  - destruct F1 as [A B C D G]. split; cbn; try assumption. intros k q H. apply list_lookup_insert_Some in H as [(_ & <- & _)|[_ H]]; [exact (B c ch E)|eapply B, H].
  - apply (from_frame (pause s)); try reflexivity; [exact F1|apply grows_refl; reflexivity].
Qed.
Lemma from_emit e s : fromLog s -> match e with EvRelease m => Mark m ∈ log s | EvApply _ r => r ∈ log s /\ exists n, r = Data n end -> fromLog (emit e s).
Proof.
  intros [A B C D E] H. split; cbn; try assumption.
  - intros m Q. apply elem_of_app in Q as [Q|Q]; [apply D, Q|]. apply elem_of_list_singleton in Q as <-. exact H.
  - intros x r Q. apply elem_of_app in Q as [Q|Q]; [eapply E, Q|]. apply elem_of_list_singleton in Q as <-. exact H.
Qed.
Lemma from_pops j P s : fromLog s -> inLog s (p_rest P) -> fromLog (set_pops (<[j := P]> (pops s)) s).
Proof.
  intros [A B C D E] H. split; cbn; try assumption. intros i y Q. apply list_lookup_insert_Some in Q as [(_ & <- & _)|[_ Q]]; [exact H|eapply C, Q].
Qed.
Lemma from_con c s : fromLog s -> inLog s (held c) -> fromLog (set_con c s).
Proof. intros [A B C D E] H. split; cbn; assumption. Qed.

Ltac ff s := apply (from_frame s); [assumption|apply grows_refl; reflexivity|reflexivity..].
Lemma step_from s a s' : fromLog s -> step s a = Some s' -> fromLog s' /\ grows s s'.
Proof.
  intros F H. assert (Ga : grows s s'). { destruct a as [n| | | | | |i|i|i|i|n| | | |j|j]; cbn [step] in H.
    1,2: injection H as <-; eexists; reflexivity.
    5: { destruct (syncs s !! i) as [[k x [|m|m|m]]|]; try discriminate. injection H as <-. apply grows_refl; reflexivity. }
    5: { destruct (syncs s !! i) as [[k x [|m|m|m]]|]; try discriminate. injection H as <-. eexists; reflexivity. }
    all: apply grows_refl.
    - destruct (prepping s); [injection H as <-; auto|]. unfold assignStore in H. destruct (store s); injection H as <-; reflexivity.
    - injection H as <-. destruct (prepping s); [apply cancel_frame|reflexivity].
    - unfold assignStore in H. destruct (store s); injection H as <-; cbn; destruct (prepping s); try destruct (worker s); reflexivity.
    - injection H as <-. reflexivity.
    - destruct (syncs s !! i) as [[k x [|m|m|m]]|]; try discriminate. injection H as <-. reflexivity.
    - destruct (syncs s !! i) as [[k x [|m|m|m]]|]; try discriminate. destruct (decide _); [|discriminate]. injection H as <-. reflexivity.
    - destruct (con s); try discriminate. destruct (fpaused s); [discriminate|]. destruct (decide _); [|discriminate]. injection H as <-. reflexivity.
    - destruct (con s); try discriminate. injection H as <-. destruct (state s); reflexivity.
    - destruct (con s); try discriminate. injection H as <-. reflexivity.
    - destruct (con s) as [| | |b [c|]|]; try discriminate. destruct (chans s !! c) as [k|]; [|discriminate]. destruct (c_closed k); [injection H as <-; reflexivity|]. destruct (_ <? _); [|discriminate]. injection H as <-. reflexivity.
    - destruct (pops s !! j) as [[c x [|r b] [|] dn]|]; try discriminate. destruct (chans s !! c) as [[[|b q] [|]]|]; try discriminate; injection H as <-; reflexivity.
    - destruct (pops s !! j) as [[c x [|r b] [|] dn]|]; try discriminate. pose proof (handle_frame x r s) as (Q1 & _). destruct (handleRecord x r s) as [cp s1]. injection H as <-. exact Q1. }
  split; [|exact Ga].
  destruct a as [n| | | | | |i|i|i|i|n| | | |j|j]; cbn [step] in H.
  - injection H as <-. apply (from_frame s); try reflexivity; assumption.
  - injection H as <-. apply (from_frame s); try reflexivity; assumption.
  - destruct (prepping s); [injection H as <-; auto|]. destruct (assignStore s) as [x s1] eqn:A. injection H as <-.
    assert (F1 : fromLog s1) by (unfold assignStore in A; destruct (store s); injection A as <- <-; [exact F|ff s]). assert (F2 := from_prep Prepping x s1 F1). ff (prep Prepping x s1).
  - injection H as <-. destruct (prepping s); [|exact F]. assert (F2 := from_cancel s F). ff (cancel s).
  - destruct (assignStore s) as [x s1] eqn:A. injection H as <-.
    assert (F1 : fromLog s1) by (unfold assignStore in A; destruct (store s); injection A as <- <-; [exact F|ff s]). destruct (prepping s1); [ff s1|]. destruct (worker s1); [exact F1|].
    assert (F2 := from_prep Ready x s1 F1). ff (prep Ready x s1).
  - injection H as <-. ff s.
  - destruct (syncs s !! i) as [[k x [|m|m|m]]|]; try discriminate. injection H as <-. ff s.
  - destruct (syncs s !! i) as [[k x [|m|m|m]]|]; try discriminate. injection H as <-. apply (from_frame s); try reflexivity; assumption.
  - destruct (syncs s !! i) as [[k x [|m|m|m]]|]; try discriminate. injection H as <-. ff s.
  - destruct (syncs s !! i) as [[k x [|m|m|m]]|]; try discriminate. destruct (decide _); [|discriminate]. injection H as <-. ff s.
  - destruct (con s); try discriminate. destruct (fpaused s); [discriminate|]. destruct (decide _); [|discriminate]. injection H as <-. apply from_con; [ff s|]. intros r R. cbn in R.
    assert (R' : r ∈ drop (pos s) (log s)) by (rewrite <- (take_drop n); apply elem_of_app; left; exact R). change (r ∈ log s). rewrite <- (take_drop (pos s) (log s)). apply elem_of_app. right. exact R'.
  - destruct (con s) eqn:C; try discriminate. injection H as <-. pose proof (f_con _ F) as Q. rewrite C in Q. destruct (state s); [apply from_con; [ff s|intros r R; inversion R]|apply from_con; assumption..].
  - destruct (con s) eqn:C; try discriminate. injection H as <-. pose proof (f_con _ F) as Q. rewrite C in Q. apply from_con; assumption.
  - destruct (con s) as [| | |b [c|]|] eqn:C; try discriminate. pose proof (f_con _ F) as Q. rewrite C in Q. cbn in Q. destruct (chans s !! c) as [k|] eqn:Ck; [|discriminate].
    destruct (c_closed k); [injection H as <-; apply from_con; [exact F|intros r R; inversion R]|]. destruct (_ <? _); [|discriminate]. injection H as <-. apply from_con; [|intros r R; inversion R].
    pose proof (f_chan _ F c k Ck) as Qk. destruct F as [A B CC D E]. split; cbn; try assumption. intros k' q Hq. apply list_lookup_insert_Some in Hq as [(_ & <- & _)|[_ Hq]]; [|eapply B, Hq].
    intros r R. cbn in R. rewrite concat_app in R. apply elem_of_app in R as [R|R]; [apply Qk, R|]. cbn in R. rewrite app_nil_r in R. apply Q, R.
  - destruct (pops s !! j) as [[c x [|r b] [|] dn]|]; try discriminate. destruct (chans s !! c) as [[[|b q] [|]]|] eqn:Ck; try discriminate; injection H as <-.
    1: apply from_pops; [exact F|intros r R; inversion R].
    all: pose proof (f_chan _ F c _ Ck) as Qk; cbn in Qk;
      match goal with |- fromLog (set_pops _ ?t) => assert (F2 : fromLog t) by (destruct F as [A B CC D E]; split; cbn; try assumption; intros k' q' Hq; apply list_lookup_insert_Some in Hq as [(_ & <- & _)|[_ Hq]]; [intros r R; apply Qk, elem_of_app; right; exact R|eapply B, Hq]) end;
      refine (from_pops j _ _ F2 _); intros r R; apply Qk, elem_of_app; left; exact R.
  - destruct (pops s !! j) as [[c x [|r b] [|] dn]|] eqn:Pj; try discriminate. pose proof (f_pop _ F j _ Pj) as Q. cbn in Q. assert (Rin : r ∈ log s) by (apply Q; left).
    assert (F2 : fromLog (snd (handleRecord x r s))).
    { destruct r as [n|m]; cbn; [apply from_emit; eauto|]. unfold isCompletionMarker. destruct (decide (m ∈ waiters s)); cbn; [|exact F]. assert (Fw : fromLog (set_waiters (filter (fun w => w <> m) (waiters s)) s)) by ff s.
      destruct (state s); cbn; (apply from_emit; [|first [exact Rin|rewrite (proj1 (cancel_frame _)); exact Rin]]); [exact Fw| |apply from_cancel, Fw]. ff (set_waiters (filter (fun w => w <> m) (waiters s)) s). }
    pose proof (handle_frame x r s) as (Q1 & _). pose proof (handle_frame2 x r s) as (_ & _ & Q4). destruct (handleRecord x r s) as [cp s1]. cbn [snd] in *. injection H as <-. rewrite <- Q4. apply from_pops; [exact F2|].
    intros r' R'. cbn in R'. rewrite Q1. apply Q. right. exact R'.
Qed.

Lemma from_start l n : fromLog (start l n).
Proof.
  split; cbn.
  - intros r R. inversion R.
  - intros [|c] ch H; [|discriminate]. injection H as <-. intros r R. inversion R.
  - discriminate.
  - intros m H. inversion H.
  - intros x r H. inversion H.
Qed.

Lemma run_from acts : forall s s', fromLog s -> run s acts = Some s' -> fromLog s'.
Proof.
  induction acts as [|a acts IH]; intros s s' I H; cbn in H; [injection H as <-; exact I|]. destruct (step s a) as [s1|] eqn:E; [|discriminate]. exact (IH s1 s' (proj1 (step_from s a s1 I E)) H).
Qed.

(** C49, all executions: only changes of the log reach a store, and a waiter is released by its own marker *)
Lemma only_log l n acts s : run (start l n) acts = Some s ->
  (forall x r, EvApply x r ∈ trace s -> r ∈ log s /\ exists n, r = Data n) /\ (forall m, EvRelease m ∈ trace s -> Mark m ∈ log s).
Proof. intros H. pose proof (run_from acts _ _ (from_start l n) H) as F. split; apply F. Qed.

(** C49, one preparation *)
Lemma prefix_applied t0 acts s m x u v i k g : inv t0 -> made t0 -> run t0 acts = Some s -> preps s <= 1 -> stores s <= 1 ->
  syncs s !! i = Some (mkSync k x g) -> mark_of g = Some m -> trace s = u ++ EvRelease m :: v ->
  exists pre post, log s = pre ++ Mark m :: post /\ applied x u = changes pre.
Proof.
  intros A B R Pr St Y G T. pose proof (run_inv acts _ _ A R) as [Bs C]. pose proof (run_made acts _ _ B R) as M.
  destruct C as [N|[(c0 & ch & P & O)|L]]; [rewrite (n_trace _ N) in T; destruct u; discriminate| |lia].
  assert (x = p_store P) as ->. { pose proof (m_sync _ M _ _ Y) as L1. pose proof (o_pops _ _ _ _ O) as Ep. pose proof (m_pop _ M 0 P ltac:(rewrite Ep; reflexivity)) as L2. cbn in L1. lia. }
  destruct (o_split _ _ _ _ O u m v T) as (pre & post & Q1 & Q2 & _). destruct (o_prefix _ _ _ _ O) as [t Et]. exists pre. eexists. split; [|exact Q2]. rewrite Et, Q1, <- !app_assoc. reflexivity.
Qed.

(** in a log without repeated markers the part before a marker is determined *)
Lemma split_mark m : forall a a' b b', NoDup (marks (a ++ Mark m :: b)) -> a ++ Mark m :: b = a' ++ Mark m :: b' -> a = a'.
Proof.
  assert (K : forall a b, Mark m ∈ a -> ~ NoDup (marks (a ++ Mark m :: b))).
  { intros a b H N. rewrite marks_app in N. apply NoDup_app in N as (_ & N & _). apply (N m); [apply elem_of_marks, H|]. left. }
  induction a as [|x a IH]; intros [|y a'] b b' N E; [reflexivity| | |].
  - injection E as <- E. exfalso. rewrite E in N. apply (K (Mark m :: a') b'); [left|exact N].
  - injection E as -> E. exfalso. apply (K (Mark m :: a) b); [left|exact N].
  - injection E as <- E. f_equal. apply (IH a' b b'); [|exact E]. change (NoDup (marks ([x] ++ (a ++ Mark m :: b)))) in N. rewrite marks_app in N. apply NoDup_app in N as (_ & _ & N). exact N.
Qed.

(** C50 when the preparation's marker comes first *)
Lemma no_more t0 acts s m x u v i g : inv t0 -> run t0 acts = Some s -> preps s <= 1 ->
  syncs s !! i = Some (mkSync KWork x g) -> mark_of g = Some m -> trace s = u ++ EvRelease m :: v ->
  (forall i' x' g', syncs s !! i' = Some (mkSync KPrep x' g') -> exists mp a b c, mark_of g' = Some mp /\ log s = a ++ Mark mp :: b ++ Mark m :: c) ->
  forall y, applied y v = [].
Proof.
  intros A R Pr Y G T F. pose proof (run_inv acts _ _ A R) as [Bs C].
  destruct C as [N|[(c0 & ch & P & O)|L]]; [rewrite (n_trace _ N) in T; destruct u; discriminate| |lia].
  destruct (o_split _ _ _ _ O u m v T) as (pre & post & Q1 & Q2 & Q3 & Q4). destruct (o_prefix _ _ _ _ O) as [t Et]. apply Q4.
  assert (Fp : (exists j x' g', syncs s !! j = Some (mkSync KPrep x' g')) -> released u <> []).
  { intros (j & x' & g' & Hj). destruct (F j x' g' Hj) as (mp & a & b & c & Gm & El). rewrite Q3. intros Z.
    assert (Epre : pre = a ++ Mark mp :: b).
    { apply (split_mark m pre _ (post ++ (p_rest P ++ concat (c_q ch)) ++ t) c).
      - assert (E : pre ++ Mark m :: post ++ (p_rest P ++ concat (c_q ch)) ++ t = log s) by (rewrite Et, Q1, <- !app_assoc; reflexivity). rewrite E. apply Bs.
      - transitivity (log s); [rewrite Et, Q1, <- !app_assoc; reflexivity|]. rewrite El, <- app_assoc. reflexivity. }
    assert (Hm : mp ∈ ownIn (own s) (marks pre)).
    { unfold ownIn. apply elem_of_list_filter. split.
      - unfold own. apply elem_of_list_omap. eexists. split; [eapply elem_of_list_lookup_2, Hj|exact Gm].
      - rewrite Epre, marks_app. apply elem_of_app. right. left. }
    rewrite Z in Hm. inversion Hm. }
  assert (K0 : forall t, kinds s = KPrep :: t -> exists j x' g', syncs s !! j = Some (mkSync KPrep x' g')).
  { intros t' K. unfold kinds in K. destruct (syncs s) as [|[k0 x0 g0] l0]; [discriminate|]. injection K as Kk _. cbn in Kk. subst k0. exists 0, x0, g0. reflexivity. }
  destruct (o_kinds _ _ _ _ O) as [K|[K|K]]; eauto.
Qed.

(** C76: a consume goroutine sending on the nil channel never gets on, and one that panicked is gone *)
Definition gone (c : cons) : Prop := match c with CSend _ None | CPanic => True | _ => False end.
Lemma gone_forever acts : forall s s', gone (con s) -> run s acts = Some s' -> con s' = con s.
Proof.
  induction acts as [|a acts IH]; intros s s' G H; cbn in H; [injection H as <-; reflexivity|]. destruct (step s a) as [s1|] eqn:E; [|discriminate].
  assert (C : con s1 = con s).
  { destruct a as [n| | | | | |i|i|i|i|n| | | |j|j]; cbn [step] in E; try (injection E as <-; reflexivity).
    - destruct (prepping s); [injection E as <-; auto|]. unfold assignStore in E. destruct (store s); injection E as <-; reflexivity.
    - injection E as <-. destruct (prepping s); [|reflexivity]. unfold cancel, pause, closeCh; cbn. destruct (buf s) as [c|]; cbn; [destruct (chans s !! c)|]; reflexivity.
    - unfold assignStore in E. destruct (store s); injection E as <-; cbn; destruct (prepping s); try destruct (worker s); reflexivity.
    - destruct (syncs s !! i) as [[k x [|m|m|m]]|]; try discriminate. injection E as <-. reflexivity.
    - destruct (syncs s !! i) as [[k x [|m|m|m]]|]; try discriminate. injection E as <-. reflexivity.
    - destruct (syncs s !! i) as [[k x [|m|m|m]]|]; try discriminate. injection E as <-. reflexivity.
    - destruct (syncs s !! i) as [[k x [|m|m|m]]|]; try discriminate. destruct (decide _); [|discriminate]. injection E as <-. reflexivity.
    - destruct (con s); try discriminate. destruct G.
    - destruct (con s); try discriminate. destruct G.
    - destruct (con s); try discriminate. destruct G.
    - destruct (con s) as [| | |b [c|]|]; try discriminate. destruct G.
    - destruct (pops s !! j) as [[c x [|r b] [|] dn]|]; try discriminate. destruct (chans s !! c) as [[[|b q] [|]]|]; try discriminate; injection E as <-; reflexivity.
    - destruct (pops s !! j) as [[c x [|r b] [|] dn]|]; try discriminate. destruct r as [q|m]; cbn in E; [injection E as <-; reflexivity|]. unfold isCompletionMarker in E. destruct (decide (m ∈ waiters s)); cbn in E; [|injection E as <-; reflexivity].
      destruct (state s); cbn in E; injection E as <-; try reflexivity. unfold cancel, pause, closeCh; cbn. destruct (buf s) as [c'|]; cbn; [destruct (chans s !! c')|]; reflexivity. }
  rewrite <- C. apply (IH s1 s'); [rewrite C; exact G|exact H].
Qed.

(** C76: it is not gone as long as the bootstrap goes on *)
Lemma gone_ended t0 acts s : inv t0 -> run t0 acts = Some s -> preps s <= 1 -> gone (con s) -> state s = Paused.
Proof.
  intros A R Pr G. pose proof (run_inv acts _ _ A R) as [Bs C].
  destruct C as [N|[(c0 & ch & P & O)|L]]; [apply N| |lia].
  assert (Bn : buf s = None). { destruct (con s) as [| | |b [c|]|] eqn:Cn; try destruct G; [exact (o_send2 _ _ _ _ O b Cn)|exact (o_panic _ _ _ _ O Cn)]. }
  apply (o_shut _ _ _ _ O Bn).
Qed.

(** C77: nobody else writes the marker of a sync call *)
Lemma own_inj s i j yi yj m : NoDup (own s) -> syncs s !! i = Some yi -> syncs s !! j = Some yj -> mark_of (sy_stage yi) = Some m -> mark_of (sy_stage yj) = Some m -> i = j.
Proof.
  unfold own. revert i j. induction (syncs s) as [|a l IH]; intros i j N Hi Hj Mi Mj; [discriminate|].
  change (omap ?f (a :: l)) with (match f a with Some y => y :: omap f l | None => omap f l end) in N. cbv beta in N.
  assert (K : forall j y, l !! j = Some y -> mark_of (sy_stage y) = Some m -> m ∈ omap (fun y => mark_of (sy_stage y)) l) by (intros k y H Q; apply elem_of_list_omap; exists y; split; [eapply elem_of_list_lookup_2, H|exact Q]).
  destruct i as [|i], j as [|j]; cbn in Hi, Hj; [reflexivity| | |].
  - injection Hi as ->. rewrite Mi in N. apply NoDup_cons in N as [N _]. exfalso. apply N. eapply K; eassumption.
  - injection Hj as ->. rewrite Mj in N. apply NoDup_cons in N as [N _]. exfalso. apply N. eapply K; eassumption.
  - f_equal. apply IH; try assumption. destruct (mark_of (sy_stage a)); [apply NoDup_cons in N as [_ N]|]; exact N.
Qed.

Definition lost (s : st) (i : nat) (y : sync) (m : nat) : Prop := syncs s !! i = Some y /\ sy_stage y = SSent m /\ m ∉ marks (log s).

Lemma lost_step s a s' i y m : base s -> fromLog s -> lost s i y m -> step s a = Some s' -> lost s' i y m.
Proof.
  intros Bs F (H1 & H2 & H3) H.
  assert (Set_ : forall j k x g g' z, syncs s !! j = Some (mkSync k x g) -> (forall m', g = SSent m' -> m' <> m) -> syncs z = <[j := mkSync k x g']> (syncs s) -> syncs z !! i = Some y).
  { intros j k x g g' z Hj Hg ->. destruct (decide (j = i)) as [->|Ne]; [exfalso|rewrite list_lookup_insert_ne by exact Ne; exact H1]. rewrite H1 in Hj. injection Hj as ->. cbn in H2. eapply Hg; eauto. }
  assert (Lm : m < nextMark s) by (apply (b_own _ Bs); unfold own; apply elem_of_list_omap; exists y; split; [eapply elem_of_list_lookup_2, H1|rewrite H2; reflexivity]).
  destruct a as [n| | | | | |j|j|j|j|n| | | |j|j]; cbn [step] in H.
  - injection H as <-. repeat split; try assumption. cbn. rewrite marks_app, app_nil_r. exact H3.
  - injection H as <-. repeat split; try assumption. cbn [log set_nextMark set_log]. rewrite marks_app, elem_of_app. intros [Q|Q]; [auto|]. apply elem_of_list_singleton in Q. lia.
  - destruct (prepping s); [injection H as <-; repeat split; assumption|]. unfold assignStore in H. destruct (store s); injection H as <-; repeat split; try assumption; cbn; apply lookup_app_l_Some, H1.
  - injection H as <-. destruct (prepping s); [|repeat split; assumption]. destruct (cancel_frame s) as (Q1 & _ & Q3). repeat split; cbn; rewrite ?Q1, ?Q3; assumption.
  - unfold assignStore in H. destruct (store s); injection H as <-; cbn; destruct (prepping s); try destruct (worker s); repeat split; try assumption; cbn; apply lookup_app_l_Some, H1.
  - injection H as <-. repeat split; assumption.
  - destruct (syncs s !! j) as [[k x [|m'|m'|m']]|] eqn:E; try discriminate. injection H as <-. repeat split; try assumption. eapply (Set_ j k x SNew); [exact E|discriminate|reflexivity].
  - destruct (syncs s !! j) as [[k x [|m'|m'|m']]|] eqn:E; try discriminate. injection H as <-. repeat split; try assumption; [eapply (Set_ j k x (SReg m')); [exact E|discriminate|reflexivity]|].
    cbn [log set_log]. rewrite marks_app, elem_of_app. intros [Q|Q]; [auto|]. apply elem_of_list_singleton in Q as <-.
    assert (i = j) as -> by (apply (own_inj s i j y (mkSync k x (SReg m)) m); [apply Bs|assumption|assumption|rewrite H2; reflexivity|reflexivity]). rewrite H1 in E. injection E as ->. discriminate.
  - destruct (syncs s !! j) as [[k x [|m'|m'|m']]|] eqn:E; try discriminate. injection H as <-. repeat split; try assumption. eapply (Set_ j k x (SReg m')); [exact E|discriminate|reflexivity].
  - destruct (syncs s !! j) as [[k x [|m'|m'|m']]|] eqn:E; try discriminate. destruct (decide (m' ∈ released (trace s))) as [D|]; [|discriminate]. injection H as <-. repeat split; try assumption.
    eapply (Set_ j k x (SSent m')); [exact E| |reflexivity]. intros m2 [= <-] ->. apply H3, elem_of_marks, (f_rel _ F), elem_released, D.
  - destruct (con s); try discriminate. destruct (fpaused s); [discriminate|]. destruct (decide _); [|discriminate]. injection H as <-. repeat split; assumption.
  - destruct (con s); try discriminate. injection H as <-. destruct (state s); repeat split; assumption.
  - destruct (con s); try discriminate. injection H as <-. repeat split; assumption.
  - destruct (con s) as [| | |b [c|]|]; try discriminate. destruct (chans s !! c) as [k|]; [|discriminate]. destruct (c_closed k); [injection H as <-; repeat split; assumption|]. destruct (_ <? _); [|discriminate]. injection H as <-. repeat split; assumption.
  - destruct (pops s !! j) as [[c x [|r b] [|] dn]|]; try discriminate. destruct (chans s !! c) as [[[|b q] [|]]|]; try discriminate; injection H as <-; repeat split; assumption.
  - destruct (pops s !! j) as [[c x [|r b] [|] dn]|]; try discriminate. pose proof (handle_frame x r s) as (Q1 & _ & Q3). destruct (handleRecord x r s) as [cp s1]. cbn [snd] in *. injection H as <-. repeat split; cbn; rewrite ?Q1, ?Q3; assumption.
Qed.

Lemma lost_run acts : forall s s' i y m, base s -> fromLog s -> lost s i y m -> run s acts = Some s' -> lost s' i y m.
Proof.
  induction acts as [|a acts IH]; intros s s' i y m Bs F L H; cbn in H; [injection H as <-; exact L|]. destruct (step s a) as [s1|] eqn:E; [|discriminate].
  apply (IH s1 s' i y m); [exact (step_base s a s1 Bs E)|exact (proj1 (step_from s a s1 F E))|exact (lost_step s a s1 i y m Bs F L E)|exact H].
Qed.

Lemma stuck l n acts acts' s s' i k x m : (forall m, m ∈ marks l -> m < n) -> NoDup (marks l) -> run (start l n) acts = Some s -> syncs s !! i = Some (mkSync k x (SReg m)) ->
  run s (AFail i :: acts') = Some s' -> syncs s' !! i = Some (mkSync k x (SSent m)) /\ EvRelease m ∉ trace s'.
Proof.
  intros A B R Y H. pose proof (run_inv acts _ _ (inv_start l n A B) R) as [Bs _]. pose proof (run_from acts _ _ (from_start l n) R) as F.
  change (match step s (AFail i) with Some s1 => run s1 acts' | None => None end = Some s') in H. destruct (step s (AFail i)) as [s1|] eqn:E; [|discriminate]. pose proof (step_base _ _ _ Bs E) as B1. pose proof (proj1 (step_from _ _ _ F E)) as F1.
  assert (L : lost s1 i (mkSync k x (SSent m)) m).
  { cbn [step] in E. rewrite Y in E. injection E as <-. split; [|split; [reflexivity|]].
    - cbn. apply list_lookup_insert. eapply lookup_lt_Some, Y.
    - apply (b_reg _ Bs i k x m Y). }
  pose proof (lost_run acts' s1 s' i _ m B1 F1 L H) as (Q1 & _ & Q3). split; [exact Q1|]. intros Q. apply Q3, elem_of_marks. pose proof (run_from acts' _ _ F1 H) as F2. apply (f_rel _ F2), Q.
Qed.
