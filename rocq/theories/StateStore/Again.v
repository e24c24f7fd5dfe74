(** Later bootstraps: from a settled state the machine behaves as a new one, with the indices of channels, populators, sync calls and stores
    shifted by what was there before. *)
From stdpp Require Import prelude list.
From Verif.StateStore Require Import Model Inv Step Step2 Step3 Proofs Live.
Open Scope nat_scope.

#[local] Arguments Nat.ltb : simpl never.
#[local] Arguments bufferSize : simpl never.

(** nothing of earlier bootstraps is left over: the consume goroutine is idle, the populators have stopped, the sync calls have returned, no waiter
    is registered, fetching is paused, the partition is neither prepared nor assigned and has no store *)
Record settled (s : st) : Prop := mkSettled {
  t_con : con s = CIdle;
  t_pops : forall j P, pops s !! j = Some P -> p_live P = false;
  t_syncs : forall i y, syncs s !! i = Some y -> exists m, sy_stage y = SDone m;
  t_wait : waiters s = [];
  t_state : state s = Paused;
  t_fp : fpaused s = true;
  t_store : store s = None;
  t_prepping : prepping s = false;
  t_worker : worker s = false }.

(** what was there before *)
Record off := mkOff { oc : list chan; op : list pop; oy : list sync; otr : list ev; os : nat; opr : nat }.
Definition shP (o : off) (P : pop) : pop := mkPop (length (oc o) + p_chan P) (os o + p_store P) (p_rest P) (p_live P) (p_done P).
Definition shY (o : off) (y : sync) : sync := mkSync (sy_kind y) (os o + sy_store y) (sy_stage y).
Definition shE (o : off) (e : ev) : ev := match e with EvApply x r => EvApply (os o + x) r | EvRelease m => EvRelease m end.
Definition shC (o : off) (c : cons) : cons := match c with CSend b k => CSend b (option_map (Nat.add (length (oc o))) k) | _ => c end.
Definition lift (o : off) (t : st) : st :=
  mkSt (log t) (nextMark t) (pos t) (fpaused t) (state t) (option_map (Nat.add (length (oc o))) (buf t)) (oc o ++ chans t) (op o ++ (shP o <$> pops t)) (oy o ++ (shY o <$> syncs t))
    (waiters t) (option_map (Nat.add (os o)) (store t)) (os o + stores t) (prepping t) (worker t) (shC o (con t)) (opr o + preps t) (otr o ++ (shE o <$> trace t)).
Definition liftA (o : off) (a : action) : action :=
  match a with
  | ARegister i => ARegister (length (oy o) + i) | ASend i => ASend (length (oy o) + i) | AFail i => AFail (length (oy o) + i) | AReturn i => AReturn (length (oy o) + i)
  | PTake j => PTake (length (op o) + j) | PHandle j => PHandle (length (op o) + j)
  | _ => a
  end.

Lemma shift_lookup {A B} (f : A -> B) l1 l2 i : (l1 ++ (f <$> l2)) !! (length l1 + i) = f <$> l2 !! i.
Proof. rewrite lookup_app_r by lia. replace (length l1 + i - length l1) with i by lia. apply list_lookup_fmap. Qed.
Lemma shift_lookup0 {A} (l1 l2 : list A) i : (l1 ++ l2) !! (length l1 + i) = l2 !! i.
Proof. rewrite lookup_app_r by lia. f_equal. lia. Qed.
Lemma shift_insert {A B} (f : A -> B) l1 l2 i x : <[length l1 + i := f x]> (l1 ++ (f <$> l2)) = l1 ++ (f <$> <[i := x]> l2).
Proof. rewrite insert_app_r. f_equal. symmetry. apply list_fmap_insert. Qed.
Lemma shift_insert0 {A} (l1 l2 : list A) i x : <[length l1 + i := x]> (l1 ++ l2) = l1 ++ <[i := x]> l2.
Proof. apply insert_app_r. Qed.
Lemma released_lift o tr : released (otr o ++ (shE o <$> tr)) = released (otr o) ++ released tr.
Proof. rewrite released_app. f_equal. induction tr as [|[x r|m] tr IH]; cbn; [reflexivity|exact IH|f_equal; exact IH]. Qed.

Lemma st_eq a b : log a = log b -> nextMark a = nextMark b -> pos a = pos b -> fpaused a = fpaused b -> state a = state b -> buf a = buf b -> chans a = chans b -> pops a = pops b -> syncs a = syncs b ->
  waiters a = waiters b -> store a = store b -> stores a = stores b -> prepping a = prepping b -> worker a = worker b -> con a = con b -> preps a = preps b -> trace a = trace b -> a = b.
Proof. destruct a, b; cbn. intros; subst; reflexivity. Qed.
Lemma lift_cancel o t : cancel (lift o t) = lift o (cancel t).
Proof.
  unfold cancel, pause, closeCh. cbn. destruct (buf t) as [c|] eqn:B; cbn; [rewrite shift_lookup0; destruct (chans t !! c) as [ch|]; cbn|]; apply st_eq; cbn; rewrite ?B; try reflexivity. apply shift_insert0.
Qed.
Lemma lift_emit o e t : emit (shE o e) (lift o t) = lift o (emit e t).
Proof. apply st_eq; cbn; try reflexivity. rewrite fmap_app, <- app_assoc. reflexivity. Qed.
Lemma lift_handle o x r t : handleRecord (os o + x) r (lift o t) = let '(b, t') := handleRecord x r t in (b, lift o t').
Proof.
  destruct r as [n|m]; cbn; [f_equal; apply (lift_emit o (EvApply x (Data n)))|]. unfold isCompletionMarker. cbn. destruct (decide (m ∈ waiters t)); cbn; [|reflexivity]. destruct (state t); cbn.
  - f_equal. exact (lift_emit o (EvRelease m) (set_waiters (filter (fun w => w <> m) (waiters t)) t)).
  - f_equal. exact (lift_emit o (EvRelease m) (set_state Ready (set_waiters (filter (fun w => w <> m) (waiters t)) t))).
  - f_equal. transitivity (emit (EvRelease m) (lift o (cancel (set_waiters (filter (fun w => w <> m) (waiters t)) t)))); [|exact (lift_emit o (EvRelease m) _)]. rewrite <- lift_cancel. reflexivity.
Qed.
Lemma lift_assign o t : assignStore (lift o t) = let '(x, t') := assignStore t in (os o + x, lift o t').
Proof. unfold assignStore. cbn. destruct (store t); cbn; [reflexivity|]. f_equal. apply st_eq; cbn; try reflexivity. lia. Qed.
Lemma lift_prep o i x t : prep i (os o + x) (lift o t) = lift o (prep i x t).
Proof.
  apply st_eq; cbn; try reflexivity.
  - rewrite app_length. reflexivity.
  - rewrite <- app_assoc. reflexivity.
  - rewrite fmap_app, <- app_assoc. cbn. unfold shP at 3; cbn. rewrite app_length. reflexivity.
  - lia.
Qed.
Lemma lift_addSync o k x t : addSync k (os o + x) (lift o t) = lift o (addSync k x t).
Proof. apply st_eq; cbn; try reflexivity. rewrite fmap_app, <- app_assoc. reflexivity. Qed.
Lemma lift_setSync o i k x g t : setSync (length (oy o) + i) k (os o + x) g (lift o t) = lift o (setSync i k x g t).
Proof. apply st_eq; cbn; try reflexivity. exact (shift_insert (shY o) (oy o) (syncs t) i (mkSync k x g)). Qed.
Lemma lift_setPop o j c x b l d t : set_pops (<[length (op o) + j := mkPop (length (oc o) + c) (os o + x) b l d]> (op o ++ (shP o <$> pops t))) (lift o t) = lift o (set_pops (<[j := mkPop c x b l d]> (pops t)) t).
Proof. apply st_eq; cbn; try reflexivity. exact (shift_insert (shP o) (op o) (pops t) j (mkPop c x b l d)). Qed.

Lemma lift_step o t a : (forall m, m ∈ own t -> m ∉ released (otr o)) -> step (lift o t) (liftA o a) = option_map (lift o) (step t a).
Proof.
  intros F. destruct a as [n| | | | | |i|i|i|i|n| | | |j|j]; cbn [step liftA].
  - reflexivity.
  - reflexivity.
  - cbn [prepping lift]. destruct (prepping t) eqn:E; [reflexivity|]. rewrite lift_assign. destruct (assignStore t) as [x t1]. cbn [option_map]. f_equal. rewrite lift_prep. apply (lift_addSync o KPrep x (set_prepping true (prep Prepping x t1))).
  - cbn [prepping lift option_map]. f_equal. destruct (prepping t) eqn:E; [|reflexivity]. rewrite lift_cancel. reflexivity.
  - rewrite lift_assign. destruct (assignStore t) as [x t1]. cbn [option_map prepping worker lift]. f_equal. destruct (prepping t1) eqn:E; [|destruct (worker t1) eqn:E2; [reflexivity|]].
    + apply (lift_addSync o KWork x (set_worker true (set_prepping false t1))).
    + change (addSync KWork (os o + x) (set_worker true (prep Ready (os o + x) (lift o t1))) = lift o (addSync KWork x (set_worker true (prep Ready x t1)))). rewrite lift_prep. apply (lift_addSync o KWork x (set_worker true (prep Ready x t1))).
  - reflexivity.
  - cbn [syncs lift]. rewrite shift_lookup. destruct (syncs t !! i) as [[k x [|m|m|m]]|] eqn:E; cbn; try reflexivity. f_equal. fold (lift o t). rewrite lift_setSync. reflexivity.
  - cbn [syncs lift]. rewrite shift_lookup. destruct (syncs t !! i) as [[k x [|m|m|m]]|] eqn:E; cbn; try reflexivity. f_equal. fold (lift o t). rewrite lift_setSync. reflexivity.
  - cbn [syncs lift]. rewrite shift_lookup. destruct (syncs t !! i) as [[k x [|m|m|m]]|] eqn:E; cbn; try reflexivity. f_equal. fold (lift o t). rewrite lift_setSync. reflexivity.
  - cbn [syncs lift]. rewrite shift_lookup. destruct (syncs t !! i) as [[k x [|m|m|m]]|] eqn:E; cbn -[decide]; try reflexivity. rewrite released_lift.
    assert (M : m ∉ released (otr o)). { apply F. unfold own. apply elem_of_list_omap. eexists. split; [eapply elem_of_list_lookup_2, E|reflexivity]. }
    destruct (decide (m ∈ released (otr o) ++ released (trace t))) as [D|D], (decide (m ∈ released (trace t))) as [D'|D']; try reflexivity.
    + cbn. f_equal. apply lift_setSync.
    + exfalso. apply elem_of_app in D as [D|D]; contradiction.
    + exfalso. apply D, elem_of_app. right. exact D'.
  - cbn [con lift]. destruct (con t); cbn; try reflexivity. destruct (fpaused t); [reflexivity|]. destruct (decide _); reflexivity.
  - cbn [con lift]. destruct (con t) eqn:E; cbn; try reflexivity. f_equal. destruct (state t); reflexivity.
  - cbn [con lift]. destruct (con t) eqn:E; cbn; reflexivity.
  - cbn [con lift]. destruct (con t) as [| | |b [c|]|] eqn:E; cbn; try reflexivity. rewrite shift_lookup0. destruct (chans t !! c) as [ch|]; cbn; [|reflexivity]. destruct (c_closed ch); [reflexivity|].
    destruct (_ <? _); [|reflexivity]. cbn. f_equal. apply st_eq; cbn; try reflexivity. apply shift_insert0.
  - cbn [pops lift]. rewrite shift_lookup. destruct (pops t !! j) as [[c x [|r b] [|] dn]|] eqn:E; cbn; try reflexivity. rewrite shift_lookup0. destruct (chans t !! c) as [[[|b q] [|]]|]; cbn; try reflexivity.
    + f_equal. apply lift_setPop.
    + f_equal. rewrite (shift_insert0 (oc o)). exact (lift_setPop o j c x b true dn (set_chans (<[c := mkCh q true]> (chans t)) t)).
    + f_equal. rewrite (shift_insert0 (oc o)). exact (lift_setPop o j c x b true dn (set_chans (<[c := mkCh q false]> (chans t)) t)).
  - cbn [pops lift]. rewrite shift_lookup. destruct (pops t !! j) as [[c x [|r b] [|] dn]|] eqn:E; try reflexivity. cbn -[handleRecord]. fold (lift o t). rewrite lift_handle. pose proof (handle_frame2 x r t) as (_ & _ & Ep). destruct (handleRecord x r t) as [cp t1] eqn:H. cbn [snd] in Ep. cbn. f_equal.
    rewrite <- Ep. apply lift_setPop.
Qed.

(** the old sync calls and populators have no step left *)
Definition still (o : off) : Prop := (forall j P, op o !! j = Some P -> p_live P = false) /\ (forall i y, oy o !! i = Some y -> exists m, sy_stage y = SDone m).
Lemma lift_cover o t a : still o -> (exists a', a = liftA o a') \/ step (lift o t) a = None.
Proof.
  intros [S1 S2].
  assert (Y : forall i, (exists i', i = length (oy o) + i') \/ exists k x m, syncs (lift o t) !! i = Some (mkSync k x (SDone m))).
  { intros i. destruct (decide (i < length (oy o))) as [L|L]; [right|left; exists (i - length (oy o)); lia]. destruct (lookup_lt_is_Some_2 _ _ L) as [y Hy]. destruct (S2 i y Hy) as [m Hm]. destruct y as [k x g]. cbn in Hm. subst g.
    exists k, x, m. cbn. rewrite lookup_app_l by exact L. exact Hy. }
  assert (Z : forall j, (exists j', j = length (op o) + j') \/ exists c x b d, pops (lift o t) !! j = Some (mkPop c x b false d)).
  { intros j. destruct (decide (j < length (op o))) as [L|L]; [right|left; exists (j - length (op o)); lia]. destruct (lookup_lt_is_Some_2 _ _ L) as [P HP]. pose proof (S1 j P HP) as Hl. destruct P as [c x b l d]. cbn in Hl. subst l.
    exists c, x, b, d. cbn. rewrite lookup_app_l by exact L. exact HP. }
  destruct a as [n| | | | | |i|i|i|i|n| | | |j|j].
  - left. exists (AWrite n). reflexivity.
  - left. exists AForeign. reflexivity.
  - left. exists APrepare. reflexivity.
  - left. exists AForget. reflexivity.
  - left. exists AAssign. reflexivity.
  - left. exists ARevoke. reflexivity.
  - destruct (Y i) as [[i' ->]|(k & x & m & E)]; [left; exists (ARegister i'); reflexivity|right; cbn [step]; rewrite E; reflexivity].
  - destruct (Y i) as [[i' ->]|(k & x & m & E)]; [left; exists (ASend i'); reflexivity|right; cbn [step]; rewrite E; reflexivity].
  - destruct (Y i) as [[i' ->]|(k & x & m & E)]; [left; exists (AFail i'); reflexivity|right; cbn [step]; rewrite E; reflexivity].
  - destruct (Y i) as [[i' ->]|(k & x & m & E)]; [left; exists (AReturn i'); reflexivity|right; cbn [step]; rewrite E; reflexivity].
  - left. exists (CPoll n). reflexivity.
  - left. exists CCheck. reflexivity.
  - left. exists CEval. reflexivity.
  - left. exists CPut. reflexivity.
  - destruct (Z j) as [[j' ->]|(c & x & b & d & E)]; [left; exists (PTake j'); reflexivity|right; cbn [step]; rewrite E; destruct b; reflexivity].
  - destruct (Z j) as [[j' ->]|(c & x & b & d & E)]; [left; exists (PHandle j'); reflexivity|right; cbn [step]; rewrite E; destruct b; reflexivity].
Qed.

(** the marks of the sync calls are new *)
Definition hi (n : nat) (t : st) : Prop := n <= nextMark t /\ forall m, m ∈ own t -> n <= m.
Lemma own_frame s s' : syncs s' = syncs s -> own s' = own s.
Proof. unfold own. intros ->. reflexivity. Qed.
Lemma own_add k x s : own (addSync k x s) = own s.
Proof. unfold own. cbn. rewrite omap_app. cbn. apply app_nil_r. Qed.
Lemma hi_frame n s s' : hi n s -> nextMark s <= nextMark s' -> syncs s' = syncs s -> hi n s'.
Proof. intros [A B] L E. split; [lia|]. rewrite (own_frame s s' E). exact B. Qed.
Lemma hi_add n k x s : hi n s -> hi n (addSync k x s).
Proof. intros [A B]. split; [exact A|]. rewrite own_add. exact B. Qed.
Lemma step_hi n s a s' : hi n s -> step s a = Some s' -> hi n s'.
Proof.
  intros H E. destruct a as [k| | | | | |i|i|i|i|k| | | |j|j]; cbn [step] in E.
  - injection E as <-. apply (hi_frame n s); [exact H|cbn; lia|reflexivity].
  - injection E as <-. apply (hi_frame n s); [exact H|cbn; lia|reflexivity].
  - destruct (prepping s); [injection E as <-; exact H|]. unfold assignStore in E. destruct (store s); injection E as <-; apply hi_add, (hi_frame n s); try reflexivity; exact H.
  - injection E as <-. destruct (prepping s); [|exact H]. apply (hi_frame n s); [exact H| |apply cancel_frame]. cbn. rewrite (proj1 (proj2 (cancel_frame s))). lia.
  - unfold assignStore in E. destruct (store s); injection E as <-; cbn; destruct (prepping s); try destruct (worker s); first [exact H|apply hi_add, (hi_frame n s); try reflexivity; exact H|apply (hi_frame n s); try reflexivity; exact H].
  - injection E as <-. apply (hi_frame n s); [exact H|cbn; lia|reflexivity].
  - destruct (syncs s !! i) as [[k x [|m|m|m]]|] eqn:Y; try discriminate. injection E as <-. destruct H as [A B]. split; [cbn; lia|]. intros m Hm. change (m ∈ own (setSync i k x (SReg (nextMark s)) s)) in Hm. apply (own_set_new s i k x (nextMark s) m Y) in Hm as [->|Hm]; [exact A|apply B, Hm].
  - destruct (syncs s !! i) as [[k x [|m|m|m]]|] eqn:Y; try discriminate. injection E as <-. destruct H as [A B]. split; [exact A|]. intros m' Hm. change (m' ∈ own (setSync i k x (SSent m) s)) in Hm. rewrite (own_set_same s i k x (SReg m) (SSent m) Y eq_refl) in Hm. apply B, Hm.
  - destruct (syncs s !! i) as [[k x [|m|m|m]]|] eqn:Y; try discriminate. injection E as <-. destruct H as [A B]. split; [exact A|]. intros m' Hm. rewrite (own_set_same s i k x (SReg m) (SSent m) Y eq_refl) in Hm. apply B, Hm.
  - destruct (syncs s !! i) as [[k x [|m|m|m]]|] eqn:Y; try discriminate. destruct (decide _); [|discriminate]. injection E as <-. destruct H as [A B]. split; [exact A|]. intros m' Hm. rewrite (own_set_same s i k x (SSent m) (SDone m) Y eq_refl) in Hm. apply B, Hm.
  - destruct (con s); try discriminate. destruct (fpaused s); [discriminate|]. destruct (decide _); [|discriminate]. injection E as <-. exact H.
  - destruct (con s); try discriminate. injection E as <-. destruct (state s); exact H.
  - destruct (con s); try discriminate. injection E as <-. exact H.
  - destruct (con s) as [| | |b [c|]|]; try discriminate. destruct (chans s !! c) as [ch|]; [|discriminate]. destruct (c_closed ch); [injection E as <-; exact H|]. destruct (_ <? _); [|discriminate]. injection E as <-. exact H.
  - destruct (pops s !! j) as [[c x [|r b] [|] dn]|]; try discriminate. destruct (chans s !! c) as [[[|b q] [|]]|]; try discriminate; injection E as <-; exact H.
  - destruct (pops s !! j) as [[c x [|r b] [|] dn]|]; try discriminate. pose proof (handle_frame x r s) as (_ & Q2 & Q3). destruct (handleRecord x r s) as [cp s1]. cbn [snd] in *. injection E as <-. apply (hi_frame n s); [exact H|cbn; lia|exact Q3].
Qed.

Lemma lift_run o n acts : still o -> (forall m, m ∈ released (otr o) -> m < n) -> forall t s, hi n t -> run (lift o t) acts = Some s ->
  exists acts' t', acts = map (liftA o) acts' /\ run t acts' = Some t' /\ s = lift o t' /\ hi n t'.
Proof.
  intros S R. induction acts as [|a acts IH]; intros t s H E; cbn in E.
  - injection E as <-. exists [], t. auto.
  - destruct (step (lift o t) a) as [s1|] eqn:E1; [|discriminate]. destruct (lift_cover o t a S) as [[a' ->]|N]; [|congruence].
    rewrite lift_step in E1 by (intros m Hm Hr; apply R in Hr; apply H in Hm; lia). destruct (step t a') as [t1|] eqn:E2; [|discriminate]. injection E1 as <-.
    destruct (IH t1 s (step_hi n t a' t1 H E2) E) as (acts' & t' & -> & Q2 & Q3 & Q4). exists (a' :: acts'), t'. cbn. rewrite E2. auto.
Qed.

(** the buffer, if there is one, is the newest channel *)
Definition newest (s : st) : Prop := exists n, length (chans s) = S n /\ (buf s = None \/ buf s = Some n).
Lemma newest_frame s s' : newest s -> length (chans s') = length (chans s) -> buf s' = buf s \/ buf s' = None -> newest s'.
Proof. intros (n & A & B) L E. exists n. split; [lia|]. destruct E as [->| ->]; auto. Qed.
Lemma newest_cancel s : newest s -> newest (cancel s).
Proof.
  intros H. apply (newest_frame s); [exact H|..]; unfold cancel, pause, closeCh; cbn; destruct (buf s) as [c|] eqn:B; cbn; try destruct (chans s !! c); cbn; rewrite ?insert_length; auto.
Qed.
Lemma newest_prep i x s : newest s -> newest (prep i x s).
Proof. intros (n & A & B). exists (S n). cbn. rewrite app_length. cbn. split; [lia|]. right. f_equal. exact A. Qed.
Lemma step_newest s a s' : newest s -> step s a = Some s' -> newest s'.
Proof.
  intros H E. destruct a as [k| | | | | |i|i|i|i|k| | | |j|j]; cbn [step] in E.
  - injection E as <-. exact H.
  - injection E as <-. exact H.
  - destruct (prepping s); [injection E as <-; exact H|]. destruct (assignStore s) as [x s1] eqn:A. injection E as <-. assert (H1 : newest s1) by (unfold assignStore in A; destruct (store s); injection A as <- <-; exact H). exact (newest_prep Prepping x s1 H1).
  - injection E as <-. destruct (prepping s); [exact (newest_cancel s H)|exact H].
  - destruct (assignStore s) as [x s1] eqn:A. injection E as <-. assert (H1 : newest s1) by (unfold assignStore in A; destruct (store s); injection A as <- <-; exact H). destruct (prepping s1); [exact H1|]. destruct (worker s1); [exact H1|]. exact (newest_prep Ready x s1 H1).
  - injection E as <-. exact H.
  - destruct (syncs s !! i) as [[q x [|m|m|m]]|]; try discriminate. injection E as <-. exact H.
  - destruct (syncs s !! i) as [[q x [|m|m|m]]|]; try discriminate. injection E as <-. exact H.
  - destruct (syncs s !! i) as [[q x [|m|m|m]]|]; try discriminate. injection E as <-. exact H.
  - destruct (syncs s !! i) as [[q x [|m|m|m]]|]; try discriminate. destruct (decide _); [|discriminate]. injection E as <-. exact H.
  - destruct (con s); try discriminate. destruct (fpaused s); [discriminate|]. destruct (decide _); [|discriminate]. injection E as <-. exact H.
  - destruct (con s); try discriminate. injection E as <-. destruct (state s); exact H.
  - destruct (con s); try discriminate. injection E as <-. exact H.
  - destruct (con s) as [| | |b [c|]|]; try discriminate. destruct (chans s !! c) as [ch|]; [|discriminate]. destruct (c_closed ch); [injection E as <-; exact H|]. destruct (_ <? _); [|discriminate]. injection E as <-. apply (newest_frame s); [exact H|apply insert_length|cbn; auto].
  - destruct (pops s !! j) as [[c x [|r b] [|] dn]|]; try discriminate. destruct (chans s !! c) as [[[|b q] [|]]|]; try discriminate; injection E as <-; first [exact H|apply (newest_frame s); [exact H|apply insert_length|cbn; auto]].
  - destruct (pops s !! j) as [[c x [|r b] [|] dn]|]; try discriminate. assert (N : newest (snd (handleRecord x r s))).
    { destruct r as [k|m]; cbn; [exact H|]. unfold isCompletionMarker. destruct (decide (m ∈ waiters s)); cbn; [|exact H]. destruct (state s); cbn; [exact H|exact H|]. exact (newest_cancel (set_waiters (filter (fun w => w <> m) (waiters s)) s) H). }
    destruct (handleRecord x r s) as [cp s1]. injection E as <-. exact N.
Qed.
Lemma run_newest acts : forall s s', newest s -> run s acts = Some s' -> newest s'.
Proof. induction acts as [|a acts IH]; intros s s' I H; cbn in H; [injection H as <-; exact I|]. destruct (step s a) as [s1|] eqn:E; [|discriminate]. exact (IH s1 s' (step_newest s a s1 I E) H). Qed.

(** a settled state as a shifted new one *)
Definition offs (s : st) : off := mkOff (take (length (chans s) - 1) (chans s)) (pops s) (syncs s) (trace s) (stores s) (preps s).
Definition fresh (s : st) : st :=
  mkSt (log s) (nextMark s) (pos s) true Paused (option_map (fun _ => 0) (buf s)) (drop (length (chans s) - 1) (chans s)) [] [] [] None 0 false false CIdle 0 [].
Lemma lift_fresh s : settled s -> newest s -> lift (offs s) (fresh s) = s.
Proof.
  intros [T1 T2 T3 T4 T5 T6 T7 T8 T9] (n & A & B). apply st_eq; cbn; rewrite ?T1, ?T4, ?T5, ?T6, ?T7, ?T8, ?T9, ?app_nil_r; try reflexivity; try lia.
  - destruct B as [->| ->]; cbn; [reflexivity|]. f_equal. rewrite take_length. lia.
  - apply take_drop.
Qed.
Lemma fresh_none s : newest s -> none (fresh s).
Proof.
  intros (n & A & _). split; try reflexivity. cbn. assert (L : length (drop (length (chans s) - 1) (chans s)) = 1) by (rewrite drop_length; lia).
  destruct (drop (length (chans s) - 1) (chans s)) as [|c [|]]; try discriminate. eauto.
Qed.
Lemma fresh_base s : base s -> base (fresh s).
Proof. intros [B1 B2 B3 B4 B5]. split; cbn; try assumption; [intros m H; inversion H|constructor|discriminate]. Qed.
Lemma fresh_made s : made (fresh s).
Proof. split; cbn; discriminate. Qed.

(** the events before are of stores made before *)
Definition oldev (s : st) : Prop := made s /\ forall x r, EvApply x r ∈ trace s -> x < stores s.
Lemma oldev_frame s s' : oldev s -> made s' -> stores s <= stores s' -> trace s' = trace s -> oldev s'.
Proof. intros [_ O] M L E. split; [exact M|]. intros x r H. rewrite E in H. apply O in H. lia. Qed.
Lemma cancel_trace s : trace (cancel s) = trace s.
Proof. unfold cancel, pause, closeCh; cbn. destruct (buf s) as [c|]; cbn; [destruct (chans s !! c)|]; reflexivity. Qed.
Lemma step_oldev s a s' : oldev s -> step s a = Some s' -> oldev s'.
Proof.
  intros H E. destruct (step_made s a s' (proj1 H) E) as [M L]. assert (Fr : trace s' = trace s -> oldev s') by exact (oldev_frame s s' H M L).
  destruct a as [k| | | | | |i|i|i|i|k| | | |j|j]; cbn [step] in E.
  - apply Fr. injection E as <-. reflexivity.
  - apply Fr. injection E as <-. reflexivity.
  - apply Fr. destruct (prepping s); [injection E as <-; reflexivity|]. unfold assignStore in E. destruct (store s); injection E as <-; reflexivity.
  - apply Fr. injection E as <-. destruct (prepping s); [apply cancel_trace|reflexivity].
  - apply Fr. unfold assignStore in E. destruct (store s); injection E as <-; cbn; destruct (prepping s); try destruct (worker s); reflexivity.
  - apply Fr. injection E as <-. reflexivity.
  - apply Fr. destruct (syncs s !! i) as [[q x [|m|m|m]]|]; try discriminate. injection E as <-. reflexivity.
  - apply Fr. destruct (syncs s !! i) as [[q x [|m|m|m]]|]; try discriminate. injection E as <-. reflexivity.
  - apply Fr. destruct (syncs s !! i) as [[q x [|m|m|m]]|]; try discriminate. injection E as <-. reflexivity.
  - apply Fr. destruct (syncs s !! i) as [[q x [|m|m|m]]|]; try discriminate. destruct (decide _); [|discriminate]. injection E as <-. reflexivity.
  - apply Fr. destruct (con s); try discriminate. destruct (fpaused s); [discriminate|]. destruct (decide _); [|discriminate]. injection E as <-. reflexivity.
  - apply Fr. destruct (con s); try discriminate. injection E as <-. destruct (state s); reflexivity.
  - apply Fr. destruct (con s); try discriminate. injection E as <-. reflexivity.
  - apply Fr. destruct (con s) as [| | |b [c|]|]; try discriminate. destruct (chans s !! c) as [ch|]; [|discriminate]. destruct (c_closed ch); [injection E as <-; reflexivity|]. destruct (_ <? _); [|discriminate]. injection E as <-. reflexivity.
  - apply Fr. destruct (pops s !! j) as [[c x [|r b] [|] dn]|]; try discriminate. destruct (chans s !! c) as [[[|b q] [|]]|]; try discriminate; injection E as <-; reflexivity.
  - destruct (pops s !! j) as [[c x [|r b] [|] dn]|] eqn:Pj; try discriminate. split; [exact M|]. pose proof (m_pop _ (proj1 H) j _ Pj) as Lx. cbn in Lx.
    assert (T : forall y q, EvApply y q ∈ trace (snd (handleRecord x r s)) -> y < stores s).
    { intros y q Hq. destruct r as [k|m]; cbn in Hq.
      - apply elem_of_app in Hq as [Hq|Hq]; [exact (proj2 H _ _ Hq)|]. apply elem_of_list_singleton in Hq. injection Hq as -> ->. exact Lx.
      - unfold isCompletionMarker in Hq. destruct (decide (m ∈ waiters s)); cbn in Hq; [|exact (proj2 H _ _ Hq)]. destruct (state s); cbn in Hq; rewrite ?cancel_trace in Hq; (apply elem_of_app in Hq as [Hq|Hq]; [exact (proj2 H _ _ Hq)|apply elem_of_list_singleton in Hq; discriminate]). }
    destruct (handleRecord x r s) as [cp s1]. injection E as <-. intros y q Hq. pose proof (T y q Hq). lia.
Qed.
Lemma run_oldev acts : forall s s', oldev s -> run s acts = Some s' -> oldev s'.
Proof. induction acts as [|a acts IH]; intros s s' I H; cbn in H; [injection H as <-; exact I|]. destruct (step s a) as [s1|] eqn:E; [|discriminate]. exact (IH s1 s' (step_oldev s a s1 I E) H). Qed.
Lemma oldev_applied s x : oldev s -> stores s <= x -> applied x (trace s) = [].
Proof.
  intros [_ O] L. assert (G : forall tr, (forall y r, EvApply y r ∈ tr -> y < x) -> applied x tr = []).
  { induction tr as [|[y r|m] tr IH]; intros Q; cbn; [reflexivity| |apply IH; intros y r H; apply (Q y r); right; exact H].
    destruct (Nat.eqb_spec x y) as [->|_]; [pose proof (Q y r ltac:(left)); lia|]. apply IH. intros y' r' H. apply (Q y' r'). right. exact H. }
  apply G. intros y r H. apply O in H. lia.
Qed.
Lemma applied_lift o x tr : applied (os o + x) (shE o <$> tr) = applied x tr.
Proof. induction tr as [|[y r|m] tr IH]; cbn; [reflexivity| |exact IH]. destruct (Nat.eqb_spec (os o + x) (os o + y)), (Nat.eqb_spec x y); try lia; cbn; first [exact IH|f_equal; exact IH]. Qed.
Lemma applied_lift_old o x tr : x < os o -> applied x (shE o <$> tr) = [].
Proof. intros L. induction tr as [|[y r|m] tr IH]; cbn; [reflexivity| |exact IH]. destruct (Nat.eqb_spec x (os o + y)); [lia|exact IH]. Qed.

(** all that is needed of a state reached from the start *)
Lemma reached l n acts s : (forall m, m ∈ marks l -> m < n) -> NoDup (marks l) -> run (start l n) acts = Some s -> base s /\ fromLog s /\ newest s /\ oldev s.
Proof.
  intros A B R. split; [exact (proj1 (run_inv acts _ _ (inv_start l n A B) R))|]. split; [exact (run_from acts _ _ (from_start l n) R)|]. split.
  - apply (run_newest acts (start l n)); [|exact R]. exists 0. auto.
  - apply (run_oldev acts (start l n)); [|exact R]. split; [apply made_start|]. intros x r H. inversion H.
Qed.

Lemma later s0 acts s : base s0 -> fromLog s0 -> newest s0 -> settled s0 -> run s0 acts = Some s ->
  exists acts' t, acts = map (liftA (offs s0)) acts' /\ run (fresh s0) acts' = Some t /\ s = lift (offs s0) t /\ hi (nextMark s0) t.
Proof.
  intros Bs F N T R. rewrite <- (lift_fresh s0 T N) in R. revert R. apply lift_run.
  - split; apply T.
  - intros m Hm. cbn in Hm. apply (b_log _ Bs), elem_of_marks, (f_rel _ F), elem_released, Hm.
  - split; [cbn; lia|]. intros m Hm. inversion Hm.
Qed.
