(** The invariant of the scheduler, and that every step keeps it. *)
From stdpp Require Import prelude list.
From Coq Require Import ZArith.
From Verif.ItemQueue Require Model Proofs.
From Verif.Scheduler Require Import Model Base.
Import ItemQueue.Model(size, head, chan).
Notation qcap := ItemQueue.Model.chcap.

(** ** a worker is held by at most one of: a worker channel, a goroutine, a caller about to enqueue it *)
Definition is (w x : nat) : nat := if decide (x = w) then 1 else 0.
Definition ctok (w : nat) (x : cst) : nat := match x with CEnq w' => is w w' | _ => 0 end.
Definition gtok (w : nat) (x : gst) : nat :=
  match x with GProc w' | GRun w' _ | GAdv w' _ | GDeliver w' _ | GRel w' | GEnq w' => is w w' | _ => 0 end.
Definition tok (w : nat) (s : st) : nat := lsum (ctok w) (callers s) + lsum (gtok w) (gs s) + lsum (cnt w) (chans s).
Definition cblk (w : nat) (x : cst) : nat := match x with CBlock w' _ => is w w' | _ => 0 end.
Definition blk (w : nat) (s : st) : nat := lsum (cblk w) (callers s).
Definition nmap (w : nat) (s : st) : nat := cnt w (wmap s).*2.

Record invA (s : st) : Prop := {
  i_nd : NoDup (wmap s).*1;
  i_tok : forall w, tok w s <= nmap w s;
  i_one : forall w, nmap w s + cnt w (pool s) <= 1;
  i_ex : forall w, 0 < nmap w s + cnt w (pool s) -> is_Some (ws s !! w);
  i_chans : chans s <> [] }.

Record invB (s : st) : Prop := {
  i_w : forall w o, ws s !! w = Some o -> qcap (wq o) = Nat.max 2 (wcap o) - 1 /\ length (chan (wq o)) <= qcap (wq o);
  i_key : forall k w, (k, w) ∈ wmap s -> exists o, ws s !! w = Some o /\ wkey o = k /\ forall j, j ∈ contents (wq o) -> jkey j = k;
  i_pool : forall w o, w ∈ pool s -> ws s !! w = Some o -> contents (wq o) = [] /\ size (wq o) = 0%Z;
  i_size : forall w o, ws s !! w = Some o -> (Z.of_nat (length (contents (wq o)) + blk w s) <= size (wq o))%Z;
  i_blk : forall c w j, callers s !! c = Some (CBlock w j) -> (jkey j, w) ∈ wmap s }.

(** the job a goroutine is at, with its worker *)
Definition hold (x : gst) : option (nat * job) := match x with GRun w j | GAdv w j | GDeliver w j => Some (w, j) | _ => None end.
Definition running (x : gst) : option (nat * job) := match x with GRun w j | GAdv w j => Some (w, j) | _ => None end.
Definition delivering (x : gst) : option (nat * job) := match x with GDeliver w j => Some (w, j) | _ => None end.
Definition one (k : nat) (o : option (nat * job)) : list job := match o with Some (_, j) => if keyis k j then [j] else [] | None => [] end.
Definition wat (s : st) (w : nat) : list job := match ws s !! w with Some o => contents (wq o) | None => [] end.
Definition queued (s : st) (k : nat) : list job := match mlookup k (wmap s) with Some w => wat s w | None => [] end.

Record invC (s : st) : Prop := {
  i_hold : forall g x w j, gs s !! g = Some x -> hold x = Some (w, j) -> (jkey j, w) ∈ wmap s;
  i_head : forall g x w j, gs s !! g = Some x -> running x = Some (w, j) -> exists o, ws s !! w = Some o /\ head (wq o) = Some j;
  i_fifo : forall k, jof (keyis k) (inserted s) = jof (keyis k) (taken s) ++ queued s k;
  i_start : forall k, jof (keyis k) (started s) = jof (keyis k) (taken s) ++ fm (fun x => one k (running x)) (gs s);
  i_deliv : forall k, jof (keyis k) (taken s) = jof (keyis k) (delivered s) ++ fm (fun x => one k (delivering x)) (gs s) }.

Record inv (s : st) : Prop := { iA : invA s; iB : invB s; iC : invC s }.

Ltac ss := cbn [setc setg setq setMax set_callers set_gs set_ws set_wmap set_chans set_chcap set_signal set_maxk set_depth set_pool set_closed set_comps set_ccap set_accepted
  set_completed set_inserted set_started set_taken set_delivered set_collected callers gs ws wmap chans chcap signal maxk depth pool closed comps ccap accepted completed
  inserted started taken delivered collected] in *.

(** ** what a step under ap.mux in Schedule does *)
(** the state in which the worker for the key is in the map *)
Inductive prepared (s : st) (j : job) : nat -> bool -> st -> Prop :=
| p_old w : mlookup (jkey j) (wmap s) = Some w -> prepared s j w false s
| p_new : mlookup (jkey j) (wmap s) = None -> length (wmap s) < maxk s ->
    prepared s j (length (ws s)) true (set_wmap ((jkey j, length (ws s)) :: wmap s) (set_ws (ws s ++ [mkW (jkey j) (depth s) (newQueue (depth s))]) s))
| p_pool i w o : mlookup (jkey j) (wmap s) = None -> length (wmap s) < maxk s -> pool s !! i = Some w -> ws s !! w = Some o -> wcap o = depth s ->
    prepared s j w true (set_wmap ((jkey j, w) :: wmap s) (set_pool (delete i (pool s)) (set_ws (<[w := mkW (jkey j) (wcap o) (wq o)]> (ws s)) s))).
Lemma grab_cases c j src s s' : grab c j src s = Some s' ->
  (mlookup (jkey j) (wmap s) = None /\ maxk s <= length (wmap s) /\ s' = setc c (CWait j) s) \/
  (exists w b s1, prepared s j w b s1 /\ addTo c j w b s1 = Some s').
Proof.
  unfold grab. destruct (mlookup (jkey j) (wmap s)) as [w|] eqn:E.
  - intros H. right. exists w, false, s. split; auto. constructor. auto.
  - destruct (Nat.leb_spec (maxk s) (length (wmap s))) as [L|L]; [intros [= <-]; auto|]. right. destruct src as [i|].
    + destruct (pool s !! i) as [w|] eqn:Ep; [|discriminate]. destruct (ws s !! w) as [o|] eqn:Ew; [|discriminate].
      destruct (Nat.eqb_spec (wcap o) (depth s)) as [D|D]; [|discriminate]. eexists w, true, _. split; [|eassumption]. eapply p_pool; eauto.
    + eexists _, true, _. split; [|eassumption]. apply p_new; auto.
Qed.

Lemma newq_facts d : contents (newQueue (T:=job) d) = [] /\ size (newQueue (T:=job) d) = 0%Z /\ qcap (newQueue (T:=job) d) = Nat.max 2 d - 1 /\ chan (newQueue (T:=job) d) = [] /\ head (newQueue (T:=job) d) = None.
Proof.
  unfold newQueue, ItemQueue.Model.newQueue, ItemQueue.Model.minWorkItemQueueSize. cbn [qcap size chan head]. repeat split. destruct (Nat.ltb_spec d 2); lia.
Qed.
Lemma is_le w x : is w x <= 1.
Proof. unfold is. case_decide; lia. Qed.
Lemma is_refl w : is w w = 1.
Proof. unfold is. rewrite decide_True; auto. Qed.
Lemma nmap_in w s : 0 < nmap w s <-> exists k, (k, w) ∈ wmap s.
Proof.
  unfold nmap. rewrite cnt_pos, elem_of_list_fmap. split.
  - intros ((k & w') & -> & H). eauto.
  - intros (k & H). exists (k, w). auto.
Qed.
Lemma map_inj s k k' w : invA s -> (k, w) ∈ wmap s -> (k', w) ∈ wmap s -> k = k'.
Proof.
  intros A H H'. pose proof (i_one s A w) as O. unfold nmap in O. assert (L : cnt w (wmap s).*2 <= 1) by lia. clear O A.
  induction (wmap s) as [|[k0 w0] m IH]; [inversion H|]. rewrite fmap_cons, cnt_cons in L. cbn [snd] in L.
  rewrite elem_of_cons in H, H'.
  assert (P : forall k1, (k1, w) ∈ m -> 0 < cnt w m.*2) by (intros k1 H1; apply cnt_pos, elem_of_list_fmap; exists (k1, w); auto).
  destruct H as [E|H], H' as [E'|H'].
  - congruence.
  - apply P in H'. rewrite decide_True in L by congruence. lia.
  - apply P in H. rewrite decide_True in L by congruence. lia.
  - apply IH; auto. lia.
Qed.
Lemma map_fun s k w w' : invA s -> (k, w) ∈ wmap s -> (k, w') ∈ wmap s -> w = w'.
Proof. intros A H H'. apply (mlookup_In k _ _ (i_nd s A)) in H, H'. congruence. Qed.

(** *** preparing keeps the invariant *)
Lemma prepared_inv s j w b s1 : inv s -> prepared s j w b s1 ->
  inv s1 /\ mlookup (jkey j) (wmap s1) = Some w /\ callers s1 = callers s /\ gs s1 = gs s /\ (b = true -> tok w s1 = 0 /\ blk w s1 = 0 /\ wat s1 w = [] /\ exists o, ws s1 !! w = Some o /\ head (wq o) = None).
Proof.
  intros I P. destruct I as [A B C]. pose proof (i_nd s A) as ND. destruct P as [w E|E L|i w o E L Ep Ew Ed].
  - split; [split; auto|]. repeat split; auto; discriminate.
  - destruct (newq_facts (depth s)) as (N1 & N2 & N3 & N4 & N5).
    assert (Fr : nmap (length (ws s)) s = 0 /\ cnt (length (ws s)) (pool s) = 0).
    { destruct (decide (0 < nmap (length (ws s)) s + cnt (length (ws s)) (pool s))) as [H|H]; [|lia].
      apply (i_ex s A) in H as (o & H). apply lookup_lt_Some in H. lia. }
    destruct Fr as (Fr1 & Fr2). set (w := length (ws s)) in *.
    assert (NB : blk w s = 0).
    { unfold blk. apply lsum_zero. intros c x H. destruct x; cbn; auto. unfold is. case_decide; auto. subst.
      apply (i_blk s B) in H. assert (0 < nmap w s) by (apply nmap_in; eauto). lia. }
    assert (NT : tok w s = 0) by (pose proof (i_tok s A w); lia).
    assert (Lk : forall w' o, (ws s ++ [mkW (jkey j) (depth s) (newQueue (depth s))]) !! w' = Some o ->
      ws s !! w' = Some o \/ (w' = w /\ o = mkW (jkey j) (depth s) (newQueue (depth s)))).
    { intros w' o H. apply lookup_app_Some in H as [H|(H & H')]; auto. right. apply list_lookup_singleton_Some in H' as (? & ?). split; [lia|auto]. }
    assert (Lw : (ws s ++ [mkW (jkey j) (depth s) (newQueue (depth s))]) !! w = Some (mkW (jkey j) (depth s) (newQueue (depth s)))).
    { apply lookup_app_Some. right. split; [reflexivity|]. unfold w. rewrite Nat.sub_diag. reflexivity. }
    assert (Lo : forall w', is_Some (ws s !! w') -> (ws s ++ [mkW (jkey j) (depth s) (newQueue (depth s))]) !! w' = ws s !! w').
    { intros w' (o & H). apply lookup_app_l. apply lookup_lt_Some in H. lia. }
    split; [split|].
    + split; unfold nmap, tok in *; ss.
      * cbn [fmap list_fmap fst]. constructor; auto. apply mlookup_None. auto.
      * intros w'. rewrite fmap_cons, cnt_cons. pose proof (i_tok s A w') as H. unfold nmap, tok in H. lia.
      * intros w'. rewrite fmap_cons, cnt_cons. cbn [snd]. pose proof (i_one s A w') as H. unfold nmap in H. case_decide; subst; lia.
      * intros w' H. rewrite fmap_cons, cnt_cons in H. cbn [snd] in H. case_decide; subst; [rewrite Lw; eauto|].
        rewrite Lo; apply (i_ex s A w'); unfold nmap; lia.
      * apply (i_chans s A).
    + split; unfold blk in *; ss.
      * intros w' o H. apply Lk in H as [H|(-> & ->)]; [eapply i_w; eauto|]. cbn [wq wcap]. rewrite N3, N4. cbn [length]. lia.
      * intros k w' H. apply elem_of_cons in H as [[= -> ->]|H].
        -- eexists. split; [exact Lw|]. cbn [wkey wq]. split; auto. rewrite N1. intros j' H. inversion H.
        -- destruct (i_key s B k w' H) as (o & H1 & H2). exists o. rewrite Lo by eauto. auto.
      * intros w' o Hp H. apply Lk in H as [H|(-> & ->)]; [eapply i_pool; eauto|]. cbn [wq]. auto.
      * intros w' o H. apply Lk in H as [H|(-> & ->)]; [apply (i_size s B w' o H)|]. cbn [wq]. rewrite N1, N2, NB. cbn [length]. lia.
      * intros c w' j' H. apply elem_of_cons. right. eapply i_blk; eauto.
    + assert (Q : forall k, queued (set_wmap ((jkey j, w) :: wmap s) (set_ws (ws s ++ [mkW (jkey j) (depth s) (newQueue (depth s))]) s)) k = queued s k).
      { intros k. unfold queued, wat. ss. cbn [mlookup]. destruct (decide (k = jkey j)) as [->|Dk].
        - rewrite E, Lw. exact N1.
        - destruct (mlookup k (wmap s)) as [w'|] eqn:E'; auto. apply mlookup_In in E'; auto. destruct (i_key s B _ _ E') as (o & H1 & _).
          rewrite Lo by eauto. auto. }
      split; ss.
      * intros g x w' j' H H'. apply elem_of_cons. right. eapply i_hold; eauto.
      * intros g x w' j' H H'. destruct (i_head s C g x w' j' H H') as (o & H1 & H2). exists o. rewrite Lo by eauto. auto.
      * intros k. rewrite Q. apply (i_fifo s C).
      * apply (i_start s C).
      * apply (i_deliv s C).
    + unfold tok, blk, wat in *. ss. cbn [mlookup]. rewrite decide_True by auto. rewrite Lw. split; auto. split; auto. split; auto.
      intros _. repeat split; auto. eexists. split; [reflexivity|]. exact N5.
  - assert (Wp : w ∈ pool s) by (eapply elem_of_list_lookup_2; eauto).
    assert (Cp : 0 < cnt w (pool s)) by (apply cnt_pos; auto).
    pose proof (i_one s A w) as One. assert (Nm : nmap w s = 0) by lia.
    destruct (i_pool s B w o Wp Ew) as (P1 & P2).
    assert (NB : blk w s = 0).
    { pose proof (i_size s B w o Ew) as H. rewrite P2 in H. lia. }
    assert (NT : tok w s = 0) by (pose proof (i_tok s A w); lia).
    set (o' := mkW (jkey j) (wcap o) (wq o)).
    assert (Lw : <[w := o']> (ws s) !! w = Some o') by (apply list_lookup_insert; eapply lookup_lt_Some; eauto).
    assert (Lo : forall w', w' <> w -> <[w := o']> (ws s) !! w' = ws s !! w') by (intros; apply list_lookup_insert_ne; auto).
    assert (Hd : head (wq o) = None).
    { unfold ItemQueue.Proofs.contents in P1. destruct (head (wq o)); [discriminate|auto]. }
    split; [split|].
    + split; unfold nmap, tok in *; ss.
      * cbn [fmap list_fmap fst]. constructor; auto. apply mlookup_None. auto.
      * intros w'. rewrite fmap_cons, cnt_cons. pose proof (i_tok s A w') as H. unfold nmap, tok in H. lia.
      * intros w'. rewrite fmap_cons, cnt_cons. cbn [snd]. pose proof (i_one s A w') as H. unfold nmap in H. pose proof (cnt_delete w' (pool s) i w Ep). lia.
      * intros w' H. rewrite fmap_cons, cnt_cons in H. cbn [snd] in H. destruct (decide (w' = w)) as [->|Dw]; [rewrite Lw; eauto|].
        rewrite Lo by auto. apply (i_ex s A w'). unfold nmap. pose proof (cnt_delete w' (pool s) i w Ep). rewrite decide_False in * by auto. lia.
      * apply (i_chans s A).
    + split; unfold blk in *; ss.
      * intros w' o1 H. destruct (decide (w' = w)) as [->|Dw]; [rewrite Lw in H; injection H as <-; apply (i_w s B w o Ew)|]. rewrite Lo in H by auto. eapply i_w; eauto.
      * intros k w' H. apply elem_of_cons in H as [[= -> ->]|H].
        -- eexists. split; [exact Lw|]. cbn. split; auto. rewrite P1. intros j' H. inversion H.
        -- assert (w' <> w). { intros ->. assert (0 < nmap w s) by (apply nmap_in; eauto). lia. }
           destruct (i_key s B k w' H) as (o1 & H1 & H2). exists o1. rewrite Lo by auto. auto.
      * intros w' o1 Hp H. assert (Hp' : 0 < cnt w' (delete i (pool s))) by (apply cnt_pos; auto).
        pose proof (cnt_delete w' (pool s) i w Ep) as CD.
        destruct (decide (w' = w)) as [->|Dw]; [rewrite decide_True in CD by auto; lia|]. rewrite Lo in H by auto. apply (i_pool s B w' o1); auto. apply cnt_pos. lia.
      * intros w' o1 H. destruct (decide (w' = w)) as [->|Dw]; [rewrite Lw in H; injection H as <-; apply (i_size s B w o Ew)|]. rewrite Lo in H by auto. apply (i_size s B w' o1 H).
      * intros c w' j' H. apply elem_of_cons. right. eapply i_blk; eauto.
    + assert (Q : forall k, queued (set_wmap ((jkey j, w) :: wmap s) (set_pool (delete i (pool s)) (set_ws (<[w := o']> (ws s)) s))) k = queued s k).
      { intros k. unfold queued, wat. ss. cbn [mlookup]. destruct (decide (k = jkey j)) as [->|Dk].
        - rewrite E, Lw. exact P1.
        - destruct (mlookup k (wmap s)) as [w'|] eqn:E'; auto. apply mlookup_In in E'; auto.
          assert (w' <> w). { intros ->. assert (0 < nmap w s) by (apply nmap_in; eauto). lia. }
          rewrite Lo by auto. auto. }
      split; ss.
      * intros g x w' j' H H'. apply elem_of_cons. right. eapply i_hold; eauto.
      * intros g x w' j' H H'. destruct (i_head s C g x w' j' H H') as (o1 & H1 & H2). destruct (decide (w' = w)) as [->|Dw].
        -- exists o'. split; auto. cbn. congruence.
        -- exists o1. rewrite Lo by auto. auto.
      * intros k. rewrite Q. apply (i_fifo s C).
      * apply (i_start s C).
      * apply (i_deliv s C).
    + unfold tok, blk, wat in *. ss. cbn [mlookup]. rewrite decide_True by auto. fold o'. rewrite Lw. split; auto. split; auto. split; auto.
      intros _. repeat split; auto. eexists. split; [reflexivity|]. exact Hd.
Qed.

(** *** steps that only move a worker around *)
Lemma inv_move s s' : inv s ->
  ws s' = ws s -> wmap s' = wmap s -> pool s' = pool s -> inserted s' = inserted s -> started s' = started s -> taken s' = taken s -> delivered s' = delivered s ->
  (forall w, tok w s' <= tok w s) -> chans s' <> [] -> (forall w, blk w s' <= blk w s) ->
  (forall c w j, callers s' !! c = Some (CBlock w j) -> exists c', callers s !! c' = Some (CBlock w j)) ->
  (forall g x p, gs s' !! g = Some x -> hold x = Some p -> exists g' y, gs s !! g' = Some y /\ hold y = Some p /\ running y = running x) ->
  (forall k, fm (fun x => one k (running x)) (gs s') = fm (fun x => one k (running x)) (gs s)) ->
  (forall k, fm (fun x => one k (delivering x)) (gs s') = fm (fun x => one k (delivering x)) (gs s)) -> inv s'.
Proof.
  intros [A B C] E1 E2 E3 E4 E5 E6 E7 T Ch Bk Cb H R D. split; split; unfold nmap, queued, wat in *; rewrite ?E1, ?E2, ?E3, ?E4, ?E5, ?E6, ?E7; try apply A; auto.
  - intros w. rewrite <- E2 in *. specialize (T w). pose proof (i_tok s A w) as Q. unfold nmap in Q. rewrite E2. lia.
  - apply B.
  - apply B.
  - apply B.
  - intros w o Hw. pose proof (i_size s B w o Hw) as Q. specialize (Bk w). lia.
  - intros c w j Hc. destruct (Cb c w j Hc) as (c' & Hc'). eapply i_blk; eauto.
  - intros g x w j Hg Hh. destruct (H g x _ Hg Hh) as (g' & y & Hy & Hh' & _). eapply i_hold; eauto.
  - intros g x w j Hg Hr. assert (Hh : hold x = Some (w, j)) by (destruct x; cbn in *; congruence).
    destruct (H g x _ Hg Hh) as (g' & y & Hy & _ & Hr'). rewrite <- Hr' in Hr. eapply i_head; eauto.
  - apply C.
  - intros k. rewrite R. apply C.
  - intros k. rewrite D. apply C.
Qed.

Ltac frame := eapply inv_move; [eassumption|ss; reflexivity|ss; reflexivity|ss; reflexivity|ss; reflexivity|ss; reflexivity|ss; reflexivity|ss; reflexivity| | | | | | | ].
Lemma inv_same s s' : inv s -> callers s' = callers s -> gs s' = gs s -> chans s' = chans s -> ws s' = ws s -> wmap s' = wmap s -> pool s' = pool s ->
  inserted s' = inserted s -> started s' = started s -> taken s' = taken s -> delivered s' = delivered s -> inv s'.
Proof.
  intros I E1 E2 E3 E4 E5 E6 E7 E8 E9 E10. eapply inv_move; eauto; unfold tok, blk; rewrite ?E1, ?E2, ?E3; auto.
  - apply (iA s I).
  - eauto.
  - eauto.
Qed.
Lemma inv_setc c x y s : inv s -> callers s !! c = Some y -> (forall w, ctok w x <= ctok w y) -> (forall w, cblk w x <= cblk w y) -> (forall w j, x = CBlock w j -> y = x) -> inv (setc c x s).
Proof.
  intros I E T Bk Cb. eapply (inv_move s); ss; eauto; unfold tok, blk; ss.
  - intros w. pose proof (lsum_insert (ctok w) _ _ _ x E). specialize (T w). lia.
  - apply (iA s I).
  - intros w. pose proof (lsum_insert (cblk w) _ _ _ x E). specialize (Bk w). lia.
  - intros c' w j H. apply list_lookup_insert_Some in H as [(-> & -> & L)|(N & H)]; [exists c'; rewrite (Cb w j eq_refl) in E; auto|eauto].
Qed.
Lemma inv_setg g x y s : inv s -> gs s !! g = Some y -> (forall w, gtok w x <= gtok w y) -> running x = running y -> delivering x = delivering y -> inv (setg g x s).
Proof.
  intros I E T R D. eapply (inv_move s); ss; eauto; unfold tok, blk; ss; auto.
  - intros w. pose proof (lsum_insert (gtok w) _ _ _ x E). specialize (T w). lia.
  - apply (iA s I).
  - intros g' z p H Hh. apply list_lookup_insert_Some in H as [(-> & -> & L)|(N & H)]; [|eauto].
    exists g', y. split; auto. split; auto. destruct z, y; cbn in *; congruence.
  - intros k. eapply fm_same; eauto. cbn beta. rewrite R. auto.
  - intros k. eapply fm_same; eauto. cbn beta. rewrite D. auto.
Qed.

Lemma tok_g s g x w : invA s -> gs s !! g = Some x -> 0 < gtok w x -> 0 < nmap w s.
Proof. intros A E T. pose proof (i_tok s A w) as Q. pose proof (lsum_elem (gtok w) _ _ _ E). unfold tok in Q. lia. Qed.
Lemma tok_unique s g x g' x' w : invA s -> gs s !! g = Some x -> gs s !! g' = Some x' -> 0 < gtok w x -> 0 < gtok w x' -> g = g'.
Proof.
  intros A E E' T T'. destruct (decide (g = g')) as [|N]; auto. pose proof (lsum_two (gtok w) _ _ _ _ _ E E' N) as Q.
  pose proof (i_tok s A w) as Q1. pose proof (i_one s A w). unfold tok in Q1. lia.
Qed.
Lemma hold_tok x w j : hold x = Some (w, j) -> 0 < gtok w x.
Proof. destruct x; cbn; try discriminate; intros [= -> ->]; rewrite is_refl; lia. Qed.
(** no other goroutine is at a job of the key of a worker that one goroutine has *)
Lemma others s g x w k : inv s -> gs s !! g = Some x -> 0 < gtok w x -> (k, w) ∈ wmap s ->
  forall g' x', g' <> g -> gs s !! g' = Some x' -> one k (hold x') = [].
Proof.
  intros [A B C] E T M g' x' N E'. destruct (hold x') as [[w' j']|] eqn:H; auto. cbn. unfold keyis. destruct (Nat.eqb_spec (jkey j') k) as [Ek|]; auto. exfalso.
  pose proof (i_hold s C _ _ _ _ E' H) as M'. rewrite Ek in M'. rewrite <- (map_fun s k w w' A M M') in *.
  apply N. eapply tok_unique; eauto. eapply hold_tok; eauto.
Qed.
Lemma one_run k x : one k (hold x) = [] -> one k (running x) = [] /\ one k (delivering x) = [].
Proof. destruct x; cbn; auto. Qed.

Lemma try_head (q : queue job) x b q' : 0 < qcap q -> length (chan q) <= qcap q -> ItemQueue.Model.tryEnqueue q x = (b, q') -> forall h, head q = Some h -> head q' = Some h.
Proof.
  intros Cp L E h H. apply ItemQueue.Proofs.try_contents in E as (A & _ & _ & _ & _ & y & Y); auto. rewrite Y. unfold ItemQueue.Proofs.contents in A. rewrite H, Y in A.
  destruct b; cbn in A; congruence.
Qed.

Lemma addTo_inv c j w b s s' : inv s -> callers s !! c = Some (CGrab j) -> mlookup (jkey j) (wmap s) = Some w ->
  (b = true -> tok w s = 0 /\ wat s w = []) -> addTo c j w b s = Some s' -> inv s'.
Proof.
  intros [A B C] E M Bt H. unfold addTo in H. destruct (ws s !! w) as [o|] eqn:Ew; [|discriminate].
  destruct (ItemQueue.Model.tryEnqueue (wq o) j) as [added q'] eqn:Et. destruct (i_w s B w o Ew) as (W1 & W2).
  assert (W0 : 0 < qcap (wq o)) by lia. pose proof (try_head _ _ _ _ W0 W2 Et) as Th.
  apply ItemQueue.Proofs.try_contents in Et as (T1 & T2 & T3 & T4 & T5 & y & T6); [|lia|auto].
  apply (mlookup_In _ _ _ (i_nd s A)) in M as Mi.
  set (o' := mkW (wkey o) (wcap o) q') in *.
  assert (Lw : <[w := o']> (ws s) !! w = Some o') by (apply list_lookup_insert; eapply lookup_lt_Some; eauto).
  assert (Lo : forall w', w' <> w -> <[w := o']> (ws s) !! w' = ws s !! w') by (intros; apply list_lookup_insert_ne; auto).
  assert (Nm : 0 < nmap w s) by (apply nmap_in; eauto).
  assert (Ref : added = false -> b = false).
  { intros ->. destruct b; auto. exfalso. destruct (Bt eq_refl) as (_ & Q). unfold wat in Q. rewrite Ew in Q. destruct T5 as (T5 & _). specialize (T5 eq_refl). rewrite Q in T5. unfold ItemQueue.Proofs.full_size in T5. cbn in T5. lia. }
  set (x := if added then (if b then CEnq w else CIdle) else CBlock w j).
  assert (Es : s' = setc c x (set_inserted (if added then inserted s ++ [j] else inserted s) (setq w o q' s))).
  { unfold x. destruct added; injection H as <-; [reflexivity|]. destruct s; reflexivity. }
  subst s'. clear H. split; split; unfold nmap, tok, blk, queued, wat in *; ss; try apply A; fold o'.
  - intros w'. pose proof (lsum_insert (ctok w') _ _ _ x E) as Q. cbn [ctok] in Q. pose proof (i_tok s A w') as Q1. unfold tok, nmap in Q1.
    unfold x in Q |- *. destruct added; cbn [ctok] in *; [|lia]. destruct b; cbn [ctok] in *; [|lia]. unfold is in *. case_decide; [subst w'|lia].
    destruct (Bt eq_refl) as (Q2 & _). lia.
  - intros w' Hw. destruct (decide (w' = w)) as [->|N]; [rewrite Lw; eauto|]. rewrite Lo by auto. apply (i_ex s A). exact Hw.
  - intros w' o1 Hw. destruct (decide (w' = w)) as [->|N]; [rewrite Lw in Hw; injection Hw as <-|rewrite Lo in Hw by auto; eapply i_w; eauto]. unfold o'. cbn [wq wcap]. lia.
  - intros k w' Hw. destruct (i_key s B k w' Hw) as (o1 & K1 & K2 & K3). destruct (decide (w' = w)) as [->|N]; [|exists o1; rewrite Lo by auto; auto].
    exists o'. split; auto. unfold o'. cbn [wkey wq]. assert (o1 = o) as -> by congruence. split; auto. intros j' Hj. rewrite T1 in Hj. destruct added; auto.
    apply elem_of_app in Hj as [Hj|Hj]; auto. apply elem_of_list_singleton in Hj as ->. apply (map_inj s _ _ w A); auto.
  - intros w' o1 Hp Hw. assert (w' <> w). { intros ->. apply cnt_pos in Hp. pose proof (i_one s A w) as Q. unfold nmap in Q. lia. }
    rewrite Lo in Hw by auto. eapply i_pool; eauto.
  - intros w' o1 Hw. pose proof (lsum_insert (cblk w') _ _ _ x E) as Q. cbn [cblk] in Q.
    destruct (decide (w' = w)) as [->|N].
    + rewrite Lw in Hw. injection Hw as <-. unfold o'. cbn [wq]. rewrite T1, T2. pose proof (i_size s B w o Ew) as Q1. unfold blk in Q1.
      unfold x in Q |- *. destruct added; [|cbn [cblk] in Q; rewrite is_refl in Q; lia]. rewrite app_length. cbn [length]. destruct b; cbn [cblk] in Q; lia.
    + rewrite Lo in Hw by auto. pose proof (i_size s B w' o1 Hw) as Q1. unfold blk in Q1. unfold x in Q |- *. destruct added; cbn [cblk] in Q.
      * destruct b; cbn [cblk] in Q; lia.
      * unfold is in Q. rewrite decide_False in Q by auto. lia.
  - intros c' w' j' Hc. apply list_lookup_insert_Some in Hc as [(-> & Hc & L)|(N & Hc)]; [|eapply i_blk; eauto].
    unfold x in Hc. destruct added; [destruct b; discriminate|]. injection Hc as <- <-. auto.
  - apply C.
  - intros g z w' j' Hg Hr. destruct (i_head s C g z w' j' Hg Hr) as (o1 & H1 & H2). destruct (decide (w' = w)) as [->|N].
    + exists o'. split; auto. unfold o'. cbn [wq]. apply Th. congruence.
    + exists o1. rewrite Lo by auto. auto.
  - intros k. pose proof (i_fifo s C k) as Q. unfold queued, wat in Q. destruct (decide (k = jkey j)) as [->|N].
    + rewrite M in *. rewrite Lw. rewrite Ew in Q. unfold o'. cbn [wq]. rewrite T1. destruct added; auto. rewrite jof_app, Q, <- app_assoc. f_equal. f_equal.
      apply jof_all. intros j' Hj. apply elem_of_list_singleton in Hj as ->. apply Nat.eqb_refl.
    + assert (Z : jof (keyis k) (if added then inserted s ++ [j] else inserted s) = jof (keyis k) (inserted s)).
      { destruct added; auto. rewrite jof_app. rewrite (jof_none _ [j]); [apply app_nil_r|]. intros j' Hj. apply elem_of_list_singleton in Hj as ->. unfold keyis. apply Nat.eqb_neq. auto. }
      rewrite Z, Q. f_equal. destruct (mlookup k (wmap s)) as [w'|] eqn:E'; auto. destruct (decide (w' = w)) as [->|N']; [|rewrite Lo by auto; auto].
      exfalso. apply N. apply (mlookup_In _ _ _ (i_nd s A)) in E'. apply (map_inj s _ _ w A); auto.
  - apply C.
  - apply C.
Qed.
