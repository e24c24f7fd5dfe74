(** Every step of the scheduler keeps the invariant. *)
From stdpp Require Import prelude list.
From Coq Require Import ZArith.
From Verif.ItemQueue Require Model Proofs.
From Verif.Scheduler Require Import Model Base Inv.
Import ItemQueue.Model(size, head, chan).

Section QueueChange.
Context (s : st) (w : nat) (o : wobj) (o' : wobj) (Ew : ws s !! w = Some o).
Lemma ins_eq : <[w := o']> (ws s) !! w = Some o'.
Proof. apply list_lookup_insert. eapply lookup_lt_Some; eauto. Qed.
Lemma ins_ne w' : w' <> w -> <[w := o']> (ws s) !! w' = ws s !! w'.
Proof. intros. apply list_lookup_insert_ne. auto. Qed.
End QueueChange.

Lemma blockSend_inv c w j o q' s : inv s -> callers s !! c = Some (CBlock w j) -> ws s !! w = Some o -> ItemQueue.Model.chanSend (wq o) j = Some q' ->
  inv (setc c CIdle (set_inserted (inserted s ++ [j]) (setq w o q' s))).
Proof.
  intros [A B C] E Ew Es. apply ItemQueue.Proofs.chanSend_contents in Es as (T1 & T2 & T3 & T4 & T5 & T6).
  pose proof (i_blk s B _ _ _ E) as Mi. pose proof Mi as M. apply (mlookup_In _ _ _ (i_nd s A)) in M.
  destruct (i_w s B w o Ew) as (W1 & W2). set (o' := mkW (wkey o) (wcap o) q').
  pose proof (ins_eq s w o o' Ew) as Lw. pose proof (ins_ne s w o') as Lo.
  assert (Nm : 0 < nmap w s) by (apply nmap_in; eauto).
  split; split; unfold nmap, tok, blk, queued, wat in *; ss; try apply A; fold o'.
  - intros w'. pose proof (lsum_insert (ctok w') _ _ _ CIdle E) as Q. cbn [ctok] in Q. pose proof (i_tok s A w') as Q1. unfold tok, nmap in Q1. lia.
  - intros w' Hw. destruct (decide (w' = w)) as [->|N]; [rewrite Lw; eauto|]. rewrite Lo by auto. apply (i_ex s A). exact Hw.
  - intros w' o1 Hw. destruct (decide (w' = w)) as [->|N]; [rewrite Lw in Hw; injection Hw as <-|rewrite Lo in Hw by auto; eapply i_w; eauto]. unfold o'. cbn [wq wcap]. lia.
  - intros k w' Hw. destruct (i_key s B k w' Hw) as (o1 & K1 & K2 & K3). destruct (decide (w' = w)) as [->|N]; [|exists o1; rewrite Lo by auto; auto].
    exists o'. split; auto. unfold o'. cbn [wkey wq]. assert (o1 = o) as -> by congruence. split; auto. intros j' Hj. rewrite T1 in Hj.
    apply elem_of_app in Hj as [Hj|Hj]; auto. apply elem_of_list_singleton in Hj as ->. apply (map_inj s _ _ w A); auto.
  - intros w' o1 Hp Hw. assert (w' <> w). { intros ->. apply cnt_pos in Hp. pose proof (i_one s A w) as Q. unfold nmap in Q. lia. }
    rewrite Lo in Hw by auto. eapply i_pool; eauto.
  - intros w' o1 Hw. pose proof (lsum_insert (cblk w') _ _ _ CIdle E) as Q. cbn [cblk] in Q.
    destruct (decide (w' = w)) as [->|N].
    + rewrite Lw in Hw. injection Hw as <-. unfold o'. cbn [wq]. rewrite T1, T2. pose proof (i_size s B w o Ew) as Q1. unfold blk in Q1.
      rewrite is_refl in Q. rewrite app_length. cbn [length]. lia.
    + rewrite Lo in Hw by auto. pose proof (i_size s B w' o1 Hw) as Q1. unfold blk in Q1. lia.
  - intros c' w' j' Hc. apply list_lookup_insert_Some in Hc as [(-> & Hc & L)|(N & Hc)]; [discriminate|eapply i_blk; eauto].
  - apply C.
  - intros g z w' j' Hg Hr. destruct (i_head s C g z w' j' Hg Hr) as (o1 & H1 & H2). destruct (decide (w' = w)) as [->|N].
    + exists o'. split; auto. unfold o'. cbn [wq]. congruence.
    + exists o1. rewrite Lo by auto. auto.
  - intros k. pose proof (i_fifo s C k) as Q. unfold queued, wat in Q. destruct (decide (k = jkey j)) as [->|N].
    + rewrite M in *. rewrite Lw. rewrite Ew in Q. unfold o'. cbn [wq]. rewrite T1. rewrite jof_app, Q, <- app_assoc. f_equal. f_equal.
      apply jof_all. intros j' Hj. apply elem_of_list_singleton in Hj as ->. apply Nat.eqb_refl.
    + rewrite jof_app. rewrite (jof_none _ [j]); [|intros j' Hj; apply elem_of_list_singleton in Hj as ->; unfold keyis; apply Nat.eqb_neq; auto].
      rewrite app_nil_r, Q. f_equal. destruct (mlookup k (wmap s)) as [w'|] eqn:E'; auto. destruct (decide (w' = w)) as [->|N']; [|rewrite Lo by auto; auto].
      exfalso. apply N. apply (mlookup_In _ _ _ (i_nd s A)) in E'. apply (map_inj s _ _ w A); auto.
  - apply C.
  - apply C.
Qed.

Lemma g_in_map s g x w : inv s -> gs s !! g = Some x -> 0 < gtok w x -> exists k, (k, w) ∈ wmap s.
Proof. intros I E T. apply nmap_in. eapply tok_g; eauto. apply I. Qed.

Lemma head_contents (q : queue job) j : head q = Some j -> j ∈ contents q.
Proof. intros H. unfold ItemQueue.Proofs.contents. rewrite H. set_solver. Qed.

Lemma peek_inv g w o j s : inv s -> gs s !! g = Some (GProc w) -> ws s !! w = Some o -> ItemQueue.Model.peek (wq o) = Some j ->
  inv (setg g (GRun w j) (set_started (started s ++ [j]) s)).
Proof.
  intros I E Ew P. unfold ItemQueue.Model.peek in P. destruct (g_in_map s g _ w I E) as (k & M); [cbn; rewrite is_refl; lia|].
  pose proof I as [A B C]. destruct (i_key s B _ _ M) as (o1 & K1 & K2 & K3). assert (o1 = o) as -> by congruence.
  assert (Kj : jkey j = k) by (apply K3, head_contents; auto). rewrite <- Kj in M. clear k K2 K3 Kj.
  assert (O : forall k g' x', g' <> g -> gs s !! g' = Some x' -> k = jkey j -> one k (running x') = []).
  { intros k g' x' N H ->. apply one_run. refine (others s g (GProc w) w (jkey j) I E _ M g' x' N H). cbn. rewrite is_refl. lia. }
  split; split; unfold nmap, tok, blk, queued, wat in *; ss; try apply A; try apply B; try apply C.
  - intros w'. pose proof (lsum_insert (gtok w') _ _ _ (GRun w j) E) as Q. cbn [gtok] in Q. pose proof (i_tok s A w') as Q1. unfold tok, nmap in Q1. lia.
  - intros g' x w' j' H Hh. apply list_lookup_insert_Some in H as [(-> & <- & L)|(N & H)]; [|eapply i_hold; eauto]. injection Hh as <- <-. auto.
  - intros g' x w' j' H Hh. apply list_lookup_insert_Some in H as [(-> & <- & L)|(N & H)]; [|eapply i_head; eauto]. injection Hh as <- <-. eauto.
  - intros k. rewrite jof_app. pose proof (i_start s C k) as Q. destruct (decide (k = jkey j)) as [->|N].
    + destruct (fm_others (fun x => one (jkey j) (running x)) (gs s) g _ (GRun w j) E) as (F1 & F2); [intros; eapply O; eauto|].
      rewrite F1. rewrite F2 in Q. rewrite Q. cbn. rewrite app_nil_r. unfold keyis. rewrite Nat.eqb_refl. auto.
    + rewrite (jof_none _ [j]); [|intros j' Hj; apply elem_of_list_singleton in Hj as ->; unfold keyis; apply Nat.eqb_neq; auto].
      rewrite app_nil_r, Q. f_equal. symmetry. eapply fm_same; eauto. cbn. unfold keyis. destruct (Nat.eqb_spec (jkey j) k); [congruence|auto].
  - intros k. rewrite (i_deliv s C k). f_equal. symmetry. eapply fm_same; eauto.
Qed.

Lemma dequeue_head (q : queue job) j : head q = Some j -> exists q', ItemQueue.Model.dequeue q = (Some j, q') /\ contents q = j :: contents q' /\ size q' = (size q - 1)%Z /\
  ItemQueue.Model.chcap q' = ItemQueue.Model.chcap q /\ length (chan q') <= length (chan q) /\ (head q' = None -> chan q' = []).
Proof.
  intros H. destruct (ItemQueue.Model.dequeue q) as [r q'] eqn:E. pose proof E as E'. apply ItemQueue.Proofs.dequeue_contents in E as (A & B & D & F).
  assert (r = Some j) as ->.
  { unfold ItemQueue.Model.dequeue in E'. rewrite H in E'. cbn in E'. rewrite H in E'. injection E' as <- _. auto. }
  destruct A as (A & A'). exists q'. auto 8.
Qed.
Lemma jof1 k j : jof (keyis k) [j] = if keyis k j then [j] else [].
Proof. reflexivity. Qed.

Lemma advance_inv g w o j s : inv s -> gs s !! g = Some (GAdv w j) -> ws s !! w = Some o ->
  inv (setg g (GDeliver w j) (set_taken (taken s ++ match fst (ItemQueue.Model.dequeue (wq o)) with Some x => [x] | None => [] end)
                                                             (setq w o (snd (ItemQueue.Model.dequeue (wq o))) s))).
Proof.
  intros I E Ew. pose proof I as [A B C]. destruct (i_head s C _ _ _ _ E eq_refl) as (o1 & H1 & H2). assert (o1 = o) as -> by congruence.
  destruct (dequeue_head _ _ H2) as (q' & D1 & D2 & D3 & D4 & D5 & _). rewrite D1. cbn [fst snd].
  pose proof (i_hold s C _ _ _ _ E eq_refl) as Mi. pose proof Mi as M. apply (mlookup_In _ _ _ (i_nd s A)) in M.
  destruct (i_w s B w o Ew) as (W1 & W2). set (o' := mkW (wkey o) (wcap o) q').
  pose proof (ins_eq s w o o' Ew) as Lw. pose proof (ins_ne s w o') as Lo.
  assert (Nm : 0 < nmap w s) by (apply nmap_in; eauto).
  assert (Gt : 0 < gtok w (GAdv w j)) by (cbn; rewrite is_refl; lia).
  assert (O : forall g' x', g' <> g -> gs s !! g' = Some x' -> one (jkey j) (hold x') = []).
  { intros g' x' N H. exact (others s g (GAdv w j) w (jkey j) I E Gt Mi g' x' N H). }
  assert (O1 : forall g' x', g' <> g -> gs s !! g' = Some x' -> one (jkey j) (running x') = []) by (intros; eapply one_run, O; eauto).
  assert (O2 : forall g' x', g' <> g -> gs s !! g' = Some x' -> one (jkey j) (delivering x') = []) by (intros; eapply one_run, O; eauto).
  split; split; unfold nmap, tok, blk, queued, wat in *; ss; try apply A; fold o'.
  - intros w'. pose proof (lsum_insert (gtok w') _ _ _ (GDeliver w j) E) as Q. cbn [gtok] in Q. pose proof (i_tok s A w') as Q1. unfold tok, nmap in Q1. lia.
  - intros w' Hw. destruct (decide (w' = w)) as [->|N]; [rewrite Lw; eauto|]. rewrite Lo by auto. apply (i_ex s A). exact Hw.
  - intros w' o1 Hw. destruct (decide (w' = w)) as [->|N]; [rewrite Lw in Hw; injection Hw as <-|rewrite Lo in Hw by auto; eapply i_w; eauto]. unfold o'. cbn [wq wcap]. lia.
  - intros k w' Hw. destruct (i_key s B k w' Hw) as (o1 & K1 & K2 & K3). destruct (decide (w' = w)) as [->|N]; [|exists o1; rewrite Lo by auto; auto].
    exists o'. split; auto. unfold o'. cbn [wkey wq]. assert (o1 = o) as -> by congruence. split; auto. intros j' Hj. apply K3. rewrite D2. set_solver.
  - intros w' o1 Hp Hw. assert (w' <> w). { intros ->. apply cnt_pos in Hp. pose proof (i_one s A w) as Q. unfold nmap in Q. lia. }
    rewrite Lo in Hw by auto. eapply i_pool; eauto.
  - intros w' o1 Hw. destruct (decide (w' = w)) as [->|N]; [|rewrite Lo in Hw by auto; apply (i_size s B w' o1 Hw)].
    rewrite Lw in Hw. injection Hw as <-. unfold o'. cbn [wq]. pose proof (i_size s B w o Ew) as Q1. unfold blk in Q1. rewrite D2 in Q1. cbn [length] in Q1. lia.
  - apply B.
  - intros g' x w' j' H Hh. apply list_lookup_insert_Some in H as [(-> & <- & L)|(N & H)]; [|eapply i_hold; eauto]. injection Hh as <- <-. auto.
  - intros g' x w' j' H Hh. apply list_lookup_insert_Some in H as [(-> & <- & L)|(N & H)]; [discriminate|]. destruct (i_head s C _ _ _ _ H Hh) as (o1 & K1 & K2).
    assert (w' <> w).
    { intros ->. apply N. eapply (tok_unique s g _ g'); eauto. eapply hold_tok. destruct x; cbn in *; eauto; discriminate. }
    exists o1. rewrite Lo by auto. auto.
  - intros k. pose proof (i_fifo s C k) as Q. unfold queued, wat in Q. rewrite jof_app, jof1. unfold keyis at 3. destruct (Nat.eqb_spec (jkey j) k) as [<-|N].
    + rewrite M in *. rewrite Lw. rewrite Ew in Q. unfold o'. cbn [wq]. rewrite Q, D2, <- app_assoc. auto.
    + rewrite app_nil_r, Q. f_equal. destruct (mlookup k (wmap s)) as [w'|] eqn:E'; auto. destruct (decide (w' = w)) as [->|N']; [|rewrite Lo by auto; auto].
      exfalso. apply N. apply (mlookup_In _ _ _ (i_nd s A)) in E'. apply (map_inj s _ _ w A); auto.
  - intros k. rewrite jof_app, jof1. unfold keyis at 3. pose proof (i_start s C k) as Q. destruct (Nat.eqb_spec (jkey j) k) as [<-|N].
    + destruct (fm_others (fun x => one (jkey j) (running x)) (gs s) g _ (GDeliver w j) E) as (F1 & F2); [exact O1|].
      rewrite F1. rewrite F2 in Q. rewrite Q. cbn. unfold keyis. rewrite Nat.eqb_refl. rewrite app_nil_r. auto.
    + rewrite app_nil_r, Q. f_equal. symmetry. eapply fm_same; eauto. cbn. unfold keyis. destruct (Nat.eqb_spec (jkey j) k); [congruence|auto].
  - intros k. rewrite jof_app, jof1. unfold keyis at 2. pose proof (i_deliv s C k) as Q. destruct (Nat.eqb_spec (jkey j) k) as [<-|N].
    + destruct (fm_others (fun x => one (jkey j) (delivering x)) (gs s) g _ (GDeliver w j) E) as (F1 & F2); [exact O2|].
      rewrite F1. rewrite F2 in Q. cbn [delivering one] in Q |- *. rewrite app_nil_r in Q. rewrite Q. unfold keyis. rewrite Nat.eqb_refl. auto.
    + rewrite app_nil_r, Q. f_equal. symmetry. eapply fm_same; eauto. cbn. unfold keyis. destruct (Nat.eqb_spec (jkey j) k); [congruence|auto].
Qed.

Lemma complete_inv g w j s f : inv s -> gs s !! g = Some (GDeliver w j) -> inv (setg g (GRel w) (set_delivered (delivered s ++ [j]) (set_comps f s))).
Proof.
  intros I E. pose proof I as [A B C]. pose proof (i_hold s C _ _ _ _ E eq_refl) as Mi.
  assert (Gt : 0 < gtok w (GDeliver w j)) by (cbn; rewrite is_refl; lia).
  assert (O2 : forall g' x', g' <> g -> gs s !! g' = Some x' -> one (jkey j) (delivering x') = []) by (intros g' x' N H; eapply one_run; exact (others s g (GDeliver w j) w (jkey j) I E Gt Mi g' x' N H)).
  split; split; unfold nmap, tok, blk, queued, wat in *; ss; try apply A; try apply B; try apply C.
  - intros w'. pose proof (lsum_insert (gtok w') _ _ _ (GRel w) E) as Q. cbn [gtok] in Q. pose proof (i_tok s A w') as Q1. unfold tok, nmap in Q1. lia.
  - intros g' x w' j' H Hh. apply list_lookup_insert_Some in H as [(-> & <- & L)|(N & H)]; [discriminate|eapply i_hold; eauto].
  - intros g' x w' j' H Hh. apply list_lookup_insert_Some in H as [(-> & <- & L)|(N & H)]; [discriminate|eapply i_head; eauto].
  - intros k. rewrite (i_start s C k). f_equal. symmetry. eapply fm_same; eauto.
  - intros k. rewrite jof_app, jof1. unfold keyis at 3. pose proof (i_deliv s C k) as Q. destruct (Nat.eqb_spec (jkey j) k) as [<-|N].
    + destruct (fm_others (fun x => one (jkey j) (delivering x)) (gs s) g _ (GRel w) E) as (F1 & F2); [exact O2|].
      rewrite F1. rewrite F2 in Q. cbn [delivering one] in Q |- *. rewrite app_nil_r. rewrite Q. unfold keyis. rewrite Nat.eqb_refl. auto.
    + rewrite app_nil_r, Q. f_equal. symmetry. eapply fm_same; eauto. cbn. unfold keyis. destruct (Nat.eqb_spec (jkey j) k); [congruence|auto].
Qed.

Lemma release_inv g w o s : inv s -> gs s !! g = Some (GRel w) -> ws s !! w = Some o -> ItemQueue.Model.done (wq o) = true ->
  inv (setg g GSig (set_pool (pool s ++ [w]) (set_ws (<[w := mkW 0 (wcap o) (wq o)]> (ws s)) (set_wmap (mdelete (wkey o) (wmap s)) s)))).
Proof.
  intros I E Ew Dn. pose proof I as [A B C]. unfold ItemQueue.Model.done in Dn. apply Z.leb_le in Dn. pose proof (i_size s B w o Ew) as Sz.
  assert (Gt : 0 < gtok w (GRel w)) by (cbn; rewrite is_refl; lia).
  destruct (g_in_map s g _ w I E Gt) as (k & M). destruct (i_key s B _ _ M) as (o1 & K1 & K2 & _). assert (o1 = o) as -> by congruence. rewrite K2.
  assert (Co : contents (wq o) = []) by (destruct (contents (wq o)); [auto|cbn [length] in Sz; lia]).
  assert (Bk : blk w s = 0) by lia. assert (Sz0 : size (wq o) = 0%Z) by lia.
  set (o' := mkW 0 (wcap o) (wq o)).
  pose proof (ins_eq s w o o' Ew) as Lw. pose proof (ins_ne s w o') as Lo.
  assert (Nm : 0 < nmap w s) by (apply nmap_in; eauto). pose proof (i_nd s A) as ND. pose proof (i_one s A w) as One.
  assert (Hw : forall g' x' w' j', g' <> g -> gs s !! g' = Some x' -> hold x' = Some (w', j') -> w' <> w).
  { intros g' x' w' j' N H Hh ->. apply N. eapply (tok_unique s g' _ g); eauto. eapply hold_tok; eauto. }
  assert (Kd : forall k' w', (k', w') ∈ wmap s -> w' <> w -> (k', w') ∈ mdelete k (wmap s)).
  { intros k' w' H N. apply mdelete_In. split; auto. intros ->. apply N. eapply map_fun; eauto. }
  split; split; unfold nmap, tok, blk, queued, wat in *; ss; try apply A; fold o'.
  - apply mdelete_ND. auto.
  - intros w'. pose proof (lsum_insert (gtok w') _ _ _ GSig E) as Q. cbn [gtok] in Q. pose proof (i_tok s A w') as Q1. unfold tok, nmap in Q1.
    pose proof (mdelete_cnt w' k (wmap s) w ND M) as Q2. unfold is in Q. lia.
  - intros w'. pose proof (mdelete_cnt w' k (wmap s) w ND M) as Q2. pose proof (i_one s A w') as Q1. unfold nmap in Q1. rewrite cnt_app.
    unfold cnt at 3. cbn [lsum]. lia.
  - intros w' H. destruct (decide (w' = w)) as [->|N]; [rewrite Lw; eauto|]. rewrite Lo by auto. apply (i_ex s A). unfold nmap.
    rewrite cnt_app in H. unfold cnt at 3 in H. cbn [lsum] in H. rewrite decide_False in H by auto. pose proof (mdelete_cnt w' k (wmap s) w ND M) as Q2. lia.
  - intros w' o1 H. destruct (decide (w' = w)) as [->|N]; [rewrite Lw in H; injection H as <-; apply (i_w s B w o Ew)|rewrite Lo in H by auto; eapply i_w; eauto].
  - intros k' w' H. apply mdelete_In in H as (H & N). assert (w' <> w) by (intros ->; apply N; eapply map_inj; eauto).
    destruct (i_key s B _ _ H) as (o1 & H1 & H2). exists o1. rewrite Lo by auto. auto.
  - intros w' o1 Hp H. destruct (decide (w' = w)) as [->|N]; [rewrite Lw in H; injection H as <-; auto|]. rewrite Lo in H by auto. eapply i_pool; eauto.
    apply elem_of_app in Hp as [Hp|Hp]; auto. apply elem_of_list_singleton in Hp. congruence.
  - intros w' o1 H. destruct (decide (w' = w)) as [->|N]; [rewrite Lw in H; injection H as <-; apply (i_size s B w o Ew)|]. rewrite Lo in H by auto. apply (i_size s B w' o1 H).
  - intros c w' j H. apply Kd; [eapply i_blk; eauto|]. intros ->. pose proof (lsum_elem (cblk w) _ _ _ H) as Q. cbn in Q. rewrite is_refl in Q. lia.
  - intros g' x w' j' H Hh. apply list_lookup_insert_Some in H as [(-> & <- & L)|(N & H)]; [discriminate|]. apply Kd; [eapply i_hold; eauto|eapply Hw; eauto].
  - intros g' x w' j' H Hh. apply list_lookup_insert_Some in H as [(-> & <- & L)|(N & H)]; [discriminate|]. rewrite Lo; [eapply i_head; eauto|].
    eapply Hw; eauto. destruct x; cbn in *; eauto; discriminate.
  - intros k'. rewrite (i_fifo s C k'). f_equal. unfold queued, wat. rewrite mdelete_lookup. destruct (decide (k' = k)) as [->|N].
    + apply (mlookup_In _ _ _ ND) in M as ->. rewrite Ew. auto.
    + destruct (mlookup k' (wmap s)) as [w'|] eqn:E'; auto. rewrite Lo; auto. intros ->. apply N. apply (mlookup_In _ _ _ ND) in E'. eapply map_inj; eauto.
  - intros k'. rewrite (i_start s C k'). f_equal. symmetry. eapply fm_same; eauto.
  - intros k'. rewrite (i_deliv s C k'). f_equal. symmetry. eapply fm_same; eauto.
Qed.

Lemma cnt1 w x : cnt w [x] = is w x.
Proof. unfold cnt, is. cbn. lia. Qed.
Lemma send_tok w s s' : sendWorker w s = Some s' -> exists ch, chans s !! current s = Some ch /\ s' = set_chans (<[current s := ch ++ [w]]> (chans s)) s /\ length ch < chcap s /\
  forall w', lsum (cnt w') (<[current s := ch ++ [w]]> (chans s)) = lsum (cnt w') (chans s) + is w' w.
Proof.
  unfold sendWorker. destruct (chans s !! current s) as [ch|] eqn:E; [|discriminate]. destruct (Nat.ltb_spec (length ch) (chcap s)); [|discriminate]. intros [= <-].
  exists ch. split; auto. split; auto. split; auto. intros w'. pose proof (lsum_insert (cnt w') _ _ _ (ch ++ [w]) E) as Q. rewrite cnt_app, cnt1 in Q. lia.
Qed.
Lemma insert_ne {X} i (x : X) l : l <> [] -> <[i := x]> l <> [].
Proof. destruct l, i; cbn; congruence. Qed.

Lemma aenq_inv c w s s' : inv s -> callers s !! c = Some (CEnq w) -> sendWorker w s = Some s' -> inv (setc c CIdle s').
Proof.
  intros I E H. apply send_tok in H as (ch & E1 & -> & _ & Q). frame; unfold tok, blk; ss; auto.
  - intros w'. pose proof (lsum_insert (ctok w') _ _ _ CIdle E) as Q1. cbn [ctok] in Q1. rewrite Q. lia.
  - apply insert_ne. apply (iA s I).
  - intros w'. pose proof (lsum_insert (cblk w') _ _ _ CIdle E) as Q1. cbn [cblk] in Q1. lia.
  - intros c' w' j H. apply list_lookup_insert_Some in H as [(-> & H & L)|(N & H)]; [discriminate|eauto].
  - eauto.
Qed.
Lemma genq_inv g w s s' : inv s -> gs s !! g = Some (GEnq w) -> sendWorker w s = Some s' -> inv (setg g GLoop s').
Proof.
  intros I E H. apply send_tok in H as (ch & E1 & -> & _ & Q). frame; unfold tok, blk; ss; auto.
  - intros w'. pose proof (lsum_insert (gtok w') _ _ _ GLoop E) as Q1. cbn [gtok] in Q1. rewrite Q. lia.
  - apply insert_ne. apply (iA s I).
  - eauto.
  - intros g' x p H Hh. apply list_lookup_insert_Some in H as [(-> & <- & L)|(N & H)]; [discriminate|eauto].
  - intros k. eapply fm_same; eauto.
  - intros k. eapply fm_same; eauto.
Qed.
Lemma take_inv g i w ch s : inv s -> gs s !! g = Some (GSel i) -> chans s !! i = Some (w :: ch) -> inv (setg g (GProc w) (set_chans (<[i := ch]> (chans s)) s)).
Proof.
  intros I E H. frame; unfold tok, blk; ss; auto.
  - intros w'. pose proof (lsum_insert (gtok w') _ _ _ (GProc w) E) as Q1. cbn [gtok] in Q1.
    pose proof (lsum_insert (cnt w') _ _ _ ch H) as Q. rewrite cnt_cons in Q. unfold is in Q1. lia.
  - apply insert_ne. apply (iA s I).
  - eauto.
  - intros g' x p H' Hh. apply list_lookup_insert_Some in H' as [(-> & <- & L)|(N & H')]; [discriminate|eauto].
  - intros k. eapply fm_same; eauto.
  - intros k. eapply fm_same; eauto.
Qed.
Lemma setMax_inv n s : inv s -> inv (setMax n s).
Proof.
  intros I. unfold setMax. destruct (maxk s <? n); [|eapply inv_same; eauto]. destruct (chans s !! current s) as [ch|] eqn:E; [|eapply inv_same; eauto].
  frame; unfold tok, blk; ss; auto.
  - intros w'. rewrite lsum_app. pose proof (lsum_insert (cnt w') _ _ _ (drop n ch) E) as Q. cbn [lsum]. pose proof (cnt_take_drop w' n ch). lia.
  - intros H. apply app_eq_nil in H as (_ & H). discriminate.
  - eauto.
  - eauto.
Qed.

Lemma step_inv s a s' : inv s -> step s a = Some s' -> inv s'.
Proof.
  intros I H. destruct a as [c j|c src|c|c|c|c|c|g|g|g|g|g|g|g|g|g|g|n|n|]; cbn [step] in H.
  - destruct (callers s !! c) as [[]|] eqn:E; try discriminate. destruct (jcaller j =? c); [|discriminate]. destruct (closed s); injection H as <-.
    + eapply inv_same; eauto.
    + apply inv_setc with (y := CIdle); auto; [eapply inv_same; eauto|discriminate].
  - destruct (callers s !! c) as [[]|] eqn:E; try discriminate. apply grab_cases in H as [(_ & _ & ->)|(w & b & s1 & P & H)].
    + eapply inv_setc; eauto. discriminate.
    + apply prepared_inv in P as (I1 & M & Ec & Eg & Q); auto. eapply addTo_inv; eauto; [rewrite Ec; auto|]. intros ->. destruct Q as (Q1 & _ & Q2 & _); auto.
  - destruct (callers s !! c) as [[]|] eqn:E; try discriminate. destruct (signal s); [|discriminate]. injection H as <-.
    eapply inv_setc with (y := CWait j); [eapply inv_same; eauto|auto| | |]; destruct (closed s); auto; discriminate.
  - destruct (callers s !! c) as [[]|] eqn:E; try discriminate. destruct (ws s !! w) as [o|] eqn:Ew; [|discriminate].
    destruct (ItemQueue.Model.chanSend (wq o) j) as [q|] eqn:Es; [|discriminate]. injection H as <-. eapply blockSend_inv; eauto.
  - destruct (callers s !! c) as [[]|] eqn:E; try discriminate. destruct (closed s); [|discriminate]. injection H as <-. eapply inv_setc; [eauto|eauto| | |]; intros; [apply Nat.le_0_l|apply Nat.le_0_l|discriminate].
  - destruct (callers s !! c) as [[]|] eqn:E; try discriminate. destruct (sendWorker w s) as [s1|] eqn:Es; [|discriminate]. injection H as <-. eapply aenq_inv; eauto.
  - destruct (callers s !! c) as [[]|] eqn:E; try discriminate. destruct (comps s c); [discriminate|]. injection H as <-. eapply inv_same; eauto.
  - destruct (gs s !! g) as [[]|] eqn:E; try discriminate. injection H as <-. eapply inv_setg; eauto.
  - destruct (gs s !! g) as [[]|] eqn:E; try discriminate. destruct (chans s !! ch) as [[|w l]|] eqn:E1; try discriminate.
    + destruct (ch =? current s); [discriminate|]. injection H as <-. eapply inv_setg; eauto.
    + injection H as <-. eapply take_inv; eauto.
  - destruct (gs s !! g) as [[]|] eqn:E; try discriminate. destruct (closed s); [injection H as <-; eapply inv_setg; eauto|].
    destruct (ws s !! w) as [o|] eqn:Ew; [|discriminate]. destruct (ItemQueue.Model.peek (wq o)) as [j|] eqn:Ep; injection H as <-; [eapply peek_inv; eauto|eapply inv_setg; eauto].
  - destruct (gs s !! g) as [[]|] eqn:E; try discriminate. injection H as <-. eapply inv_setg; eauto.
  - destruct (gs s !! g) as [[]|] eqn:E; try discriminate. destruct (ws s !! w) as [o|] eqn:Ew; [|discriminate]. injection H as <-. eapply advance_inv; eauto.
  - destruct (gs s !! g) as [[]|] eqn:E; try discriminate. destruct (_ <? _); [|discriminate]. injection H as <-. eapply complete_inv; eauto.
  - destruct (gs s !! g) as [[]|] eqn:E; try discriminate. destruct (ws s !! w) as [o|] eqn:Ew; [|discriminate]. destruct (ItemQueue.Model.done (wq o)) eqn:Ed; injection H as <-.
    + eapply release_inv; eauto.
    + eapply inv_setg; eauto.
  - destruct (gs s !! g) as [[]|] eqn:E; try discriminate. injection H as <-. destruct (closed s); (eapply inv_setg; [|eauto|auto|auto|auto]); auto. eapply inv_same; eauto.
  - destruct (gs s !! g) as [[]|] eqn:E; try discriminate. destruct (sendWorker w s) as [s1|] eqn:Es; [|discriminate]. injection H as <-. eapply genq_inv; eauto.
  - destruct (gs s !! g) as [[]|] eqn:E; try discriminate. destruct (closed s); [|discriminate]. injection H as <-. (eapply inv_setg; [|eauto|auto|auto|auto]). eapply inv_same; eauto.
  - injection H as <-. apply setMax_inv. auto.
  - injection H as <-. eapply inv_same; eauto.
  - injection H as <-. eapply inv_same; eauto.
Qed.

Lemma lookup_repeat {X} (x y : X) n i : repeat x n !! i = Some y -> y = x.
Proof. intros H. apply elem_of_list_lookup_2, elem_of_list_In in H. eapply repeat_spec; eauto. Qed.
Lemma start_inv c n cc : inv (start c n cc).
Proof.
  unfold start. split; split; unfold nmap, tok, blk, queued, wat in *; ss; try discriminate.
  - constructor.
  - intros w. rewrite !lsum_repeat by auto. cbn. lia.
  - intros w. cbn. lia.
  - intros w H. cbn in H. lia.
  - intros k w H. inversion H.
  - intros c' w j H. apply lookup_repeat in H. discriminate.
  - intros g x w j H Hh. apply lookup_repeat in H as ->. discriminate.
  - intros g x w j H Hh. apply lookup_repeat in H as ->. discriminate.
  - intros k. cbn. auto.
  - intros k. cbn. symmetry. apply fm_nil. intros i x H. apply lookup_repeat in H as ->. auto.
  - intros k. cbn. symmetry. apply fm_nil. intros i x H. apply lookup_repeat in H as ->. auto.
Qed.
Lemma run_inv acts : forall s s', inv s -> run s acts = Some s' -> inv s'.
Proof.
  induction acts as [|a acts IH]; intros s s' I H; cbn in H; [congruence|]. destruct (step s a) as [s1|] eqn:E; [|discriminate]. eauto using step_inv.
Qed.
