(** Workers are never lost as long as the key limit is only raised to at least the number of active keys; and progress as long as
    moreover no enqueue is refused. *)
From stdpp Require Import prelude list.
From Coq Require Import ZArith.
From Verif.ItemQueue Require Model Proofs.
From Verif.Scheduler Require Import Model Base Inv Step Order.
Import ItemQueue.Model(size, head, chan).

Definition okmax (s : st) (a : action) : Prop := match a with ASetMax n => n <= maxk s \/ length (wmap s) <= n | _ => True end.
Fixpoint good (s : st) (acts : list action) : Prop :=
  match acts with [] => True | a :: acts' => okmax s a /\ match step s a with Some s' => good s' acts' | None => True end end.

Record live (s : st) : Prop := {
  l_tok : forall w, tok w s = nmap w s;
  l_old : forall i ch, chans s !! i = Some ch -> i <> current s -> ch = [];
  l_sel : forall g i, gs s !! g = Some (GSel i) -> i < length (chans s);
  l_cap : length (wmap s) < chcap s /\ maxk s < chcap s }.

Lemma live_ch s : chans s <> [] -> exists ch, chans s !! current s = Some ch.
Proof. intros H. unfold current. destruct (lookup_lt_is_Some_2 (chans s) (pred (length (chans s)))) as (ch & E); eauto. destruct (chans s); [congruence|cbn; lia]. Qed.

Lemma live_move s s' : live s -> wmap s' = wmap s -> chans s' = chans s -> chcap s' = chcap s -> maxk s' = maxk s -> (forall w, tok w s' = tok w s) ->
  (forall g i, gs s' !! g = Some (GSel i) -> i < length (chans s)) -> live s'.
Proof.
  intros L E1 E2 E3 E4 T G. split; unfold nmap, current; rewrite ?E1, ?E2, ?E3, ?E4; auto; try apply L. intros w. rewrite T. apply L.
Qed.
Lemma live_setc c x y s : live s -> callers s !! c = Some y -> (forall w, ctok w x = ctok w y) -> live (setc c x s).
Proof.
  intros L E T. eapply (live_move s); eauto; [|apply L]. intros w. unfold tok. ss. pose proof (lsum_insert (ctok w) _ _ _ x E). specialize (T w). lia.
Qed.
Lemma live_setg g x y s : live s -> gs s !! g = Some y -> (forall w, gtok w x = gtok w y) -> (forall i, x = GSel i -> i < length (chans s)) -> live (setg g x s).
Proof.
  intros L E T S. eapply (live_move s); eauto.
  - intros w. unfold tok. ss. pose proof (lsum_insert (gtok w) _ _ _ x E). specialize (T w). lia.
  - ss. intros g' i H. apply list_lookup_insert_Some in H as [(-> & H & _)|(N & H)]; [auto|eapply l_sel; eauto].
Qed.
Lemma live_same s s' : live s -> wmap s' = wmap s -> chans s' = chans s -> chcap s' = chcap s -> maxk s' = maxk s -> callers s' = callers s -> gs s' = gs s -> live s'.
Proof. intros L E1 E2 E3 E4 E5 E6. eapply live_move; eauto; unfold tok; rewrite ?E2, ?E5, ?E6; auto. apply L. Qed.

Lemma live_send_gen w s s' : inv s -> live s -> sendWorker w s = Some s' -> exists ch, chans s !! current s = Some ch /\ s' = set_chans (<[current s := ch ++ [w]]> (chans s)) s.
Proof. intros I L H. apply send_tok in H as (ch & E & -> & _). eauto. Qed.
Lemma old_insert s ch x : chans s !! current s = Some ch -> live s ->
  forall i c, <[current s := x]> (chans s) !! i = Some c -> i <> pred (length (<[current s := x]> (chans s))) -> c = [].
Proof.
  intros E L i c H N. rewrite insert_length in N. apply list_lookup_insert_Some in H as [(Ei & _ & _)|(N' & H)]; [exfalso; apply N; rewrite <- Ei; reflexivity|]. eapply l_old; eauto.
Qed.

(** the channel never fills up *)
Lemma chan_room s ch w : inv s -> live s -> chans s !! current s = Some ch -> 0 < lsum (ctok w) (callers s) + lsum (gtok w) (gs s) -> length ch < chcap s.
Proof.
  intros I L E T. pose proof (iA s I) as A. destruct (l_cap s L) as (C1 & _).
  assert (Q : forall w', cnt w' (w :: ch) <= cnt w' (wmap s).*2).
  { intros w'. rewrite cnt_cons. pose proof (i_tok s A w') as Q. unfold tok, nmap in Q. pose proof (lsum_elem (cnt w') _ _ _ E). case_decide; subst; lia. }
  assert (ND : NoDup (w :: ch)). { apply cnt_NoDup. intros w'. specialize (Q w'). pose proof (i_one s A w') as O. unfold nmap in O. lia. }
  assert (S : w :: ch ⊆ (wmap s).*2). { intros w' H. apply cnt_pos in H. apply cnt_pos. specialize (Q w'). lia. }
  apply NoDup_submseteq in S; auto. apply submseteq_length in S. rewrite fmap_length in S. cbn in S. lia.
Qed.

Lemma live_prepared s j w b s1 : inv s -> live s -> prepared s j w b s1 -> 
  (forall w', tok w' s1 = tok w' s /\ nmap w' s1 = nmap w' s + (if b then is w' w else 0)) /\ (length (wmap s1) < chcap s1 /\ maxk s1 < chcap s1).
Proof.
  intros I L P. destruct (l_cap s L) as (C1 & C2). destruct P; unfold tok, nmap; ss; (split; [intros w'|]); rewrite ?fmap_cons, ?cnt_cons; cbn [snd length];
    unfold is; try (split; lia).
Qed.

Lemma step_live s a s' : inv s -> live s -> okmax s a -> step s a = Some s' -> live s'.
Proof.
  intros I L O H. destruct a as [c j|c src|c|c|c|c|c|g|g|g|g|g|g|g|g|g|g|n|n|]; cbn [step] in H.
  - destruct (callers s !! c) as [[]|] eqn:E; try discriminate. destruct (jcaller j =? c); [|discriminate]. destruct (closed s); injection H as <-.
    + eapply live_same; eauto.
    + eapply (live_setc _ _ CIdle); [|exact E|auto]. eapply live_same; eauto.
  - destruct (callers s !! c) as [[]|] eqn:E; try discriminate. apply grab_cases in H as [(_ & _ & ->)|(w & b & s1 & P & H)].
    + eapply live_setc; eauto.
    + destruct (live_prepared _ _ _ _ _ I L P) as (T & Cp). pose proof (prepared_inv _ _ _ _ _ I P) as (I1 & M & Ec & Eg & Q). pose proof (prepared_same _ _ _ _ _ P) as (_ & _ & _ & _ & _ & _ & _ & _ & _ & Ech & _ & Emx & Ecp & _).
      pose proof H as H'. apply addTo_same in H as (o & added & q & Ew & Et & ->).
      assert (Ref : added = false -> b = false).
      { intros ->. destruct b; auto. exfalso. destruct (Q eq_refl) as (_ & _ & Q1 & _). unfold wat in Q1. rewrite Ew in Q1. destruct (i_w s1 (iB s1 I1) w o Ew) as (W1 & W2).
        apply ItemQueue.Proofs.try_contents in Et as (_ & _ & _ & _ & (T5 & _) & _); [|lia|auto]. specialize (T5 eq_refl). rewrite Q1 in T5. unfold ItemQueue.Proofs.full_size in T5. cbn in T5. lia. }
      rewrite <- Ec in E. split; unfold nmap, tok, current in *; ss.
      * intros w'. destruct (T w') as (T1 & T2). rewrite T2. pose proof (l_tok s L w') as T3. unfold tok, nmap in T3. rewrite <- T3, <- T1.
        match goal with |- lsum _ (<[_ := ?x]> _) + _ + _ = _ => pose proof (lsum_insert (ctok w') _ _ _ x E) as Q1 end. cbn [ctok] in Q1.
        destruct added; [|rewrite (Ref eq_refl); cbn [ctok] in Q1; lia]. destruct b; cbn [ctok] in *; lia.
      * rewrite Ech. apply L.
      * rewrite Ech, Eg. apply L.
      * auto.
  - destruct (callers s !! c) as [[]|] eqn:E; try discriminate. destruct (signal s); [|discriminate]. injection H as <-.
    eapply live_setc with (y := CWait j); [eapply live_same; eauto|auto|]. destruct (closed s); auto.
  - destruct (callers s !! c) as [[]|] eqn:E; try discriminate. destruct (ws s !! w) as [o|] eqn:Ew; [|discriminate].
    destruct (ItemQueue.Model.chanSend (wq o) j) as [q|] eqn:Es; [|discriminate]. injection H as <-. eapply live_setc with (y := CBlock w j); auto. eapply live_same; eauto.
  - destruct (callers s !! c) as [[]|] eqn:E; try discriminate. destruct (closed s); [|discriminate]. injection H as <-. eapply live_setc; eauto.
  - destruct (callers s !! c) as [[]|] eqn:E; try discriminate. destruct (sendWorker w s) as [s1|] eqn:Es; [|discriminate]. injection H as <-.
    apply send_tok in Es as (ch & E1 & -> & _ & Q). split; unfold nmap, tok, current; ss.
    + intros w'. pose proof (lsum_insert (ctok w') _ _ _ CIdle E) as Q1. cbn [ctok] in Q1. rewrite Q. pose proof (l_tok s L w') as T. unfold tok, nmap in T. lia.
    + eapply old_insert; eauto.
    + rewrite insert_length. apply L.
    + apply L.
  - destruct (callers s !! c) as [[]|] eqn:E; try discriminate. destruct (comps s c); [discriminate|]. injection H as <-. eapply live_same; eauto.
  - destruct (gs s !! g) as [[]|] eqn:E; try discriminate. injection H as <-. eapply live_setg; eauto. intros i [= <-]. unfold current.
    pose proof (i_chans s (iA s I)). destruct (chans s); [congruence|cbn; lia].
  - destruct (gs s !! g) as [[]|] eqn:E; try discriminate. destruct (chans s !! ch) as [[|w l]|] eqn:E1; try discriminate.
    + destruct (ch =? current s); [discriminate|]. injection H as <-. eapply live_setg; eauto. discriminate.
    + injection H as <-. assert (Ec : ch = current s). { destruct (decide (ch = current s)); auto. pose proof (l_old s L _ _ E1 n). discriminate. } subst ch.
      split; unfold nmap, tok, current; ss.
      * intros w'. pose proof (lsum_insert (gtok w') _ _ _ (GProc w) E) as Q1. cbn [gtok] in Q1. pose proof (lsum_insert (cnt w') _ _ _ l E1) as Q. rewrite cnt_cons in Q.
        pose proof (l_tok s L w') as T. unfold tok, nmap in T. unfold is in Q1. fold (current s). lia.
      * eapply old_insert; eauto.
      * rewrite insert_length. intros g' i H. apply list_lookup_insert_Some in H as [(-> & H & _)|(N & H)]; [discriminate|eapply l_sel; eauto].
      * apply L.
  - destruct (gs s !! g) as [[]|] eqn:E; try discriminate. destruct (closed s); [injection H as <-; eapply live_setg; eauto; discriminate|].
    destruct (ws s !! w) as [o|] eqn:Ew; [|discriminate]. destruct (ItemQueue.Model.peek (wq o)) as [j|] eqn:Ep; injection H as <-.
    + eapply (live_setg _ _ (GProc w)); [|exact E|auto|discriminate]. eapply live_same; eauto.
    + eapply live_setg; eauto; discriminate.
  - destruct (gs s !! g) as [[]|] eqn:E; try discriminate. injection H as <-. eapply live_setg; eauto; discriminate.
  - destruct (gs s !! g) as [[]|] eqn:E; try discriminate. destruct (ws s !! w) as [o|] eqn:Ew; [|discriminate]. injection H as <-.
    eapply (live_setg _ _ (GAdv w j)); [|exact E|auto|discriminate]. eapply live_same; eauto.
  - destruct (gs s !! g) as [[]|] eqn:E; try discriminate. destruct (_ <? _); [|discriminate]. injection H as <-.
    eapply (live_setg _ _ (GDeliver w j)); [|exact E|auto|discriminate]. eapply live_same; eauto.
  - destruct (gs s !! g) as [[]|] eqn:E; try discriminate. destruct (ws s !! w) as [o|] eqn:Ew; [|discriminate]. destruct (ItemQueue.Model.done (wq o)) eqn:Ed; injection H as <-.
    + pose proof I as [A B C]. assert (Gt : 0 < gtok w (GRel w)) by (cbn; rewrite is_refl; lia).
      destruct (g_in_map s g _ w I E Gt) as (k & M). destruct (i_key s B _ _ M) as (o1 & K1 & K2 & _). assert (o1 = o) as -> by congruence. rewrite K2.
      pose proof (mdelete_length k _ w (i_nd s A) M). destruct (l_cap s L).
      split; unfold nmap, tok, current; ss.
      * intros w'. pose proof (lsum_insert (gtok w') _ _ _ GSig E) as Q. cbn [gtok] in Q. pose proof (l_tok s L w') as Q1. unfold tok, nmap in Q1.
        pose proof (mdelete_cnt w' k (wmap s) w (i_nd s A) M) as Q2. unfold is in Q. lia.
      * apply L.
      * intros g' i H'. apply list_lookup_insert_Some in H' as [(-> & H' & _)|(N & H')]; [discriminate|eapply l_sel; eauto].
      * lia.
    + eapply live_setg; eauto; discriminate.
  - destruct (gs s !! g) as [[]|] eqn:E; try discriminate. injection H as <-. eapply (live_setg _ _ GSig); [| |auto|discriminate]; destruct (closed s); auto. eapply live_same; eauto.
  - destruct (gs s !! g) as [[]|] eqn:E; try discriminate. destruct (sendWorker w s) as [s1|] eqn:Es; [|discriminate]. injection H as <-.
    apply send_tok in Es as (ch & E1 & -> & _ & Q). split; unfold nmap, tok, current; ss.
    + intros w'. pose proof (lsum_insert (gtok w') _ _ _ GLoop E) as Q1. cbn [gtok] in Q1. rewrite Q. pose proof (l_tok s L w') as T. unfold tok, nmap in T. lia.
    + eapply old_insert; eauto.
    + rewrite insert_length. intros g' i H'. apply list_lookup_insert_Some in H' as [(-> & H' & _)|(N & H')]; [discriminate|eapply l_sel; eauto].
    + apply L.
  - destruct (gs s !! g) as [[]|] eqn:E; try discriminate. destruct (closed s); [|discriminate]. injection H as <-. eapply (live_setg _ _ (GSel ch)); [|exact E|auto|discriminate]. eapply live_same; eauto.
  - injection H as <-. destruct (l_cap s L) as (C1 & C2). unfold setMax. cbn [okmax] in O. destruct (Nat.ltb_spec (maxk s) n) as [Ln|Ln].
    + destruct O as [?|O]; [lia|]. destruct (live_ch s (i_chans s (iA s I))) as (ch & Ech). rewrite Ech.
      assert (Lc : length ch <= n).
      { assert (Q : forall w', cnt w' ch <= cnt w' (wmap s).*2).
        { intros w'. pose proof (i_tok s (iA s I) w') as Q. unfold tok, nmap in Q. pose proof (lsum_elem (cnt w') _ _ _ Ech). lia. }
        assert (ND : NoDup ch). { apply cnt_NoDup. intros w'. specialize (Q w'). pose proof (i_one s (iA s I) w') as O1. unfold nmap in O1. lia. }
        assert (S : ch ⊆ (wmap s).*2). { intros w' H. apply cnt_pos in H. apply cnt_pos. specialize (Q w'). lia. }
        apply NoDup_submseteq in S; auto. apply submseteq_length in S. rewrite fmap_length in S. lia. }
      rewrite drop_ge, take_ge by lia. split; unfold nmap, tok, current; ss.
      * intros w'. rewrite lsum_app. pose proof (lsum_insert (cnt w') _ _ _ [] Ech) as Q. pose proof (l_tok s L w') as T. unfold tok, nmap in T. cbn [lsum].
        replace (cnt w' []) with 0 in Q by reflexivity. unfold current in *. lia.
      * intros i c H N. rewrite app_length, insert_length in N. cbn [length] in N. apply lookup_app_Some in H as [H|(H1 & H2)].
        -- apply list_lookup_insert_Some in H as [(_ & Ec & _)|(N' & H)]; [auto|]. eapply l_old; eauto.
        -- apply list_lookup_singleton_Some in H2 as (H2 & _). rewrite insert_length in *. lia.
      * intros g i H. rewrite app_length, insert_length. cbn. pose proof (l_sel s L g i H). lia.
      * lia.
    + split; unfold nmap, tok, current; ss; try apply L. lia.
  - injection H as <-. eapply live_same; eauto.
  - injection H as <-. eapply live_same; eauto.
Qed.
Lemma start_live c n cc : live (start c n cc).
Proof.
  unfold start. split; unfold nmap, tok, current; ss.
  - intros w. rewrite !lsum_repeat by auto. reflexivity.
  - intros i ch H N. destruct i as [|i]; simpl in *; [congruence|discriminate].
  - intros g i H. apply lookup_repeat in H. discriminate.
  - cbn. lia.
Qed.
Lemma run_live acts : forall s s', inv s -> live s -> good s acts -> run s acts = Some s' -> live s'.
Proof.
  induction acts as [|a acts IH]; intros s s' I L G H; cbn in H; [congruence|]. destruct G as (G1 & G2). destruct (step s a) as [s1|] eqn:E; [|discriminate].
  apply (IH s1); eauto using step_inv, step_live.
Qed.

(** every active key has its worker exactly once where it will be worked on *)
Definition here (w : nat) (s : st) : nat :=
  lsum (ctok w) (callers s) + lsum (gtok w) (gs s) + match chans s !! current s with Some ch => cnt w ch | None => 0 end.
Lemma lsum_last (f : list nat -> nat) (l : list (list nat)) ch : l !! pred (length l) = Some ch -> (forall i c, l !! i = Some c -> i <> pred (length l) -> f c = 0) -> lsum f l = f ch.
Proof.
  intros E Z. pose proof (lsum_insert f l _ ch [] E) as Q.
  assert (Q' : lsum f (<[pred (length l) := []]> l) = f []).
  { clear Q. assert (L : pred (length l) < length l) by (eapply lookup_lt_Some; eauto).
    assert (Z' : forall i c, <[pred (length l) := []]> l !! i = Some c -> i <> pred (length l) -> f c = 0).
    { intros i c H N. rewrite list_lookup_insert_ne in H by auto. eauto. }
    clear Z. assert (E' : <[pred (length l) := []]> l !! pred (length l) = Some []) by (apply list_lookup_insert; auto).
    revert Z' E'. generalize (<[pred (length l) := []]> l) as m. generalize (pred (length l)) as i. clear. intros i m. revert i.
    induction m as [|x m IH]; intros i Z E; [destruct i; discriminate|]. destruct i as [|i]; cbn in E.
    - injection E as ->. cbn. assert (lsum f m = 0); [|lia]. apply lsum_zero. intros i c H. apply (Z (S i) c); auto.
    - cbn. rewrite (Z 0 x) by auto. apply (IH i); auto. intros i' c H N. apply (Z (S i') c); auto. }
  lia.
Qed.
Lemma here_once cf n cc acts s : good (start cf n cc) acts -> run (start cf n cc) acts = Some s ->
  (forall k w, (k, w) ∈ wmap s -> here w s = 1) /\
  (forall w, 0 < lsum (ctok w) (callers s) + lsum (gtok w) (gs s) -> exists s', sendWorker w s = Some s').
Proof.
  intros G R. pose proof (run_inv _ _ _ (start_inv cf n cc) R) as I. pose proof (run_live _ _ _ (start_inv cf n cc) (start_live cf n cc) G R) as L.
  destruct (live_ch s (i_chans s (iA s I))) as (ch & Ech). split.
  - intros k w M. pose proof (l_tok s L w) as T. pose proof (i_one s (iA s I) w) as O. assert (0 < nmap w s) by (apply nmap_in; eauto). unfold here. rewrite Ech.
    unfold tok in T. rewrite (lsum_last (cnt w) (chans s) ch Ech) in T; [lia|]. intros i c Hc N. rewrite (l_old s L i c Hc N). reflexivity.
  - intros w T. pose proof (chan_room s ch w I L Ech T) as Q. unfold sendWorker. rewrite Ech. destruct (Nat.ltb_spec (length ch) (chcap s)); [eauto|lia].
Qed.
