(** Progress of the scheduler while no enqueue is refused. *)
From stdpp Require Import prelude list.
From Coq Require Import ZArith.
From Verif.ItemQueue Require Model Proofs.
From Verif.Scheduler Require Import Model Base Inv Step Order Live.
Import ItemQueue.Model(size, head, chan).

(** no caller is in blockingAddItem *)
Definition nocb (s : st) : Prop := forall c w j, callers s !! c <> Some (CBlock w j).
Definition okact (s : st) (a : action) : Prop := match a with AClose => False | ASetMax n => 1 <= n /\ (n <= maxk s \/ length (wmap s) <= n) | _ => True end.
Fixpoint steady (s : st) (acts : list action) : Prop :=
  match acts with [] => True | a :: acts' => okact s a /\ match step s a with Some s' => nocb s' /\ steady s' acts' | None => True end end.
Lemma ok_okmax s a : okact s a -> okmax s a.
Proof. destruct a; cbn; tauto. Qed.

(** a worker somebody will take up *)
Definition grt (w : nat) (x : gst) : nat := match x with GProc w' | GEnq w' => is w w' | _ => 0 end.
Definition rtok (w : nat) (s : st) : nat := lsum (ctok w) (callers s) + lsum (grt w) (gs s) + lsum (cnt w) (chans s).
Definition wgood (o : wobj) : Prop := size (wq o) = Z.of_nat (length (contents (wq o))) /\ (head (wq o) = None -> contents (wq o) = []).
Definition awake (s : st) : Prop :=
  (exists c j, callers s !! c = Some (CWait j)) -> signal s = true \/ wmap s <> [] \/ (exists g, gs s !! g = Some GSig) \/ (exists c j, callers s !! c = Some (CGrab j)).
Record calm (s : st) : Prop := {
  c_open : closed s = false;
  c_nocb : nocb s;
  c_w : forall w o, ws s !! w = Some o -> wgood o;
  c_ne : forall w, 0 < rtok w s -> wat s w <> [];
  c_exit : forall g, gs s !! g <> Some GExit;
  c_max : 1 <= maxk s;
  c_wait : awake s }.

Definition internal (a : action) : bool := match a with ASchedule _ _ | ASetMax _ | ASetDepth _ | AClose => false | _ => true end.

Definition mc (x : cst) : nat := match x with CGrab _ => 20 | CWait _ => 19 | CEnq _ => 9 | _ => 0 end.
Definition mg (cur : nat) (x : gst) : nat :=
  match x with
  | GLoop => 1 | GSel i => if i =? cur then 0 else 2 | GProc _ => 7 | GRun _ _ => 6 | GAdv _ _ => 5 | GDeliver _ _ => 13 | GRel _ => 11 | GSig => 4 | GEnq _ => 10 | GExit => 0
  end.
Definition qlen (o : wobj) : nat := length (contents (wq o)).
Definition csum (f : nat -> list job) (n : nat) : nat := lsum (fun c => length (f c)) (seq 0 n).
Definition msr (s : st) : nat :=
  lsum mc (callers s) + lsum (mg (current s)) (gs s) + 8 * lsum (@length nat) (chans s) + 9 * lsum qlen (ws s)
  + (if signal s then 2 else 0) + csum (comps s) (length (callers s)).

Lemma grt_le w x : grt w x <= gtok w x.
Proof. destruct x; cbn; lia. Qed.
Lemma lsum_mono {X} (f g : X -> nat) l : (forall x, f x <= g x) -> lsum f l <= lsum g l.
Proof. intros H. induction l as [|x l IH]; cbn; auto. specialize (H x). lia. Qed.
Lemma csum_upd f f' c n : (forall x, x <> c -> f' x = f x) -> csum f' n + (if c <? n then length (f c) else 0) = csum f n + (if c <? n then length (f' c) else 0).
Proof.
  intros H. unfold csum. induction n as [|n IH]; [reflexivity|]. rewrite seq_S, !lsum_app. cbn [lsum plus].
  destruct (decide (n = c)) as [->|N].
  - replace (c <? S c) with true by (symmetry; apply Nat.ltb_lt; lia). replace (c <? c) with false in IH by (symmetry; apply Nat.ltb_ge; lia). lia.
  - rewrite (H n) by auto. destruct (Nat.ltb_spec c n), (Nat.ltb_spec c (S n)); lia.
Qed.

Lemma prepared_ws s j w b s1 : prepared s j w b s1 ->
  (forall w', w' <> w -> wat s1 w' = wat s w') /\ lsum qlen (ws s1) = lsum qlen (ws s) /\
  ((forall w o, ws s !! w = Some o -> wgood o) -> forall w o, ws s1 !! w = Some o -> wgood o) /\ wmap s1 <> [].
Proof.
  intros P. destruct (newq_facts (depth s)) as (N1 & N2 & N3 & N4 & N5). destruct P as [w E|E L|i w o E L Ep Ew Ed].
  - split; auto. split; auto. split; auto. intros H. rewrite H in E. discriminate.
  - unfold wat. ss. split; [|split; [|split]].
    + intros w' N. destruct (decide (w' < length (ws s))); [rewrite lookup_app_l by lia; auto|]. rewrite !lookup_ge_None_2; auto; [lia|]. rewrite app_length. cbn. lia.
    + rewrite lsum_app. unfold qlen at 2. cbn [lsum wq]. rewrite N1. cbn. lia.
    + intros H w' o' H'. apply lookup_app_Some in H' as [H'|(_ & H')]; [apply (H _ _ H')|]. apply list_lookup_singleton_Some in H' as (_ & <-). unfold wgood. cbn [wq]. rewrite N1, N2. auto.
    + discriminate.
  - unfold wat. ss. split; [|split; [|split]].
    + intros w' N. rewrite list_lookup_insert_ne by auto. auto.
    + pose proof (lsum_insert qlen _ _ _ (mkW (jkey j) (wcap o) (wq o)) Ew) as Q. unfold qlen in *. cbn [wq] in Q. lia.
    + intros H w' o' H'. apply list_lookup_insert_Some in H' as [(-> & <- & _)|(_ & H')]; [apply (H _ _ Ew)|apply (H _ _ H')].
    + discriminate.
Qed.
Lemma setq_wat s w o o' w' : ws s !! w = Some o -> wat (set_ws (<[w := o']> (ws s)) s) w' = if decide (w' = w) then contents (wq o') else wat s w'.
Proof.
  intros E. unfold wat. ss. destruct (decide (w' = w)) as [->|D].
  - rewrite list_lookup_insert by (eapply lookup_lt_Some; eauto). auto.
  - rewrite list_lookup_insert_ne by auto. auto.
Qed.
Lemma setq_good s w o o' : (forall w o, ws s !! w = Some o -> wgood o) -> ws s !! w = Some o -> wgood o' -> forall w1 o1, <[w := o']> (ws s) !! w1 = Some o1 -> wgood o1.
Proof. intros H E G w1 o1 H1. apply list_lookup_insert_Some in H1 as [(_ & <- & _)|(_ & H1)]; eauto. Qed.

Lemma awake_c s s' c x y : awake s -> callers s !! c = Some x -> callers s' = <[c := y]> (callers s) -> (forall j, x <> CGrab j) -> (forall j, y <> CWait j) ->
  signal s' = signal s -> wmap s' = wmap s -> gs s' = gs s -> awake s'.
Proof.
  intros A E Ec X Y E1 E2 E3 (c0 & j0 & H). rewrite E1, E2, E3. rewrite Ec in H.
  assert (Q : exists c j, callers s !! c = Some (CWait j)) by (apply list_lookup_insert_Some in H as [(_ & H & _)|(_ & H)]; [exfalso; eapply Y; eauto|eauto]).
  destruct (A Q) as [?|[?|[?|(c1 & j1 & H1)]]]; auto. right; right; right. exists c1, j1. rewrite Ec. rewrite list_lookup_insert_ne; auto. intros <-. rewrite E in H1. injection H1 as ->. eapply X; eauto.
Qed.
Lemma awake_g s s' g x y : awake s -> gs s !! g = Some x -> gs s' = <[g := y]> (gs s) -> x <> GSig -> signal s' = signal s -> wmap s' = wmap s -> callers s' = callers s -> awake s'.
Proof.
  intros A E Eg X E1 E2 E3 Q. rewrite E1, E2, E3 in *. unfold awake in *. destruct (A Q) as [?|[?|[(g1 & H1)|?]]]; auto.
  right; right; left. exists g1. rewrite Eg. rewrite list_lookup_insert_ne; auto. intros <-. congruence.
Qed.
Lemma exit_g s g y : (forall g, gs s !! g <> Some GExit) -> y <> GExit -> forall g', <[g := y]> (gs s) !! g' <> Some GExit.
Proof. intros H N g' H'. apply list_lookup_insert_Some in H' as [(_ & ? & _)|(_ & H')]; [congruence|eapply H; eauto]. Qed.

(** a goroutine moves on, nothing else changes *)
Lemma calm_setg s s' g x y : calm s -> gs s !! g = Some x -> gs s' = <[g := y]> (gs s) -> callers s' = callers s -> ws s' = ws s -> wmap s' = wmap s -> signal s' = signal s -> chans s' = chans s ->
  closed s' = closed s -> maxk s' = maxk s -> x <> GSig -> y <> GExit -> (forall w, 0 < grt w y -> 0 < grt w x \/ wat s w <> []) -> calm s'.
Proof.
  intros C E Eg E1 E2 E3 E4 E5 E6 E7 X Y R. split.
  - rewrite E6. apply C.
  - unfold nocb. rewrite E1. apply C.
  - rewrite E2. apply C.
  - unfold wat, rtok. rewrite E1, E2, E5, Eg. intros w H. pose proof (lsum_insert (grt w) _ _ _ y E) as Q. specialize (R w).
    pose proof (c_ne s C w) as N. unfold wat, rtok in N, R. destruct (decide (0 < grt w y)) as [P|P]; [|apply N; lia]. destruct (R P) as [P'|?]; auto. apply N.
    pose proof (lsum_elem (grt w) _ _ _ E). lia.
  - rewrite Eg. apply exit_g; auto. apply C.
  - rewrite E7. apply C.
  - eapply awake_g; eauto. apply C.
Qed.

Lemma current_insert s i x : pred (length (<[i := x]> (chans s))) = current s.
Proof. rewrite insert_length. reflexivity. Qed.
Lemma len_insert {X} i (x : X) l : length (<[i := x]> l) = length l.
Proof. apply insert_length. Qed.
Lemma lsum_len w (l : list (list nat)) i ch ch' : l !! i = Some ch -> lsum (@length nat) (<[i := ch']> l) + length ch = lsum (@length nat) l + length ch' /\
  lsum (cnt w) (<[i := ch']> l) + cnt w ch = lsum (cnt w) l + cnt w ch'.
Proof. intros E. split; apply lsum_insert; auto. Qed.

Lemma step_calm s a s' : inv s -> live s -> calm s -> okact s a -> step s a = Some s' -> nocb s' -> calm s' /\ (internal a = true -> msr s' < msr s).
Proof.
  intros I L C O H NB. pose proof (c_open s C) as Cl. destruct a as [c j|c src|c|c|c|c|c|g|g|g|g|g|g|g|g|g|g|n|n|]; cbn [step internal] in *; rewrite ?Cl in H.
  - destruct (callers s !! c) as [[]|] eqn:E; try discriminate. destruct (jcaller j =? c); [|discriminate]. injection H as <-. split; [|discriminate]. split; try apply C; auto.
    + ss. intros w. unfold rtok, wat. ss. pose proof (lsum_insert (ctok w) _ _ _ (CGrab j) E) as Q. cbn [ctok] in Q. pose proof (c_ne s C w) as N. unfold rtok, wat in N. intros. apply N. lia.
    + intros _. ss. right; right; right. exists c, j. apply list_lookup_insert. eapply lookup_lt_Some; eauto.
  - destruct (callers s !! c) as [[]|] eqn:E; try discriminate. apply grab_cases in H as [(Mn & Mx & ->)|(w & b & s1 & P & H)].
    + split; [split; try apply C; auto|]; ss.
      * intros w. unfold rtok, wat. ss. pose proof (lsum_insert (ctok w) _ _ _ (CWait j) E) as Q. cbn [ctok] in Q. pose proof (c_ne s C w) as N. unfold rtok, wat in N. intros. apply N. lia.
      * intros _. ss. right; left. pose proof (c_max s C). destruct (wmap s); [cbn in Mx; lia|discriminate].
      * intros _. unfold msr, current. ss. rewrite len_insert. pose proof (lsum_insert mc _ _ _ (CWait j) E) as Q. cbn [mc] in Q. lia.
    + pose proof (prepared_inv _ _ _ _ _ I P) as (I1 & M & Ec & Eg & Q). pose proof (prepared_same _ _ _ _ _ P) as (_ & _ & _ & Ecl & _ & _ & Ecm & _ & _ & Ech & Esg & Emx & Ecp & _).
      destruct (prepared_ws _ _ _ _ _ P) as (W1 & W2 & W3 & W4).
      apply addTo_same in H as (o & added & q & Ew & Et & ->). destruct (i_w s1 (iB s1 I1) w o Ew) as (W5 & W6).
      pose proof (W3 (c_w s C) w o Ew) as (G1 & G2).
      apply ItemQueue.Proofs.try_contents in Et as (T1 & T2 & T3 & T4 & _ & y & T5); [|lia|auto].
      assert (added = true) as -> by (destruct added; auto; exfalso; apply (NB c w j); ss; apply list_lookup_insert; rewrite Ec; eapply lookup_lt_Some; eauto).
      assert (Hw : forall w', wat (setc c (if b then CEnq w else CIdle) (set_inserted (inserted s1 ++ [j]) (setq w o q s1))) w' = if decide (w' = w) then contents q else wat s w').
      { intros w'. pose proof (setq_wat s1 w o (mkW (wkey o) (wcap o) q) w' Ew) as Z. cbn [wq] in Z. unfold wat in *. ss. rewrite Z. destruct (decide (w' = w)); auto. }
      rewrite <- Ec in E.
      split; [split|]; ss; rewrite ?Ecl, ?Ech, ?Emx, ?Eg.
      * auto.
      * auto.
      * eapply setq_good; [apply W3, C|exact Ew|]. split; cbn [wq]; [|congruence]. rewrite T1, T2, app_length, G1. cbn. lia.
      * intros w' R. rewrite Hw. destruct (decide (w' = w)) as [->|N]; [rewrite T1; destruct (contents (wq o)); discriminate|]. apply (c_ne s C).
        unfold rtok in *. ss. rewrite Eg, Ech in R. rewrite <- Ec. match type of R with context [<[c := ?x]> _] => pose proof (lsum_insert (ctok w') _ _ _ x E) as Q1 end.
        cbn [ctok] in Q1. destruct b; cbn [ctok] in Q1; unfold is in Q1; try rewrite decide_False in Q1 by auto; lia.
      * apply C.
      * apply C.
      * intros _. ss. auto.
      * intros _. unfold msr, current. ss. rewrite Ech, Eg, Esg, Ecm, len_insert, Ec. rewrite Ec in E.
        match goal with |- context [<[c := ?x]> _] => pose proof (lsum_insert mc _ _ _ x E) as Q1 end.
        pose proof (lsum_insert qlen _ _ _ (mkW (wkey o) (wcap o) q) Ew) as Q2. unfold qlen at 2 4 in Q2. cbn [wq] in Q2. rewrite T1, app_length in Q2. cbn [length] in Q2. rewrite W2 in Q2.
        cbn [mc] in Q1. destruct b; cbn [mc] in Q1; lia.
  - destruct (callers s !! c) as [[]|] eqn:E; try discriminate. destruct (signal s) eqn:Sg; [|discriminate]. injection H as <-. split; [split; try apply C; auto|]; ss.
    + intros w. unfold rtok, wat. ss. pose proof (lsum_insert (ctok w) _ _ _ (CGrab j) E) as Q. cbn [ctok] in Q. pose proof (c_ne s C w) as N. unfold rtok, wat in N. intros. apply N. lia.
    + intros _. ss. right; right; right. exists c, j. apply list_lookup_insert. eapply lookup_lt_Some; eauto.
    + intros _. unfold msr, current. ss. rewrite len_insert, Sg. pose proof (lsum_insert mc _ _ _ (CGrab j) E) as Q. cbn [mc] in Q. lia.
  - destruct (callers s !! c) as [[]|] eqn:E; try discriminate. exfalso. eapply (c_nocb s C); eauto.
  - destruct (callers s !! c) as [[]|] eqn:E; discriminate.
  - destruct (callers s !! c) as [[]|] eqn:E; try discriminate. destruct (sendWorker w s) as [s1|] eqn:Es; [|discriminate]. injection H as <-.
    apply send_tok in Es as (ch & E1 & -> & Rm & Q). split; [split; try apply C; auto|]; ss.
    + intros w' R. apply (c_ne s C). unfold rtok in *. ss. rewrite Q in R. pose proof (lsum_insert (ctok w') _ _ _ CIdle E) as Q1. cbn [ctok] in Q1. lia.
    + eapply (awake_c s) with (c := c) (x := CEnq w) (y := CIdle); ss; auto; try discriminate. apply C.
    + intros _. unfold msr, current. ss. rewrite !len_insert. pose proof (lsum_insert mc _ _ _ CIdle E) as Q1. cbn [mc] in Q1.
      destruct (lsum_len 0 _ _ _ (ch ++ [w]) E1) as (Q2 & _). rewrite app_length in Q2. cbn [length] in Q2. fold (current s). lia.
  - destruct (callers s !! c) as [[]|] eqn:E; try discriminate. destruct (comps s c) as [|j q] eqn:Ecs; [discriminate|]. injection H as <-. split; [split; try apply C; auto|]; ss.
    intros _. unfold msr, current. ss. pose proof (csum_upd (comps s) (fun x => if x =? c then q else comps s x) c (length (callers s))) as Q.
    assert (Lc : c < length (callers s)) by (eapply lookup_lt_Some; eauto). destruct (Nat.ltb_spec c (length (callers s))); [|lia]. rewrite Nat.eqb_refl, Ecs in Q. cbn [length] in Q.
    assert (csum (fun x => if x =? c then q else comps s x) (length (callers s)) + S (length q) = csum (comps s) (length (callers s)) + length q); [|lia].
    apply Q. intros x N. destruct (Nat.eqb_spec x c); congruence.
  - destruct (gs s !! g) as [[]|] eqn:E; try discriminate. injection H as <-. split.
    + eapply calm_setg with (g := g); ss; eauto; try discriminate; try (intros w9 H9; cbn in H9; lia).
    + intros _. unfold msr, current. ss. fold (current s). pose proof (lsum_insert (mg (current s)) _ _ _ (GSel (current s)) E) as Q. cbn [mg] in Q. rewrite Nat.eqb_refl in Q. lia.
  - destruct (gs s !! g) as [[]|] eqn:E; try discriminate. destruct (chans s !! ch) as [[|w l]|] eqn:E1; try discriminate.
    + destruct (Nat.eqb_spec ch (current s)) as [|N]; [discriminate|]. injection H as <-. split.
      * eapply calm_setg with (g := g); ss; eauto; try discriminate; try (intros w9 H9; cbn in H9; lia).
      * intros _. unfold msr, current. ss. fold (current s). pose proof (lsum_insert (mg (current s)) _ _ _ GLoop E) as Q. cbn [mg] in Q. destruct (Nat.eqb_spec ch (current s)); [congruence|]. lia.
    + injection H as <-. assert (Ec : ch = current s). { destruct (decide (ch = current s)); auto. pose proof (l_old s L _ _ E1 n). discriminate. } subst ch.
      split; [split; try apply C; auto|]; ss.
      * intros w' R. apply (c_ne s C). unfold rtok in *. ss. destruct (lsum_len w' _ _ _ l E1) as (_ & Q2). rewrite cnt_cons in Q2. pose proof (lsum_insert (grt w') _ _ _ (GProc w) E) as Q1.
        cbn [grt] in Q1. unfold is in Q1. lia.
      * apply exit_g; [apply C|discriminate].
      * eapply (awake_g s) with (g := g); ss; eauto; try discriminate. apply C.
      * intros _. unfold msr, current. ss. rewrite len_insert. fold (current s). destruct (lsum_len 0 _ _ _ l E1) as (Q2 & _). cbn [length] in Q2.
        pose proof (lsum_insert (mg (current s)) _ _ _ (GProc w) E) as Q. cbn [mg] in Q. rewrite Nat.eqb_refl in Q. lia.
  - destruct (gs s !! g) as [[]|] eqn:E; try discriminate. destruct (ws s !! w) as [o|] eqn:Ew; [|discriminate]. destruct (ItemQueue.Model.peek (wq o)) as [j|] eqn:Ep; injection H as <-.
    + split.
      * eapply calm_setg with (g := g); ss; eauto; try discriminate; try (intros w9 H9; cbn in H9; lia).
      * intros _. unfold msr, current. ss. fold (current s). pose proof (lsum_insert (mg (current s)) _ _ _ (GRun w j) E) as Q. cbn [mg] in Q. lia.
    + exfalso. destruct (c_w s C w o Ew) as (_ & G2). apply (c_ne s C w); [|unfold wat; rewrite Ew; auto]. unfold rtok. pose proof (lsum_elem (grt w) _ _ _ E) as Q. cbn [grt] in Q. rewrite is_refl in Q. lia.
  - destruct (gs s !! g) as [[]|] eqn:E; try discriminate. injection H as <-. split.
    + eapply calm_setg with (g := g); ss; eauto; try discriminate; try (intros w9 H9; cbn in H9; lia).
    + intros _. unfold msr, current. ss. fold (current s). pose proof (lsum_insert (mg (current s)) _ _ _ (GAdv w j) E) as Q. cbn [mg] in Q. lia.
  - destruct (gs s !! g) as [[]|] eqn:E; try discriminate. destruct (ws s !! w) as [o|] eqn:Ew; [|discriminate]. injection H as <-.
    destruct (i_head s (iC s I) g _ w j E eq_refl) as (o1 & Ew1 & Hh). assert (o1 = o) as -> by congruence. destruct (dequeue_head _ _ Hh) as (q' & D1 & D2 & D3 & D4 & D5 & D6). rewrite D1. cbn [fst snd].
    destruct (c_w s C w o Ew) as (G1 & G2).
    split; [split; try apply C; auto|]; ss.
    + eapply setq_good; [apply C|exact Ew|]. split; cbn [wq].
      * rewrite D3, G1, D2. cbn [length]. lia.
      * intros Hn. specialize (D6 Hn). unfold ItemQueue.Proofs.contents. rewrite Hn, D6. reflexivity.
    + intros w' R. unfold rtok in R. ss. pose proof (lsum_insert (grt w') _ _ _ (GDeliver w j) E) as Q. cbn [grt] in Q.
      pose proof (setq_wat s w o (mkW (wkey o) (wcap o) q') w' Ew) as Z. unfold wat in Z |- *. ss. rewrite Z. destruct (decide (w' = w)) as [->|N]; [|apply (c_ne s C w'); unfold rtok; lia].
      exfalso. pose proof (i_tok s (iA s I) w) as T. pose proof (i_one s (iA s I) w) as T1. unfold tok in T.
      pose proof (lsum_insert (gtok w) _ _ _ GLoop E) as Q1. cbn [gtok] in Q1. rewrite is_refl in Q1. pose proof (lsum_insert (grt w) _ _ _ GLoop E) as Q2. cbn [grt] in Q2.
      pose proof (lsum_mono (grt w) (gtok w) (<[g:=GLoop]> (gs s)) (grt_le w)). lia.
    + apply exit_g; [apply C|discriminate].
    + eapply (awake_g s) with (g := g); ss; eauto; try discriminate. apply C.
    + intros _. unfold msr, current. ss. fold (current s). pose proof (lsum_insert (mg (current s)) _ _ _ (GDeliver w j) E) as Q. cbn [mg] in Q.
      pose proof (lsum_insert qlen _ _ _ (mkW (wkey o) (wcap o) q') Ew) as Q2. unfold qlen at 2 4 in Q2. cbn [wq] in Q2. rewrite D2 in Q2. cbn [length] in Q2. lia.
  - destruct (gs s !! g) as [[]|] eqn:E; try discriminate. destruct (_ <? _); [|discriminate]. injection H as <-. split.
    + eapply calm_setg with (g := g); ss; eauto; try discriminate; try (intros w9 H9; cbn in H9; lia).
    + intros _. unfold msr, current. ss. fold (current s). pose proof (lsum_insert (mg (current s)) _ _ _ (GRel w) E) as Q. cbn [mg] in Q.
      pose proof (csum_upd (comps s) (fun x => if x =? jcaller j then comps s x ++ [j] else comps s x) (jcaller j) (length (callers s))) as Q1. cbn beta in Q1.
      rewrite Nat.eqb_refl, app_length in Q1. cbn [length] in Q1.
      assert (csum (fun x => if x =? jcaller j then comps s x ++ [j] else comps s x) (length (callers s)) <= csum (comps s) (length (callers s)) + 1); [|lia].
      assert (Q2 := Q1 ltac:(intros x N; destruct (Nat.eqb_spec x (jcaller j)); congruence)). destruct (jcaller j <? length (callers s)); lia.
  - destruct (gs s !! g) as [[]|] eqn:E; try discriminate. destruct (ws s !! w) as [o|] eqn:Ew; [|discriminate]. destruct (c_w s C w o Ew) as (G1 & G2).
    destruct (ItemQueue.Model.done (wq o)) eqn:Ed; injection H as <-.
    + split; [split; try apply C; auto|]; ss.
      * eapply setq_good; [apply C|exact Ew|]. split; cbn [wq]; auto.
      * intros w' R. unfold rtok in R. ss. pose proof (lsum_insert (grt w') _ _ _ GSig E) as Q. cbn [grt] in Q.
        pose proof (setq_wat s w o (mkW 0 (wcap o) (wq o)) w' Ew) as Z. unfold wat in Z |- *. ss. rewrite Z. assert (R' : 0 < rtok w' s) by (unfold rtok; lia).
        pose proof (c_ne s C w' R') as N'. unfold wat in N'. destruct (decide (w' = w)) as [->|N]; auto. rewrite Ew in N'. auto.
      * apply exit_g; [apply C|discriminate].
      * intros _. ss. right; right; left. exists g. apply list_lookup_insert. eapply lookup_lt_Some; eauto.
      * intros _. unfold msr, current. ss. fold (current s). pose proof (lsum_insert (mg (current s)) _ _ _ GSig E) as Q. cbn [mg] in Q.
        pose proof (lsum_insert qlen _ _ _ (mkW 0 (wcap o) (wq o)) Ew) as Q2. unfold qlen at 2 4 in Q2. cbn [wq] in Q2. lia.
    + split.
      * eapply calm_setg with (g := g); ss; eauto; try discriminate. intros w' H. right. cbn [grt] in H. unfold is in H. case_decide as D; [|lia]. subst w'. unfold wat. rewrite Ew.
        intros Hc. rewrite Hc in G1. unfold ItemQueue.Model.done in Ed. rewrite G1 in Ed. discriminate.
      * intros _. unfold msr, current. ss. fold (current s). pose proof (lsum_insert (mg (current s)) _ _ _ (GEnq w) E) as Q. cbn [mg] in Q. lia.
  - destruct (gs s !! g) as [[]|] eqn:E; try discriminate. injection H as <-. split; [split; try apply C; auto|]; ss.
    + intros w' R. apply (c_ne s C). unfold rtok in *. ss. pose proof (lsum_insert (grt w') _ _ _ GLoop E) as Q1. cbn [grt] in Q1. lia.
    + apply exit_g; [apply C|discriminate].
    + intros _. ss. auto.
    + intros _. unfold msr, current. ss. fold (current s). pose proof (lsum_insert (mg (current s)) _ _ _ GLoop E) as Q. cbn [mg] in Q. destruct (signal s); lia.
  - destruct (gs s !! g) as [[]|] eqn:E; try discriminate. destruct (sendWorker w s) as [s1|] eqn:Es; [|discriminate]. injection H as <-.
    apply send_tok in Es as (ch & E1 & -> & Rm & Q). split; [split; try apply C; auto|]; ss.
    + intros w' R. apply (c_ne s C). unfold rtok in *. ss. rewrite Q in R. pose proof (lsum_insert (grt w') _ _ _ GLoop E) as Q1. cbn [grt] in Q1. lia.
    + apply exit_g; [apply C|discriminate].
    + eapply (awake_g s) with (g := g); ss; eauto; try discriminate. apply C.
    + intros _. unfold msr, current. ss. rewrite !len_insert. fold (current s). pose proof (lsum_insert (mg (current s)) _ _ _ GLoop E) as Q1. cbn [mg] in Q1.
      destruct (lsum_len 0 _ _ _ (ch ++ [w]) E1) as (Q2 & _). rewrite app_length in Q2. cbn [length] in Q2. lia.
  - destruct (gs s !! g) as [[]|] eqn:E; discriminate.
  - injection H as <-. split; [|discriminate]. cbn [okact] in O. destruct O as (O & _). unfold setMax. destruct (Nat.ltb_spec (maxk s) n) as [Ln|Ln].
    + destruct (live_ch s (i_chans s (iA s I))) as (ch & Ech). rewrite Ech. split; try apply C; ss; auto.
      intros w R. apply (c_ne s C w). unfold rtok in *. ss. rewrite lsum_app in R. destruct (lsum_len w _ _ _ (drop n ch) Ech) as (_ & Q). cbn [lsum] in R. pose proof (cnt_take_drop w n ch). lia.
    + split; try apply C; ss; auto.
  - injection H as <-. split; [|discriminate]. split; try apply C; auto.
  - destruct O.
Qed.

Lemma start_calm cf n cc : 1 <= Concurrency cf -> calm (start cf n cc).
Proof.
  intros H. unfold start. split; ss; auto.
  - intros c w j E. ss. apply lookup_repeat in E. discriminate.
  - intros w o E. destruct w; discriminate.
  - intros w. unfold rtok. ss. rewrite !lsum_repeat by auto. cbn. lia.
  - intros g E. apply lookup_repeat in E. discriminate.
  - unfold concurrentKeys. destruct (Nat.ltb_spec (MaxConcurrentKeys cf) (Concurrency cf)); lia.
  - intros (c & j & E). ss. apply lookup_repeat in E. discriminate.
Qed.
Lemma run_steady acts : forall s s', inv s -> invD s -> live s -> calm s -> steady s acts -> run s acts = Some s' -> inv s' /\ invD s' /\ live s' /\ calm s'.
Proof.
  induction acts as [|a acts IH]; intros s s' I D L C G H; cbn in H; [injection H as <-; auto|]. destruct G as (G1 & G2). destruct (step s a) as [s1|] eqn:E; [|discriminate]. destruct G2 as (N & G2).
  destruct (step_calm s a s1 I L C G1 E N) as (C1 & _).
  apply (IH s1); eauto using step_inv, stepD, step_live, ok_okmax.
Qed.
Lemma run_short acts : forall s s', inv s -> live s -> calm s -> steady s acts -> forallb internal acts = true -> run s acts = Some s' -> length acts + msr s' <= msr s.
Proof.
  induction acts as [|a acts IH]; intros s s' I L C G F H; cbn in H; [injection H as <-; cbn; lia|]. destruct G as (G1 & G2). destruct (step s a) as [s1|] eqn:E; [|discriminate]. destruct G2 as (N & G2).
  cbn in F. apply andb_prop in F as (F1 & F2). destruct (step_calm s a s1 I L C G1 E N) as (C1 & M). specialize (M F1).
  assert (length acts + msr s' <= msr s1) by (apply IH; eauto using step_inv, step_live, ok_okmax). cbn. lia.
Qed.
Lemma run_app a b s : run s (a ++ b) = match run s a with Some s' => run s' b | None => None end.
Proof. revert s. induction a as [|x a IH]; intros s; cbn; auto. destruct (step s x); auto. Qed.
Lemma steady_app a b : forall s, steady s (a ++ b) <-> steady s a /\ match run s a with Some s' => steady s' b | None => True end.
Proof.
  induction a as [|x a IH]; intros s; cbn; [tauto|]. destruct (step s x) as [s1|]; [|tauto]. rewrite IH. tauto.
Qed.

(** ** counting by keys *)
Lemma jn_cons P j l : jn P (j :: l) = (if P j then 1 else 0) + jn P l.
Proof. unfold jn, jof. cbn. destruct (P j); reflexivity. Qed.
Lemma jn_split P l K : (forall j, j ∈ l -> jkey j < K) -> jn P l = lsum (fun k => jn P (jof (keyis k) l)) (seq 0 K).
Proof.
  induction l as [|j l IH]; intros H.
  - clear H. induction (seq 0 K); cbn; auto.
  - rewrite jn_cons, IH by (intros; apply H; right; auto). assert (Hj : jkey j < K) by (apply H; left).
    assert (Q : forall m, lsum (fun k => jn P (jof (keyis k) (j :: l))) (seq 0 m) = (if jkey j <? m then (if P j then 1 else 0) else 0) + lsum (fun k => jn P (jof (keyis k) l)) (seq 0 m)).
    { induction m as [|m IHm]; [reflexivity|]. rewrite seq_S, !lsum_app, IHm. cbn [lsum plus]. 
      destruct (decide (jkey j = m)) as [Em|Em].
      - replace (jof (keyis m) (j :: l)) with (j :: jof (keyis m) l) by (unfold jof, keyis; cbn; rewrite Em, Nat.eqb_refl; reflexivity). rewrite jn_cons.
        destruct (Nat.ltb_spec (jkey j) m), (Nat.ltb_spec (jkey j) (S m)); lia.
      - replace (jof (keyis m) (j :: l)) with (jof (keyis m) l) by (unfold jof, keyis; cbn; destruct (Nat.eqb_spec (jkey j) m); congruence).
        destruct (Nat.ltb_spec (jkey j) m), (Nat.ltb_spec (jkey j) (S m)); lia. }
    rewrite Q. destruct (Nat.ltb_spec (jkey j) K); lia.
Qed.
Fixpoint maxkey (l : list job) : nat := match l with [] => 0 | j :: l' => Nat.max (S (jkey j)) (maxkey l') end.
Lemma maxkey_le l j : j ∈ l -> jkey j < maxkey l.
Proof. induction l as [|x l IH]; cbn; [intros H; inversion H|]. rewrite elem_of_cons. intros [->|H]; [lia|]. specialize (IH H). lia. Qed.
Lemma lsum_le {X} (f g : X -> nat) l : (forall x, f x <= g x) -> lsum f l <= lsum g l.
Proof. apply lsum_mono. Qed.
Lemma jn_keys P l1 l2 : (forall k, jn P (jof (keyis k) l1) <= jn P (jof (keyis k) l2)) -> jn P l1 <= jn P l2.
Proof.
  intros H. set (K := Nat.max (maxkey l1) (maxkey l2)). rewrite (jn_split P l1 K), (jn_split P l2 K); [apply lsum_mono; auto| |]; intros j Hj; apply maxkey_le in Hj; lia.
Qed.
Lemma jn_prefix P a b r : a = b ++ r -> jn P b <= jn P a.
Proof. intros ->. rewrite jn_app. lia. Qed.

Definition outstanding (s : st) (c : nat) : nat := jn (callis c) (accepted s) - jn (callis c) (collected s).

(** a job that is being delivered is outstanding, so there is room for it *)
Lemma deliver_room s g w j : inv s -> invD s -> gs s !! g = Some (GDeliver w j) -> outstanding s (jcaller j) <= ccap s -> length (comps s (jcaller j)) < ccap s.
Proof.
  intros I D E O. unfold outstanding in O. set (c := jcaller j) in *. pose proof (d_out s D c) as Do. destruct (d_in s D c) as (r & Di & _).
  assert (Lo : jn (callis c) (delivered s) = jn (callis c) (collected s) + length (comps s c)) by (unfold jn; rewrite Do, app_length; auto).
  assert (Li : jn (callis c) (inserted s) <= jn (callis c) (accepted s)) by (unfold jn; rewrite Di, app_length; lia).
  assert (Lt : jn (callis c) (taken s) <= jn (callis c) (inserted s)).
  { apply jn_keys. intros k. eapply jn_prefix. apply (i_fifo s (iC s I)). }
  assert (Ld : jn (callis c) (delivered s ++ [j]) <= jn (callis c) (taken s)).
  { apply jn_keys. intros k. rewrite (i_deliv s (iC s I) k), jof_app, !jn_app.
    assert (jn (callis c) (jof (keyis k) [j]) <= jn (callis c) (fm (fun x => one k (delivering x)) (gs s))); [|lia].
    pose proof (i_hold s (iC s I) g _ w j E eq_refl) as M. destruct (decide (jkey j = k)) as [Ek|Ek].
    - rewrite Ek in M. assert (Gt : 0 < gtok w (GDeliver w j)) by (cbn; rewrite is_refl; lia). pose proof (others s g _ w k I E Gt M) as Ot.
      destruct (fm_others (fun x => one k (delivering x)) (gs s) g _ GLoop E) as (_ & F); [intros; eapply one_run, Ot; eauto|]. rewrite F. cbn [delivering one]. rewrite jof1. lia.
    - rewrite jof1. unfold keyis. destruct (Nat.eqb_spec (jkey j) k); [congruence|]. cbn. lia. }
  rewrite jn_app in Ld. assert (jn (callis c) [j] = 1) by (unfold jn, callis, c; cbn; rewrite Nat.eqb_refl; reflexivity). lia.
Qed.

(** a state in which nothing can happen by itself has nothing left to do *)
Lemma idle_done s : inv s -> invD s -> live s -> calm s -> 0 < length (gs s) -> (forall c, outstanding s c <= ccap s) ->
  (forall a, internal a = true -> step s a = None) ->
  (forall c x, callers s !! c = Some x -> x = CIdle) /\ wmap s = [] /\
  forall c, c < length (callers s) -> comps s c = [] /\ forall k, jof (keyis k) (jof (callis c) (accepted s)) = jof (keyis k) (jof (callis c) (collected s)).
Proof.
  intros I D L C Lg O St. pose proof (iA s I) as A. pose proof (iB s I) as B. pose proof (c_open s C) as Cl. destruct (live_ch s (i_chans s A)) as (ch & Ech).
  assert (Gs : forall g x, gs s !! g = Some x -> x = GSel (current s)).
  { intros g x E. destruct x as [|i|w|w j|w j|w j|w| |w|].
    - specialize (St (GRead g) eq_refl). cbn in St. rewrite E in St. discriminate.
    - specialize (St (GTake g) eq_refl). cbn in St. rewrite E in St. pose proof (l_sel s L g i E) as Li. apply lookup_lt_is_Some in Li as (c & Ec). rewrite Ec in St.
      destruct c; [|discriminate]. destruct (Nat.eqb_spec i (current s)); [congruence|discriminate].
    - specialize (St (GPeek g) eq_refl). cbn in St. rewrite E, Cl in St. assert (Gt : 0 < gtok w (GProc w)) by (cbn; rewrite is_refl; lia).
      destruct (g_in_map s g _ w I E Gt) as (k & M). destruct (i_key s B k w M) as (o & Ew & _). rewrite Ew in St. destruct (ItemQueue.Model.peek (wq o)); discriminate.
    - specialize (St (GReturn g) eq_refl). cbn in St. rewrite E in St. discriminate.
    - specialize (St (GAdvance g) eq_refl). cbn in St. rewrite E in St. assert (Gt : 0 < gtok w (GAdv w j)) by (cbn; rewrite is_refl; lia).
      destruct (g_in_map s g _ w I E Gt) as (k & M). destruct (i_key s B k w M) as (o & Ew & _). rewrite Ew in St. discriminate.
    - specialize (St (GComplete g) eq_refl). cbn [step] in St. rewrite E in St. pose proof (deliver_room s g w j I D E (O _)) as R.
      destruct (Nat.ltb_spec (length (comps s (jcaller j))) (ccap s)); [discriminate|lia].
    - specialize (St (GRelease g) eq_refl). cbn in St. rewrite E in St. assert (Gt : 0 < gtok w (GRel w)) by (cbn; rewrite is_refl; lia).
      destruct (g_in_map s g _ w I E Gt) as (k & M). destruct (i_key s B k w M) as (o & Ew & _). rewrite Ew in St. destruct (ItemQueue.Model.done (wq o)); discriminate.
    - specialize (St (GSignal g) eq_refl). cbn in St. rewrite E in St. discriminate.
    - specialize (St (GEnqueue g) eq_refl). cbn [step] in St. rewrite E in St. assert (Gt : 0 < lsum (ctok w) (callers s) + lsum (gtok w) (gs s)).
      { pose proof (lsum_elem (gtok w) _ _ _ E) as Q. cbn [gtok] in Q. rewrite is_refl in Q. lia. }
      pose proof (chan_room s ch w I L Ech Gt) as R. unfold sendWorker in St. rewrite Ech in St. destruct (Nat.ltb_spec (length ch) (chcap s)); [discriminate|lia].
    - exfalso. eapply c_exit; eauto. }
  assert (Che : ch = []).
  { destruct (lookup_lt_is_Some_2 (gs s) 0 Lg) as (x & E). pose proof (Gs _ _ E) as ->. specialize (St (GTake 0) eq_refl). cbn in St. rewrite E, Ech in St. destruct ch; [auto|discriminate]. }
  subst ch.
  assert (Tg : forall w, lsum (gtok w) (gs s) = 0) by (intros w; apply lsum_zero; intros g x E; rewrite (Gs _ _ E); reflexivity).
  assert (Cs : forall c x, callers s !! c = Some x -> x = CIdle \/ exists j, x = CWait j).
  { intros c x E. destruct x as [|j|j|w j|w]; eauto.
    - specialize (St (AGrab c None) eq_refl). cbn [step] in St. rewrite E in St. unfold grab in St. destruct (mlookup (jkey j) (wmap s)) as [w|] eqn:M.
      + apply (mlookup_In _ _ _ (i_nd s A)) in M. destruct (i_key s B _ w M) as (o & Ew & _). unfold addTo in St. rewrite Ew in St. destruct (ItemQueue.Model.tryEnqueue (wq o) j) as [[] ?]; discriminate.
      + destruct (maxk s <=? length (wmap s)); [discriminate|]. unfold addTo in St. ss. rewrite lookup_app_r, Nat.sub_diag in St by lia. cbn [lookup list_lookup wq] in St.
        destruct (ItemQueue.Model.tryEnqueue (newQueue (depth s)) j) as [[] ?]; discriminate.
    - exfalso. eapply c_nocb; eauto.
    - specialize (St (AEnq c) eq_refl). cbn [step] in St. rewrite E in St. assert (Gt : 0 < lsum (ctok w) (callers s) + lsum (gtok w) (gs s)).
      { pose proof (lsum_elem (ctok w) _ _ _ E) as Q. cbn [ctok] in Q. rewrite is_refl in Q. lia. }
      pose proof (chan_room s [] w I L Ech Gt) as R. unfold sendWorker in St. rewrite Ech in St. destruct (Nat.ltb_spec (length (@nil nat)) (chcap s)); [discriminate|lia]. }
  assert (Tc : forall w, lsum (ctok w) (callers s) = 0) by (intros w; apply lsum_zero; intros c x E; destruct (Cs _ _ E) as [->|(j & ->)]; reflexivity).
  assert (Wm : wmap s = []).
  { destruct (wmap s) as [|[k w] m] eqn:Em; auto. exfalso. pose proof (l_tok s L w) as T. unfold tok in T. rewrite Tc, Tg in T.
    rewrite (lsum_last (cnt w) (chans s) [] Ech) in T; [|intros i c Hc N; rewrite (l_old s L i c Hc N); reflexivity]. unfold nmap in T. rewrite Em, fmap_cons, cnt_cons in T. cbn [snd] in T.
    rewrite decide_True in T by auto. cbn in T. lia. }
  assert (Ci : forall c x, callers s !! c = Some x -> x = CIdle).
  { intros c x E. destruct (Cs _ _ E) as [->|(j & ->)]; auto. exfalso. destruct (c_wait s C) as [Sg|[?|[(g & Eg)|(c1 & j1 & Ec)]]]; eauto.
    - specialize (St (AWake c) eq_refl). cbn in St. rewrite E, Sg in St. discriminate.
    - pose proof (Gs _ _ Eg). discriminate.
    - destruct (Cs _ _ Ec) as [?|(? & ?)]; discriminate. }
  split; auto. split; auto. intros c Lc. destruct (lookup_lt_is_Some_2 _ _ Lc) as (x & E). pose proof (Ci _ _ E) as ->.
  assert (Ce : comps s c = []). { specialize (St (ACollect c) eq_refl). cbn in St. rewrite E in St. destruct (comps s c); [auto|discriminate]. }
  split; auto. intros k. pose proof (d_out s D c) as Do. destruct (d_in s D c) as (r & Di & Dr). rewrite Ce, app_nil_r in Do. unfold cpend in Di, Dr. rewrite E in Di, Dr. cbn [pend app] in Di.
  assert (r = []) as -> by (destruct Dr as [?|(? & _)]; [auto|congruence]). rewrite app_nil_r in Di. rewrite Di, <- Do.
  assert (Cm : forall P Q l, jof P (jof Q l) = jof Q (jof P l)).
  { clear. intros P Q l. induction l as [|x l IH]; [reflexivity|]. cbn. destruct (P x) eqn:Px, (Q x) eqn:Qx; cbn; rewrite ?Px, ?Qx; auto. f_equal. auto. }
  rewrite (Cm (keyis k)), (Cm (keyis k) _ (delivered s)). f_equal. rewrite (i_fifo s (iC s I) k), (i_deliv s (iC s I) k). unfold queued. rewrite Wm. cbn [mlookup]. rewrite app_nil_r.
  rewrite fm_nil; [apply app_nil_r|]. intros g y Ey. rewrite (Gs _ _ Ey). reflexivity.
Qed.

(** ** the claims *)
Lemma bounded_work cf n cc acts s : 1 <= Concurrency cf -> steady (start cf n cc) acts -> run (start cf n cc) acts = Some s ->
  exists b, forall more s', forallb internal more = true -> steady s more -> run s more = Some s' -> length more <= b.
Proof.
  intros H G R. destruct (run_steady _ _ _ (start_inv cf n cc) (startD cf n cc) (start_live cf n cc) (start_calm cf n cc H) G R) as (I & D & L & C).
  exists (msr s). intros more s' F G' R'. pose proof (run_short more s s' I L C G' F R'). lia.
Qed.
Lemma step_sizes s a s' : step s a = Some s' -> length (gs s') = length (gs s) /\ length (callers s') = length (callers s) /\ ccap s' = ccap s.
Proof.
  intros H. destruct a as [c j|c src|c|c|c|c|c|g|g|g|g|g|g|g|g|g|g|n|n|]; cbn [step] in H;
    try (destruct (callers s !! c) as [[]|] eqn:E; try discriminate); try (destruct (gs s !! g) as [[]|] eqn:E; try discriminate).
  - destruct (jcaller j =? c); [|discriminate]. destruct (closed s); injection H as <-; ss; rewrite ?len_insert; auto.
  - apply grab_cases in H as [(_ & _ & ->)|(w & b & s1 & P & H)]; [ss; rewrite ?len_insert; auto|].
    pose proof (prepared_same _ _ _ _ _ P) as (E1 & _ & _ & _ & _ & _ & _ & _ & E2 & _ & _ & _ & _ & _ & E3). apply addTo_same in H as (o & added & q & _ & _ & ->). ss. rewrite len_insert, E1, E2. auto.
  - destruct (signal s); [|discriminate]. injection H as <-. ss. rewrite ?len_insert; auto.
  - destruct (ws s !! w) as [o|]; [|discriminate]. destruct (ItemQueue.Model.chanSend (wq o) j); [|discriminate]. injection H as <-. ss. rewrite ?len_insert; auto.
  - destruct (closed s); [|discriminate]. injection H as <-. ss. rewrite ?len_insert; auto.
  - destruct (sendWorker w s) as [s1|] eqn:Es; [|discriminate]. injection H as <-. apply send_same in Es as (x & ->). ss. rewrite ?len_insert; auto.
  - destruct (comps s c); [discriminate|]. injection H as <-. auto.
  - injection H as <-. ss. rewrite ?len_insert; auto.
  - destruct (chans s !! ch) as [[|w l]|]; try discriminate; [destruct (ch =? current s); [discriminate|]|]; injection H as <-; ss; rewrite ?len_insert; auto.
  - destruct (closed s); [injection H as <-; ss; rewrite ?len_insert; auto|]. destruct (ws s !! w) as [o|]; [|discriminate]. destruct (ItemQueue.Model.peek (wq o)); injection H as <-; ss; rewrite ?len_insert; auto.
  - injection H as <-. ss. rewrite ?len_insert; auto.
  - destruct (ws s !! w) as [o|]; [|discriminate]. injection H as <-. ss. rewrite ?len_insert; auto.
  - destruct (_ <? _); [|discriminate]. injection H as <-. ss. rewrite ?len_insert; auto.
  - destruct (ws s !! w) as [o|]; [|discriminate]. destruct (ItemQueue.Model.done (wq o)); injection H as <-; ss; rewrite ?len_insert; auto.
  - injection H as <-. destruct (closed s); ss; rewrite ?len_insert; auto.
  - destruct (sendWorker w s) as [s1|] eqn:Es; [|discriminate]. injection H as <-. apply send_same in Es as (x & ->). ss. rewrite ?len_insert; auto.
  - destruct (closed s); [|discriminate]. injection H as <-. ss. rewrite ?len_insert; auto.
  - injection H as <-. unfold setMax. destruct (maxk s <? n); auto. destruct (chans s !! current s); auto.
  - injection H as <-. auto.
  - injection H as <-. auto.
Qed.
Lemma run_sizes acts : forall s s', run s acts = Some s' -> length (gs s') = length (gs s) /\ length (callers s') = length (callers s) /\ ccap s' = ccap s.
Proof.
  induction acts as [|a acts IH]; intros s s' H; cbn in H; [injection H as <-; auto|]. destruct (step s a) as [s1|] eqn:E; [|discriminate].
  apply step_sizes in E as (? & ? & ?). apply IH in H as (? & ? & ?). repeat split; congruence.
Qed.
Lemma all_done cf n cc acts s : 1 <= Concurrency cf -> steady (start cf n cc) acts -> run (start cf n cc) acts = Some s ->
  (forall c, outstanding s c <= cc) -> (forall a, internal a = true -> step s a = None) ->
  (forall c x, callers s !! c = Some x -> x = CIdle) /\ wmap s = [] /\
  forall c, c < n -> comps s c = [] /\ forall k, jof (keyis k) (jof (callis c) (accepted s)) = jof (keyis k) (jof (callis c) (collected s)).
Proof.
  intros H G R O St. destruct (run_steady _ _ _ (start_inv cf n cc) (startD cf n cc) (start_live cf n cc) (start_calm cf n cc H) G R) as (I & D & L & C).
  apply run_sizes in R as (E1 & E2 & E3). unfold start in E1, E2, E3. ss. rewrite repeat_length in E1, E2. destruct (idle_done s I D L C) as (P1 & P2 & P3); auto; [lia|rewrite E3; auto|].
  split; auto. split; auto. rewrite <- E2. auto.
Qed.
