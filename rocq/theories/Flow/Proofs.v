From stdpp Require Import prelude list.
From Verif.Flow Require Import Model.
Open Scope nat_scope.

Definition kpl (s : st) : list ec := match kp s with Some d => d | None => [] end.
(** what the pool has taken, in the order of the transactions, and what waits in its buffer *)
Definition inpool (s : st) : list ec := committed s ++ kpl s ++ concat (queue s) ++ deck s.
Definition ofw (i : nat) (l : list ec) : list ec := filter (fun e => e_w e = i) l.
Definition waitl (k : cst) : list ec := match k with CWait e => [e] | _ => [] end.
Definition runl (k : cst) : list ec := match k with CRun e => [e] | _ => [] end.
Definition psend (p : pst) : list ec := match p with PSend e => [e] | _ => [] end.
Definition prepool (p : pst) : list ec := match p with PTok e | PPool e => [e] | _ => [] end.
Definition tokd (p : pst) : nat := match p with PPool _ | PSend _ => 1 | _ => 0 end.
Definition curn (k : cst) : nat := match k with CIdle => 0 | _ => 1 end.

(** [h i]: the events of worker i whose handler was called *)
Record winv (s : st) (i : nat) (w : worker) (h : list ec) : Prop := {
  w_ord : ofw i (inpool s ++ buffer s) = h ++ waitl (cur w) ++ evIn w ++ psend (push w);
  w_hist : forall e, e ∈ h -> e ∈ runl (cur w) \/ e ∈ async w \/ e ∈ done s;
  w_slots : slots w = tokd (push w) + length (evIn w) + curn (cur w) + length (async w);
  w_ij : ijIn w = [];
  w_noij : match push w with PTok e | PPool e | PSend e => e_ij e = false | PIdle => True end;
  w_own : forall e, e ∈ prepool (push w) -> e_w e = i;
  w_nd : NoDup (runl (cur w) ++ async w);
  w_sub : forall e, e ∈ runl (cur w) ++ async w -> e ∈ h;
}.
Record inv (c : cfg) (s : st) : Prop := {
  v_w : forall i w, ws s !! i = Some w -> exists h, winv s i w h;
  v_lt : forall e, e ∈ inpool s ++ buffer s -> e_w e < length (ws s);
  v_arr : forall e, e ∈ arrived s -> e ∈ inpool s ++ buffer s \/ exists i w, ws s !! i = Some w /\ e ∈ prepool (push w);
  v_given : forall e, e ∈ inpool s -> e ∈ given s;
  v_nd : NoDup (inpool s ++ buffer s);
  v_new : forall e, e ∈ inpool s ++ buffer s \/ (exists i w, ws s !! i = Some w /\ e ∈ prepool (push w)) -> e_id e < length (arrived s);
  v_pre : forall i w e, ws s !! i = Some w -> e ∈ prepool (push w) -> e ∉ inpool s ++ buffer s;
  v_fp : match fp s with FTried | FPush => deck s <> [] | FPop => deck s = [] | _ => True end;
  v_free : free s + length (queue s) + (match kp s with Some _ => 1 | None => 0 end) + (match fp s with FPop => 0 | _ => 1 end) = poolSize c;
}.
#[local] Arguments ofw : simpl never.
#[local] Arguments inpool : simpl never.
Lemma ofw_app i l k : ofw i (l ++ k) = ofw i l ++ ofw i k. Proof. apply filter_app. Qed.
Lemma ofw_in i e l : e ∈ ofw i l <-> e_w e = i /\ e ∈ l. Proof. unfold ofw. by rewrite elem_of_list_filter. Qed.
Lemma ofw_own i e : e_w e = i -> ofw i [e] = [e]. Proof. intros. unfold ofw. by rewrite filter_cons_True. Qed.
Lemma ofw_other i e : e_w e <> i -> ofw i [e] = []. Proof. intros. unfold ofw. by rewrite filter_cons_False. Qed.
Lemma ws_upd s i w0 w j x : ws s !! i = Some w0 -> <[i := w]> (ws s) !! j = Some x -> (j = i /\ x = w) \/ (j <> i /\ ws s !! j = Some x).
Proof.
  intros L. destruct (decide (i = j)) as [->|N]; [rewrite list_lookup_insert by (by apply lookup_lt_Some in L); intros [= <-]; auto|rewrite list_lookup_insert_ne by done; auto].
Qed.
(** a step of worker i that leaves the pool alone *)
Lemma upd_inv c s i w0 w s' : inv c s -> ws s !! i = Some w0 ->
  ws s' = <[i := w]> (ws s) -> buffer s' = buffer s -> fp s' = fp s -> deck s' = deck s -> queue s' = queue s -> kp s' = kp s -> free s' = free s -> given s' = given s ->
  committed s' = committed s -> arrived s' = arrived s -> (forall e, e ∈ done s -> e ∈ done s') ->
  prepool (push w) = prepool (push w0) ->
  (forall h, winv s i w0 h -> exists h', winv s' i w h') -> inv c s'.
Proof.
  intros I L E1 E2 E3 E4 E5 E6 E7 E8 E9 E10 ED EP H.
  assert (P : inpool s' = inpool s) by (unfold inpool, kpl; by rewrite E4, E5, E6, E9).
  assert (U : forall j x, ws s' !! j = Some x -> (j = i /\ x = w) \/ (j <> i /\ ws s !! j = Some x)) by (intros j x; rewrite E1; by eapply ws_upd).
  assert (U2 : forall e, (exists j x, ws s' !! j = Some x /\ e ∈ prepool (push x)) <-> exists j x, ws s !! j = Some x /\ e ∈ prepool (push x)).
  { intros e. split.
    - intros (j & x & J & X). destruct (U j x J) as [[-> ->]|[_ J']]; [exists i, w0; by rewrite <- EP|eauto].
    - intros (j & x & J & X). destruct (decide (j = i)) as [->|N].
      + rewrite L in J. injection J as <-. exists i, w. rewrite E1, list_lookup_insert by (by apply lookup_lt_Some in L). by rewrite EP.
      + exists j, x. rewrite E1, list_lookup_insert_ne by done. done. }
  destruct I. constructor; rewrite ?P, ?E2, ?E3, ?E4, ?E5, ?E6, ?E7, ?E8, ?E10; auto.
  - intros j x J. destruct (U j x J) as [[-> ->]|[N J']]; [destruct (v_w0 i w0 L) as [h Hh]; by apply (H h)|]. destruct (v_w0 j x J') as [h [A B C D F G K Q]]. exists h. constructor; rewrite ?P, ?E2; auto.
    intros e He. destruct (B e He) as [?|[?|?]]; auto.
  - rewrite E1, insert_length. done.
  - intros e He. rewrite U2. auto.
  - intros e He. rewrite U2 in He. auto.
  - intros j x e J X. destruct (U j x J) as [[-> ->]|[N J']]; [rewrite EP in X|]; eauto.
Qed.
(** a step of the pool *)
Lemma pool_inv c s s' : inv c s -> ws s' = ws s -> done s' = done s -> arrived s' = arrived s -> inpool s' ++ buffer s' = inpool s ++ buffer s ->
  (forall e, e ∈ inpool s' -> e ∈ given s') ->
  match fp s' with FTried | FPush => deck s' <> [] | FPop => deck s' = [] | _ => True end ->
  free s' + length (queue s') + (match kp s' with Some _ => 1 | None => 0 end) + (match fp s' with FPop => 0 | _ => 1 end) = poolSize c -> inv c s'.
Proof.
  intros I E1 E2 E3 E4 HG HF HN. destruct I. constructor; rewrite ?E1, ?E3, ?E4; auto.
  intros i w L. destruct (v_w0 i w L) as [h [A B C D G H K Q]]. exists h. constructor; rewrite ?E2, ?E4; auto.
Qed.
Lemma filter_all (e : ec) (l : list ec) : e ∉ l -> filter (fun x => x <> e) l = l.
Proof. induction l as [|a l IH]; [done|]. intros N. apply not_elem_of_cons in N as [N1 N2]. rewrite filter_cons_True by congruence. by rewrite IH. Qed.
Lemma filter_one (e : ec) (l : list ec) : NoDup l -> e ∈ l -> length l = Datatypes.S (length (filter (fun x => x <> e) l)).
Proof.
  induction 1 as [|a l N ND IH]; intros H; [by apply elem_of_nil in H|]. apply elem_of_cons in H as [->|H].
  - rewrite filter_cons_False by tauto. by rewrite filter_all.
  - rewrite filter_cons_True by (intros ->; done). cbn. by rewrite <- IH.
Qed.
Lemma step_inv c s a s' : inv c s -> noij a -> step c s a = Some s' -> inv c s'.
Proof.
  intros I N E. destruct a as [i ij|i|i|i|i|i|i|i|i|i e| |r| |r| | | |]; cbn [step] in E.
  - destruct (ws s !! i) as [[[] v j k n y]|] eqn:L; try discriminate. injection E as <-. destruct ij; [by destruct (N i)|].
    set (e := mkEc (length (arrived s)) i false). set (w := mkW (PTok e) v j k n y).
    assert (U : forall j0 x, <[i := w]> (ws s) !! j0 = Some x -> (j0 = i /\ x = w) \/ (j0 <> i /\ ws s !! j0 = Some x)) by (intros; by eapply ws_upd).
    pose proof (v_w _ _ I) as VW. pose proof (v_new _ _ I) as VN. pose proof (v_pre _ _ I) as VP. pose proof (v_lt _ _ I) as VL. pose proof (v_arr _ _ I) as VA.
    assert (NE : e ∉ inpool s ++ buffer s) by (intros X; specialize (VN e (or_introl X)); cbn in VN; lia).
    constructor; cbn [ws buffer fp deck queue kp free given done committed arrived]; try apply I.
    + intros j0 x J. destruct (U j0 x J) as [[-> ->]|[Ne J']].
      * destruct (VW i _ L) as [h [A B C D F G K Q]]. exists h. constructor; auto; try reflexivity. cbn. intros z Hz. by apply elem_of_list_singleton in Hz as ->.
      * destruct (VW j0 x J') as [h [A B C D F G K Q]]. exists h. by constructor.
    + rewrite insert_length. exact VL.
    + intros z Hz. apply elem_of_cons in Hz as [->|Hz].
      * right. exists i, w. rewrite list_lookup_insert by (by apply lookup_lt_Some in L). split; [done|]. by left.
      * destruct (VA z Hz) as [?|(j0 & x & J & X)]; [by left|]. right. exists j0, x. split; [|done]. rewrite list_lookup_insert_ne; [done|]. intros ->. rewrite L in J. injection J as <-. by apply elem_of_nil in X.
    + cbn. intros z [Hz|(j0 & x & J & X)]; [specialize (VN z (or_introl Hz)); lia|]. destruct (U j0 x J) as [[-> ->]|[Ne J']].
      * apply elem_of_list_singleton in X as ->. cbn. lia.
      * assert (e_id z < length (arrived s)) by (apply VN; right; eauto). lia.
    + intros j0 x z J X. destruct (U j0 x J) as [[-> ->]|[Ne J']]; [by apply elem_of_list_singleton in X as ->|by eapply VP].
  - destruct (ws s !! i) as [[[] v j k n y]|] eqn:L; try discriminate. destruct (n <? maxPending c); [|discriminate]. injection E as <-.
    eapply upd_inv; [exact I|exact L|reflexivity..|auto|reflexivity|]. intros h [A B C D F G K Q]. exists h. constructor; auto. cbn in *. lia.
  - destruct (ws s !! i) as [[[] v j k n y]|] eqn:L; try discriminate. destruct (length (buffer s) <? bufCap c); [|discriminate]. injection E as <-.
    set (w := mkW (PSend e) v j k n y).
    assert (U : forall j0 x, <[i := w]> (ws s) !! j0 = Some x -> (j0 = i /\ x = w) \/ (j0 <> i /\ ws s !! j0 = Some x)) by (intros; by eapply ws_upd).
    pose proof (v_w _ _ I) as VW. pose proof (v_new _ _ I) as VN. pose proof (v_pre _ _ I) as VP. pose proof (v_lt _ _ I) as VL. pose proof (v_arr _ _ I) as VA. pose proof (v_nd _ _ I) as VD.
    destruct (VW i _ L) as [h [A B C D F G K Q]]. assert (Ew : e_w e = i) by (apply G; by left). assert (Ne : e ∉ inpool s ++ buffer s) by (eapply VP; [exact L|by left]).
    assert (P : forall z, z ∈ inpool s ++ buffer s ++ [e] <-> z ∈ inpool s ++ buffer s \/ z = e) by (intros z; rewrite app_assoc, elem_of_app, elem_of_list_singleton; done).
    constructor; cbn [set_w set_buffer ws buffer fp deck queue kp free given done committed arrived]; try apply I.
    + intros j0 x J. destruct (U j0 x J) as [[-> ->]|[N0 J']].
      * exists h. constructor; auto; [|by cbn; intros z Hz; apply elem_of_nil in Hz]. change (inpool _) with (inpool s). cbn [buffer set_w set_buffer]. rewrite app_assoc, ofw_app, A, ofw_own by done. cbn. by rewrite app_nil_r, <- !app_assoc.
      * destruct (VW j0 x J') as [h' [A' B' C' D' F' G' K' Q']]. exists h'. constructor; auto. change (inpool _) with (inpool s). cbn [buffer set_w set_buffer]. rewrite app_assoc, ofw_app, A', ofw_other by congruence. by rewrite app_nil_r.
    + rewrite insert_length. intros z Hz. apply P in Hz as [Hz| ->]; [by apply VL|]. rewrite Ew. by apply lookup_lt_Some in L.
    + intros z Hz. destruct (VA z Hz) as [?|(j0 & x & J & X)]; [left; apply P; by left|]. destruct (decide (j0 = i)) as [->|N0].
      * rewrite L in J. injection J as <-. apply elem_of_list_singleton in X as ->. left. apply P. by right.
      * right. exists j0, x. split; [|done]. by rewrite list_lookup_insert_ne.
    + change (inpool _) with (inpool s). rewrite app_assoc. apply NoDup_app. split; [exact VD|]. split; [|apply NoDup_singleton]. intros z Hz Z. by apply elem_of_list_singleton in Z as ->.
    + cbn. intros z [Hz|(j0 & x & J & X)].
      * apply P in Hz as [Hz| ->]; [by apply VN; left|]. apply VN. right. exists i, (mkW (PPool e) v j k n y). split; [done|by left].
      * destruct (U j0 x J) as [[-> ->]|[N0 J']]; [by apply elem_of_nil in X|]. apply VN. right. eauto.
    + intros j0 x z J X Hz. destruct (U j0 x J) as [[-> ->]|[N0 J']]; [by apply elem_of_nil in X|]. apply P in Hz as [Hz| ->]; [by eapply VP|].
      destruct (VW j0 x J') as [h' [_ _ _ _ _ G' _ _]]. apply G' in X. congruence.
  - destruct (ws s !! i) as [[[] v j k n y]|] eqn:L; try discriminate. destruct (v_w _ _ I i _ L) as [h0 W0]. pose proof (w_noij _ _ _ _ W0) as F0. cbn in F0. rewrite F0 in E.
    destruct (length v <? evCap c); [|discriminate]. injection E as <-.
    eapply upd_inv; [exact I|exact L|reflexivity..|auto|reflexivity|]. intros h [A B C D F G K Q]. exists h. constructor; auto; cbn in *; try exact Logic.I.
    + change (inpool _) with (inpool s). rewrite A. by rewrite app_nil_r.
    + rewrite app_length. cbn. lia.
  - destruct (ws s !! i) as [[p [|e v] j [] n y]|] eqn:L; try discriminate. injection E as <-.
    eapply upd_inv; [exact I|exact L|reflexivity..|auto|reflexivity|]. intros h [A B C D F G K Q]. exists h. constructor; auto; cbn in *; try exact Logic.I. lia.
  - destruct (ws s !! i) as [[p v [|e j] [] n y]|] eqn:L; try discriminate. exfalso. destruct (v_w _ _ I i _ L) as [h [_ _ _ D _ _ _ _]]. discriminate D.
  - destruct (ws s !! i) as [[p v j [|e|] n y]|] eqn:L; try discriminate. destruct (decide (e ∈ given s)); [|discriminate]. injection E as <-.
    eapply upd_inv; [exact I|exact L|reflexivity..|auto|reflexivity|]. intros h [A B C D F G K Q]. exists (h ++ [e]). constructor; auto; cbn in *; try exact Logic.I.
    + change (inpool _) with (inpool s). by rewrite A, <- app_assoc.
    + intros z Hz. apply elem_of_app in Hz as [Hz|Hz]; [|by left]. destruct (B z Hz) as [X|[X|X]]; [by apply elem_of_nil in X|auto..].
    + constructor; [|done]. intros X. apply Q in X. pose proof (v_nd _ _ I) as ND. apply (NoDup_filter (fun x => e_w x = i)) in ND. unfold ofw in A. rewrite A in ND. apply NoDup_app in ND as (_ & ND & _). apply (ND e X). by left.
    + intros z Hz. apply elem_of_cons in Hz as [->|Hz]; apply elem_of_app; [right; by left|left; auto].
  - destruct (ws s !! i) as [[p v j [| |e] n y]|] eqn:L; try discriminate. injection E as <-.
    eapply upd_inv; [exact I|exact L|reflexivity..|cbn; intros z Hz; by right|reflexivity|]. intros h [A B C D F G K Q]. exists h. constructor; auto; cbn in *; try exact Logic.I.
    + intros z Hz. destruct (B z Hz) as [X|[X|X]]; [apply elem_of_list_singleton in X as ->; right; right; by left|auto|right; right; by right].
    + lia.
    + by inversion K.
    + intros z Hz. apply Q. by right.
  - destruct (ws s !! i) as [[p v j [| |e] n y]|] eqn:L; try discriminate. injection E as <-.
    eapply upd_inv; [exact I|exact L|reflexivity..|auto|reflexivity|]. intros h [A B C D F G K Q]. exists h. constructor; auto; cbn in *; try exact Logic.I.
    + intros z Hz. destruct (B z Hz) as [X|[X|X]]; [apply elem_of_list_singleton in X as ->; right; left; by left|right; left; by right|auto].
    + lia.
  - destruct (ws s !! i) as [[p v j k n y]|] eqn:L; [|discriminate].
    assert (X : exists s1, (if decide (e ∈ y) then Some (set_w i (mkW p v j k (pred n) (filter (fun x => x <> e) y)) (set_done e s)) else None) = Some s1 /\ s1 = s') by (destruct k; try discriminate; eauto).
    destruct X as (s1 & X & ->). destruct (decide (e ∈ y)) as [Hy|]; [|discriminate]. injection X as <-.
    eapply upd_inv; [exact I|exact L|reflexivity..|cbn; intros z Hz; by right|reflexivity|]. intros h [A B C D F G K Q]. exists h. constructor; auto; cbn in *; try exact Logic.I.
    + intros z Hz. destruct (decide (z = e)) as [->|Nz]; [right; right; by left|]. destruct (B z Hz) as [X|[X|X]]; [auto|right; left; by apply elem_of_list_filter|right; right; by right].
    + assert (K2 : NoDup y) by (by apply NoDup_app in K as (_ & _ & K)). pose proof (filter_one e y K2 Hy). lia.
    + apply NoDup_app in K as (K1 & K2 & K3). apply NoDup_app. split; [done|]. split; [|by apply NoDup_filter]. intros z Z1 Z2. apply elem_of_list_filter in Z2 as [_ Z2]. by apply (K2 z).
    + intros z Hz. apply Q. apply elem_of_app in Hz as [Hz|Hz]; apply elem_of_app; [by left|right; by apply elem_of_list_filter in Hz as [_ Hz]].
  - destruct (fp s) eqn:F; try discriminate. destruct (buffer s) as [|e b] eqn:Eb; [discriminate|]. injection E as <-.
    assert (P : inpool (mkSt (ws s) b FTried (deck s ++ [e]) (queue s) (kp s) (free s) (e :: given s) (done s) (committed s) (arrived s)) ++ b = inpool s ++ buffer s) by (unfold inpool, kpl; cbn; rewrite Eb, <- !app_assoc; done).
    destruct I. rewrite Eb in *. constructor; cbn [buffer ws arrived given fp deck free queue kp]; rewrite ?P; auto.
    + intros i w L. destruct (v_w0 i w L) as [h [A B C D G H K Q]]. exists h. constructor; auto. cbn [buffer]. by rewrite P, <- Eb.
    + intros z Hz. assert (z ∈ inpool s \/ z = e) as [X| ->]; [|right; auto|by left]. unfold inpool, kpl in *. cbn in Hz. rewrite !elem_of_app, elem_of_list_singleton in *. tauto.
    + by destruct (deck s).
    + rewrite F in v_free0. done.
  - destruct (fp s) eqn:F; try discriminate. injection E as <-. pose proof (v_fp _ _ I) as V1. pose proof (v_free _ _ I) as V2. rewrite F in V1, V2.
    apply (pool_inv c s); auto; try apply I; try reflexivity; cbn; by destruct (target c <=? size r (deck s)).
  - destruct (fp s) eqn:F; try discriminate. injection E as <-. pose proof (v_free _ _ I) as V2. rewrite F in V2. apply (pool_inv c s); auto; try apply I; reflexivity.
  - destruct (fp s) eqn:F; try discriminate. pose proof (v_free _ _ I) as V2. rewrite F in V2. destruct (deck s) as [|d0 d] eqn:Ed.
    + destruct (r =? 0); [|discriminate]. injection E as <-. apply (pool_inv c s); auto; try apply I; reflexivity.
    + destruct (size r (d0 :: d) =? maxBatch c); [injection E as <-; apply (pool_inv c s); auto; try apply I; try reflexivity; cbn; by rewrite Ed|].
      destruct (length (queue s) <? pendingTxn c); injection E as <-; [|apply (pool_inv c s); auto; try apply I; reflexivity].
      match goal with |- inv _ ?s2 => assert (P : inpool s2 = inpool s) by (unfold inpool, kpl; cbn; rewrite Ed, concat_app; cbn; by rewrite !app_nil_r) end.
      apply (pool_inv c s); rewrite ?P; auto; try apply I; try reflexivity. cbn. rewrite app_length. cbn. lia.
  - destruct (fp s) eqn:F; try discriminate. pose proof (v_free _ _ I) as V2. rewrite F in V2. destruct (length (queue s) <? pendingTxn c); [|discriminate]. injection E as <-.
    match goal with |- inv _ ?s2 => assert (P : inpool s2 = inpool s) by (unfold inpool, kpl; cbn; rewrite concat_app; cbn; by rewrite !app_nil_r) end.
    apply (pool_inv c s); rewrite ?P; auto; try apply I; try reflexivity. cbn. rewrite app_length. cbn. lia.
  - destruct (fp s) eqn:F; try discriminate. destruct (free s) as [|n] eqn:Ef; [discriminate|]. injection E as <-. pose proof (v_fp _ _ I) as V1. pose proof (v_free _ _ I) as V2. rewrite F in V1, V2. rewrite Ef in V2.
    match goal with |- inv _ ?s2 => assert (P : inpool s2 = inpool s) by (unfold inpool, kpl; cbn; by rewrite V1) end.
    apply (pool_inv c s); rewrite ?P; auto; try apply I; try reflexivity. cbn. lia.
  - destruct (kp s) eqn:Ek; [discriminate|]. destruct (queue s) as [|d q] eqn:Eq; [discriminate|]. injection E as <-. pose proof (v_free _ _ I) as V2. rewrite Ek, Eq in V2.
    match goal with |- inv _ ?s2 => assert (P : inpool s2 = inpool s) by (unfold inpool, kpl; cbn; rewrite Ek, Eq; cbn; by rewrite <- !app_assoc) end.
    apply (pool_inv c s); rewrite ?P; auto; try apply I; try reflexivity. cbn in *. lia.
  - destruct (kp s) as [d|] eqn:Ek; [|discriminate]. destruct (forallb _ d); [|discriminate]. injection E as <-. pose proof (v_free _ _ I) as V2. rewrite Ek in V2.
    match goal with |- inv _ ?s2 => assert (P : inpool s2 = inpool s) by (unfold inpool, kpl; cbn; rewrite Ek; cbn; by rewrite <- !app_assoc) end.
    apply (pool_inv c s); rewrite ?P; auto; try apply I; try reflexivity. cbn in *. lia.
Qed.
