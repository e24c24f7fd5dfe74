(** Every step keeps the invariant: the goroutines. *)
From stdpp Require Import prelude list gmap.
From Coq Require Import ZArith.
From Verif.Batcher Require Import Model Base Inv Step Step2.
Open Scope nat_scope.

Lemma go_inv_frame s s' e x p : inv s -> execs s !! e = Some x -> e_busy x = true -> execs s' = <[e := withGo x [p]]> (execs s) -> assign s' = assign s ->
  count s' = count s -> maxb s' = maxb s -> pending s' = pending s -> base s' (pending s) -> inv s'.
Proof.
  intros [B R W] E Bx Ee Ea Ec Em Ep B'. split.
  - rewrite Ep. exact B'.
  - intros e' y H. rewrite Ee in H. rewrite Em. ins H; [intros Q; unfold withGo in Q; ss; congruence|]. apply R in H. exact H.
  - rewrite Ep. intros it Hit. destruct (W it Hit) as [(e' & y & H1 & H2 & H3)|F].
    + left. destruct (decide (e' = e)) as [->|D].
      * exists e, (withGo x [p]). rewrite Ea, Ee, list_lookup_insert by (eapply lookup_lt_Some; eauto). auto.
      * exists e', y. rewrite Ea, Ee, list_lookup_insert_ne by auto. auto.
    + right. unfold full in *. rewrite Ec, Ee, insert_length. exact F.
Qed.
Lemma setGo_eq s e x j p p0 : execs s !! e = Some x -> e_go x = [p0] -> e_go x !! j = Some p -> forall q, setGo e j q s = set_execs (<[e := withGo x [q]]> (execs s)) s.
Proof.
  intros E G H q. unfold setGo. rewrite E. rewrite G in *. destruct j as [|j]; [|destruct j; discriminate]. reflexivity.
Qed.
Lemma busy_go m x j p : exOK m x -> e_go x !! j = Some p -> e_busy x = true /\ e_timer x = None /\ e_go x = [p] /\ j = 0 /\ pcOK x p.
Proof.
  intros X H. pose proof (x_go _ _ X) as G. destruct (e_busy x); [|rewrite G in H; discriminate]. destruct G as (T & p0 & G & P). rewrite G in H.
  destruct j as [|j]; [|destruct j; discriminate]. cbn in H. injection H as ->. auto.
Qed.
Lemma open_keep s pd e x p evs tr exs : base s pd -> execs s !! e = Some x -> (forall c, e_go x = [PExec c] -> EvRet c ∈ evs) ->
  exs = <[e := withGo x [p]]> (execs s) -> tr = trace s ++ evs ->
  forall c l, EvCall c l ∈ trace s -> EvRet c ∈ tr \/ exists e x, exs !! e = Some x /\ e_go x = [PExec c] /\ e_items x = l.
Proof.
  intros B E H Ee Et c l Hc. rewrite Et, Ee. destruct (a_open _ _ B c l Hc) as [Q|(e' & y & H1 & H2 & H3)]; [left; apply elem_of_app; auto|].
  destruct (decide (e' = e)) as [->|D].
  - left. apply elem_of_app. right. apply H. congruence.
  - right. exists e', y. rewrite list_lookup_insert_ne by auto. auto.
Qed.
Lemma not_here {A} (x y : A) l : x ∈ l ++ [y] -> x <> y -> x ∈ l.
Proof. intros H N. apply elem_of_app in H as [H|H]; [exact H|]. apply elem_of_list_singleton in H. contradiction. Qed.
Lemma not_here2 {A} (x y z : A) l : x ∈ l ++ [y; z] -> x <> y -> x <> z -> x ∈ l.
Proof. intros H N1 N2. apply elem_of_app in H as [H|H]; [exact H|]. apply elem_of_cons in H as [H|H]; [contradiction|]. apply elem_of_list_singleton in H. contradiction. Qed.

Lemma ne_items k x : fk k (e_items x) = nm (fk k (e_all x)) -> e_items x = [] -> nm (fk k (e_all x)) = [].
Proof. intros <- ->. reflexivity. Qed.

Section Go.
Variables (s : st) (e : nat) (x : ex).
Hypothesis (I : inv s) (E : execs s !! e = Some x).
Let B := i_base s I.
Let X := a_ex _ _ B e x E.
Lemma out_key it k : it ∈ e_all x -> assign s !! k <> Some e -> fk k [it] = [].
Proof. intros H D. rewrite fk_one, decide_False; [reflexivity|]. intros <-. apply D. eapply a_asg; eauto. Qed.
Lemma item_all it i : e_items x !! i = Some it -> it ∈ e_all x /\ i_n it <> None.
Proof. intros H. apply elem_of_list_lookup_2 in H. rewrite (x_items _ _ X) in H. apply elem_nm in H. tauto. Qed.
Lemma noop_all it i : e_noops x !! i = Some it -> it ∈ e_all x /\ i_n it = None.
Proof. intros H. apply elem_of_list_lookup_2 in H. rewrite (x_noops _ _ X) in H. apply elem_ph in H. tauto. Qed.
Lemma key_at k : assign s !! k = Some e -> kOK (trace s) x (pending s) k.
Proof. intros A. pose proof (a_key _ _ B k) as K. rewrite (cur_at s k e x A E) in K. exact K. Qed.

(** a call of the executor *)
Lemma go_call : e_go x = [PStart] -> e_busy x = true -> e_items x <> [] ->
  inv (set_execs (<[e := withGo x [PExec (calls s)]]> (execs s)) (log (EvCall (calls s) (e_items x)) (set_calls (S (calls s)) s))).
Proof.
  intros G Bx Ne. eapply (go_inv_frame s _ e x (PExec (calls s)) I E Bx); try reflexivity.
  assert (Co : comp (trace s ++ [EvCall (calls s) (e_items x)]) = comp (trace s)) by (rewrite comp_app; cbn; apply app_nil_r).
  assert (Cs : cbs (trace s ++ [EvCall (calls s) (e_items x)]) = cbs (trace s)) by (rewrite cbs_app; cbn; apply app_nil_r).
  eapply (go_base s (pending s) e x (PExec (calls s)) _ [EvCall (calls s) (e_items x)] B E Bx); try reflexivity; ss.
  - exact Ne.
  - intros k A. destruct (key_at k A) as (f & K1 & K2 & K3 & K4). exists f. unfold ncomp, nnoop, withGo in *. ss. rewrite G in *. cbn [called take] in *.
    rewrite added_app, handed_app, Co, !fk_app. cbn [added handed flat_map]. rewrite !app_nil_r in *. rewrite K2. auto.
  - intros k A. cbn. rewrite app_nil_r. split; [|reflexivity]. apply fk_none. intros it Hit <-. apply A. rewrite (x_items _ _ X) in Hit. apply elem_nm in Hit as (_ & Hit). eapply a_asg; eauto.
  - intros b y H. eauto.
  - rewrite Co. apply B.
  - unfold cb. rewrite Co, Cs. apply B.
  - intros c l H. apply elem_of_app in H as [H|H]; [pose proof (a_calls _ _ B c l H); lia|]. apply elem_of_list_singleton in H. injection H as -> _. lia.
  - intros c l l' H H'. apply elem_of_app in H as [H|H]; apply elem_of_app in H' as [H'|H'].
    + eapply a_call1; eauto.
    + apply elem_of_list_singleton in H'. injection H' as -> _. pose proof (a_calls _ _ B _ _ H). lia.
    + apply elem_of_list_singleton in H. injection H as -> _. pose proof (a_calls _ _ B _ _ H'). lia.
    + apply elem_of_list_singleton in H, H'. congruence.
  - intros c H. apply not_here in H; [|discriminate]. pose proof (a_rets _ _ B c H). lia.
  - intros c l H. apply elem_of_app in H as [H|H].
    + eapply (open_keep s _ e x _ [_] _ _ B E); [|reflexivity|reflexivity|exact H]. intros c' Q. rewrite G in Q. discriminate.
    + apply elem_of_list_singleton in H. injection H as -> ->. right. exists e, (withGo x [PExec (calls s)]). rewrite list_lookup_insert by (eapply lookup_lt_Some; eauto). auto.
  - intros e' y c H Hg. ins H.
    + unfold withGo in Hg. ss. injection Hg as <-. split; [apply elem_of_app; right; left|]. intros H. apply not_here in H; [|discriminate]. pose proof (a_rets _ _ B _ H). lia.
    + destruct (a_pexec _ _ B e' y c H Hg) as (Q1 & Q2). split; [apply elem_of_app; auto|]. intros Q. apply not_here in Q; [auto|discriminate].
  - intros c l H. apply elem_of_app in H as [H|H]; [eapply a_size; eauto|]. apply elem_of_list_singleton in H. injection H as -> ->. split; [exact Ne|].
    intros Q. pose proof (x_size _ _ X Q). rewrite (x_items _ _ X). pose proof (nm_ph_length (e_all x)). lia.
Qed.
(** moving on without an effect *)
Lemma go_quiet p0 p : e_go x = [p0] -> e_busy x = true -> pcOK x p -> (forall c, p0 <> PExec c) -> (forall c, p <> PExec c) ->
  (forall k, assign s !! k = Some e -> (if called [p] then fk k (e_items x) else []) = (if called [p0] then fk k (e_items x) else [])) ->
  take (ncomp (withGo x [p])) (e_items x) = take (ncomp x) (e_items x) -> take (nnoop (withGo x [p])) (e_noops x) = take (nnoop x) (e_noops x) ->
  inv (set_execs (<[e := withGo x [p]]> (execs s)) s).
Proof.
  intros G Bx Pc N0 N1 Ca Nc Nn. eapply (go_inv_frame s _ e x p I E Bx); try reflexivity.
  eapply (go_base s (pending s) e x p _ [] B E Bx Pc); try reflexivity; ss; try (rewrite ?app_nil_r; reflexivity).
  - intros k A. destruct (key_at k A) as (f & K1 & K2 & K3 & K4). exists f. unfold ncomp, nnoop, withGo in *. ss. rewrite G in *. rewrite Nc, Nn, Ca by auto. auto.
  - intros k A. auto.
  - intros b y H. eauto.
  - apply B.
  - apply B.
  - apply B.
  - apply B.
  - apply B.
  - intros c l H. eapply (open_keep s _ e x p [] _ _ B E); [|reflexivity|rewrite app_nil_r; reflexivity|exact H]. intros c' Q. rewrite G in Q. injection Q as Q. exfalso. eapply N0; eauto.
  - intros e' y c H Hg. ins H; [unfold withGo in Hg; ss; injection Hg as Hg; exfalso; eapply N1; eauto|]. eapply a_pexec; eauto.
  - apply B.
Qed.
(** the executor returns *)
Lemma go_ret c : e_go x = [PExec c] -> e_busy x = true -> inv (set_execs (<[e := withGo x [PComp 0]]> (execs s)) (log (EvRet c) s)).
Proof.
  intros G Bx. eapply (go_inv_frame s _ e x (PComp 0) I E Bx); try reflexivity.
  assert (Co : comp (trace s ++ [EvRet c]) = comp (trace s)) by (rewrite comp_app; cbn; apply app_nil_r).
  assert (Cs : cbs (trace s ++ [EvRet c]) = cbs (trace s)) by (rewrite cbs_app; cbn; apply app_nil_r).
  assert (Uq : forall e' y, execs s !! e' = Some y -> e_go y = [PExec c] -> e' = e).
  { intros e' y H Hg. destruct (a_pexec _ _ B e x c E G) as (Q1 & _). destruct (a_pexec _ _ B e' y c H Hg) as (Q2 & _). pose proof (a_call1 _ _ B c _ _ Q1 Q2) as Q3.
    destruct (a_size _ _ B c _ Q1) as (Ne & _). destruct (e_items x) as [|it l] eqn:Ei; [congruence|].
    assert (H1 : it ∈ e_all x) by (apply (item_all it 0); rewrite Ei; reflexivity). pose proof (a_asg _ _ B e x it E H1) as A1.
    assert (H2 : it ∈ e_items y) by (rewrite <- Q3; left). rewrite (x_items _ _ (a_ex _ _ B e' y H)) in H2. apply elem_nm in H2 as (_ & H2). pose proof (a_asg _ _ B e' y it H H2) as A2. congruence. }
  eapply (go_base s (pending s) e x (PComp 0) _ [EvRet c] B E Bx); try reflexivity; ss.
  - cbn. lia.
  - intros k A. destruct (key_at k A) as (f & K1 & K2 & K3 & K4). exists f. unfold ncomp, nnoop, withGo in *. ss. rewrite G in *. cbn [called take] in *.
    rewrite added_app, handed_app, Co. cbn [added handed flat_map]. rewrite !app_nil_r in *. auto.
  - intros k A. auto.
  - intros b y H. eauto.
  - rewrite Co. apply B.
  - unfold cb. rewrite Co, Cs. apply B.
  - intros c' l H. apply not_here in H; [|discriminate]. eapply a_calls; eauto.
  - intros c' l l' H H'. apply not_here in H; [|discriminate]. apply not_here in H'; [|discriminate]. eapply a_call1; eauto.
  - intros c' H. apply elem_of_app in H as [H|H]; [eapply a_rets; eauto|]. apply elem_of_list_singleton in H. injection H as ->. destruct (a_pexec _ _ B e x c E G) as (Q1 & _). eapply a_calls; eauto.
  - intros c' l H. apply not_here in H; [|discriminate]. eapply (open_keep s _ e x _ [_] _ _ B E); [|reflexivity|reflexivity|exact H]. intros c'' Q. rewrite G in Q. injection Q as ->. left.
  - intros e' y c' H Hg. ins H; [unfold withGo in Hg; ss; discriminate|].
    destruct (a_pexec _ _ B e' y c' H Hg) as (Q1 & Q2). split; [apply elem_of_app; auto|]. intros Q. apply not_here in Q; [auto|]. intros Q3. injection Q3 as ->. apply N. eapply Uq; eauto.
  - intros c' l H. apply not_here in H; [|discriminate]. eapply a_size; eauto.
Qed.
(** common part of completions *)
Lemma comp_key i it k : e_go x = [PComp i] -> e_items x !! i = Some it -> assign s !! k = Some e -> forall evs, added evs = [] -> handed evs = [] -> comp evs = [it] ->
  kOK (trace s ++ evs) (withGo x [PComp (S i)]) (pending s) k.
Proof.
  intros G Ei A evs V1 V2 V3. destruct (item_all it i Ei) as (Ha & Nn). destruct (key_at k A) as (f & K1 & K2 & K3 & K4). exists f.
  unfold ncomp, nnoop, withGo in *. ss. rewrite G in *. cbn [called] in *.
  rewrite added_app, handed_app, comp_app, V1, V2, V3, !(app_nil_r (added _)), !(app_nil_r (handed _)), nm_app, ph_app, nm_one, ph_one.
  destruct (i_n it); [|congruence]. split; [exact K1|]. split; [exact K2|]. split; [|rewrite app_nil_r; exact K4].
  rewrite fk_app, K3, (take_S_r _ _ _ Ei), fk_app, app_assoc. reflexivity.
Qed.
Lemma noop_key i it k : e_go x = [PNoops i] -> e_noops x !! i = Some it -> assign s !! k = Some e -> forall evs, added evs = [] -> handed evs = [] -> comp evs = [it] ->
  kOK (trace s ++ evs) (withGo x [PNoops (S i)]) (pending s) k.
Proof.
  intros G Ei A evs V1 V2 V3. destruct (noop_all it i Ei) as (Ha & Nn). destruct (key_at k A) as (f & K1 & K2 & K3 & K4). exists f.
  unfold ncomp, nnoop, withGo in *. ss. rewrite G in *. cbn [called] in *.
  rewrite added_app, handed_app, comp_app, V1, V2, V3, !(app_nil_r (added _)), !(app_nil_r (handed _)), nm_app, ph_app, nm_one, ph_one, Nn.
  split; [exact K1|]. split; [exact K2|]. split; [rewrite app_nil_r; exact K3|].
  rewrite fk_app, K4, (take_S_r _ _ _ Ei), fk_app, app_assoc. reflexivity.
Qed.
(** the item being completed has not been completed before *)
Lemma item_fresh i it : e_go x = [PComp i] -> e_items x !! i = Some it -> it ∉ comp (trace s).
Proof.
  intros G Ei H. destruct (item_all it i Ei) as (Ha & Nn). pose proof (a_asg _ _ B e x it E Ha) as A. destruct (key_at _ A) as (f & K1 & K2 & K3 & K4).
  unfold ncomp in K3. rewrite G in K3. pose proof (NoDup_filter (fun i => i_n i <> None) _ (fk_NoDup (i_k it) _ (added_NoDup s _ B))) as N. fold (nm (fk (i_k it) (added (trace s)))) in N.
  rewrite K1, !nm_app, <- !fk_nm, <- (x_items _ _ X) in N. rewrite <- (take_drop_middle _ _ _ Ei), fk_app in N. change (it :: drop (S i) (e_items x)) with ([it] ++ drop (S i) (e_items x)) in N.
  rewrite (fk_app (i_k it) [it]), (fk_one (i_k it) it), decide_True, <- !app_assoc, app_assoc in N by auto. rewrite <- K3 in N. apply NoDup_app in N as (_ & N & _).
  apply (N it); [|left]. apply elem_fk. split; [auto|]. apply elem_nm. auto.
Qed.
Lemma item_batch it : it ∈ e_all x -> exists b, batches s !! i_b it = Some b /\ it ∈ itemsOf (i_b it) b.
Proof. intros H. eapply added_batch; [exact B|]. eapply all_added; eauto. Qed.
Lemma go_comp i it : e_go x = [PComp i] -> e_busy x = true -> e_items x !! i = Some it ->
  inv (set_execs (<[e := withGo x [PComp (S i)]]> (execs (completeItem it s))) (completeItem it s)).
Proof.
  intros G Bx Ei. destruct (item_all it i Ei) as (Ha & Nn). destruct (item_batch it Ha) as (b & Eb & Hb). pose proof (item_fresh i it G Ei) as Fr.
  destruct (itemsOf_elem _ _ _ Hb) as (_ & Emp). assert (Ne : b_items b <> []) by tauto.
  unfold completeItem. rewrite Eb. ss. set (b1 := mkB (b_key b) (b_items b) (S (b_done b)) (b_next b)) in *.
  pose proof (a_done _ _ B _ _ Eb) as Dn.
  assert (Lt : S (b_done b) <= length (b_items b)).
  { rewrite Dn, <- (itemsOf_length (i_b it) b Ne). change (S (length (nm (fb (i_b it) (comp (trace s)))))) with (length (it :: nm (fb (i_b it) (comp (trace s))))).
    apply submseteq_length, NoDup_submseteq.
    - constructor; [|apply NoDup_filter, NoDup_filter, (comp_NoDup s _ B)]. intros H. apply Fr. apply elem_nm in H as (_ & H). apply elem_fb in H. tauto.
    - intros y H. apply elem_of_cons in H as [->|H]; [exact Hb|]. apply elem_nm in H as (_ & H). apply elem_fb in H as (Q & H).
      apply (comp_added s _ y B) in H. apply (added_batch s _ y B) in H as (x' & E' & H). rewrite Q in *. congruence. }
  set (evs := EvComp it :: if S (b_done b) =? length (b_items b) then [EvCb (i_b it)] else []).
  assert (V1 : added evs = []) by (unfold evs; destruct (_ =? _); reflexivity). assert (V2 : handed evs = []) by (unfold evs; destruct (_ =? _); reflexivity).
  assert (V3 : comp evs = [it]) by (unfold evs; destruct (_ =? _); reflexivity).
  assert (V4 : cbs evs = if S (b_done b) =? length (b_items b) then [i_b it] else []) by (unfold evs; destruct (_ =? _); reflexivity).
  assert (V5 : forall c l, EvCall c l ∉ evs). { intros c l. unfold evs. destruct (_ =? _); intros H; repeat (apply elem_of_cons in H as [H|H]; [discriminate|]); inversion H. }
  assert (V6 : forall c, EvRet c ∉ evs). { intros c. unfold evs. destruct (_ =? _); intros H; repeat (apply elem_of_cons in H as [H|H]; [discriminate|]); inversion H. }
  match goal with |- inv ?s0 => set (s' := s0) end.
  assert (T' : trace s' = trace s ++ evs). { unfold s', evs. destruct (_ =? _); ss; [rewrite <- app_assoc|]; reflexivity. }
  assert (E' : execs s' = <[e := withGo x [PComp (S i)]]> (execs s)). { unfold s'. destruct (_ =? _); reflexivity. }
  assert (B' : batches s' = <[i_b it := b1]> (batches s)). { unfold s'. destruct (_ =? _); reflexivity. }
  assert (C' : calls s' = calls s). { unfold s'. destruct (_ =? _); reflexivity. }
  assert (O' : assign s' = assign s /\ count s' = count s /\ timers s' = timers s /\ maxb s' = maxb s /\ pending s' = pending s). { unfold s'. destruct (_ =? _); auto. }
  destruct O' as (O1 & O2 & O3 & O4 & O5). clearbody s' evs.
  eapply (go_inv_frame s s' e x (PComp (S i)) I E Bx); auto. assert (Lb : i_b it < length (batches s)) by (eapply lookup_lt_Some; eauto).
  eapply (go_base s (pending s) e x (PComp (S i)) s' evs B E Bx); auto.
  - cbn. apply lookup_lt_Some in Ei. lia.
  - intros k A. rewrite T'. eapply comp_key; eauto.
  - intros k A. rewrite V2, V3. split; [reflexivity|]. eapply out_key; eauto.
  - intros b0 y H. rewrite B' in H. ins H; [exists b|exists y]; auto.
  - rewrite B', insert_length. reflexivity.
  - intros b0 y H. rewrite T', comp_app, V3, fb_app, nm_app, app_length, fb_one. rewrite B' in H. ins H.
    + rewrite decide_True, nm_one by auto. destruct (i_n it); [|congruence]. cbn. lia.
    + rewrite decide_False by auto. cbn. rewrite (a_done _ _ B _ _ H). lia.
  - intros b0. unfold cb. rewrite T', cbs_app, filter_app, app_length, V4, comp_app, V3. pose proof (a_cb _ _ B b0) as Q. unfold cb in Q. rewrite Q, B'. clear Q.
    destruct (decide (b0 = i_b it)) as [->|D].
    + rewrite Eb, list_lookup_insert by auto. unfold b1. ss. rewrite !decide_False by auto. destruct (Nat.eqb_spec (b_done b) (length (b_items b))); [lia|].
      destruct (Nat.eqb_spec (S (b_done b)) (length (b_items b))); [rewrite filter_cons, decide_True by auto|]; reflexivity.
    + rewrite list_lookup_insert_ne by auto. replace (length (filter _ (if _ =? _ then _ else _))) with 0.
      2:{ destruct (_ =? _); [rewrite filter_cons, decide_False by auto|]; reflexivity. }
      rewrite Nat.add_0_r, fb_app, fb_one, decide_False, app_nil_r by auto. reflexivity.
  - intros c l H. rewrite C'. rewrite T' in H. apply elem_of_app in H as [H|H]; [eapply a_calls; eauto|]. exfalso. eapply V5; eauto.
  - intros c l l' H H'. rewrite T' in *. apply elem_of_app in H as [H|H]; [|exfalso; eapply V5; eauto]. apply elem_of_app in H' as [H'|H']; [|exfalso; eapply V5; eauto]. eapply a_call1; eauto.
  - intros c H. rewrite C'. rewrite T' in H. apply elem_of_app in H as [H|H]; [eapply a_rets; eauto|]. exfalso. eapply V6; eauto.
  - intros c l H. rewrite T' in H. apply elem_of_app in H as [H|H]; [|exfalso; eapply V5; eauto]. eapply (open_keep s _ e x _ evs _ _ B E); eauto. intros c' Q. rewrite G in Q. discriminate.
  - intros e' y c H Hg. rewrite E' in H. rewrite T'. ins H; [unfold withGo in Hg; ss; discriminate|].
    destruct (a_pexec _ _ B e' y c H Hg) as (Q1 & Q2). split; [apply elem_of_app; auto|]. intros Q. apply elem_of_app in Q as [Q|Q]; [auto|]. eapply V6; eauto.
  - intros c l H. rewrite T' in H. apply elem_of_app in H as [H|H]; [|exfalso; eapply V5; eauto]. eapply a_size; eauto.
Qed.
Lemma go_noop i it : e_go x = [PNoops i] -> e_busy x = true -> e_noops x !! i = Some it ->
  inv (set_execs (<[e := withGo x [PNoops (S i)]]> (execs s)) (log (EvCb (i_b it)) (log (EvComp it) s))).
Proof.
  intros G Bx Ei. destruct (noop_all it i Ei) as (Ha & Nn). destruct (item_batch it Ha) as (b & Eb & Hb).
  destruct (itemsOf_elem _ _ _ Hb) as (_ & Emp). assert (Ne : b_items b = []) by tauto.
  assert (T' : trace s ++ [EvComp it] ++ [EvCb (i_b it)] = (trace s ++ [EvComp it]) ++ [EvCb (i_b it)]) by apply app_assoc.
  assert (NC : forall c l, EvCall c l ∈ (trace s ++ [EvComp it]) ++ [EvCb (i_b it)] -> EvCall c l ∈ trace s).
  { intros c l H. apply not_here in H; [|discriminate]. apply not_here in H; [auto|discriminate]. }
  assert (NR : forall c, EvRet c ∈ (trace s ++ [EvComp it]) ++ [EvCb (i_b it)] -> EvRet c ∈ trace s).
  { intros c H. apply not_here in H; [|discriminate]. apply not_here in H; [auto|discriminate]. }
  eapply (go_inv_frame s _ e x (PNoops (S i)) I E Bx); try reflexivity.
  eapply (go_base s (pending s) e x (PNoops (S i)) _ [EvComp it; EvCb (i_b it)] B E Bx); try reflexivity; ss.
  - cbn. apply lookup_lt_Some in Ei. lia.
  - rewrite <- T'. reflexivity.
  - intros k A. rewrite <- T'. eapply noop_key; eauto.
  - intros k A. split; [reflexivity|]. cbn. eapply out_key; eauto.
  - intros b0 y H. eauto.
  - intros b0 y H. rewrite <- T', comp_app, fb_app, nm_app. cbn [comp flat_map app]. rewrite fb_one. destruct (decide _); rewrite ?nm_one, ?Nn; cbn; rewrite app_nil_r; eapply a_done; eauto.
  - intros b0. unfold cb. rewrite <- T', cbs_app, filter_app, app_length, comp_app. cbn [comp cbs flat_map app]. pose proof (a_cb _ _ B b0) as Q. unfold cb in Q. rewrite Q. clear Q. rewrite fb_app, fb_one.
    destruct (decide (i_b it = b0)) as [<-|D].
    + rewrite Eb, !(decide_True _ _ Ne), filter_cons, decide_True, ph_app, app_length, ph_one, Nn by auto. cbn. reflexivity.
    + rewrite filter_cons, decide_False, app_nil_r by auto. cbn. rewrite Nat.add_0_r. reflexivity.
  - intros c l H. apply NC in H. eapply a_calls; eauto.
  - intros c l l' H H'. apply NC in H, H'. eapply a_call1; eauto.
  - intros c H. apply NR in H. eapply a_rets; eauto.
  - intros c l H. apply NC in H. eapply (open_keep s _ e x _ [_; _] _ _ B E); [|reflexivity|rewrite <- T'; reflexivity|exact H]. intros c' Q. rewrite G in Q. discriminate.
  - intros e' y c H Hg. ins H; [unfold withGo in Hg; ss; discriminate|].
    destruct (a_pexec _ _ B e' y c H Hg) as (Q1 & Q2). split; [rewrite <- T'; apply elem_of_app; auto|]. intros Q. apply NR in Q. auto.
  - intros c l H. apply NC in H. eapply a_size; eauto.
Qed.
(** giving the executor back *)
Definition idleE : ex := mkE [] [] false None [] [].
Definition given : st := set_assign (foldr (fun it m => delete (i_k it) m) (assign s) (e_items x)) (set_count (count s - 1)%Z (set_execs (<[e := idleE]> (execs s)) s)).
Lemma given_base i : e_go x = [PNoops i] -> e_busy x = true -> e_noops x !! i = None -> base given (pending s) /\ ready given /\ ~ full given.
Proof.
  intros G Bx Ei. assert (Le : e < length (execs s)) by (eapply lookup_lt_Some; eauto).
  assert (Asg : forall k e', e' <> e -> assign s !! k = Some e' -> assign given !! k = Some e').
  { intros k e' D A. unfold given. ss. rewrite foldr_delete, decide_False; [auto|]. intros H. apply elem_of_list_fmap in H as (it & -> & H).
    rewrite (x_items _ _ X) in H. apply elem_nm in H as (_ & H). pose proof (a_asg _ _ B e x it E H). congruence. }
  assert (Asg' : forall k e', assign given !! k = Some e' -> assign s !! k = Some e').
  { intros k e' H. unfold given in H. ss. rewrite foldr_delete in H. destruct (decide _); [discriminate|auto]. }
  assert (Ct : count s = (Z.of_nat (lsum busy1 (<[e := idleE]> (execs s))) + 1)%Z).
  { rewrite (a_count _ _ B). pose proof (lsum_insert busy1 _ _ _ idleE E) as Q. unfold busy1 in Q at 2 4. cbn [idleE e_busy] in Q. rewrite Bx in Q. lia. }
  assert (Bs : base given (pending s)).
  { split; try apply B.
    - intros e' y H. unfold given in H. ss. ins H; [|exact (a_ex _ _ B e' y H)]. split; try reflexivity. cbn. lia.
    - intros e' y it H Hit. unfold given in H. ss. ins H; [inversion Hit|]. apply Asg; [auto|]. exact (a_asg _ _ B e' y it H Hit).
    - intros k e' H. unfold given. ss. rewrite insert_length. eapply a_len; [exact B|]. apply Asg'. exact H.
    - unfold given. ss. rewrite Ct. lia.
    - intros e' y t H Ht. unfold given in H. ss. ins H; [discriminate|]. exact (a_timer _ _ B e' y t H Ht).
    - intros k. destruct (decide (assign s !! k = Some e)) as [A|A].
      + assert (C : cur given k = idleE \/ cur given k = freshE).
        { unfold cur. destruct (assign given !! k) as [e'|] eqn:Q; [|auto]. apply Asg' in Q. assert (e' = e) as -> by congruence. unfold given. ss. rewrite list_lookup_insert by auto. auto. }
        assert (Kf : kOK (trace s) idleE (pending s) k); [|destruct C as [-> | ->]; exact Kf].
        destruct (key_at k A) as (f & K1 & K2 & K3 & K4). unfold ncomp, nnoop in *. rewrite G in *. cbn [called] in *. rewrite take_ge in K3 by lia. rewrite take_ge in K4 by (apply lookup_ge_None; auto).
        exists (f ++ fk k (e_all x)). unfold ncomp, nnoop. cbn [idleE e_all e_items e_noops e_go called fk take]. rewrite !app_nil_r. cbn [app]. rewrite <- app_assoc, !nm_app, !ph_app, <- fk_nm, <- fk_ph, <- (x_items _ _ X), <- (x_noops _ _ X). auto.
      + replace (cur given k) with (cur s k); [apply B|]. unfold cur. destruct (assign s !! k) as [e'|] eqn:Q.
        * rewrite (Asg k e') by congruence. unfold given. ss. rewrite list_lookup_insert_ne by congruence. reflexivity.
        * destruct (assign given !! k) as [e'|] eqn:Q2; [apply Asg' in Q2; congruence|reflexivity].
    - intros c l H. destruct (a_open _ _ B c l H) as [Q|(e' & y & H1 & H2 & H3)]; [left; exact Q|]. right. exists e', y. unfold given. ss.
      destruct (decide (e' = e)) as [->|D]; [replace y with x in * by congruence; congruence|]. rewrite list_lookup_insert_ne by auto. auto.
    - intros e' y c H Hg. unfold given in H. ss. ins H; [discriminate|]. exact (a_pexec _ _ B e' y c H Hg). }
  split; [exact Bs|]. split.
  - intros e' y H. unfold given in *. ss. ins H; [|apply (i_ready s I) in H; exact H]. intros _. cbn. split; [lia|congruence].
  - intros F. pose proof (full_busy _ _ Bs F e idleE) as Q. unfold given in Q. ss. rewrite list_lookup_insert in Q by auto. specialize (Q eq_refl). discriminate.
Qed.
Lemma go_end i : e_go x = [PNoops i] -> e_busy x = true -> e_timer x = None -> e_noops x !! i = None ->
  flushPending (resetE e (set_count (count s - 1)%Z (endGo e 0 s))) = flushPending given /\ inv (flushPending given).
Proof.
  intros G Bx T Ei. assert (Le : e < length (execs s)) by (eapply lookup_lt_Some; eauto). split.
  - f_equal. unfold endGo. rewrite E. unfold resetE. ss. rewrite list_lookup_insert by auto. ss. rewrite list_insert_insert, T, G. reflexivity.
  - destruct (given_base i G Bx Ei) as (B1 & R1 & F1). unfold flushPending. destruct (Z.eqb_spec (count given) (Z.of_nat (length (execs given)))) as [Q|Q]; [contradiction|].
    destruct (flush_ok (pending given) [] given B1 R1 F1) as (I1 & I2 & I3 & I4 & I5 & I6 & I7); [intros it H; inversion H|]. destruct (flushLoop (pending given) given) as [l s1]. cbn in *.
    split; ss; [|exact I2|exact I3]. destruct I1. split; ss; assumption.
Qed.
End Go.

Lemma step_inv s a s' : inv s -> step s a = Some s' -> inv s'.
Proof.
  intros Iv H. destruct a as [k ks|b|t|t|e j]; cbn [step] in H.
  - injection H as <-. apply start_inv_step. exact Iv.
  - destruct (batches s !! b) as [x|] eqn:E; [|discriminate]. destruct (itemsOf b x !! b_next x) as [it|] eqn:Ei; [|discriminate]. injection H as <-. eapply item_inv; eauto.
  - destruct (timers s !! t) as [[e [| |]]|] eqn:E; try discriminate. injection H as <-. eapply fire_inv; eauto.
  - destruct (timers s !! t) as [[e [| |]]|] eqn:E; try discriminate. injection H as <-. eapply timer_inv; eauto.
  - unfold goStep in H. destruct (execs s !! e) as [x|] eqn:E; [|discriminate]. destruct (e_go x !! j) as [p|] eqn:Ep; [|discriminate].
    destruct (busy_go _ x j p (a_ex _ _ (i_base s Iv) e x E) Ep) as (Bx & T & G & -> & Pc). destruct p as [|c|i|i]; injection H as <-.
    + destruct (Nat.ltb_spec 0 (length (e_items x))) as [L|L].
      * erewrite (setGo_eq _ e x 0); [|exact E|exact G|exact Ep]. apply (go_call s e x Iv E); auto. intros Q. rewrite Q in L. cbn in L. lia.
      * erewrite (setGo_eq _ e x 0); [|exact E|exact G|exact Ep]. assert (N : e_items x = []) by (destruct (e_items x); [auto|cbn in L; lia]).
        apply (go_quiet s e x Iv E PStart); auto; try discriminate; try (cbn; lia).
        -- intros k _. rewrite N. reflexivity.
        -- rewrite N, !take_nil. reflexivity.
        -- unfold nnoop, withGo. ss. rewrite G. reflexivity.
    + erewrite (setGo_eq _ e x 0); [|exact E|exact G|exact Ep]. apply (go_ret s e x Iv E); auto.
    + destruct (e_items x !! i) as [it|] eqn:Ei.
      * assert (Ec : execs (completeItem it s) = execs s). { unfold completeItem. destruct (batches s !! i_b it); [|reflexivity]. ss. destruct (_ =? _); reflexivity. }
        erewrite (setGo_eq _ e x 0); [|rewrite Ec; exact E|exact G|exact Ep]. apply (go_comp s e x Iv E); auto.
      * erewrite (setGo_eq _ e x 0); [|exact E|exact G|exact Ep]. apply (go_quiet s e x Iv E (PComp i)); auto; try discriminate; try (cbn; lia).
        -- unfold ncomp, withGo. ss. rewrite G. apply lookup_ge_None in Ei. rewrite !take_ge by lia. reflexivity.
        -- unfold nnoop, withGo. ss. rewrite G. reflexivity.
    + destruct (e_noops x !! i) as [it|] eqn:Ei.
      * erewrite (setGo_eq _ e x 0); [|exact E|exact G|exact Ep]. apply (go_noop s e x Iv E); auto.
      * destruct (go_end s e x Iv E i G Bx T Ei) as (-> & Q). exact Q.
Qed.
Lemma start_inv size conc : inv (start size conc).
Proof.
  assert (Ex : forall e x, repeat freshE conc !! e = Some x -> x = freshE).
  { intros e x H. apply elem_of_list_lookup_2, elem_of_list_In, repeat_spec in H. exact H. }
  unfold start. split; ss.
  - split; ss.
    + intros e x H. apply Ex in H as ->. split; try reflexivity. cbn. lia.
    + intros e x it H. apply Ex in H as ->. intros Q. inversion Q.
    + intros k e H. rewrite lookup_empty in H. discriminate.
    + rewrite lsum_repeat by reflexivity. reflexivity.
    + intros e x t H. apply Ex in H as ->. discriminate.
    + intros k. unfold cur. ss. rewrite lookup_empty. exists []. auto.
    + reflexivity.
    + intros b x H. discriminate.
    + intros b x H. discriminate.
    + intros b. reflexivity.
    + intros c l H. inversion H.
    + intros c l l' H. inversion H.
    + intros c H. inversion H.
    + intros c l H. inversion H.
    + intros e x c H. apply Ex in H as ->. discriminate.
    + intros c l H. inversion H.
  - intros e x H. ss. apply Ex in H as ->. intros _. cbn. split; [lia|congruence].
  - intros it H. inversion H.
Qed.
Lemma run_inv acts : forall s s', inv s -> run s acts = Some s' -> inv s'.
Proof.
  induction acts as [|a acts IH]; intros s s' I H; cbn in H; [congruence|]. destruct (step s a) as [s1|] eqn:E; [|discriminate]. eauto using step_inv.
Qed.
