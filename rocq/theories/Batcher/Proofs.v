(** What the invariant says about the trace. *)
From stdpp Require Import prelude list gmap.
From Coq Require Import ZArith.
From Verif.Batcher Require Import Model Base Inv Step Step2 Step3.
Open Scope nat_scope.

(** ** what a step writes to the trace *)
Definition quiet (evs : list ev) : Prop := (forall c l, EvCall c l ∉ evs) /\ (forall b, EvCb b ∉ evs).
Definition stepEvs (s s' : st) : Prop := exists evs, trace s' = trace s ++ evs /\
  ((quiet evs /\ calls s' = calls s) \/ (exists l, evs = [EvCall (calls s) l] /\ calls s' = S (calls s)) \/
   (exists evs0 b, evs = evs0 ++ [EvCb b] /\ quiet evs0 /\ calls s' = calls s)).
Lemma quiet_nil : quiet []. Proof. split; intros; apply not_elem_of_nil. Qed.
Lemma condExec_calls s e : calls (condExec e s) = calls s.
Proof. unfold condExec. destruct (execs s !! e) as [x|]; [|reflexivity]. destruct (e_busy x); reflexivity. Qed.
Lemma addTo_trace s it e : trace (addToExecutor it e s) = trace s /\ calls (addToExecutor it e s) = calls s /\ maxb (addToExecutor it e s) = maxb s /\ length (execs (addToExecutor it e s)) = length (execs s).
Proof.
  unfold addToExecutor. destruct (execs s !! e) as [x|]; [|auto]. destruct (_ =? _).
  - match goal with |- context [condExec e ?s1] => destruct (condExec_frame s1 e) as (_ & _ & F3 & _ & F5 & F6 & _); rewrite F3, F5, F6, condExec_calls end. ss. rewrite insert_length. auto.
  - destruct (e_timer _); ss; rewrite insert_length; auto.
Qed.
Lemma flush_trace todo : forall s, trace (flushLoop todo s).2 = trace s /\ calls (flushLoop todo s).2 = calls s /\ maxb (flushLoop todo s).2 = maxb s /\ length (execs (flushLoop todo s).2) = length (execs s).
Proof.
  induction todo as [|it todo IH]; intros s; cbn [flushLoop]; [auto|]. destruct (executorFor it s) as [e|].
  - destruct (addTo_trace s it e) as (A1 & A2 & A3 & A4). destruct (_ =? _)%Z; cbn; [auto|]. destruct (IH (addToExecutor it e s)) as (I1 & I2 & I3 & I4). rewrite I1, I2, I3, I4. auto.
  - specialize (IH s). destruct (flushLoop todo s) as [l s1]. exact IH.
Qed.
Lemma flushPending_trace s : trace (flushPending s) = trace s /\ calls (flushPending s) = calls s /\ maxb (flushPending s) = maxb s /\ length (execs (flushPending s)) = length (execs s).
Proof. unfold flushPending. destruct (_ =? _)%Z; [auto|]. pose proof (flush_trace (pending s) s) as H. destruct (flushLoop (pending s) s) as [l s1]. exact H. Qed.
Lemma resetE_trace s e : trace (resetE e s) = trace s /\ calls (resetE e s) = calls s /\ maxb (resetE e s) = maxb s /\ length (execs (resetE e s)) = length (execs s).
Proof. unfold resetE. destruct (execs s !! e); ss; rewrite ?insert_length; auto. Qed.
Lemma setGo_trace s e j p : trace (setGo e j p s) = trace s /\ calls (setGo e j p s) = calls s /\ maxb (setGo e j p s) = maxb s /\ length (execs (setGo e j p s)) = length (execs s).
Proof. unfold setGo. destruct (execs s !! e); ss; rewrite ?insert_length; auto. Qed.
Lemma endGo_trace s e j : trace (endGo e j s) = trace s /\ calls (endGo e j s) = calls s /\ maxb (endGo e j s) = maxb s /\ length (execs (endGo e j s)) = length (execs s).
Proof. unfold endGo. destruct (execs s !! e); ss; rewrite ?insert_length; auto. Qed.
Ltac quiet1 := split; intros; intros Q; repeat (apply elem_of_cons in Q as [Q|Q]; [discriminate|]); inversion Q.
Lemma step_evs s a s' : step s a = Some s' -> stepEvs s s' /\ maxb s' = maxb s /\ length (execs s') = length (execs s).
Proof.
  intros H. destruct a as [k ks|b|t|t|e j]; cbn [step] in H.
  - injection H as <-. split; [|auto]. exists []. ss. rewrite app_nil_r. split; [reflexivity|]. left. split; [apply quiet_nil|reflexivity].
  - destruct (batches s !! b) as [x|]; [|discriminate]. destruct (itemsOf b x !! b_next x) as [it|]; [|discriminate]. injection H as <-. unfold addItem. set (s1 := log _ _).
    assert (Q : stepEvs s s1 /\ maxb s1 = maxb s /\ length (execs s1) = length (execs s)). { split; [|auto]. exists [EvAdd it]. split; [reflexivity|]. left. split; [quiet1|reflexivity]. }
    destruct (executorFor it s1) as [e|]; [|exact Q]. destruct (addTo_trace s1 it e) as (A1 & A2 & A3 & A4). unfold stepEvs. rewrite A1, A2, A3, A4. exact Q.
  - destruct (timers s !! t) as [[e [| |]]|]; try discriminate. injection H as <-. split; [|auto]. exists []. ss. rewrite app_nil_r. split; [reflexivity|]. left. split; [apply quiet_nil|reflexivity].
  - destruct (timers s !! t) as [[e [| |]]|]; try discriminate. injection H as <-. match goal with |- context [condExec e ?s1] => destruct (condExec_frame s1 e) as (_ & _ & F3 & _ & F5 & F6 & _); pose proof (condExec_calls s1 e) as F8 end.
    unfold stepEvs. rewrite F3, F5, F6, F8. ss. split; [|auto]. exists []. rewrite app_nil_r. split; [reflexivity|]. left. split; [apply quiet_nil|reflexivity].
  - unfold goStep in H. destruct (execs s !! e) as [x|] eqn:E; [|discriminate]. destruct (e_go x !! j) as [[|c|i|i]|]; [..|discriminate]; injection H as <-.
    + destruct (0 <? length (e_items x)); (match goal with |- context [setGo e j ?p ?s1] => destruct (setGo_trace s1 e j p) as (A1 & A2 & A3 & A4); unfold stepEvs; rewrite A1, A2, A3, A4 end); ss; (split; [|auto]).
      * exists [EvCall (calls s) (e_items x)]. split; [reflexivity|]. right. left. eauto.
      * exists []. rewrite app_nil_r. split; [reflexivity|]. left. split; [apply quiet_nil|reflexivity].
    + match goal with |- context [setGo e j ?p ?s1] => destruct (setGo_trace s1 e j p) as (A1 & A2 & A3 & A4); unfold stepEvs; rewrite A1, A2, A3, A4 end. ss. split; [|auto]. exists [EvRet c]. split; [reflexivity|]. left. split; [quiet1|reflexivity].
    + destruct (e_items x !! i) as [it|]; (match goal with |- context [setGo e j ?p ?s1] => destruct (setGo_trace s1 e j p) as (A1 & A2 & A3 & A4); unfold stepEvs; rewrite A1, A2, A3, A4 end).
      * unfold completeItem. destruct (batches s !! i_b it) as [b|]; ss; [destruct (_ =? _); ss|].
        -- split; [|auto]. exists ([EvComp it] ++ [EvCb (i_b it)]). rewrite app_assoc. split; [reflexivity|]. right. right. exists [EvComp it], (i_b it). split; [reflexivity|]. split; [quiet1|reflexivity].
        -- split; [|auto]. exists [EvComp it]. split; [reflexivity|]. left. split; [quiet1|reflexivity].
        -- split; [|auto]. exists []. rewrite app_nil_r. split; [reflexivity|]. left. split; [apply quiet_nil|reflexivity].
      * split; [|auto]. exists []. rewrite app_nil_r. split; [reflexivity|]. left. split; [apply quiet_nil|reflexivity].
    + destruct (e_noops x !! i) as [it|].
      * match goal with |- context [setGo e j ?p ?s1] => destruct (setGo_trace s1 e j p) as (A1 & A2 & A3 & A4); unfold stepEvs; rewrite A1, A2, A3, A4 end. ss. split; [|auto].
        exists ([EvComp it] ++ [EvCb (i_b it)]). rewrite app_assoc. split; [reflexivity|]. right. right. exists [EvComp it], (i_b it). split; [reflexivity|]. split; [quiet1|reflexivity].
      * match goal with |- context [flushPending ?s1] => destruct (flushPending_trace s1) as (A1 & A2 & A3 & A4) end. unfold stepEvs. rewrite A1, A2, A3, A4.
        match goal with |- context [resetE e ?s1] => destruct (resetE_trace s1 e) as (B1 & B2 & B3 & B4) end. rewrite B1, B2, B3, B4. ss.
        destruct (endGo_trace s e j) as (C1 & C2 & C3 & C4). rewrite C1, C2, C3, C4. split; [|auto]. exists []. rewrite app_nil_r. split; [reflexivity|]. left. split; [apply quiet_nil|reflexivity].
Qed.
Lemma run_frame acts : forall s s', run s acts = Some s' -> maxb s' = maxb s /\ length (execs s') = length (execs s).
Proof.
  induction acts as [|a acts IH]; intros s s' H; cbn in H; [injection H as <-; auto|]. destruct (step s a) as [s1|] eqn:E; [|discriminate].
  apply step_evs in E as (_ & E1 & E2). apply IH in H as (H1 & H2). split; congruence.
Qed.

(** ** C34 *)
Definition callIds (t : list ev) : list nat := flat_map (fun e => match e with EvCall c _ => [c] | _ => [] end) t.
Lemma callIds_app a b : callIds (a ++ b) = callIds a ++ callIds b. Proof. apply flat_map_app. Qed.
Lemma callIds_quiet l : (forall c x, EvCall c x ∉ l) -> callIds l = [].
Proof.
  induction l as [|e l IH]; intros H; [reflexivity|]. assert (Q : callIds l = []) by (apply IH; intros c x Q; apply (H c x); right; exact Q).
  change (callIds (e :: l)) with (match e with EvCall c _ => [c] | _ => [] end ++ callIds l). rewrite Q. destruct e; try reflexivity. exfalso. eapply H. left.
Qed.
Lemma step_ids s a s' : step s a = Some s' -> callIds (trace s) = seq 0 (calls s) -> callIds (trace s') = seq 0 (calls s').
Proof.
  intros H I. apply step_evs in H as ((evs & -> & [(Q & ->)|[(l & -> & ->)|(evs0 & b & -> & Q & ->)]]) & _); rewrite callIds_app, I.
  - rewrite (callIds_quiet evs) by apply Q. apply app_nil_r.
  - cbn [callIds flat_map app]. rewrite seq_S. reflexivity.
  - rewrite callIds_app, (callIds_quiet evs0) by apply Q. apply app_nil_r.
Qed.
Lemma run_ids acts : forall s s', callIds (trace s) = seq 0 (calls s) -> run s acts = Some s' -> callIds (trace s') = seq 0 (calls s').
Proof. induction acts as [|a acts IH]; intros s s' I H; cbn in H; [congruence|]. destruct (step s a) as [s1|] eqn:E; [|discriminate]. eauto using step_ids. Qed.
(** a call that has not returned *)
Definition isOpen (t : list ev) (c : nat) (l : list item) : Prop := EvCall c l ∈ t /\ EvRet c ∉ t.
Lemma limits size conc acts s : 1 <= size -> run (start size conc) acts = Some s ->
  NoDup (callIds (trace s)) /\
  (forall c l, EvCall c l ∈ trace s -> 1 <= length l <= size) /\
  (forall cs, NoDup cs -> (forall c, c ∈ cs -> exists l, isOpen (trace s) c l) -> length cs <= conc).
Proof.
  intros S1 H. pose proof (run_inv _ _ _ (start_inv size conc) H) as [B _ _]. destruct (run_frame _ _ _ H) as (M & L). unfold start in M, L. ss. rewrite repeat_length in L. split.
  - rewrite (run_ids acts _ _ (eq_refl : callIds (trace (start size conc)) = seq 0 (calls (start size conc))) H). apply NoDup_seq.
  - split.
    + intros c l Hc. destruct (a_size _ _ B c l Hc) as (N & Q). rewrite M in Q. specialize (Q S1). destruct l; [congruence|]. cbn in *. lia.
    + intros cs N O.
      assert (F : exists es, length es = length cs /\ NoDup es /\ forall e, e ∈ es -> e < conc /\ exists c x, c ∈ cs /\ execs s !! e = Some x /\ e_go x = [PExec c]).
      { induction cs as [|c cs IH]; [exists []; split; [reflexivity|split; [constructor|intros e He; inversion He]]|]. apply NoDup_cons in N as (Nc & N). destruct IH as (es & Q1 & Q2 & Q3); [exact N|intros c' H'; apply O; right; exact H'|].
        destruct (O c) as (l & Hc & Hr); [left|]. destruct (a_open _ _ B c l Hc) as [?|(e & x & H1 & H2 & H3)]; [contradiction|]. exists (e :: es). split; [cbn; congruence|]. split.
        - constructor; [|exact Q2]. intros He. apply Q3 in He as (_ & c' & x' & Hc' & Hx & Hg). assert (c' = c) by congruence. subst. contradiction.
        - intros e' He. apply elem_of_cons in He as [->|He].
          + split; [apply lookup_lt_Some in H1; lia|]. exists c, x. split; [left|auto].
          + apply Q3 in He as (Q & c' & x' & Hc' & Hx & Hg). split; [exact Q|]. exists c', x'. split; [right; exact Hc'|auto]. }
      destruct F as (es & Q1 & Q2 & Q3). rewrite <- Q1, <- (seq_length conc 0). apply submseteq_length, NoDup_submseteq; [exact Q2|]. intros e He. apply Q3 in He as (He & _). apply elem_of_seq. lia.
Qed.

(** ** C35 *)
Lemma key_once size conc acts s c1 c2 l1 l2 i1 i2 : run (start size conc) acts = Some s -> isOpen (trace s) c1 l1 -> isOpen (trace s) c2 l2 ->
  i1 ∈ l1 -> i2 ∈ l2 -> i_k i1 = i_k i2 -> c1 = c2.
Proof.
  intros H (C1 & R1) (C2 & R2) H1 H2 K. pose proof (run_inv _ _ _ (start_inv size conc) H) as [B _ _].
  destruct (a_open _ _ B c1 l1 C1) as [?|(e & x & E1 & G1 & I1)]; [contradiction|]. destruct (a_open _ _ B c2 l2 C2) as [?|(e' & x' & E2 & G2 & I2)]; [contradiction|]. subst.
  rewrite (x_items _ _ (a_ex _ _ B _ _ E1)) in H1. rewrite (x_items _ _ (a_ex _ _ B _ _ E2)) in H2. apply elem_nm in H1 as (_ & H1). apply elem_nm in H2 as (_ & H2).
  pose proof (a_asg _ _ B _ _ _ E1 H1) as A1. pose proof (a_asg _ _ B _ _ _ E2 H2) as A2. rewrite K in A1. congruence.
Qed.

(** ** C36 *)
Lemma handed_sub s pd k : base s pd -> exists r, nm (fk k (added (trace s))) = fk k (handed (trace s)) ++ r.
Proof.
  intros B. destruct (a_key s pd B k) as (f & K1 & K2 & K3 & K4).
  assert (E1 : e_items (cur s k) = nm (e_all (cur s k))).
  { unfold cur. destruct (assign s !! k) as [e|]; [|reflexivity]. destruct (execs s !! e) as [x|] eqn:E; cbn; [apply (a_ex s pd B e x E)|reflexivity]. }
  rewrite K1, K2, !nm_app, <- !fk_nm, <- E1. destruct (called _).
  - rewrite app_assoc. eauto.
  - rewrite app_nil_r. eauto.
Qed.
Lemma handed_added s pd it : base s pd -> it ∈ handed (trace s) -> it ∈ added (trace s) /\ i_n it <> None.
Proof.
  intros B H. destruct (handed_sub s pd (i_k it) B) as (r & E). assert (Q : it ∈ nm (fk (i_k it) (added (trace s)))).
  { rewrite E. apply elem_of_app. left. apply elem_fk. auto. }
  apply elem_nm in Q as (Q1 & Q2). apply elem_fk in Q2. tauto.
Qed.
Lemma order size conc acts s : run (start size conc) acts = Some s ->
  NoDup (handed (trace s)) /\ forall k, fk k (handed (trace s)) `prefix_of` fk k (nm (added (trace s))).
Proof.
  intros H. pose proof (run_inv _ _ _ (start_inv size conc) H) as [B _ _]. split.
  - apply NoDup_keys. intros k. destruct (handed_sub s _ k B) as (r & E). pose proof (NoDup_filter (fun i => i_n i <> None) _ (fk_NoDup k _ (added_NoDup s _ B))) as N.
    fold (nm (fk k (added (trace s)))) in N. rewrite E in N. apply NoDup_app in N. tauto.
  - intros k. rewrite fk_nm. destruct (handed_sub s _ k B) as (r & E). rewrite E. apply prefix_app_r. reflexivity.
Qed.

(** ** C37 *)
Lemma comp_returned s pd it : base s pd -> it ∈ comp (trace s) -> i_n it <> None -> exists c l, EvCall c l ∈ trace s /\ it ∈ l /\ EvRet c ∈ trace s.
Proof.
  intros B H N. set (k := i_k it). destruct (a_key s pd B k) as (f & K1 & K2 & K3 & K4).
  assert (Hc : it ∈ fk k (nm (comp (trace s)))) by (apply elem_fk; split; [reflexivity|]; apply elem_nm; auto). rewrite K3 in Hc.
  assert (Hh : it ∈ fk k (handed (trace s))).
  { rewrite K2. apply elem_of_app in Hc as [Hc|Hc]; [apply elem_of_app; auto|]. apply elem_of_app. right. apply elem_fk in Hc as (Q1 & Q2). unfold ncomp in Q2.
    destruct (e_go (cur s k)) as [|[|c|i|i] go]; try (rewrite take_0 in Q2; inversion Q2); cbn [called]; apply elem_fk; (split; [reflexivity|]).
    - rewrite <- (take_drop i (e_items (cur s k))). apply elem_of_app. auto.
    - rewrite take_ge in Q2 by lia. exact Q2. }
  apply elem_fk in Hh as (_ & Hh). apply elem_handed in Hh as (c & l & Hl & Hi). exists c, l. split; [exact Hl|]. split; [exact Hi|].
  destruct (a_open s pd B c l Hl) as [Q|(e & x & E & G & El)]; [exact Q|]. exfalso. subst l.
  assert (Ha : it ∈ e_all x). { rewrite (x_items _ _ (a_ex s pd B e x E)) in Hi. apply elem_nm in Hi. tauto. }
  pose proof (a_asg s pd B e x it E Ha) as A. fold k in A. rewrite (cur_at s k e x A E) in *. unfold ncomp in Hc. rewrite G in Hc. rewrite take_0 in Hc. cbn [fk] in Hc.
  apply elem_of_app in Hc as [Hc|Hc]; [|inversion Hc]. apply elem_nm in Hc as (_ & Hc).
  pose proof (fk_NoDup k _ (added_NoDup s pd B)) as ND. rewrite K1 in ND. apply NoDup_app in ND as (_ & ND & _). apply (ND it Hc). apply elem_of_app. left. apply elem_fk. auto.
Qed.
Lemma cb_comp s pd b x : base s pd -> batches s !! b = Some x -> EvCb b ∈ trace s -> forall it, it ∈ itemsOf b x -> it ∈ comp (trace s).
Proof.
  intros B E H it Hit. pose proof (a_cb s pd B b) as C. rewrite E in C. assert (P : 0 < cb b (trace s)).
  { unfold cb. apply elem_cbs in H. assert (Q : b ∈ filter (fun b' => b' = b) (cbs (trace s))) by (apply elem_of_list_filter; auto). destruct (filter _ _); [inversion Q|cbn; lia]. }
  destruct (decide (b_items x = [])) as [N|N].
  - rewrite C in P. destruct (ph (fb b (comp (trace s)))) as [|i l] eqn:Q; [cbn in P; lia|]. assert (Hi : i ∈ ph (fb b (comp (trace s)))) by (rewrite Q; left).
    apply elem_ph in Hi as (Hi1 & Hi). apply elem_fb in Hi as (Hi2 & Hi3). pose proof (comp_added s pd i B Hi3) as Ha. apply (added_batch s pd i B) in Ha as (x' & E' & Ha).
    rewrite Hi2 in *. assert (x' = x) as -> by congruence. unfold itemsOf in *. rewrite decide_True in Hit, Ha by auto. apply elem_of_list_singleton in Hit, Ha. congruence.
  - destruct (Nat.eqb_spec (b_done x) (length (b_items x))); [|lia]. eapply comp_all; eauto.
Qed.
Lemma cb_none s pd b : base s pd -> EvCb b ∈ trace s -> exists x, batches s !! b = Some x.
Proof.
  intros B H. destruct (batches s !! b) as [x|] eqn:E; [eauto|]. pose proof (a_cb s pd B b) as C. rewrite E in C. exfalso. unfold cb in C. apply elem_cbs in H.
  assert (Q : b ∈ filter (fun b' => b' = b) (cbs (trace s))) by (apply elem_of_list_filter; auto). destruct (filter _ _); [inversion Q|cbn in C; lia].
Qed.
Lemma NoDup_count (l : list nat) : (forall b, length (filter (fun b' => b' = b) l) <= 1) -> NoDup l.
Proof.
  induction l as [|x l IH]; intros H; [constructor|]. constructor.
  - intros Hx. specialize (H x). rewrite filter_cons, decide_True in H by auto. assert (Q : x ∈ filter (fun b' => b' = x) l) by (apply elem_of_list_filter; auto). destruct (filter _ _); [inversion Q|cbn in H; lia].
  - apply IH. intros b. specialize (H b). rewrite filter_cons in H. destruct (decide _); cbn in H; lia.
Qed.
Lemma cb_once s pd : base s pd -> NoDup (cbs (trace s)).
Proof.
  intros B. apply NoDup_count. intros b. pose proof (a_cb s pd B b) as C. unfold cb in C. rewrite C. destruct (batches s !! b) as [x|] eqn:E; [|lia].
  destruct (decide _) as [N|N]; [|destruct (_ =? _); lia].
  assert (Q : forall i, i ∈ ph (fb b (comp (trace s))) -> i = mkI b (b_key x) None).
  { intros i Hi. apply elem_ph in Hi as (Hi1 & Hi). apply elem_fb in Hi as (Hi2 & Hi3). pose proof (comp_added s pd i B Hi3) as Ha. apply (added_batch s pd i B) in Ha as (x' & E' & Ha).
    rewrite Hi2 in *. assert (x' = x) as -> by congruence. unfold itemsOf in *. rewrite decide_True in Ha by auto. apply elem_of_list_singleton in Ha. exact Ha. }
  assert (ND : NoDup (ph (fb b (comp (trace s))))) by (apply NoDup_filter, NoDup_filter, (comp_NoDup s pd B)).
  destruct (ph (fb b (comp (trace s)))) as [|i1 [|i2 l]]; cbn; try lia. exfalso. apply NoDup_cons in ND as (ND & _). apply ND. rewrite (Q i1), (Q i2); [left|right; left|left].
Qed.
(** [x] comes before every [y] *)
Definition before {A} (l : list A) (x y : A) : Prop := forall u v, l = u ++ y :: v -> x ∈ u.
Lemma app_cases {A} (l1 l2 u v : list A) y : l1 ++ l2 = u ++ y :: v -> (exists v', l1 = u ++ y :: v') \/ (exists u', u = l1 ++ u' /\ l2 = u' ++ y :: v).
Proof.
  revert l1. induction u as [|z u IH]; intros l1 H.
  - destruct l1 as [|a l1]; [right; exists []; auto|]. injection H as -> H. left. exists l1. reflexivity.
  - destruct l1 as [|a l1]; [right; exists (z :: u); auto|]. injection H as -> H. apply IH in H as [(v' & ->)|(u' & -> & ->)]; [left; exists v'|right; exists u']; auto.
Qed.
Lemma cb_split s a s' b u v : step s a = Some s' -> trace s' = u ++ EvCb b :: v -> (exists v', trace s = u ++ EvCb b :: v') \/ trace s' = u ++ [EvCb b].
Proof.
  intros H T. apply step_evs in H as ((evs & E & D) & _). rewrite E in T. apply app_cases in T as [T|(u' & -> & T)]; [auto|].
  destruct D as [(Q & _)|[(l & -> & _)|(evs0 & b' & -> & Q & _)]].
  - exfalso. apply (proj2 Q b). rewrite T. apply elem_of_app. right. left.
  - exfalso. destruct u' as [|? [|? ?]]; discriminate.
  - right. apply app_cases in T as [(v' & ->)|(u'' & -> & T)].
    + exfalso. apply (proj2 Q b). apply elem_of_app. right. left.
    + destruct u'' as [|? [|? ?]]; try discriminate. injection T as -> <-. rewrite E, app_nil_r, app_assoc. reflexivity.
Qed.
(** something the invariant gives whenever the callback of b is in the trace is there before it *)
Lemma cb_before acts b e : forall s s', run s acts = Some s' -> inv s -> e <> EvCb b -> before (trace s) e (EvCb b) ->
  (forall s1 more, run s1 more = Some s' -> inv s1 -> EvCb b ∈ trace s1 -> e ∈ trace s1) -> before (trace s') e (EvCb b).
Proof.
  induction acts as [|a acts IH]; intros s s' H I N P Q; cbn in H; [injection H as <-; exact P|]. destruct (step s a) as [s1|] eqn:E; [|discriminate].
  eapply IH; eauto using step_inv. intros u v T. destruct (cb_split s a s1 b u v E T) as [(v' & T')|T']; [eapply P; eauto|].
  eapply not_here; [|exact N]. rewrite <- T'. eapply Q; eauto using step_inv. rewrite T'. apply elem_of_app. right. left.
Qed.
Lemma run_batches acts : forall s s' b x, run s acts = Some s' -> inv s -> batches s !! b = Some x -> exists x', batches s' !! b = Some x' /\ b_items x' = b_items x /\ b_key x' = b_key x.
Proof.
  induction acts as [|a acts IH]; intros s s' b x H I E; cbn in H; [injection H as <-; eauto|]. destruct (step s a) as [s1|] eqn:Es; [|discriminate].
  assert (Q : exists x1, batches s1 !! b = Some x1 /\ b_items x1 = b_items x /\ b_key x1 = b_key x).
  2:{ destruct Q as (x1 & E1 & Q1 & Q2). destruct (IH s1 s' b x1 H (step_inv _ _ _ I Es) E1) as (x' & E' & Q3 & Q4). exists x'. split; [exact E'|]. split; congruence. }
  destruct a as [k ks|b'|t|t|e j]; cbn [step] in Es.
  - injection Es as <-. ss. exists x. split; [apply lookup_app_l_Some; exact E|auto].
  - destruct (batches s !! b') as [y|] eqn:Ey; [|discriminate]. destruct (itemsOf b' y !! b_next y) as [it|]; [|discriminate]. injection Es as <-. unfold addItem. set (s2 := log _ _).
    assert (Q : exists x1, batches s2 !! b = Some x1 /\ b_items x1 = b_items x /\ b_key x1 = b_key x).
    { unfold s2. ss. destruct (decide (b = b')) as [->|D]; [|rewrite list_lookup_insert_ne by auto; eauto]. rewrite list_lookup_insert by (eapply lookup_lt_Some; eauto). replace y with x by congruence. eauto. }
    assert (F : forall e, batches (addToExecutor it e s2) = batches s2).
    { intros e. unfold addToExecutor. destruct (execs s2 !! e); [|reflexivity]. destruct (_ =? _); [rewrite (proj1 (proj2 (condExec_frame _ e))); reflexivity|]. destruct (e_timer _); reflexivity. }
    destruct (executorFor it s2) as [e|]; [rewrite F; exact Q|exact Q].
  - destruct (timers s !! t) as [[e [| |]]|]; try discriminate. injection Es as <-. eauto.
  - destruct (timers s !! t) as [[e [| |]]|]; try discriminate. injection Es as <-. rewrite (proj1 (proj2 (condExec_frame _ e))). eauto.
  - unfold goStep in Es. destruct (execs s !! e) as [y|] eqn:Ee; [|discriminate].
    assert (Sg : forall p s2, batches (setGo e j p s2) = batches s2) by (intros p s2; unfold setGo; destruct (execs s2 !! e); reflexivity).
    destruct (e_go y !! j) as [[|c|i|i]|]eqn:Ep; [..|discriminate]; injection Es as <-.
    + destruct (0 <? _); rewrite Sg; eauto.
    + rewrite Sg. eauto.
    + destruct (e_items y !! i) as [it|]; rewrite Sg; eauto. unfold completeItem. destruct (batches s !! i_b it) as [z|] eqn:Ez; [|eauto].
      ss. assert (Q : exists x1, <[i_b it:={| b_key := b_key z; b_items := b_items z; b_done := S (b_done z); b_next := b_next z |}]> (batches s) !! b = Some x1 /\ b_items x1 = b_items x /\ b_key x1 = b_key x).
      { destruct (decide (b = i_b it)) as [->|D]; [|rewrite list_lookup_insert_ne by auto; eauto]. rewrite list_lookup_insert by (eapply lookup_lt_Some; eauto). replace z with x by congruence. eauto. }
      destruct (_ =? _); exact Q.
    + destruct (e_noops y !! i) as [it|] eqn:Ei; [rewrite Sg; eauto|]. destruct (busy_go _ y j (PNoops i) (a_ex _ _ (i_base s I) e y Ee) Ep) as (Bx & T & G & -> & Pc).
      destruct (go_end s e y I Ee i G Bx T Ei) as (-> & _). destruct (given_base s e y I Ee i G Bx Ei) as (B1 & R1 & F1).
      unfold flushPending. destruct (_ =? _)%Z; [eauto|]. destruct (flush_ok (pending (given s e y)) [] (given s e y) B1 R1 F1) as (_ & _ & _ & I4 & _); [intros it Hi; inversion Hi|].
      destruct (flushLoop _ _) as [l s2]. cbn in *. rewrite I4. eauto.
Qed.
Lemma callbacks size conc acts s b : run (start size conc) acts = Some s ->
  NoDup (cbs (trace s)) /\
  (forall x it u v, batches s !! b = Some x -> it ∈ itemsOf b x -> i_n it <> None -> trace s = u ++ EvCb b :: v -> exists c l, it ∈ l /\ EvCall c l ∈ u /\ EvRet c ∈ u) /\
  (forall x, batches s !! b = Some x -> b_items x = [] -> fb b (handed (trace s)) = []).
Proof.
  intros H. pose proof (run_inv _ _ _ (start_inv size conc) H) as I. pose proof (i_base s I) as B. split; [eapply cb_once; eauto|]. split.
  - intros x it u v E Hit N Tr. assert (Hb : EvCb b ∈ trace s) by (rewrite Tr; apply elem_of_app; right; left).
    assert (Q : exists c l, it ∈ l /\ before (trace s) (EvCall c l) (EvCb b) /\ before (trace s) (EvRet c) (EvCb b)); [clear u v Tr|destruct Q as (c & l & Q1 & Q2 & Q3); eauto 10].
    + pose proof (cb_comp s _ b x B E Hb it Hit) as Hc. destruct (comp_returned s _ it B Hc N) as (c & l & H1 & H2 & H3). exists c, l. split; [exact H2|].
      assert (Key : forall s1 more, run s1 more = Some s -> inv s1 -> EvCb b ∈ trace s1 -> EvCall c l ∈ trace s1 /\ EvRet c ∈ trace s1).
      { intros s1 more R I1 Hb1. destruct (cb_none s1 _ b (i_base s1 I1) Hb1) as (x1 & E1). destruct (run_batches more s1 s b x1 R I1 E1) as (x' & E' & Q1 & Q2).
        assert (x' = x) as -> by congruence. assert (Hi1 : it ∈ itemsOf b x1) by (unfold itemsOf in *; rewrite <- Q1, <- Q2; exact Hit).
        pose proof (cb_comp s1 _ b x1 (i_base s1 I1) E1 Hb1 it Hi1) as Hc1. destruct (comp_returned s1 _ it (i_base s1 I1) Hc1 N) as (c1 & l1 & G1 & G2 & G3).
        assert (Mon : forall more s1, run s1 more = Some s -> exists r, trace s = trace s1 ++ r).
        { clear. induction more as [|a more IH]; intros s1 R; cbn in R; [injection R as ->; exists []; rewrite app_nil_r; reflexivity|]. destruct (step s1 a) as [s2|] eqn:E; [|discriminate].
          apply step_evs in E as ((evs & E & _) & _). apply IH in R as (r & ->). rewrite E, <- app_assoc. eauto. }
        destruct (Mon more s1 R) as (r & Er). assert (Hc1' : EvCall c1 l1 ∈ trace s) by (rewrite Er; apply elem_of_app; auto).
        assert (c1 = c /\ l1 = l) as (-> & ->); [|auto].
        pose proof (proj1 (order size conc acts s H)) as ND. clear - ND H1 H2 Hc1' G2.
        induction (trace s) as [|e t IH]; [inversion H1|]. destruct e as [i|c0 l0|c0|i|b0]; cbn in ND;
          try (apply elem_of_cons in H1 as [H1|H1]; [discriminate|]; apply elem_of_cons in Hc1' as [Hc1'|Hc1']; [discriminate|]; apply IH; auto; fail).
        apply NoDup_app in ND as (_ & ND1 & ND2). apply elem_of_cons in H1 as [H1|H1]; apply elem_of_cons in Hc1' as [Hc1'|Hc1'].
        - split; congruence.
        - injection H1 as -> ->. exfalso. apply (ND1 it); [exact H2|]. apply elem_handed. eauto.
        - injection Hc1' as -> ->. exfalso. apply (ND1 it); [exact G2|]. apply elem_handed. eauto.
        - apply IH; auto. }
      split; (eapply (cb_before acts b _ _ _ H (start_inv size conc)); [discriminate| |]).
      * intros u v T. destruct u; discriminate.
      * intros s1 more R I1 Hb1. eapply Key; eauto.
      * intros u v T. destruct u; discriminate.
      * intros s1 more R I1 Hb1. eapply Key; eauto.
  - intros x E N. destruct (fb b (handed (trace s))) as [|it l] eqn:Q; [reflexivity|]. exfalso. assert (Hi : it ∈ fb b (handed (trace s))) by (rewrite Q; left).
    apply elem_fb in Hi as (<- & Hi). apply (handed_added s _ it B) in Hi as (Ha & Nn). apply (added_batch s _ it B) in Ha as (x' & E' & Ha). apply itemsOf_elem in Ha as (_ & Ha). replace x' with x in * by congruence. tauto.
Qed.

