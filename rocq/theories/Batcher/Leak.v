(** What the batcher still holds, and what it waits for. *)
From stdpp Require Import prelude list gmap.
From Coq Require Import ZArith.
From Verif.Batcher Require Import Model Base Inv Step Step2 Step3 Proofs Order Live.
Open Scope nat_scope.

(** an assigned key belongs to something in its executor, or to a placeholder that was added some time *)
Definition ghost (t : list ev) (k : nat) : Prop := exists it, EvAdd it ∈ t /\ i_n it = None /\ i_k it = k.
Definition J (s : st) : Prop := forall k e, assign s !! k = Some e ->
  (exists x it, execs s !! e = Some x /\ it ∈ e_all x /\ i_k it = k) \/ ghost (trace s) k.

Lemma J_keep s s' : J s -> assign s' = assign s -> (forall ev, ev ∈ trace s -> ev ∈ trace s') ->
  (forall e x, execs s !! e = Some x -> exists x', execs s' !! e = Some x' /\ e_all x' = e_all x) -> J s'.
Proof.
  intros H A T E k e. rewrite A. intros Q. destruct (H k e Q) as [(x & it & X & I & K)|(it & I & N & K)].
  - left. destruct (E e x X) as (x' & X' & Al). exists x', it. rewrite Al. auto.
  - right. exists it. auto.
Qed.
Lemma upd_all (l : list ex) e x y : l !! e = Some x -> e_all y = e_all x -> forall e' x', l !! e' = Some x' -> exists x'', <[e := y]> l !! e' = Some x'' /\ e_all x'' = e_all x'.
Proof.
  intros X A e' x' X'. destruct (decide (e' = e)) as [->|N].
  - exists y. rewrite list_lookup_insert by (eapply lookup_lt_Some; eauto). split; [reflexivity|congruence].
  - exists x'. rewrite list_lookup_insert_ne by auto. auto.
Qed.
Lemma condExec_J s e : J s -> J (condExec e s).
Proof.
  intros H. unfold condExec. destruct (execs s !! e) as [x|] eqn:X; auto. destruct (e_busy x); auto.
  eapply J_keep; [exact H|reflexivity|auto|]. ss. eapply upd_all; [exact X|reflexivity].
Qed.
Lemma addTo_J s it e : J s -> J (addToExecutor it e s).
Proof.
  intros H. unfold addToExecutor. destruct (execs s !! e) as [x|] eqn:X; auto.
  assert (L : e < length (execs s)) by (eapply lookup_lt_Some; eauto).
  destruct (exAdd_all it x) as (Al & _ & _ & _).
  assert (Q : J (set_execs (<[e := exAdd it x]> (execs s)) (set_assign (<[i_k it := e]> (assign s)) s))).
  { intros k e'. ss. destruct (decide (k = i_k it)) as [->|N].
    - rewrite lookup_insert. intros [= <-]. left. exists (exAdd it x), it. rewrite list_lookup_insert by auto. split; auto. rewrite Al. split; auto. apply elem_of_app. right. left.
    - rewrite lookup_insert_ne by auto. intros A. destruct (H k e' A) as [(y & i & Y & I & K)|G]; [left|right; exact G].
      destruct (decide (e' = e)) as [->|N'].
      + exists (exAdd it x), i. rewrite list_lookup_insert by auto. split; auto. rewrite Al. split; auto. apply elem_of_app. left. congruence.
      + exists y, i. rewrite list_lookup_insert_ne by auto. auto. }
  destruct (_ =? _); [apply condExec_J; exact Q|]. destruct (e_timer (exAdd it x)); [exact Q|].
  eapply J_keep; [exact Q|reflexivity|auto|]. ss. intros e' x' E'. apply insert_cases in E' as [(-> & -> & _)|(N & E')].
  - eexists. rewrite list_lookup_insert by auto. split; [reflexivity|reflexivity].
  - exists x'. rewrite list_lookup_insert_ne by auto. auto.
Qed.
Lemma flushLoop_J todo : forall s, J s -> J (snd (flushLoop todo s)).
Proof.
  induction todo as [|it todo IH]; intros s H; cbn [flushLoop]; auto. destruct (executorFor it s) as [e|].
  - destruct (_ =? _)%Z; [apply addTo_J; exact H|]. apply IH, addTo_J, H.
  - specialize (IH s H). destruct (flushLoop todo s). exact IH.
Qed.
Lemma flushPending_J s : J s -> J (flushPending s).
Proof.
  intros H. unfold flushPending. destruct (_ =? _)%Z; auto. pose proof (flushLoop_J (pending s) s H) as Q. destruct (flushLoop (pending s) s) as [l s1].
  eapply J_keep; [exact Q|reflexivity|auto|]. ss. eauto.
Qed.
Lemma setGo_J s e j p : J s -> J (setGo e j p s).
Proof.
  intros H. unfold setGo. destruct (execs s !! e) as [x|] eqn:X; auto. eapply J_keep; [exact H|reflexivity|auto|]. ss. eapply upd_all; [exact X|reflexivity].
Qed.
Lemma log_J s ev : J s -> J (log ev s).
Proof. intros H. eapply J_keep; [exact H|reflexivity| |eauto]. ss. intros e' I. apply elem_of_app. auto. Qed.
Lemma completeItem_J s it : J s -> J (completeItem it s).
Proof.
  intros H. unfold completeItem. destruct (batches s !! i_b it) as [b|]; auto.
  assert (Q : J (log (EvComp it) (set_batches (<[i_b it := mkB (b_key b) (b_items b) (S (b_done b)) (b_next b)]> (batches s)) s))).
  { apply log_J. eapply J_keep; [exact H|reflexivity|auto|eauto]. }
  cbn zeta. destruct (_ =? _); auto. apply log_J. exact Q.
Qed.
Lemma goStep_J s e j s' : inv s -> J s -> goStep e j s = Some s' -> J s'.
Proof.
  intros Iv H G. unfold goStep in G. destruct (execs s !! e) as [x|] eqn:X; [|discriminate]. destruct (e_go x !! j) as [p|] eqn:P; [|discriminate].
  destruct p as [|c|i|i]; injection G as <-.
  - destruct (0 <? _); apply setGo_J; [|exact H]. apply log_J. eapply J_keep; [exact H|reflexivity|auto|eauto].
  - apply setGo_J, log_J, H.
  - destruct (e_items x !! i); apply setGo_J; [apply completeItem_J|]; exact H.
  - destruct (e_noops x !! i) as [it|] eqn:Ei; [apply setGo_J, log_J, log_J, H|]. apply flushPending_J.
    assert (Lx : e < length (execs s)) by (eapply lookup_lt_Some; eauto).
    unfold endGo, resetE, set_count. ss. rewrite X. ss. rewrite list_lookup_insert by auto. ss. intros k e'. ss. intros A. rewrite foldr_delete in A.
    destruct (decide (k ∈ map i_k (e_items x))) as [D|D]; [discriminate|]. destruct (H k e' A) as [(y & it & Y & I & K)|Gh]; [|right; exact Gh].
    destruct (decide (e' = e)) as [->|N].
    + right. assert (y = x) as -> by congruence. destruct (i_n it) as [n|] eqn:Nn.
      * exfalso. apply D. rewrite (x_items _ _ (a_ex _ _ (i_base s Iv) e x X)). subst k. apply elem_of_list_fmap. exists it. split; auto. apply elem_nm. split; [congruence|auto].
      * exists it. split; auto. apply elem_added. eapply all_added; [apply Iv|exact X|exact I].
    + left. exists y, it. rewrite !list_lookup_insert_ne by auto. auto.
Qed.
Lemma step_J s a s' : inv s -> J s -> step s a = Some s' -> J s'.
Proof.
  intros Iv H S. destruct a as [k ks|b|t|t|e j]; cbn [step] in S.
  - injection S as <-. eapply J_keep; [exact H|reflexivity|auto|eauto].
  - destruct (batches s !! b) as [x|]; [|discriminate]. destruct (itemsOf b x !! b_next x) as [it|]; [|discriminate]. injection S as <-. unfold addItem. cbn zeta.
    assert (Q : J (log (EvAdd it) (set_batches (<[b := mkB (b_key x) (b_items x) (b_done x) (S (b_next x))]> (batches s)) s))).
    { apply log_J. eapply J_keep; [exact H|reflexivity|auto|eauto]. }
    destruct (executorFor it _); [apply addTo_J; exact Q|]. eapply J_keep; [exact Q|reflexivity|auto|eauto].
  - destruct (timers s !! t) as [[e [| |]]|]; try discriminate. injection S as <-. eapply J_keep; [exact H|reflexivity|auto|eauto].
  - destruct (timers s !! t) as [[e [| |]]|]; try discriminate. injection S as <-. apply condExec_J. eapply J_keep; [exact H|reflexivity|auto|eauto].
  - eapply goStep_J; eauto.
Qed.
Lemma run_J acts : forall s s', inv s -> J s -> run s acts = Some s' -> J s'.
Proof.
  induction acts as [|a acts IH]; intros s s' I H R; cbn in R; [injection R as <-; exact H|]. destruct (step s a) as [s1|] eqn:E; [|discriminate]. eauto using step_inv, step_J.
Qed.
Lemma start_J size conc : J (start size conc).
Proof. intros k e H. unfold start in H. ss. rewrite lookup_empty in H. discriminate. Qed.

(** the BatchItems are those given to Add *)
Definition like (s s' : st) : Prop := forall b x, batches s' !! b = Some x -> exists x', batches s !! b = Some x' /\ b_key x' = b_key x /\ b_items x' = b_items x.
Lemma like_eq s s' : batches s' = batches s -> like s s'. Proof. intros E b x H. rewrite E in H. eauto. Qed.
Lemma like_trans s1 s2 s3 : like s1 s2 -> like s2 s3 -> like s1 s3.
Proof. intros H1 H2 b x X. destruct (H2 b x X) as (y & Y & K & I). destruct (H1 b y Y) as (z & Z & K' & I'). exists z. split; auto. split; congruence. Qed.
Lemma like_upd s s' b y y' : batches s !! b = Some y -> b_key y' = b_key y -> b_items y' = b_items y -> batches s' = <[b := y']> (batches s) -> like s s'.
Proof. intros Y K I E c x X. rewrite E in X. apply insert_cases in X as [(-> & -> & _)|(_ & X)]; eauto. Qed.
Lemma condExec_batches s e : batches (condExec e s) = batches s.
Proof. apply condExec_frame. Qed.
Lemma addTo_batches s it e : batches (addToExecutor it e s) = batches s.
Proof. unfold addToExecutor. destruct (execs s !! e); auto. destruct (_ =? _); [rewrite condExec_batches; reflexivity|]. destruct (e_timer _); reflexivity. Qed.
Lemma flushLoop_batches todo : forall s, batches (snd (flushLoop todo s)) = batches s.
Proof.
  induction todo as [|it todo IH]; intros s; cbn [flushLoop]; auto. destruct (executorFor it s) as [e|].
  - destruct (_ =? _)%Z; [apply addTo_batches|]. rewrite IH. apply addTo_batches.
  - specialize (IH s). destruct (flushLoop todo s). exact IH.
Qed.
Lemma flushPending_batches s : batches (flushPending s) = batches s.
Proof. unfold flushPending. destruct (_ =? _)%Z; auto. pose proof (flushLoop_batches (pending s) s) as Q. destruct (flushLoop (pending s) s). exact Q. Qed.
Lemma setGo_batches s e j p : batches (setGo e j p s) = batches s.
Proof. unfold setGo. destruct (execs s !! e); reflexivity. Qed.
Lemma completeItem_like s it : like s (completeItem it s).
Proof.
  unfold completeItem. destruct (batches s !! i_b it) as [y|] eqn:Y; [|apply like_eq; reflexivity].
  eapply like_upd; [exact Y| | |]; [..|cbn zeta; destruct (_ =? _); reflexivity]; reflexivity.
Qed.
Lemma step_like s a s' : step s a = Some s' -> match a with AStart k ks => batches s' = batches s ++ [mkB k ks 0 0] | _ => like s s' end.
Proof.
  destruct a as [k ks|b|t|t|e j]; cbn [step].
  - intros [= <-]. reflexivity.
  - destruct (batches s !! b) as [x|] eqn:X; [|discriminate]. destruct (itemsOf b x !! b_next x) as [it|]; [|discriminate]. intros [= <-].
    eapply like_upd; [exact X| | |]; [..|unfold addItem; cbn zeta; destruct (executorFor it _); [rewrite addTo_batches; reflexivity|reflexivity]]; reflexivity.
  - destruct (timers s !! t) as [[e [| |]]|]; try discriminate. intros [= <-]. apply like_eq. reflexivity.
  - destruct (timers s !! t) as [[e [| |]]|]; try discriminate. intros [= <-]. apply like_eq. rewrite condExec_batches. reflexivity.
  - unfold goStep. destruct (execs s !! e) as [x|] eqn:X; [|discriminate]. destruct (e_go x !! j) as [p|]; [|discriminate]. destruct p as [|c|i|i]; intros [= <-].
    + destruct (0 <? _); apply like_eq; rewrite setGo_batches; reflexivity.
    + apply like_eq. rewrite setGo_batches. reflexivity.
    + destruct (e_items x !! i); [|apply like_eq; apply setGo_batches]. eapply like_trans; [apply completeItem_like|]. apply like_eq. apply setGo_batches.
    + destruct (e_noops x !! i); [apply like_eq; rewrite setGo_batches; reflexivity|]. apply like_eq. rewrite flushPending_batches. unfold endGo, resetE, set_count. ss. rewrite X. ss.
      destruct (<[e:=_]> _ !! e); reflexivity.
Qed.
Lemma run_starts acts : forall s s', run s acts = Some s' -> forall b x, batches s' !! b = Some x ->
  (exists x', batches s !! b = Some x' /\ b_key x' = b_key x /\ b_items x' = b_items x) \/ AStart (b_key x) (b_items x) ∈ acts.
Proof.
  induction acts as [|a acts IH]; intros s s' R b x X; cbn in R; [injection R as <-; eauto|]. destruct (step s a) as [s1|] eqn:E; [|discriminate].
  destruct (IH s1 s' R b x X) as [(y & Y & K & I)|H]; [|right; right; exact H]. pose proof (step_like s a s1 E) as L. destruct a as [k ks|b'|t|t|e j].
  2-5: left; destruct (L b y Y) as (z & Z & K' & I'); exists z; split; auto; split; congruence.
  rewrite L in Y. apply lookup_app_Some in Y as [Y|(Q & Y)]; [eauto|]. destruct (b - length (batches s)) as [|n]; cbn in Y; [|destruct n; discriminate].
  injection Y as <-. cbn in K, I. right. subst. left.
Qed.
Lemma itemsOf_ph b x it : it ∈ itemsOf b x -> i_n it = None -> b_items x = [] /\ i_k it = b_key x.
Proof.
  intros H N. destruct (itemsOf_elem b x it H) as (_ & Q). apply Q in N as E. split; auto. unfold itemsOf in H. rewrite decide_True in H by auto. apply elem_of_list_singleton in H as ->. reflexivity.
Qed.
Lemma ghost_start size conc acts s k : run (start size conc) acts = Some s -> ghost (trace s) k -> AStart k [] ∈ acts.
Proof.
  intros R (it & A & N & K). pose proof (run_inv _ _ _ (start_inv size conc) R) as Iv. apply elem_added in A. destruct (added_batch s _ it (i_base s Iv) A) as (x & X & I).
  destruct (itemsOf_ph _ _ _ I N) as (E & K'). destruct (run_starts acts _ _ R _ x X) as [(y & Y & _)|Q]; [discriminate|]. rewrite E, <- K', K in Q. exact Q.
Qed.

(** ** C103 *)
Definition idle (s : st) : Prop := forall a, internal a = true -> step s a = None.
Lemma idle_empty s : inv s -> 1 <= length (execs s) -> idle s -> (forall e x, execs s !! e = Some x -> e_all x = [] /\ e_items x = [] /\ e_noops x = []) /\ pending s = [].
Proof.
  intros [B R Wt] C St.
  assert (Go : forall e x, execs s !! e = Some x -> e_busy x = false).
  { intros e x E. destruct (e_busy x) eqn:Bx; [|reflexivity]. pose proof (x_go _ _ (a_ex _ _ B e x E)) as G. rewrite Bx in G. destruct G as (_ & p & G & _).
    specialize (St (AGo e 0) eq_refl). cbn [step] in St. unfold goStep in St. rewrite E, G in St. simpl in St. destruct p; discriminate. }
  assert (Em : forall e x, execs s !! e = Some x -> e_all x = []).
  { intros e x E. destruct (e_all x) as [|it l] eqn:Q; [reflexivity|]. exfalso. destruct (R e x E (Go e x E)) as (_ & T). rewrite Q in T. specialize (T ltac:(discriminate)).
    destruct (e_timer x) as [t|] eqn:Et; [|congruence]. destruct (a_timer _ _ B e x t E Et) as (ts & T1 & T2). destruct ts; [| |congruence].
    - specialize (St (AFire t) eq_refl). cbn [step] in St. rewrite T1 in St. discriminate.
    - specialize (St (ATimer t) eq_refl). cbn [step] in St. rewrite T1 in St. discriminate. }
  split.
  - intros e x E. rewrite (x_items _ _ (a_ex _ _ B e x E)), (x_noops _ _ (a_ex _ _ B e x E)), (Em e x E). auto.
  - destruct (pending s) as [|it l] eqn:Q; [reflexivity|]. exfalso. destruct (Wt it) as [(e & x & A & E & Bx)|F]; [left|rewrite (Go e x E) in Bx; discriminate|].
    destruct (lookup_lt_is_Some_2 (execs s) 0 ltac:(lia)) as (x & E). pose proof (full_busy s _ B F 0 x E) as Q2. rewrite (Go 0 x E) in Q2. discriminate.
Qed.
Lemma start_length size conc acts s : run (start size conc) acts = Some s -> length (execs s) = conc.
Proof. intros H. destruct (run_frame _ _ _ H) as (_ & L). unfold start in L. ss. rewrite repeat_length in L. auto. Qed.
Lemma nothing_held size conc acts s : 1 <= conc -> run (start size conc) acts = Some s -> idle s ->
  (forall e x, execs s !! e = Some x -> e_items x = [] /\ e_noops x = []) /\ pending s = [] /\
  (forall k e, assign s !! k = Some e -> AStart k [] ∈ acts).
Proof.
  intros C R Id. pose proof (run_inv _ _ _ (start_inv size conc) R) as Iv. destruct (idle_empty s Iv) as (E & P); auto; [rewrite (start_length _ _ _ _ R); auto|].
  split; [intros e x X; destruct (E e x X); tauto|]. split; auto. intros k e A. eapply ghost_start; [exact R|].
  destruct (run_J _ _ _ (start_inv size conc) (start_J size conc) R k e A) as [(x & it & X & I & _)|G]; [|exact G].
  destruct (E e x X) as (Q & _). rewrite Q in I. inversion I.
Qed.
Lemma no_keys_held size conc acts s : 1 <= conc -> run (start size conc) acts = Some s -> idle s -> (forall k, AStart k [] ∉ acts) -> assign s = ∅.
Proof.
  intros C R Id N. apply map_eq. intros k. rewrite lookup_empty. destruct (assign s !! k) as [e|] eqn:A; auto. exfalso. eapply N. eapply nothing_held; eauto.
Qed.

(** n keys, each with one BatchItems without items *)
Fixpoint pile (n : nat) : list action := match n with O => [] | S m => pile m ++ [AStart m []; AItem m; AGo 0 0; AGo 0 0; AGo 0 0] end.
Definition piled (n : nat) (s : st) : Prop :=
  length (batches s) = n /\ (forall b x, batches s !! b = Some x -> b_items x = [] /\ b_next x = 1) /\ execs s = [freshE] /\
  (forall k, assign s !! k = if decide (k < n) then Some 0 else None) /\ pending s = [] /\ count s = 0%Z /\ maxb s = 1 /\ timers s = [].
Lemma run_app acts1 : forall acts2 s, run s (acts1 ++ acts2) = match run s acts1 with Some s1 => run s1 acts2 | None => None end.
Proof. induction acts1 as [|a acts1 IH]; intros acts2 s; cbn; auto. destruct (step s a); auto. Qed.
Lemma pile_add n bs asg cl tr : bs !! n = Some (mkB n [] 0 0) -> asg !! n = None ->
  step (mkSt bs [freshE] asg [] 0 1 [] cl tr) (AItem n) =
  Some (mkSt (<[n := mkB n [] 0 1]> bs) [mkE [] [mkI n n None] true None [PStart] [mkI n n None]] (<[n := 0]> asg) [] 1 1 [] cl (tr ++ [EvAdd (mkI n n None)])).
Proof.
  intros Lb An. cbn [step batches]. rewrite Lb. change (itemsOf n (mkB n [] 0 0) !! b_next (mkB n [] 0 0)) with (Some (mkI n n None)). cbv iota beta.
  cbn [b_key b_items b_done b_next]. generalize (<[n := mkB n [] 0 1]> bs). intros bs'.
  unfold addItem. cbv zeta. unfold set_batches, log. cbn [batches execs assign pending count maxb timers calls trace].
  unfold executorFor. cbn [assign i_k execs]. rewrite An. cbn [firstReady freshE e_busy]. unfold addToExecutor. cbn [assign i_k execs].
  generalize (<[n := 0]> asg). intros asg'. reflexivity.
Qed.
Lemma pile_go bs asg cl tr it : i_n it = None ->
  exists tr', run (mkSt bs [mkE [] [it] true None [PStart] [it]] asg [] 1 1 [] cl tr) [AGo 0 0; AGo 0 0; AGo 0 0] = Some (mkSt bs [freshE] asg [] 0 1 [] cl tr').
Proof. intros _. eexists. reflexivity. Qed.
Lemma pile_step n s : piled n s -> exists s', run s [AStart n []; AItem n; AGo 0 0; AGo 0 0; AGo 0 0] = Some s' /\ piled (S n) s'.
Proof.
  intros P. destruct s as [bs es asg pd ct mb tm cl tr]. destruct P as (L & Bn & E & A & Pd & Ct & Mb & Tm).
  cbn [batches execs assign pending count maxb timers] in L, Bn, E, A, Pd, Ct, Mb, Tm. subst.
  pose proof (pile_add (length bs) (bs ++ [mkB (length bs) [] 0 0]) asg cl tr) as Q.
  assert (Lb : (bs ++ [mkB (length bs) [] 0 0]) !! length bs = Some (mkB (length bs) [] 0 0)) by (rewrite lookup_app_r by lia; rewrite Nat.sub_diag; reflexivity).
  specialize (Q Lb ltac:(rewrite A, decide_False by lia; reflexivity)).
  destruct (pile_go (<[length bs := mkB (length bs) [] 0 1]> (bs ++ [mkB (length bs) [] 0 0])) (<[length bs := 0]> asg) cl (tr ++ [EvAdd (mkI (length bs) (length bs) None)]) (mkI (length bs) (length bs) None) eq_refl) as (tr' & R).
  eexists. split.
  - change (run ?s (?a :: ?r)) with (match step s a with Some s' => run s' r | None => None end). change (step ?s (AStart ?k ?ks)) with (Some (set_batches (batches s ++ [mkB k ks 0 0]) s)). cbv iota beta.
    unfold set_batches. cbn [batches execs assign pending count maxb timers calls trace].
    change (run ?s (AItem ?a :: ?r)) with (match step s (AItem a) with Some s' => run s' r | None => None end). rewrite Q. exact R.
  - unfold piled. cbn [batches execs assign pending count maxb timers]. split; [rewrite insert_length, app_length; cbn; lia|]. split.
    { intros c x X. apply insert_cases in X as [(-> & -> & _)|(N & X)]; [split; reflexivity|]. apply lookup_app_Some in X as [X|(Q' & X)]; [eauto|].
      exfalso. apply lookup_lt_Some in X. cbn in X. lia. }
    split; [reflexivity|]. split; [|repeat split; reflexivity].
    intros k. destruct (decide (k = length bs)) as [->|N].
    + rewrite lookup_insert, decide_True by lia. reflexivity.
    + rewrite lookup_insert_ne, A by auto. destruct (decide (k < length bs)); [rewrite decide_True by lia|rewrite decide_False by lia]; reflexivity.
Qed.
Lemma pile_ok n : exists s, run (start 1 1) (pile n) = Some s /\ piled n s.
Proof.
  induction n as [|n (s & R & P)].
  - eexists. split; [reflexivity|]. unfold piled. ss. repeat split; try (intros b x H; discriminate); try discriminate.
  - cbn [pile]. rewrite run_app, R. apply pile_step. exact P.
Qed.
Lemma piled_idle n s : piled n s -> idle s.
Proof.
  intros (L & Bn & E & A & Pd & Ct & Mb & Tm) a Ha. destruct a as [k ks|b|t|t|e j]; [discriminate|..]; cbn [step].
  - destruct (batches s !! b) as [x|] eqn:X; auto. destruct (Bn b x X) as (I & N). unfold itemsOf. rewrite decide_True, N by auto. reflexivity.
  - rewrite Tm. reflexivity.
  - rewrite Tm. reflexivity.
  - unfold goStep. rewrite E. destruct e as [|e]; [destruct j; reflexivity|reflexivity].
Qed.
Lemma pile_up n : exists acts s, run (start 1 1) acts = Some s /\ idle s /\ done s /\ size (assign s) = n.
Proof.
  destruct (pile_ok n) as (s & R & P). exists (pile n), s. split; auto. pose proof (piled_idle n s P) as Id. split; auto. split.
  - apply stuck_done; [eapply run_inv; [apply (start_inv 1 1)|exact R]| |exact Id]. rewrite (start_length _ _ _ _ R). lia.
  - destruct P as (_ & _ & _ & A & _). clear -A.
    assert (D : dom (assign s) = set_seq (C := gset nat) 0 n).
    { apply set_eq. intros k. rewrite elem_of_dom, elem_of_set_seq, A. destruct (decide (k < n)); split; intros H; try lia; eauto. destruct H; discriminate. }
    rewrite <- size_dom, D, size_set_seq. reflexivity.
Qed.

(** ** C104: nothing but the user's executor is waited for *)
Definition onlyReturns (s : st) : Prop := forall a s', internal a = true -> step s a = Some s' -> exists c, trace s' = trace s ++ [EvRet c].
Lemma same_not_longer {A} (l : list A) x : l <> l ++ [x].
Proof. intros H. apply (f_equal length) in H. rewrite app_length in H. cbn in H. lia. Qed.
Lemma setGo_trace s e j p : trace (setGo e j p s) = trace s.
Proof. unfold setGo. destruct (execs s !! e); reflexivity. Qed.
Lemma condExec_trace s e : trace (condExec e s) = trace s.
Proof. apply condExec_frame. Qed.
Lemma addTo_trace s it e : trace (addToExecutor it e s) = trace s.
Proof. unfold addToExecutor. destruct (execs s !! e); auto. destruct (_ =? _); [rewrite condExec_trace; reflexivity|]. destruct (e_timer _); reflexivity. Qed.
Lemma flushLoop_trace todo : forall s, trace (snd (flushLoop todo s)) = trace s.
Proof.
  induction todo as [|it todo IH]; intros s; cbn [flushLoop]; auto. destruct (executorFor it s) as [e|].
  - destruct (_ =? _)%Z; [apply addTo_trace|]. rewrite IH. apply addTo_trace.
  - specialize (IH s). destruct (flushLoop todo s). exact IH.
Qed.
Lemma flushPending_trace s : trace (flushPending s) = trace s.
Proof. unfold flushPending. destruct (_ =? _)%Z; auto. pose proof (flushLoop_trace (pending s) s) as Q. destruct (flushLoop (pending s) s). exact Q. Qed.
Lemma last_ev (l m : list ev) a c : l ++ a :: m = l ++ [EvRet c] -> a = EvRet c.
Proof. intros H. apply app_inv_head in H. congruence. Qed.
Lemma at_exec s e x : inv s -> onlyReturns s -> execs s !! e = Some x -> e_busy x = true -> exists c, e_go x = [PExec c].
Proof.
  intros [B _ _] O E Bx. pose proof (x_go _ _ (a_ex _ _ B e x E)) as G. rewrite Bx in G. destruct G as (T & p & G & Pc).
  pose proof (O (AGo e 0)) as Q. cbn [step] in Q. unfold goStep in Q. rewrite E, G in Q. cbn [lookup list_lookup] in Q. destruct p as [|c|i|i]; [|eauto|..]; exfalso.
  - destruct (0 <? length (e_items x)); destruct (Q _ eq_refl eq_refl) as (c & H); rewrite setGo_trace in H; ss.
    + apply last_ev in H. discriminate.
    + apply same_not_longer in H. exact H.
  - destruct (e_items x !! i) as [it|]; destruct (Q _ eq_refl eq_refl) as (c & H); rewrite setGo_trace in H; [|apply same_not_longer in H; exact H].
    unfold completeItem in H. destruct (batches s !! i_b it) as [b|]; [|apply same_not_longer in H; exact H]. ss. destruct (_ =? _); ss; rewrite <- ?app_assoc in H; apply last_ev in H; discriminate.
  - destruct (e_noops x !! i) as [it|]; destruct (Q _ eq_refl eq_refl) as (c & H).
    + rewrite setGo_trace in H. ss. rewrite <- app_assoc in H. apply last_ev in H. discriminate.
    + rewrite flushPending_trace in H. unfold endGo, resetE, set_count in H. ss. rewrite E in H. ss. destruct (<[e:=_]> _ !! e) in H; ss; apply same_not_longer in H; exact H.
Qed.
Lemma ready_empty s e x : inv s -> onlyReturns s -> execs s !! e = Some x -> e_busy x = false -> e_all x = [].
Proof.
  intros [B R _] O E Bx. destruct (e_all x) as [|it l] eqn:Q; [reflexivity|]. exfalso. destruct (R e x E Bx) as (_ & T). rewrite Q in T. specialize (T ltac:(discriminate)).
  destruct (e_timer x) as [t|] eqn:Et; [|congruence]. destruct (a_timer _ _ B e x t E Et) as (ts & T1 & T2). destruct ts; [| |congruence].
  - pose proof (O (AFire t)) as Z. cbn [step] in Z. rewrite T1 in Z. destruct (Z _ eq_refl eq_refl) as (c & H). ss. apply same_not_longer in H. exact H.
  - pose proof (O (ATimer t)) as Z. cbn [step] in Z. rewrite T1 in Z. destruct (Z _ eq_refl eq_refl) as (c & H). rewrite condExec_trace in H. ss. apply same_not_longer in H. exact H.
Qed.
Lemma all_open s : inv s -> onlyReturns s -> full s -> exists cs, NoDup cs /\ length cs = length (execs s) /\ forall c, c ∈ cs -> exists l, isOpen (trace s) c l.
Proof.
  intros Iv O F. pose proof (i_base s Iv) as B.
  assert (Q : forall es off, (forall e x, es !! e = Some x -> execs s !! (off + e) = Some x) ->
    exists cs, NoDup cs /\ length cs = length es /\ forall c, c ∈ cs -> exists e x, off <= e /\ execs s !! e = Some x /\ e_go x = [PExec c]).
  { induction es as [|y es IH]; intros off H.
    - exists []. split; [constructor|]. split; auto. intros c Hc. inversion Hc.
    - destruct (IH (S off)) as (cs & N & L & C). { intros e x X. replace (S off + e) with (off + S e) by lia. apply (H (S e) x X). }
      pose proof (H 0 y eq_refl) as Y. rewrite Nat.add_0_r in Y. pose proof (full_busy s _ B F off y Y) as By. destruct (at_exec s off y Iv O Y By) as (c & Gc).
      exists (c :: cs). split; [|split; [cbn; lia|]].
      + constructor; auto. intros Hc. destruct (C c Hc) as (e & x & Le & X & Gx).
        destruct (a_pexec _ _ B off y c Y Gc) as (T1 & _). destruct (a_pexec _ _ B e x c X Gx) as (T2 & _). pose proof (a_call1 _ _ B _ _ _ T1 T2) as Ei.
        destruct (a_size _ _ B _ _ T1) as (Ne & _). destruct (e_items y) as [|it l] eqn:Iy; [congruence|].
        assert (I1 : it ∈ e_all y). { assert (Z : it ∈ e_items y) by (rewrite Iy; left). rewrite (x_items _ _ (a_ex _ _ B _ _ Y)) in Z. apply elem_nm in Z. tauto. }
        assert (I2 : it ∈ e_all x). { assert (Z : it ∈ e_items x) by (rewrite <- Ei; left). rewrite (x_items _ _ (a_ex _ _ B _ _ X)) in Z. apply elem_nm in Z. tauto. }
        pose proof (a_asg _ _ B _ _ _ Y I1) as A1. pose proof (a_asg _ _ B _ _ _ X I2) as A2. rewrite A1 in A2. injection A2 as ->. lia.
      + intros d Hd. apply elem_of_cons in Hd as [->|Hd]; [exists off, y; auto|]. destruct (C d Hd) as (e & x & Le & R). exists e, x. split; [lia|exact R]. }
  destruct (Q (execs s) 0 ltac:(auto)) as (cs & N & L & C). exists cs. split; auto. split; auto. intros c Hc. destruct (C c Hc) as (e & x & _ & X & G). exists (e_items x). apply (a_pexec _ _ B e x c X G).
Qed.
Lemma waits_only size conc acts s it : run (start size conc) acts = Some s -> onlyReturns s -> (forall k, AStart k [] ∉ acts) ->
  EvAdd it ∈ trace s -> it ∉ handed (trace s) ->
  (exists c l it', isOpen (trace s) c l /\ it' ∈ l /\ i_k it' = i_k it) \/
  (exists cs, NoDup cs /\ length cs = conc /\ forall c, c ∈ cs -> exists l, isOpen (trace s) c l).
Proof.
  intros R O Np Ha Hh. pose proof (run_inv _ _ _ (start_inv size conc) R) as Iv. pose proof (run_J _ _ _ (start_inv size conc) (start_J size conc) R) as Hj. pose proof (i_base s Iv) as B.
  assert (Nn : forall i, EvAdd i ∈ trace s -> i_n i <> None).
  { intros i Hi N. apply (Np (i_k i)). eapply ghost_start; [exact R|]. exists i. auto. }
  apply elem_added in Ha as Ha'. destruct (a_key _ _ B (i_k it)) as (f & K1 & K2 & _ & _).
  assert (Q : it ∈ fk (i_k it) (added (trace s))) by (apply elem_fk; auto). rewrite K1 in Q. apply elem_of_app in Q as [Q|Q].
  { exfalso. apply Hh. assert (Z : it ∈ fk (i_k it) (handed (trace s))) by (rewrite K2; apply elem_of_app; left; apply elem_nm; split; [auto|exact Q]). apply elem_fk in Z. tauto. }
  apply elem_of_app in Q as [Q|Q].
  { exfalso. apply Hh. apply elem_fk in Q as (_ & Q). destruct (assign s !! i_k it) as [e|] eqn:A; [|unfold cur in Q; rewrite A in Q; inversion Q].
    destruct (execs s !! e) as [x|] eqn:X; [|unfold cur in Q; rewrite A, X in Q; inversion Q]. rewrite (cur_at s _ e x A X) in K2, Q. destruct (e_busy x) eqn:Bx.
    - destruct (at_exec s e x Iv O X Bx) as (c & G). rewrite G in K2. cbn [called] in K2.
      assert (Z : it ∈ fk (i_k it) (handed (trace s))). { rewrite K2. apply elem_of_app. right. apply elem_fk. split; auto. rewrite (x_items _ _ (a_ex _ _ B _ _ X)). apply elem_nm. split; [auto|exact Q]. }
      apply elem_fk in Z. tauto.
    - pose proof (ready_empty s e x Iv O X Bx) as Z. rewrite Z in Q. inversion Q. }
  apply elem_fk in Q as (_ & Q). destruct (i_wait s Iv it Q) as [(e & x & A & X & Bx)|F].
  - left. destruct (Hj _ _ A) as [(y & i & Y & I & K)|G]; [|exfalso; apply (Np (i_k it)); eapply ghost_start; [exact R|exact G]].
    assert (y = x) as -> by congruence. destruct (at_exec s e x Iv O X Bx) as (c & G). exists c, (e_items x), i. split; [apply (a_pexec _ _ B e x c X G)|]. split; auto.
    rewrite (x_items _ _ (a_ex _ _ B _ _ X)). apply elem_nm. split; auto. apply Nn. apply elem_added. eapply all_added; eauto.
  - right. destruct (all_open s Iv O F) as (cs & N & L & C). exists cs. rewrite <- (start_length _ _ _ _ R). auto.
Qed.
