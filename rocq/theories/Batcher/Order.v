(** Order of the callbacks of one key. *)
From stdpp Require Import prelude list gmap.
From Coq Require Import ZArith.
From Verif.Batcher Require Import Model Base Inv Step Step2 Step3 Proofs.
Open Scope nat_scope.

Lemma before_prefix {A} (l p r : list A) x y : l = p ++ r -> before l x y -> y ∈ p -> x ∈ p.
Proof. intros E H Hy. apply elem_of_list_split in Hy as (u & v & ->). rewrite E in H. apply elem_of_app. left. apply (H u (v ++ r)). rewrite <- app_assoc. reflexivity. Qed.
Lemma before_filter {A} (P : A -> Prop) {Dp : forall x, Decision (P x)} (l : list A) x y : before l x y -> P x -> before (filter P l) x y.
Proof.
  intros H Px u v E. assert (Q : exists lu lv, l = lu ++ y :: lv /\ filter P lu = u).
  { clear H. revert u E. induction l as [|z l IH]; intros u E; [rewrite filter_nil in E; destruct u; discriminate|]. rewrite filter_cons in E. destruct (decide (P z)) as [D|D].
    - destruct u as [|w u].
      + injection E as -> E. exists [], l. auto.
      + injection E as -> E. destruct (IH u E) as (lu & lv & -> & <-). exists (w :: lu), lv. split; [reflexivity|]. rewrite filter_cons, decide_True by auto. reflexivity.
    - destruct (IH u E) as (lu & lv & -> & <-). exists (z :: lu), lv. split; [reflexivity|]. rewrite filter_cons, decide_False by auto. reflexivity. }
  destruct Q as (lu & lv & -> & <-). apply elem_of_list_filter. split; [exact Px|]. eapply H. reflexivity.
Qed.
Lemma before_added t i j : before t (EvAdd i) (EvAdd j) -> before (added t) i j.
Proof.
  intros H u v E. assert (Q : exists tu tv, t = tu ++ EvAdd j :: tv /\ added tu = u).
  { clear H. revert u E. induction t as [|e t IH]; intros u E; [destruct u; discriminate|].
    change (added (e :: t)) with (match e with EvAdd it => [it] | _ => [] end ++ added t) in E.
    destruct e as [it|c l|c|it|b]; try (destruct (IH u E) as (tu & tv & -> & <-); eexists (_ :: tu), tv; split; reflexivity).
    destruct u as [|w u].
    - injection E as -> E. exists [], t. auto.
    - injection E as -> E. destruct (IH u E) as (tu & tv & -> & <-). exists (EvAdd w :: tu), tv. auto. }
  destruct Q as (tu & tv & -> & <-). apply elem_added. eapply H. reflexivity.
Qed.
Lemma before_mono {A} (l r : list A) x y : before (l ++ r) x y -> before l x y.
Proof. intros H u v E. apply (H u (v ++ r)). rewrite E, <- app_assoc. reflexivity. Qed.

Lemma comp_cb s pd b x : base s pd -> batches s !! b = Some x -> (forall it, it ∈ itemsOf b x -> it ∈ comp (trace s)) -> EvCb b ∈ trace s.
Proof.
  intros B E H. apply elem_cbs. pose proof (a_cb s pd B b) as C. rewrite E in C. assert (P : 0 < cb b (trace s)).
  { rewrite C. destruct (decide _) as [D|D].
    - assert (Q : mkI b (b_key x) None ∈ ph (fb b (comp (trace s)))).
      { apply elem_ph. split; [reflexivity|]. apply elem_fb. split; [reflexivity|]. apply H. unfold itemsOf. rewrite decide_True by auto. left. }
      destruct (ph _); [inversion Q|cbn; lia].
    - rewrite (all_comp s pd b x B E D H), Nat.eqb_refl. lia. }
  unfold cb in P. destruct (filter (fun b' => b' = b) (cbs (trace s))) as [|b' l] eqn:Q; [cbn in P; lia|]. assert (Hb : b' ∈ filter (fun b' => b' = b) (cbs (trace s))) by (rewrite Q; left).
  apply elem_of_list_filter in Hb as (-> & Hb). exact Hb.
Qed.
Lemma cb_order s pd a b xa xb k : base s pd -> batches s !! a = Some xa -> batches s !! b = Some xb ->
  (forall it, it ∈ itemsOf a xa ++ itemsOf b xb -> i_k it = k) -> b_items xa <> [] \/ b_items xb = [] ->
  (forall i j, i ∈ itemsOf a xa -> j ∈ itemsOf b xb -> before (added (trace s)) i j) -> EvCb b ∈ trace s -> EvCb a ∈ trace s.
Proof.
  intros B Ea Eb K D Bf Hb. pose proof (cb_comp s pd b xb B Eb Hb) as Cb. apply (comp_cb s pd a xa B Ea). intros i Hi.
  assert (Ki : i_k i = k) by (apply K, elem_of_app; auto). assert (Fi : forall j, j ∈ itemsOf b xb -> before (fk k (added (trace s))) i j).
  { intros j Hj. apply before_filter; [auto|exact Ki]. }
  destruct (comp_sub s pd k B) as (r1 & r2 & E1 & E2).
  assert (Ex : exists j, j ∈ itemsOf b xb).
  { unfold itemsOf. destruct (decide _) as [N|N]; [eexists; left|]. destruct (b_items xb) as [|kb ks]; [congruence|]. eexists. cbn. left. }
  destruct Ex as (j & Hj). assert (Kj : i_k j = k) by (apply K, elem_of_app; auto). pose proof (Cb j Hj) as Cj. pose proof (itemsOf_elem _ _ _ Hi) as (_ & Ni). pose proof (itemsOf_elem _ _ _ Hj) as (_ & Nj).
  destruct (decide (b_items xb = [])) as [Nb|Nb].
  - assert (Pj : j ∈ ph (fk k (comp (trace s)))) by (apply elem_ph; split; [tauto|]; apply elem_fk; auto). destruct (decide (b_items xa = [])) as [Na|Na].
    + assert (Q : i ∈ ph (fk k (comp (trace s)))). { eapply before_prefix; [exact E2| |exact Pj]. apply before_filter; [auto|tauto]. }
      apply elem_ph in Q as (_ & Q). apply elem_fk in Q. tauto.
    + destruct (a_key s pd B k) as (f & K1 & K2 & K3 & K4). rewrite <- fk_ph, K4 in Pj.
      assert (Q : i ∈ nm (fk k (comp (trace s)))); [|apply elem_nm in Q as (_ & Q); apply elem_fk in Q; tauto]. rewrite <- fk_nm, K3.
      assert (Q : i ∈ f ++ fk k (e_all (cur s k)) /\ (i ∈ f \/ exists g, e_go (cur s k) = [PNoops g])).
      { apply elem_of_app in Pj as [Pj|Pj].
        - apply elem_ph in Pj as (_ & Pj). pose proof (before_prefix _ _ _ i j K1 (Fi j Hj) Pj) as Q. split; [apply elem_of_app; auto|auto].
        - apply elem_fk in Pj as (_ & Pj). assert (Go : exists g, e_go (cur s k) = [PNoops g] /\ j ∈ e_all (cur s k)).
          { unfold nnoop in Pj. unfold cur in *. destruct (assign s !! k) as [e|]; [|inversion Pj]. destruct (execs s !! e) as [x|] eqn:E; cbn in *; [|inversion Pj].
            pose proof (a_ex s pd B e x E) as X. destruct (e_go x) as [|[|c|g|g] go] eqn:G; try (rewrite take_0 in Pj; inversion Pj). pose proof (busy_go _ x 0 (PNoops g) X) as Q. rewrite G in Q. destruct (Q eq_refl) as (_ & _ & Q' & _). rewrite Q'.
            exists g. split; [reflexivity|]. assert (Pj' : j ∈ e_noops x) by (rewrite <- (take_drop g (e_noops x)); apply elem_of_app; auto). rewrite (x_noops _ _ X) in Pj'. apply elem_ph in Pj'. tauto. }
          destruct Go as (g & Go & Hja). split; [|right; eauto]. eapply (before_prefix (fk k (added (trace s)))); [rewrite app_assoc in K1; exact K1|apply Fi; exact Hj|]. apply elem_of_app. right. apply elem_fk. auto. }
      destruct Q as (Q & Q2). assert (Nn : i_n i <> None) by tauto.
      apply elem_of_app in Q as [Q|Q]; [apply elem_of_app; left; apply elem_nm; auto|].
      destruct Q2 as [Q2|(g & Go)]; [apply elem_of_app; left; apply elem_nm; auto|]. apply elem_of_app. right. unfold ncomp. rewrite Go, take_ge by lia.
      apply elem_fk in Q as (_ & Q). apply elem_fk. split; [exact Ki|]. unfold cur in *. destruct (assign s !! k) as [e|]; [|discriminate Go]. destruct (execs s !! e) as [x|] eqn:E; cbn in *; [|discriminate Go].
      rewrite (x_items _ _ (a_ex s pd B e x E)). apply elem_nm. auto.
  - destruct D as [Na|?]; [|contradiction].
    assert (Q : i ∈ nm (fk k (comp (trace s)))); [|apply elem_nm in Q as (_ & Q); apply elem_fk in Q; tauto].
    eapply before_prefix; [exact E1| |apply elem_nm; split; [|apply elem_fk; split; [exact Kj|exact Cj]]; tauto]. apply before_filter; [auto|tauto].
Qed.
Lemma run_trace more : forall s1 s, run s1 more = Some s -> exists r, trace s = trace s1 ++ r.
Proof.
  induction more as [|a more IH]; intros s1 s R; cbn in R; [injection R as ->; exists []; rewrite app_nil_r; reflexivity|]. destruct (step s1 a) as [s2|] eqn:E; [|discriminate].
  apply step_evs in E as ((evs & E & _) & _). apply IH in R as (r & ->). rewrite E, <- app_assoc. eauto.
Qed.
Lemma callback_order size conc acts s a b xa xb k : run (start size conc) acts = Some s -> batches s !! a = Some xa -> batches s !! b = Some xb -> a <> b ->
  (forall it, it ∈ itemsOf a xa ++ itemsOf b xb -> i_k it = k) -> b_items xa <> [] \/ b_items xb = [] ->
  (forall i j, i ∈ itemsOf a xa -> j ∈ itemsOf b xb -> before (trace s) (EvAdd i) (EvAdd j)) -> before (trace s) (EvCb a) (EvCb b).
Proof.
  intros H Ea Eb Nab K D Bf. eapply (cb_before acts b (EvCb a) _ _ H (start_inv size conc)); [congruence|intros u v T; destruct u; discriminate|].
  intros s1 more R I1 Hb1. pose proof (i_base s1 I1) as B1. destruct (run_trace more s1 s R) as (r & Er).
  destruct (cb_none s1 _ b B1 Hb1) as (yb & Eb1). destruct (run_batches more s1 s b yb R I1 Eb1) as (x' & E' & Q1 & Q2). assert (x' = xb) as -> by congruence.
  assert (Ib : itemsOf b yb = itemsOf b xb) by (unfold itemsOf; rewrite Q1, Q2; reflexivity).
  assert (Bf1 : forall i j, i ∈ itemsOf a xa -> j ∈ itemsOf b yb -> before (added (trace s1)) i j).
  { intros i j Hi Hj. apply before_added. rewrite Ib in Hj. specialize (Bf i j Hi Hj). rewrite Er in Bf. eapply before_mono; eauto. }
  assert (Ex : exists i, i ∈ itemsOf a xa). { unfold itemsOf. destruct (decide _) as [N|N]; [eexists; left|]. destruct (b_items xa) as [|ka ks]; [congruence|]. eexists. cbn. left. }
  assert (Ey : exists j, j ∈ itemsOf b yb). { unfold itemsOf. destruct (decide _) as [N|N]; [eexists; left|]. destruct (b_items yb) as [|ka ks]; [congruence|]. eexists. cbn. left. }
  destruct Ex as (i & Hi). destruct Ey as (j & Hj).
  assert (Ha1 : i ∈ added (trace s1)).
  { pose proof (cb_comp s1 _ b yb B1 Eb1 Hb1 j Hj) as Hc. apply (comp_added s1 _ j B1) in Hc. apply elem_of_list_split in Hc as (u & v & Ea1). specialize (Bf1 i j Hi Hj u v Ea1). rewrite Ea1. apply elem_of_app. auto. }
  apply (added_batch s1 _ i B1) in Ha1 as (ya & Ea1 & Hi1). pose proof (itemsOf_elem _ _ _ Hi) as (Qi & _). rewrite Qi in *.
  destruct (run_batches more s1 s a ya R I1 Ea1) as (x' & E'' & Q3 & Q4). assert (x' = xa) as -> by congruence.
  assert (Ia : itemsOf a ya = itemsOf a xa) by (unfold itemsOf; rewrite Q3, Q4; reflexivity).
  eapply (cb_order s1 _ a b ya yb k B1 Ea1 Eb1); auto.
  - rewrite Ia, Ib. exact K.
  - rewrite <- Q1, <- Q3. exact D.
  - rewrite Ia. exact Bf1.
Qed.
