(** Invariants of partitionedChangeLog. *)
From stdpp Require Import prelude list gmap.
From Verif.StateStore Require Import Partitioned.
Open Scope nat_scope.

(** every store in use was made for its partition and has not been revoked; a store that was made is in use or revoked *)
Record inv (s : st) : Prop := mkInv {
  i_data : forall p x, data s !! p = Some x -> created s !! x = Some p /\ x ∉ revoked s;
  i_rev : forall x, x ∈ revoked s -> x < length (created s);
  i_nodup : NoDup (revoked s);
  i_all : forall p x, created s !! x = Some p -> data s !! p = Some x \/ x ∈ revoked s }.

Lemma start_inv : inv start.
Proof. split; cbn; [intros p x H; rewrite lookup_empty in H; discriminate|intros x H; inversion H|constructor|intros p x H; discriminate]. Qed.

Lemma step_inv s o : inv s -> inv (snd (step s o)).
Proof.
  intros [A B C D]. destruct o as [p|p]; cbn [step].
  - unfold assign. destruct (data s !! p) as [x|] eqn:E; cbn; [split; assumption|]. split; cbn.
    + intros q x H. destruct (decide (p = q)) as [->|N].
      * rewrite lookup_insert in H. injection H as <-. split; [apply list_lookup_middle; reflexivity|].
        intros Q. apply B in Q. lia.
      * rewrite lookup_insert_ne in H by assumption. destruct (A q x H) as [U V]. split; [|exact V]. apply lookup_app_l_Some, U.
    + intros x H. rewrite app_length. cbn. apply B in H. lia.
    + exact C.
    + intros q x H. apply lookup_app_Some in H as [H|[L H]].
      * destruct (D q x H) as [U|U]; [left|right; exact U]. destruct (decide (p = q)) as [->|N]; [congruence|]. rewrite lookup_insert_ne by assumption. exact U.
      * apply list_lookup_singleton_Some in H as [H ->]. left. assert (x = length (created s)) as -> by lia. rewrite lookup_insert. reflexivity.
  - unfold revoke. destruct (data s !! p) as [x|] eqn:E; cbn; [|split; assumption]. split; cbn.
    + intros q y H. apply lookup_delete_Some in H as [N H]. destruct (A q y H) as [U V]. split; [exact U|]. intros Q. apply elem_of_app in Q as [Q|Q]; [auto|].
      apply elem_of_list_singleton in Q as ->. destruct (A p x E) as [U' _]. congruence.
    + intros y H. apply elem_of_app in H as [H|H]; [auto|]. apply elem_of_list_singleton in H as ->. destruct (A p x E) as [U _]. apply lookup_lt_Some in U. exact U.
    + apply NoDup_app. split; [exact C|]. split; [|apply NoDup_singleton]. intros y H Q. apply elem_of_list_singleton in Q as ->. destruct (A p x E) as [_ V]. auto.
    + intros q y H. destruct (D q y H) as [U|U]; [|right; apply elem_of_app; auto]. destruct (decide (p = q)) as [->|N].
      * right. apply elem_of_app. right. apply elem_of_list_singleton. congruence.
      * left. rewrite lookup_delete_ne by assumption. exact U.
Qed.

Lemma run_inv os : forall s rs s', inv s -> run s os = (rs, s') -> inv s'.
Proof.
  induction os as [|o os IH]; intros s rs s' I R; cbn [run] in R; [injection R as <- <-; exact I|].
  pose proof (step_inv s o I) as I1. destruct (step s o) as [r s1]. destruct (run s1 os) as [rs2 s2] eqn:E. injection R as <- <-. eapply IH; eauto.
Qed.

Lemma run_app a b s : run s (a ++ b) = let '(r1, s1) := run s a in let '(r2, s2) := run s1 b in (r1 ++ r2, s2).
Proof.
  revert s. induction a as [|o a IH]; intros s; cbn [app run]; [destruct (run s b); reflexivity|].
  destruct (step s o) as [r s1]. rewrite IH. destruct (run s1 a) as [r1 s2]. destruct (run s2 b). reflexivity.
Qed.
Lemma run_length os : forall s, length (fst (run s os)) = length os.
Proof. induction os as [|o os IH]; intros s; cbn [run]; [reflexivity|]. destruct (step s o) as [r s1]. pose proof (IH s1). destruct (run s1 os). cbn in *. lia. Qed.

(** while p is not revoked, its store and the revoked stores that were its stores stay *)
Lemma keep_store os : forall s p x, data s !! p = Some x -> ORevoke p ∉ os ->
  data (snd (run s os)) !! p = Some x /\
  (forall n, created s !! n = Some p \/ n < length (created s) -> created (snd (run s os)) !! n = created s !! n) /\
  (forall n, length (created s) <= n -> created (snd (run s os)) !! n <> Some p) /\
  (forall i, os !! i = Some (OAssign p) -> fst (run s os) !! i = Some (Some x)).
Proof.
  induction os as [|o os IH]; intros s p x H N; cbn [run].
  - cbn. split; [exact H|]. split; [reflexivity|]. split; [|intros i Hi; discriminate]. intros n L. rewrite lookup_ge_None_2 by exact L. discriminate.
  - assert (Nt : ORevoke p ∉ os) by (intros Q; apply N; right; exact Q).
    assert (X : data (snd (step s o)) !! p = Some x /\ (forall n, n < length (created s) -> created (snd (step s o)) !! n = created s !! n) /\
                length (created s) <= length (created (snd (step s o))) /\
                (forall n, length (created s) <= n -> n < length (created (snd (step s o))) -> created (snd (step s o)) !! n <> Some p) /\ (o = OAssign p -> fst (step s o) = Some x)).
    { destruct o as [q|q]; cbn [step].
      - unfold assign. destruct (data s !! q) as [y|] eqn:E; cbn.
        + split; [exact H|]. split; [reflexivity|]. split; [lia|]. split; [lia|]. intros [= ->]. congruence.
        + assert (Q : q <> p) by congruence. rewrite lookup_insert_ne by assumption. split; [exact H|]. split; [intros n L; apply lookup_app_l, L|]. rewrite app_length. cbn.
          split; [lia|]. split; [|congruence]. intros n L L2. rewrite lookup_app_r by lia. assert (n - length (created s) = 0) as -> by lia. cbn. congruence.
      - assert (Q : q <> p) by (intros ->; apply N; left). unfold revoke. destruct (data s !! q) as [y|] eqn:E; cbn.
        + rewrite lookup_delete_ne by assumption. split; [exact H|]. split; [reflexivity|]. split; [lia|]. split; [lia|discriminate].
        + split; [exact H|]. split; [reflexivity|]. split; [lia|]. split; [lia|discriminate]. }
    destruct (step s o) as [r s1]. cbn [fst snd] in X. destruct X as (X1 & X2 & X3 & X4 & X5). specialize (IH s1 p x X1 Nt). destruct (run s1 os) as [rs s2]. cbn [fst snd] in *.
    destruct IH as (I1 & I2 & I3 & I4). split; [exact I1|]. split; [|split].
    + intros n L. assert (n < length (created s)) by (destruct L as [L|L]; [apply lookup_lt_Some in L|]; exact L). rewrite I2 by (right; lia). apply X2. assumption.
    + intros n L. destruct (decide (n < length (created s1))) as [L2|L2]; [|apply I3; lia]. rewrite I2 by (right; exact L2). apply X4; assumption.
    + intros [|i] Hi; cbn in *; [injection Hi as ->; rewrite X5; reflexivity|]. apply I4, Hi.
Qed.

Lemma assign_gets s p : exists x, fst (step s (OAssign p)) = Some x /\ data (snd (step s (OAssign p))) !! p = Some x.
Proof. cbn. unfold assign. destruct (data s !! p) as [x|] eqn:E; cbn; [eauto|]. eexists. split; [reflexivity|]. apply lookup_insert. Qed.

(** results of two assign calls for p with operations [mid] in between *)
Lemma same_store a mid rest p rs s x y :
  run start (a ++ OAssign p :: mid ++ OAssign p :: rest) = (rs, s) -> ORevoke p ∉ mid ->
  rs !! length a = Some (Some x) -> rs !! (length a + S (length mid)) = Some (Some y) -> x = y.
Proof.
  intros R N Hx Hy. rewrite run_app in R. pose proof (run_length a start) as La. destruct (run start a) as [ra sa]. cbn [fst] in La. cbn [run] in R.
  destruct (assign_gets sa p) as (z & Z1 & Z2). destruct (step sa (OAssign p)) as [r s1]. cbn [fst snd] in Z1, Z2. subst r.
  pose proof (keep_store mid s1 p z Z2 N) as (K & _). rewrite run_app in R. pose proof (run_length mid s1) as Lm. destruct (run s1 mid) as [rm sm]. cbn [fst snd] in *. cbn [run step] in R. unfold assign in R. rewrite K in R.
  destruct (run sm rest) as [rr sr]. injection R as <- <-.
  rewrite lookup_app_r in Hx by lia. assert (length a - length ra = 0) as E by lia. rewrite E in Hx. cbn in Hx. injection Hx as <-.
  rewrite lookup_app_r in Hy by lia. assert (length a + S (length mid) - length ra = S (length rm)) as E2 by lia. rewrite E2 in Hy.
  change ((rm ++ Some z :: rr) !! length rm = Some (Some y)) in Hy. rewrite lookup_app_r in Hy by lia. rewrite Nat.sub_diag in Hy. cbn in Hy. injection Hy as <-. reflexivity.
Qed.

(** a store that is revoked or not that of p now is never again that of p *)
Lemma never_again os : forall s p x, inv s -> x ∈ revoked s -> (forall i, os !! i = Some (OAssign p) -> fst (run s os) !! i <> Some (Some x)).
Proof.
  induction os as [|o os IH]; intros s p x I H i Hi; [discriminate|]. cbn [run]. pose proof (step_inv s o I) as I1.
  assert (H1 : x ∈ revoked (snd (step s o))).
  { destruct o as [q|q]; cbn [step]; [unfold assign; destruct (data s !! q); exact H|]. unfold revoke. destruct (data s !! q); cbn; [apply elem_of_app; left|]; exact H. }
  destruct (step s o) as [r s1] eqn:E. cbn [snd] in *. specialize (IH s1 p x I1 H1). destruct (run s1 os) as [rs s2]. cbn [fst] in *. destruct i as [|i]; cbn in Hi; [|apply IH, Hi].
  injection Hi as ->. cbn. destruct (assign_gets s p) as (z & Z1 & Z2). rewrite E in Z1, Z2. cbn in Z1, Z2. subst r. intros [= ->].
  destruct (i_data _ I1 p x Z2) as [_ V]. auto.
Qed.

Lemma other_store a mid rest p rs s x y :
  run start (a ++ OAssign p :: mid ++ OAssign p :: rest) = (rs, s) -> ORevoke p ∈ mid ->
  rs !! length a = Some (Some x) -> rs !! (length a + S (length mid)) = Some (Some y) -> x <> y /\ x ∈ revoked s.
Proof.
  intros R M Hx Hy.
  (* take the first revoke of p *)
  assert (exists m1 m2, mid = m1 ++ ORevoke p :: m2 /\ ORevoke p ∉ m1) as (m1 & m2 & -> & N1).
  { clear -M. induction mid as [|o l IH]; [inversion M|]. destruct o as [q|q].
    - apply elem_of_cons in M as [M|M]; [discriminate|]. destruct (IH M) as (m1 & m2 & -> & N). exists (OAssign q :: m1), m2. split; [reflexivity|]. intros Q. apply elem_of_cons in Q as [Q|Q]; [discriminate|auto].
    - destruct (decide (q = p)) as [->|Nq]; [exists [], l; split; [reflexivity|intros Q; inversion Q]|]. apply elem_of_cons in M as [M|M]; [congruence|].
      destruct (IH M) as (m1 & m2 & -> & N). exists (ORevoke q :: m1), m2. split; [reflexivity|]. intros Q. apply elem_of_cons in Q as [Q|Q]; [congruence|auto]. }
  assert (I0 : inv start) by apply start_inv.
  rewrite run_app in R. pose proof (run_length a start) as La. destruct (run start a) as [ra sa] eqn:Ea. pose proof (run_inv a start ra sa I0 Ea) as Ia. cbn [fst] in La. cbn [run] in R.
  destruct (assign_gets sa p) as (z & Z1 & Z2). pose proof (step_inv sa (OAssign p) Ia) as I1. destruct (step sa (OAssign p)) as [r s1]. cbn [fst snd] in Z1, Z2, I1. subst r.
  pose proof (keep_store m1 s1 p z Z2 N1) as (K & _). rewrite <- app_assoc in R. rewrite run_app in R. pose proof (run_length m1 s1) as Lm.
  destruct (run s1 m1) as [rm sm] eqn:Em. pose proof (run_inv m1 s1 rm sm I1 Em) as Im. cbn [fst snd] in *. cbn [app run] in R.
  pose proof (step_inv sm (ORevoke p) Im) as I2.
  assert (Z : z ∈ revoked (snd (step sm (ORevoke p)))) by (cbn; unfold revoke; rewrite K; cbn; apply elem_of_app; right; apply elem_of_list_singleton; reflexivity).
  destruct (step sm (ORevoke p)) as [r2 s2]. cbn [snd] in *.
  pose proof (never_again (m2 ++ OAssign p :: rest) s2 p z I2 Z (length m2)) as NA.
  assert (T : z ∈ revoked (snd (run s2 (m2 ++ OAssign p :: rest)))).
  { clear -Z. revert s2 Z. generalize (m2 ++ OAssign p :: rest) as os. induction os as [|o os IH]; intros s2 Z; cbn [run]; [exact Z|].
    assert (z ∈ revoked (snd (step s2 o))) as Z1.
    { destruct o as [q|q]; cbn [step]; [unfold assign; destruct (data s2 !! q); exact Z|]. unfold revoke. destruct (data s2 !! q); cbn; [apply elem_of_app; left|]; exact Z. }
    destruct (step s2 o) as [r s3]. cbn in Z1. specialize (IH s3 Z1). destruct (run s3 os). exact IH. }
  pose proof (run_length (m2 ++ OAssign p :: rest) s2) as Lr. destruct (run s2 (m2 ++ OAssign p :: rest)) as [rr sr]. cbn [fst snd] in *. injection R as <- <-.
  rewrite lookup_app_r in Hx by lia. assert (length a - length ra = 0) as E by lia. rewrite E in Hx. cbn in Hx. injection Hx as <-.
  split; [|exact T].
  rewrite app_length in Hy. cbn [length] in Hy.
  rewrite lookup_app_r in Hy by lia. replace (length a + S (length m1 + S (length m2)) - length ra) with (S (length rm + S (length m2))) in Hy by lia. cbn [lookup list_lookup] in Hy. change ((rm ++ r2 :: rr) !! (length rm + S (length m2)) = Some (Some y)) in Hy.
  rewrite lookup_app_r in Hy by lia. replace (length rm + S (length m2) - length rm) with (S (length m2)) in Hy by lia. change (rr !! length m2 = Some (Some y)) in Hy.
  intros ->. apply NA; [apply list_lookup_middle; reflexivity|exact Hy].
Qed.

Lemma revoked_once os rs s : run start os = (rs, s) -> NoDup (revoked s) /\ forall p x, created s !! x = Some p -> data s !! p = Some x \/ x ∈ revoked s.
Proof. intros R. pose proof (run_inv os start rs s start_inv R) as I. split; apply I. Qed.

(** a store is made in a call of assign, which returns it, and a call of assign returns a store that was made for its partition *)
Lemma step_made s o : inv s -> created s `prefix_of` created (snd (step s o)) /\
  (forall p x, o = OAssign p -> fst (step s o) = Some x -> created (snd (step s o)) !! x = Some p) /\
  (forall x p, created (snd (step s o)) !! x = Some p -> x < length (created s) \/ (o = OAssign p /\ fst (step s o) = Some x)).
Proof.
  intros I. destruct o as [p|p]; cbn [step].
  - unfold assign. destruct (data s !! p) as [y|] eqn:E; cbn.
    + split; [reflexivity|]. split; [|intros x q H; left; eapply lookup_lt_Some, H]. intros q x [= <-] [= <-]. apply (i_data _ I _ _ E).
    + split; [eexists; reflexivity|]. split; [intros q x [= <-] [= <-]; apply list_lookup_middle; reflexivity|].
      intros x q H. apply lookup_app_Some in H as [H|[L H]]; [left; eapply lookup_lt_Some, H|]. apply list_lookup_singleton_Some in H as [H ->]. right. split; [reflexivity|]. f_equal. lia.
  - unfold revoke. destruct (data s !! p) as [y|] eqn:E; cbn; (split; [reflexivity|]); (split; [discriminate|]); intros x q H; left; eapply lookup_lt_Some, H.
Qed.
Lemma made os : forall s rs s', inv s -> run s os = (rs, s') -> created s `prefix_of` created s' /\
  (forall i p x, os !! i = Some (OAssign p) -> rs !! i = Some (Some x) -> created s' !! x = Some p) /\
  (forall x p, created s' !! x = Some p -> x < length (created s) \/ exists i, os !! i = Some (OAssign p) /\ rs !! i = Some (Some x)).
Proof.
  induction os as [|o os IH]; intros s rs s' I R; cbn [run] in R.
  { injection R as <- <-. split; [reflexivity|]. split; [intros i p x H; discriminate|]. intros x p H. left. eapply lookup_lt_Some, H. }
  pose proof (step_inv s o I) as I1. destruct (step_made s o I) as (A1 & A2 & A3). destruct (step s o) as [r s1]. cbn [fst snd] in *. destruct (run s1 os) as [rs2 s2] eqn:E. injection R as <- <-.
  destruct (IH _ _ _ I1 E) as (B1 & B2 & B3). split; [by etransitivity|]. split.
  - intros [|i] p x H1 H2; cbn in H1, H2; [|eauto]. injection H1 as ->. injection H2 as ->. eapply prefix_lookup; [|exact B1]. by apply A2.
  - intros x p H. destruct (B3 x p H) as [L|(i & Hi & Hr)]; [|right; exists (S i); auto]. destruct (lookup_lt_is_Some_2 _ _ L) as [p' Hp]. pose proof (prefix_lookup _ _ _ _ Hp B1) as Hq.
    assert (p' = p) as -> by congruence. destruct (A3 x p Hp) as [L'|[-> ->]]; [left; exact L'|right; exists 0; auto].
Qed.
Lemma own_store os rs s i j p q x : run start os = (rs, s) -> os !! i = Some (OAssign p) -> os !! j = Some (OAssign q) -> rs !! i = Some (Some x) -> rs !! j = Some (Some x) -> p = q.
Proof. intros R Hi Hj Ri Rj. destruct (made _ _ _ _ start_inv R) as (_ & M & _). pose proof (M _ _ _ Hi Ri). pose proof (M _ _ _ Hj Rj). congruence. Qed.
Lemma made_by_assign os rs s x p : run start os = (rs, s) -> created s !! x = Some p <-> exists i, os !! i = Some (OAssign p) /\ rs !! i = Some (Some x).
Proof. intros R. destruct (made _ _ _ _ start_inv R) as (_ & M & N). split; [|intros (i & H1 & H2); eauto]. intros H. destruct (N _ _ H) as [L|G]; [cbn in L; lia|exact G]. Qed.
