(** Proofs about Isolation.Model (C97, C98) *)
From stdpp Require Import prelude list.
From Coq Require Import Lia.
From Verif.Isolation Require Import Model.
Open Scope nat_scope.

(** What holds in every reachable state *)
Record inv (s : st) : Prop := mkInv {
  i_live : forall p w, find p (live s) = Some w -> exists x, ws s !! w = Some x /\ part x = p /\ revoked x = false;
  i_add : forall w n, adding s = Some (w, n) -> is_Some (ws s !! w);
  i_rest : NoDup (fst <$> rest s);
  i_cap : forall w x, ws s !! w = Some x -> length (q x) <= inputCap
}.
Lemma init_inv : inv init.
Proof. split; cbn; intros; try discriminate. constructor. Qed.
Lemma find_cons p a l : find p (a :: l) = if Nat.eqb (fst a) p then Some (snd a) else find p l.
Proof. unfold find. cbn. destruct (Nat.eqb (fst a) p); reflexivity. Qed.
Lemma find_drop p p' l : find p (drop p' l) = if Nat.eqb p p' then None else find p l.
Proof.
  induction l as [|a l IH]; [destruct (Nat.eqb p p'); reflexivity|].
  unfold drop in *. cbn [List.filter]. destruct (Nat.eqb_spec (fst a) p') as [E|N]; cbn.
  - rewrite IH, find_cons. destruct (Nat.eqb_spec p p'); [reflexivity|]. destruct (Nat.eqb_spec (fst a) p); [lia|reflexivity].
  - rewrite !find_cons, IH. destruct (Nat.eqb_spec (fst a) p), (Nat.eqb_spec p p'); try lia; reflexivity.
Qed.

(** All workers stay; each changes only as told *)
Lemma lk (l : list worker) w y v x : <[w := y]> l !! v = Some x -> (v = w /\ x = y /\ is_Some (l !! w)) \/ (v <> w /\ l !! v = Some x).
Proof.
  intros H. destruct (decide (v = w)) as [->|N].
  - left. pose proof (lookup_lt_Some _ _ _ H) as L. rewrite insert_length in L. rewrite list_lookup_insert in H by exact L.
    injection H as <-. repeat split. apply lookup_lt_is_Some. exact L.
  - right. rewrite list_lookup_insert_ne in H by congruence. split; assumption.
Qed.
Lemma lk_ne (l : list worker) w y v : is_Some (l !! v) -> is_Some (<[w := y]> l !! v).
Proof. rewrite !lookup_lt_is_Some, insert_length. exact id. Qed.
Lemma lk_eq (l : list worker) w y x : l !! w = Some x -> <[w := y]> l !! w = Some y.
Proof. intros H. apply list_lookup_insert. eapply lookup_lt_Some; exact H. Qed.

(** Replacing a worker by one of the same partition, as revoked as before, with no longer input *)
Lemma inv_upd s w x y lv pa re ad :
  inv s -> ws s !! w = Some x -> part y = part x -> (revoked y = revoked x \/ forall p, find p lv <> Some w) -> length (q y) <= inputCap ->
  (forall p v, find p lv = Some v -> find p (live s) = Some v) -> NoDup (fst <$> re) -> (forall v n, ad = Some (v, n) -> is_Some (ws s !! v)) ->
  inv (mkSt (<[w := y]> (ws s)) lv pa re ad).
Proof.
  intros [L A R C] Hw Ep Er Eq HL HR HA. split; cbn.
  - intros p v F. destruct (L p v (HL _ _ F)) as (z & Z1 & Z2 & Z3). destruct (decide (v = w)) as [->|N].
    + exists y. rewrite (lk_eq _ _ _ _ Hw). assert (z = x) by congruence. subst z. repeat split; [congruence|]. destruct Er as [->|Er]; [exact Z3|]. destruct (Er _ F).
    + exists z. rewrite list_lookup_insert_ne by congruence. repeat split; assumption.
  - intros v n E. apply lk_ne. exact (HA _ _ E).
  - exact HR.
  - intros v z H. destruct (lk _ _ _ _ _ H) as [(-> & -> & _)|(_ & H')]; [exact Eq|exact (C _ _ H')].
Qed.
Lemma inv_step cap s a s' : inv s -> step cap s a = Some s' -> inv s'.
Proof.
  intros I H. pose proof I as [L A R C]. destruct a; cbn in H.
  - destruct (find p (live s)) eqn:F; [discriminate|]. injection H as <-. split; cbn.
    + intros p' w. rewrite find_cons. cbn. destruct (Nat.eqb_spec p p') as [->|N].
      * intros [= <-]. exists (mkW p' Fresh false [] 0 0 false 0). rewrite lookup_app_r, Nat.sub_diag by lia. repeat split.
      * intros F'. destruct (L _ _ F') as (x & X1 & X2). exists x. split; [|exact X2]. apply lookup_app_l_Some. exact X1.
    + intros w n E. destruct (A _ _ E) as (x & X). exists x. apply lookup_app_l_Some. exact X.
    + exact R.
    + intros w x E. apply lookup_app_Some in E as [E|(_ & E)]; [exact (C _ _ E)|]. apply list_lookup_singleton_Some in E as [_ <-]. cbn. unfold inputCap. lia.
  - destruct (find p (live s)) eqn:F; [|discriminate]. destruct (L _ _ F) as (x & X1 & X2 & X3). rewrite X1 in H. injection H as <-.
    eapply (inv_upd s n x); [exact I|exact X1|reflexivity| |exact (C _ _ X1)| |exact R|exact A].
    + right. intros p'. rewrite find_drop. destruct (Nat.eqb_spec p' p); [discriminate|]. intros F'. destruct (L _ _ F') as (x' & Y1 & Y2 & _). congruence.
    + intros p' v. rewrite find_drop. destruct (Nat.eqb p' p); [discriminate|exact id].
  - destruct (ws s !! w) as [x|] eqn:X; [|discriminate]. case_decide; [|discriminate]. injection H as <-. eapply inv_upd; eauto; cbn; eauto.
  - destruct (ws s !! w) as [x|] eqn:X; [|discriminate]. case_decide; [|discriminate]. injection H as <-. eapply inv_upd; eauto; cbn; eauto.
  - destruct (rest s) eqn:Er; [|discriminate]. destruct (adding s) eqn:Ea; [discriminate|]. case_decide as D; [|discriminate]. injection H as <-. split; cbn.
    + exact L.
    + intros; discriminate.
    + exact (proj1 D).
    + exact C.
  - destruct (rest s) as [|[p n] l] eqn:Er; [discriminate|]. destruct (adding s) eqn:Ea; [discriminate|]. cbn in R. apply NoDup_cons in R as [_ R].
    destruct (find p (live s)) as [w|] eqn:F; [destruct n|].
    1,3: injection H as <-; split; cbn; [exact L|intros; discriminate|exact R|exact C].
    injection H as <-. split; cbn; [exact L| |exact R|exact C]. intros ? ? [= <- <-]. destruct (L _ _ F) as (x & X & _). exists x. exact X.
  - destruct (adding s) as [[w n]|] eqn:Ea; [|discriminate]. destruct (ws s !! w) as [x|] eqn:X; [|discriminate]. case_decide as D; [|discriminate]. injection H as <-.
    eapply inv_upd; eauto; cbn; eauto. { rewrite app_length. cbn. unfold inputCap in *. lia. } intros; discriminate.
  - destruct (ws s !! w) as [x|] eqn:X; [|discriminate]. destruct (q x) as [|n l] eqn:Q; [discriminate|]. destruct (cur x); [|discriminate]. case_decide; [|discriminate]. injection H as <-.
    eapply inv_upd; eauto; cbn; eauto. specialize (C _ _ X). rewrite Q in C. cbn in C. lia.
  - destruct (ws s !! w) as [x|] eqn:X; [|discriminate]. destruct (cur x) eqn:Q; [discriminate|]. case_decide; [|discriminate]. injection H as <-. eapply inv_upd; eauto; cbn; eauto.
  - destruct (ws s !! w) as [x|] eqn:X; [|discriminate]. destruct (ev x) eqn:Q; [discriminate|]. destruct (busy x); [discriminate|]. injection H as <-. eapply inv_upd; eauto; cbn; eauto.
  - destruct (ws s !! w) as [x|] eqn:X; [|discriminate]. destruct (busy x); [|discriminate]. injection H as <-. eapply inv_upd; eauto; cbn; eauto.
Qed.
Lemma inv_run cap acts : forall s s', inv s -> run cap s acts = Some s' -> inv s'.
Proof.
  induction acts as [|a l IH]; intros s s' I H; cbn in H; [injection H as <-; exact I|].
  destruct (step cap s a) eqn:E; [|discriminate]. exact (IH _ _ (inv_step _ _ _ _ I E) H).
Qed.
Lemma run_app cap l1 : forall s l2, run cap s (l1 ++ l2) = match run cap s l1 with Some s' => run cap s' l2 | None => None end.
Proof. induction l1 as [|a l IH]; intros s l2; [reflexivity|]. cbn. destruct (step cap s a); [apply IH|reflexivity]. Qed.

(** ** Bootstrapping partitions (C97) *)

(** How many of the polls return records of [p] *)
Definition polls (p : nat) (acts : list action) : nat :=
  length (List.filter (fun a => match a with Poll l => existsb (fun x => Nat.eqb (fst x) p) l | _ => false end) acts).
Definition due (p : nat) (l : list (nat * nat)) : nat := if existsb (fun x => Nat.eqb (fst x) p) l then 1 else 0.
Definition inHand (w : nat) (s : st) : nat := match adding s with Some (v, _) => if Nat.eqb v w then 1 else 0 | None => 0 end.
Definition atHand (p w : nat) (s : st) : nat := match ws s !! w with Some x => length (q x) + inHand w s + due p (rest s) | None => 0 end.
Lemma due_notin p l : p ∉ fst <$> l -> due p l = 0.
Proof.
  unfold due. intros N. destruct (existsb _ l) eqn:E; [|reflexivity]. apply existsb_exists in E as ([a b] & I & E'). destruct N. cbn in E'.
  apply Nat.eqb_eq in E'. subst a. apply elem_of_list_fmap. exists (p, b). split; [reflexivity|]. apply elem_of_list_In. exact I.
Qed.
Lemma due_cons p x l : due p (x :: l) = if Nat.eqb (fst x) p then 1 else due p l.
Proof. unfold due. cbn. destruct (Nat.eqb (fst x) p); reflexivity. Qed.
Lemma due_le p l : due p l <= 1.
Proof. unfold due. destruct (existsb _ l); lia. Qed.
Lemma atHand_step cap p w s a s' : inv s -> find p (live s) = Some w -> a <> Revoke p -> step cap s a = Some s' ->
  find p (live s') = Some w /\ atHand p w s' <= atHand p w s + polls p [a].
Proof.
  intros I F Na H. pose proof I as [L A R C]. destruct (L _ _ F) as (y & Y & Yp & Yr).
  assert (U : forall v x z lv pa re ad, ws s !! v = Some x -> ad = adding s -> re = rest s -> length (q z) <= length (q x) ->
              atHand p w (mkSt (<[v := z]> (ws s)) lv pa re ad) <= atHand p w s).
  { intros v x z lv pa re ad X -> -> Lq. unfold atHand, inHand. cbn. rewrite Y. destruct (decide (v = w)) as [->|N].
    - rewrite (lk_eq _ _ _ _ X). assert (x = y) by congruence. subst. lia.
    - rewrite list_lookup_insert_ne, Y by congruence. lia. }
  destruct a; cbn in H.
  - destruct (find p0 (live s)) eqn:F0; [discriminate|]. injection H as <-. cbn. split.
    + rewrite find_cons. cbn. destruct (Nat.eqb_spec p0 p) as [->|]; [congruence|exact F].
    + unfold atHand, inHand. cbn. rewrite (lookup_app_l_Some _ _ _ _ Y), Y. lia.
  - destruct (find p0 (live s)) as [w0|] eqn:F0; [|discriminate]. destruct (L _ _ F0) as (x & X & Xp & _). rewrite X in H. injection H as <-. cbn. split.
    + rewrite find_drop. destruct (Nat.eqb_spec p p0) as [->|]; [destruct Na; reflexivity|exact F].
    + etransitivity; [eapply U; eauto; cbn; lia|lia].
  - destruct (ws s !! w0) as [x|] eqn:X; [|discriminate]. case_decide; [|discriminate]. injection H as <-. split; [exact F|]. etransitivity; [eapply U; eauto; cbn; lia|lia].
  - destruct (ws s !! w0) as [x|] eqn:X; [|discriminate]. case_decide; [|discriminate]. injection H as <-. split; [exact F|]. etransitivity; [eapply U; eauto; cbn; lia|lia].
  - destruct (rest s) eqn:Er; [|discriminate]. destruct (adding s) eqn:Ea; [discriminate|]. case_decide as D; [|discriminate]. injection H as <-. split; [exact F|].
    unfold atHand, inHand, polls. cbn. rewrite Y, Er, Ea. unfold due at 1. destruct (existsb _ l); cbn; lia.
  - destruct (rest s) as [|[p0 n] l] eqn:Er; [discriminate|]. destruct (adding s) eqn:Ea; [discriminate|]. cbn in R. apply NoDup_cons in R as [Rn R].
    assert (D : due p l <= due p ((p0, n) :: l)). { rewrite due_cons. cbn. destruct (Nat.eqb p0 p); [apply due_le|lia]. }
    destruct (find p0 (live s)) as [w0|] eqn:F0; [destruct n|].
    1,3: injection H as <-; split; [exact F|]; unfold atHand, inHand; cbn [ws live rest adding]; rewrite Y, Er, Ea; lia.
    injection H as <-. split; [exact F|]. unfold atHand, inHand. cbn [ws live rest adding]. rewrite Y, Er, Ea, due_cons. cbn [fst].
    destruct (Nat.eqb_spec w0 w) as [->|N].
    + destruct (L _ _ F0) as (x & X & Xp & _). assert (x = y) by congruence. subst x. assert (Ep : p0 = p) by congruence. clear Xp. rewrite Ep in *. rewrite Nat.eqb_refl, (due_notin _ _ Rn). lia.
    + rewrite due_cons in D. cbn [fst] in D. lia.
  - destruct (adding s) as [[w0 n]|] eqn:Ea; [|discriminate]. destruct (ws s !! w0) as [x|] eqn:X; [|discriminate]. case_decide as D; [|discriminate]. injection H as <-.
    split; [exact F|]. unfold atHand, inHand. cbn [ws live rest adding]. rewrite Y, Ea. destruct (Nat.eqb_spec w0 w) as [->|N].
    + rewrite (lk_eq _ _ _ _ X). cbn. rewrite app_length. cbn. assert (x = y) by congruence. subst. lia.
    + rewrite list_lookup_insert_ne, Y by congruence. lia.
  - destruct (ws s !! w0) as [x|] eqn:X; [|discriminate]. destruct (q x) as [|n l] eqn:Q; [discriminate|]. destruct (cur x); [|discriminate]. case_decide; [|discriminate]. injection H as <-.
    split; [exact F|]. etransitivity; [eapply U; eauto; cbn; rewrite Q; cbn; lia|lia].
  - destruct (ws s !! w0) as [x|] eqn:X; [|discriminate]. destruct (cur x) eqn:Q; [discriminate|]. case_decide; [|discriminate]. injection H as <-.
    split; [exact F|]. etransitivity; [eapply U; eauto; cbn; lia|lia].
  - destruct (ws s !! w0) as [x|] eqn:X; [|discriminate]. destruct (ev x) eqn:Q; [discriminate|]. destruct (busy x); [discriminate|]. injection H as <-.
    split; [exact F|]. etransitivity; [eapply U; eauto; cbn; lia|lia].
  - destruct (ws s !! w0) as [x|] eqn:X; [|discriminate]. destruct (busy x); [|discriminate]. injection H as <-.
    split; [exact F|]. etransitivity; [eapply U; eauto; cbn; lia|lia].
Qed.
Lemma polls_cons p a l : polls p (a :: l) = polls p [a] + polls p l.
Proof. unfold polls. cbn. destruct (match a with Poll _ => _ | _ => _ end); cbn; lia. Qed.
Lemma atHand_run cap p w acts : forall s s', inv s -> find p (live s) = Some w -> Revoke p ∉ acts -> run cap s acts = Some s' ->
  find p (live s') = Some w /\ atHand p w s' <= atHand p w s + polls p acts.
Proof.
  induction acts as [|a l IH]; intros s s' I F N H; cbn [run] in H. { injection H as <-. split; [exact F|]. unfold polls. cbn. lia. }
  destruct (step cap s a) as [s1|] eqn:E; [|discriminate]. apply not_elem_of_cons in N as [N1 N2].
  destruct (atHand_step cap p w s a s1 I F (fun X => N1 (eq_sym X)) E) as [F1 B1].
  destruct (IH _ _ (inv_step _ _ _ _ I E) F1 N2 H) as [F2 B2]. split; [exact F2|]. rewrite polls_cons. lia.
Qed.

(** A worker gets no more batches than were polled since it was made, and one more that was under way *)
Lemma few_polls cap l1 s0 p s1 l2 s : run cap init l1 = Some s0 -> step cap s0 (Assign p) = Some s1 -> run cap s1 l2 = Some s ->
  Revoke p ∉ l2 -> polls p l2 <= 3 -> ~ blockedAt s (length (ws s0)).
Proof.
  intros R1 S R2 N P (n & x & E1 & E2 & E3). assert (I0 := inv_run _ _ _ _ init_inv R1). assert (I1 := inv_step _ _ _ _ I0 S).
  cbn in S. destruct (find p (live s0)) eqn:F; [discriminate|]. injection S as <-.
  destruct (atHand_run cap p (length (ws s0)) l2 _ s I1) as [_ B]; [cbn; rewrite find_cons; cbn; rewrite Nat.eqb_refl; reflexivity|exact N|exact R2|].
  unfold atHand at 1 in B. unfold inHand in B. rewrite E2, E1, Nat.eqb_refl in B. unfold atHand, inHand in B. cbn [ws adding rest] in B.
  rewrite lookup_app_r, Nat.sub_diag in B by lia. cbn in B. pose proof (due_le p (rest s0)). destruct (adding s0) as [[v m]|] eqn:Ea.
  - destruct (Nat.eqb_spec v (length (ws s0))) as [->|]; [|unfold inputCap in E3; lia]. destruct (i_add _ I0 _ _ Ea) as (z & Z). apply lookup_lt_Some in Z. lia.
  - unfold inputCap in E3. lia.
Qed.

(** While a worker waits, its partition is paused, if no other worker of the partition is about to resume it *)
Definition alone (p w : nat) (s : st) : Prop := forall v x, ws s !! v = Some x -> part x = p -> v <> w -> stg x = Running.
Record wait (p w : nat) (s : st) : Prop := mkWait {
  wa_alone : alone p w s; wa_live : find p (live s) = Some w; wa_paused : p ∈ paused s; wa_stage : exists x, ws s !! w = Some x /\ part x = p /\ stg x = Waiting }.
Lemma alone_step cap p w s a s' : inv s -> find p (live s) = Some w -> a <> Revoke p -> alone p w s -> step cap s a = Some s' -> alone p w s'.
Proof.
  intros I F Na Al H. pose proof I as [L A R C].
  assert (U : forall v x z lv pa re ad, ws s !! v = Some x -> part z = part x -> (stg z = stg x \/ stg z = Running \/ stg x = Fresh) ->
              alone p w (mkSt (<[v := z]> (ws s)) lv pa re ad)).
  { intros v x z lv pa re ad X Ep Es u y Uy Py Nu. cbn in Uy. destruct (lk _ _ _ _ _ Uy) as [(-> & -> & _)|(_ & Uy')]; [|exact (Al _ _ Uy' Py Nu)].
    assert (S1 := Al _ _ X ltac:(congruence) Nu). destruct Es as [Es|[Es|Es]]; congruence. }
  destruct a; cbn in H.
  - destruct (find p0 (live s)) eqn:F0; [discriminate|]. injection H as <-. intros u y Uy Py Nu. cbn in Uy. apply lookup_app_Some in Uy as [Uy|(_ & Uy)]; [exact (Al _ _ Uy Py Nu)|].
    apply list_lookup_singleton_Some in Uy as [_ <-]. cbn in Py. congruence.
  - destruct (find p0 (live s)) as [w0|] eqn:F0; [|discriminate]. destruct (L _ _ F0) as (x & X & Xp & _). rewrite X in H. injection H as <-. eapply U; eauto.
  - destruct (ws s !! w0) as [x|] eqn:X; [|discriminate]. case_decide; [|discriminate]. injection H as <-. eapply U; eauto.
  - destruct (ws s !! w0) as [x|] eqn:X; [|discriminate]. case_decide; [|discriminate]. injection H as <-. eapply U; eauto.
  - destruct (rest s); [|discriminate]. destruct (adding s); [discriminate|]. case_decide; [|discriminate]. injection H as <-. exact Al.
  - destruct (rest s) as [|[p0 n] l]; [discriminate|]. destruct (adding s); [discriminate|]. destruct (find p0 (live s)); [destruct n|]; injection H as <-; exact Al.
  - destruct (adding s) as [[w0 n]|]; [|discriminate]. destruct (ws s !! w0) as [x|] eqn:X; [|discriminate]. case_decide; [|discriminate]. injection H as <-. eapply U; eauto.
  - destruct (ws s !! w0) as [x|] eqn:X; [|discriminate]. destruct (q x); [discriminate|]. destruct (cur x); [|discriminate]. case_decide; [|discriminate]. injection H as <-. eapply U; eauto.
  - destruct (ws s !! w0) as [x|] eqn:X; [|discriminate]. destruct (cur x); [discriminate|]. case_decide; [|discriminate]. injection H as <-. eapply U; eauto.
  - destruct (ws s !! w0) as [x|] eqn:X; [|discriminate]. destruct (ev x); [discriminate|]. destruct (busy x); [discriminate|]. injection H as <-. eapply U; eauto.
  - destruct (ws s !! w0) as [x|] eqn:X; [|discriminate]. destruct (busy x); [|discriminate]. injection H as <-. eapply U; eauto.
Qed.
Lemma wait_step cap p w s a s' : inv s -> a <> Revoke p -> a <> Resume w -> wait p w s -> step cap s a = Some s' -> wait p w s' /\ polls p [a] = 0.
Proof.
  intros I Na Nr [Al F P (y & Y & Yp & Ys)] H. assert (Al' := alone_step _ _ _ _ _ _ I F Na Al H). pose proof I as [L A R C].
  assert (U : forall v x z lv pa re ad, ws s !! v = Some x -> part z = part x -> (v = w -> stg z = stg x) ->
              exists x, ws (mkSt (<[v := z]> (ws s)) lv pa re ad) !! w = Some x /\ part x = p /\ stg x = Waiting).
  { intros v x z lv pa re ad X Ep Es. cbn. destruct (decide (v = w)) as [->|N].
    - exists z. rewrite (lk_eq _ _ _ _ X). assert (x = y) by congruence. subst. split; [reflexivity|]. rewrite Ep, (Es eq_refl). split; [reflexivity|assumption].
    - exists y. rewrite list_lookup_insert_ne by congruence. repeat split; assumption. }
  destruct a; cbn in H.
  - destruct (find p0 (live s)) eqn:F0; [discriminate|]. injection H as <-. split; [|reflexivity]. split; [exact Al'| |exact P|].
    + cbn. rewrite find_cons. cbn. destruct (Nat.eqb_spec p0 p) as [->|]; [congruence|exact F].
    + exists y. cbn. split; [apply lookup_app_l_Some; exact Y|]. split; assumption.
  - destruct (find p0 (live s)) as [w0|] eqn:F0; [|discriminate]. destruct (L _ _ F0) as (x & X & Xp & _). rewrite X in H. injection H as <-. split; [|reflexivity]. split; [exact Al'| |exact P|].
    + cbn. rewrite find_drop. destruct (Nat.eqb_spec p p0) as [->|]; [destruct Na; reflexivity|exact F].
    + eapply U; eauto.
  - destruct (ws s !! w0) as [x|] eqn:X; [|discriminate]. case_decide as D; [|discriminate]. injection H as <-. split; [|reflexivity]. split; [exact Al'|exact F| |].
    + cbn. right. exact P.
    + eapply U; eauto. intros ->. assert (x = y) by congruence. subst. cbn. congruence.
  - destruct (ws s !! w0) as [x|] eqn:X; [|discriminate]. case_decide as D; [|discriminate]. injection H as <-. split; [|reflexivity]. assert (N : w0 <> w) by congruence.
    split; [exact Al'|exact F| |].
    + cbn. apply elem_of_list_In, filter_In. split; [apply elem_of_list_In; exact P|]. destruct (Nat.eqb_spec p (part x)) as [E|]; [|reflexivity].
      assert (Z := Al _ _ X (eq_sym E) N). congruence.
    + eapply U; eauto. congruence.
  - destruct (rest s); [|discriminate]. destruct (adding s); [discriminate|]. case_decide as D; [|discriminate]. injection H as <-. split; [split; [exact Al'|exact F|exact P|exists y; repeat split; assumption]|].
    unfold polls. cbn. destruct (existsb _ l) eqn:E; [|reflexivity]. apply existsb_exists in E as (z & Z1 & Z2). apply Nat.eqb_eq in Z2.
    destruct D as [_ D]. rewrite Forall_forall in D. destruct (D z); [apply elem_of_list_In; exact Z1|]. rewrite Z2. exact P.
  - destruct (rest s) as [|[p0 n] l]; [discriminate|]. destruct (adding s); [discriminate|]. split; [|reflexivity].
    destruct (find p0 (live s)); [destruct n|]; injection H as <-; (split; [exact Al'|exact F|exact P|exists y; repeat split; assumption]).
  - destruct (adding s) as [[w0 n]|]; [|discriminate]. destruct (ws s !! w0) as [x|] eqn:X; [|discriminate]. case_decide; [|discriminate]. injection H as <-.
    split; [|reflexivity]. split; [exact Al'|exact F|exact P|eapply U; eauto].
  - destruct (ws s !! w0) as [x|] eqn:X; [|discriminate]. destruct (q x); [discriminate|]. destruct (cur x); [|discriminate]. case_decide; [|discriminate]. injection H as <-.
    split; [|reflexivity]. split; [exact Al'|exact F|exact P|eapply U; eauto].
  - destruct (ws s !! w0) as [x|] eqn:X; [|discriminate]. destruct (cur x); [discriminate|]. case_decide; [|discriminate]. injection H as <-.
    split; [|reflexivity]. split; [exact Al'|exact F|exact P|eapply U; eauto].
  - destruct (ws s !! w0) as [x|] eqn:X; [|discriminate]. destruct (ev x); [discriminate|]. destruct (busy x); [discriminate|]. injection H as <-.
    split; [|reflexivity]. split; [exact Al'|exact F|exact P|eapply U; eauto].
  - destruct (ws s !! w0) as [x|] eqn:X; [|discriminate]. destruct (busy x); [|discriminate]. injection H as <-.
    split; [|reflexivity]. split; [exact Al'|exact F|exact P|eapply U; eauto].
Qed.
Lemma wait_run cap p w acts : forall s s', inv s -> Revoke p ∉ acts -> Resume w ∉ acts -> wait p w s -> run cap s acts = Some s' -> wait p w s' /\ polls p acts = 0.
Proof.
  induction acts as [|a l IH]; intros s s' I N1 N2 W H; cbn [run] in H. { injection H as <-. split; [exact W|reflexivity]. }
  destruct (step cap s a) as [s1|] eqn:E; [|discriminate]. apply not_elem_of_cons in N1 as [N1 N1']. apply not_elem_of_cons in N2 as [N2 N2'].
  destruct (wait_step cap p w s a s1 I (fun X => N1 (eq_sym X)) (fun X => N2 (eq_sym X)) W E) as [W1 P1].
  destruct (IH _ _ (inv_step _ _ _ _ I E) N1' N2' W1 H) as [W2 P2]. split; [exact W2|]. rewrite polls_cons. lia.
Qed.
Lemma alone_run cap p w acts : forall s s', inv s -> find p (live s) = Some w -> Revoke p ∉ acts -> alone p w s -> run cap s acts = Some s' -> alone p w s'.
Proof.
  induction acts as [|a l IH]; intros s s' I F N Al H; cbn [run] in H. { injection H as <-. exact Al. }
  destruct (step cap s a) as [s1|] eqn:E; [|discriminate]. apply not_elem_of_cons in N as [N N'].
  destruct (atHand_step cap p w s a s1 I F (fun X => N (eq_sym X)) E) as [F1 _].
  exact (IH _ _ (inv_step _ _ _ _ I E) F1 N' (alone_step _ _ _ _ _ _ I F (fun X => N (eq_sym X)) Al E) H).
Qed.
Lemma polls_app p l1 l2 : polls p (l1 ++ l2) = polls p l1 + polls p l2.
Proof. induction l1 as [|a l IH]; [reflexivity|]. cbn [app]. rewrite polls_cons, IH, (polls_cons p a l). lia. Qed.
Lemma stage_part cap a s s' w x : step cap s a = Some s' -> ws s !! w = Some x -> exists x', ws s' !! w = Some x' /\ part x' = part x.
Proof.
  intros H X. assert (U : forall v y z lv pa re ad, ws s !! v = Some y -> part z = part y -> exists x', ws (mkSt (<[v := z]> (ws s)) lv pa re ad) !! w = Some x' /\ part x' = part x).
  { intros v y z lv pa re ad Y E. cbn. destruct (decide (v = w)) as [->|N]; [exists z; rewrite (lk_eq _ _ _ _ Y); split; congruence|exists x; rewrite list_lookup_insert_ne by congruence; split; [exact X|reflexivity]]. }
  destruct a; cbn in H; repeat (match goal with
    | H : match ?e with _ => _ end = Some _ |- _ => destruct e eqn:?; try discriminate H
    end); injection H as <-; try (eapply U; eauto; reflexivity); try (exists x; split; [exact X|reflexivity]).
  exists x. cbn. split; [apply lookup_app_l_Some; exact X|reflexivity].
Qed.
Lemma stage_stays cap s a s' w x : step cap s a = Some s' -> ws s !! w = Some x -> part x = 1 -> stg x = Waiting -> a <> Resume w ->
  exists y, ws s' !! w = Some y /\ part y = 1 /\ stg y = Waiting.
Proof.
  intros H X Xp Xs N. assert (U : forall v y z lv pa re ad, ws s !! v = Some y -> part z = part y -> (v = w -> stg z = stg y) -> exists x', ws (mkSt (<[v := z]> (ws s)) lv pa re ad) !! w = Some x' /\ part x' = 1 /\ stg x' = Waiting).
  { intros v y z lv pa re ad Y E Es. cbn. destruct (decide (v = w)) as [->|Nv].
    - exists z. rewrite (lk_eq _ _ _ _ Y), E, (Es eq_refl). assert (y = x) by congruence. subst. auto.
    - exists x. rewrite list_lookup_insert_ne by congruence. auto. }
  destruct a; cbn in H; repeat (match goal with
    | H : match ?e with _ => _ end = Some _ |- _ => destruct e eqn:?; try discriminate H
    end); injection H as <-; try (eapply U; eauto; congruence); try (exists x; auto; fail).
  - exists x. cbn. split; [apply lookup_app_l_Some; exact X|auto].
Qed.
Lemma not_blocked_while_waiting cap l1 s0 p s1 l2 l3 s : run cap init l1 = Some s0 ->
  (forall v x, ws s0 !! v = Some x -> part x = p -> stg x = Running) ->
  step cap s0 (Assign p) = Some s1 -> run cap s1 (l2 ++ Pause (length (ws s0)) :: l3) = Some s ->
  Revoke p ∉ l2 ++ l3 -> Resume (length (ws s0)) ∉ l3 -> polls p l2 <= 3 -> ~ blockedAt s (length (ws s0)).
Proof.
  intros R1 Al S R2 N Nr P. set (w := length (ws s0)) in *. assert (I0 := inv_run _ _ _ _ init_inv R1). assert (I1 := inv_step _ _ _ _ I0 S).
  apply not_elem_of_app in N as [N2 N3]. pose proof R2 as R2'. rewrite run_app in R2'. destruct (run cap s1 l2) as [s2|] eqn:R3; [|discriminate]. cbn [run] in R2'.
  destruct (step cap s2 (Pause w)) as [s3|] eqn:S3; [|discriminate].
  assert (F1 : find p (live s1) = Some w). { cbn in S. destruct (find p (live s0)); [discriminate|]. injection S as <-. cbn. rewrite find_cons. cbn. rewrite Nat.eqb_refl. reflexivity. }
  assert (A1 : alone p w s1).
  { cbn in S. destruct (find p (live s0)) eqn:F; [discriminate|]. injection S as <-. intros v x V Vp Nv. cbn in V. apply lookup_app_Some in V as [V|(Lv & V)]; [exact (Al _ _ V Vp)|].
    destruct (v - length (ws s0)) eqn:D; [|discriminate]. unfold w in Nv. lia. }
  assert (I2 := inv_run _ _ _ _ I1 R3). assert (A2 := alone_run _ _ _ _ _ _ I1 F1 N2 A1 R3). destruct (atHand_run _ _ _ _ _ _ I1 F1 N2 R3) as [F2 _].
  assert (W3 : wait p w s3).
  { destruct (i_live _ I2 _ _ F2) as (x & X & Xp & _). assert (Ne : Pause w <> Revoke p) by discriminate. assert (A3 := alone_step _ _ _ _ _ _ I2 F2 Ne A2 S3).
    cbn in S3. rewrite X in S3. case_decide as D; [|discriminate]. injection S3 as <-. split; [exact A3|exact F2| |].
    - cbn. rewrite Xp. left.
    - cbn. eexists. rewrite (lk_eq _ _ _ _ X). split; [reflexivity|]. cbn. split; [exact Xp|reflexivity]. }
  destruct (wait_run _ _ _ _ _ _ (inv_step _ _ _ _ I2 S3) N3 Nr W3 R2') as [_ P3].
  eapply few_polls; [exact R1|exact S|exact R2| |].
  - apply not_elem_of_app. split; [exact N2|]. apply not_elem_of_cons. split; [discriminate|exact N3].
  - rewrite polls_app, polls_cons. rewrite P3. unfold polls at 2. cbn. lia.
Qed.

(** ** A worker that does not take its input stops the poll loop, and so everything else *)

Lemma stuck_step cap s w a s' : blockedAt s w -> a <> Take w -> step cap s a = Some s' -> blockedAt s' w /\ rest s' = rest s /\ adding s' = adding s /\ a <> Receive /\ a <> Add /\ (forall l, a <> Poll l).
Proof.
  intros (n & x & E1 & E2 & E3) Na H.
  assert (U : forall v y z lv pa, ws s !! v = Some y -> length (q z) = length (q y) \/ v <> w -> blockedAt (mkSt (<[v := z]> (ws s)) lv pa (rest s) (adding s)) w).
  { intros v y z lv pa Y E. destruct (decide (v = w)) as [->|N].
    - exists n, z. cbn. rewrite (lk_eq _ _ _ _ Y). repeat split; [exact E1|]. assert (y = x) by congruence. subst. destruct E as [->|E]; [exact E3|congruence].
    - exists n, x. cbn. rewrite list_lookup_insert_ne by congruence. repeat split; assumption. }
  destruct a; cbn in H.
  - destruct (find p (live s)); [discriminate|]. injection H as <-. repeat split; try discriminate. exists n, x. cbn. repeat split; [exact E1|apply lookup_app_l_Some; exact E2|exact E3].
  - destruct (find p (live s)) as [v|]; [|discriminate]. destruct (ws s !! v) as [y|] eqn:Y; [|discriminate]. injection H as <-. repeat split; try discriminate. eapply U; eauto.
  - destruct (ws s !! w0) as [y|] eqn:Y; [|discriminate]. case_decide; [|discriminate]. injection H as <-. repeat split; try discriminate. eapply U; eauto.
  - destruct (ws s !! w0) as [y|] eqn:Y; [|discriminate]. case_decide; [|discriminate]. injection H as <-. repeat split; try discriminate. eapply U; eauto.
  - rewrite E1 in H. destruct (rest s); discriminate.
  - rewrite E1 in H. destruct (rest s) as [|[? ?] ?]; discriminate.
  - rewrite E1, E2 in H. case_decide; [lia|discriminate].
  - destruct (ws s !! w0) as [y|] eqn:Y; [|discriminate]. destruct (q y); [discriminate|]. destruct (cur y); [|discriminate]. case_decide; [|discriminate]. injection H as <-.
    repeat split; try discriminate. eapply U; eauto; right; congruence.
  - destruct (ws s !! w0) as [y|] eqn:Y; [|discriminate]. destruct (cur y); [discriminate|]. case_decide; [|discriminate]. injection H as <-. repeat split; try discriminate. eapply U; eauto.
  - destruct (ws s !! w0) as [y|] eqn:Y; [|discriminate]. destruct (ev y); [discriminate|]. destruct (busy y); [discriminate|]. injection H as <-. repeat split; try discriminate. eapply U; eauto.
  - destruct (ws s !! w0) as [y|] eqn:Y; [|discriminate]. destruct (busy y); [|discriminate]. injection H as <-. repeat split; try discriminate. eapply U; eauto.
Qed.

(** Nobody gets anything new: what a worker has had and still has never grows *)
Definition work (x : worker) : nat := handled x + ev x + cur x + sum_list (q x).
Lemma work_step cap s a s' w x : a <> Add -> step cap s a = Some s' -> ws s' !! w = Some x ->
  (ws s !! w = None /\ work x = 0) \/ (exists y, ws s !! w = Some y /\ part x = part y /\ work x <= work y).
Proof.
  intros Na H X.
  assert (U : forall v y z lv pa re ad, ws s !! v = Some y -> part z = part y -> work z <= work y -> ws (mkSt (<[v := z]> (ws s)) lv pa re ad) !! w = Some x ->
    (ws s !! w = None /\ work x = 0) \/ (exists y, ws s !! w = Some y /\ part x = part y /\ work x <= work y)).
  { intros v y z lv pa re ad Y Ep Ew V. right. cbn in V. destruct (lk _ _ _ _ _ V) as [(-> & -> & _)|(_ & V')]; [exists y|exists x]; repeat split; auto. }
  assert (Same : ws s' = ws s -> (ws s !! w = None /\ work x = 0) \/ (exists y, ws s !! w = Some y /\ part x = part y /\ work x <= work y)).
  { intros E. right. exists x. rewrite E in X. repeat split; [exact X|lia]. }
  destruct a; cbn in H.
  - destruct (find p (live s)); [discriminate|]. injection H as <-. cbn in X. apply lookup_app_Some in X as [X|(Lx & X)]; [right; exists x; repeat split; [exact X|lia]|].
    apply list_lookup_singleton_Some in X as [_ <-]. left. split; [apply lookup_ge_None; exact Lx|reflexivity].
  - destruct (find p (live s)) as [v|]; [|discriminate]. destruct (ws s !! v) as [y|] eqn:Y; [|discriminate]. injection H as <-. eapply (U _ _ _ _ _ _ _ Y); [| |exact X]; [reflexivity|unfold work; cbn; lia].
  - destruct (ws s !! w0) as [y|] eqn:Y; [|discriminate]. case_decide; [|discriminate]. injection H as <-. eapply (U _ _ _ _ _ _ _ Y); [| |exact X]; [reflexivity|unfold work; cbn; lia].
  - destruct (ws s !! w0) as [y|] eqn:Y; [|discriminate]. case_decide; [|discriminate]. injection H as <-. eapply (U _ _ _ _ _ _ _ Y); [| |exact X]; [reflexivity|unfold work; cbn; lia].
  - destruct (rest s); [|discriminate]. destruct (adding s); [discriminate|]. case_decide; [|discriminate]. injection H as <-. apply Same. reflexivity.
  - destruct (rest s) as [|[p0 n] l]; [discriminate|]. destruct (adding s); [discriminate|]. apply Same. destruct (find p0 (live s)); [destruct n|]; injection H as <-; reflexivity.
  - destruct Na. reflexivity.
  - destruct (ws s !! w0) as [y|] eqn:Y; [|discriminate]. destruct (q y) as [|n l] eqn:Q; [discriminate|]. destruct (cur y) eqn:Cy; [|discriminate]. case_decide; [|discriminate]. injection H as <-.
    eapply (U w0 y _ _ _ _ _ Y); [| |exact X]; [reflexivity|]. unfold work. cbn. rewrite Q, Cy. cbn. destruct (revoked y); lia.
  - destruct (ws s !! w0) as [y|] eqn:Y; [|discriminate]. destruct (cur y) eqn:Cy; [discriminate|]. case_decide; [|discriminate]. injection H as <-.
    eapply (U w0 y _ _ _ _ _ Y); [| |exact X]; [reflexivity|]. unfold work. cbn. lia.
  - destruct (ws s !! w0) as [y|] eqn:Y; [|discriminate]. destruct (ev y) eqn:Ey; [discriminate|]. destruct (busy y); [discriminate|]. injection H as <-.
    eapply (U w0 y _ _ _ _ _ Y); [| |exact X]; [reflexivity|]. unfold work. cbn. lia.
  - destruct (ws s !! w0) as [y|] eqn:Y; [|discriminate]. destruct (busy y); [|discriminate]. injection H as <-. eapply (U _ _ _ _ _ _ _ Y); [| |exact X]; [reflexivity|unfold work; cbn; lia].
Qed.

(** The handler hangs, and all buffers before it are full *)
Definition jammed (cap : nat) (s : st) (w : nat) : Prop := blockedAt s w /\ exists x, ws s !! w = Some x /\ busy x = true /\ 0 < cur x /\ cap <= ev x.
Lemma jammed_step cap s w a s' : jammed cap s w -> a <> Return w -> step cap s a = Some s' -> jammed cap s' w /\ a <> Add /\ a <> Receive /\ (forall l, a <> Poll l).
Proof.
  intros (B & x & X & X1 & X2 & X3) Na H.
  assert (Nt : a <> Take w). { intros ->. cbn in H. rewrite X in H. destruct (q x); [discriminate|]. destruct (cur x); [lia|discriminate]. }
  destruct (stuck_step _ _ _ _ _ B Nt H) as (B' & _ & _ & N1 & N2 & N3). split; [|auto]. split; [exact B'|].
  assert (U : forall v y z lv pa re ad, ws s !! v = Some y -> v <> w \/ (busy z = busy y /\ cur z = cur y /\ ev z = ev y) ->
     exists x, ws (mkSt (<[v := z]> (ws s)) lv pa re ad) !! w = Some x /\ busy x = true /\ 0 < cur x /\ cap <= ev x).
  { intros v y z lv pa re ad Y E. cbn. destruct (decide (v = w)) as [->|N].
    - exists z. rewrite (lk_eq _ _ _ _ Y). assert (y = x) by congruence. subst y. destruct E as [E|(-> & -> & ->)]; [congruence|]. repeat split; assumption.
    - exists x. rewrite list_lookup_insert_ne by congruence. repeat split; assumption. }
  destruct a; cbn in H.
  - destruct (find p (live s)); [discriminate|]. injection H as <-. exists x. cbn. split; [apply lookup_app_l_Some; exact X|]. repeat split; assumption.
  - destruct (find p (live s)) as [v|]; [|discriminate]. destruct (ws s !! v) as [y|] eqn:Y; [|discriminate]. injection H as <-. eapply U; eauto.
  - destruct (ws s !! w0) as [y|] eqn:Y; [|discriminate]. case_decide; [|discriminate]. injection H as <-. eapply U; eauto.
  - destruct (ws s !! w0) as [y|] eqn:Y; [|discriminate]. case_decide; [|discriminate]. injection H as <-. eapply U; eauto.
  - destruct (N3 l). reflexivity.
  - destruct N1. reflexivity.
  - destruct N2. reflexivity.
  - destruct (ws s !! w0) as [y|] eqn:Y; [|discriminate]. destruct (q y); [discriminate|]. destruct (cur y) eqn:Cy; [|discriminate]. case_decide; [|discriminate]. injection H as <-.
    eapply U; eauto; left; congruence.
  - destruct (ws s !! w0) as [y|] eqn:Y; [|discriminate]. destruct (cur y) eqn:Cy; [discriminate|]. case_decide; [|discriminate]. injection H as <-. eapply U; eauto.
    left. intros ->. assert (y = x) by congruence. subst. lia.
  - destruct (ws s !! w0) as [y|] eqn:Y; [|discriminate]. destruct (ev y); [discriminate|]. destruct (busy y) eqn:By; [discriminate|]. injection H as <-. eapply U; eauto.
    left. intros ->. congruence.
  - destruct (ws s !! w0) as [y|] eqn:Y; [|discriminate]. destruct (busy y); [|discriminate]. injection H as <-. eapply U; eauto; left; congruence.
Qed.
Lemma jammed_run cap w acts : forall s s', jammed cap s w -> Return w ∉ acts -> run cap s acts = Some s' ->
  jammed cap s' w /\ (forall l, Poll l ∉ acts) /\
  forall v x, ws s' !! v = Some x -> (ws s !! v = None /\ work x = 0) \/ (exists y, ws s !! v = Some y /\ part x = part y /\ work x <= work y).
Proof.
  induction acts as [|a l IH]; intros s s' J N H; cbn [run] in H.
  { injection H as <-. split; [exact J|]. split; [intros l X; inversion X|]. intros v x X. right. exists x. repeat split; [exact X|lia]. }
  destruct (step cap s a) as [s1|] eqn:E; [|discriminate]. apply not_elem_of_cons in N as [N N'].
  destruct (jammed_step cap s w a s1 J (fun X => N (eq_sym X)) E) as (J1 & Na & _ & Np). destruct (IH _ _ J1 N' H) as (J2 & P2 & W2). split; [exact J2|].
  split. { intros l0 X. apply elem_of_cons in X as [X|X]; [exact (Np l0 (eq_sym X))|exact (P2 _ X)]. }
  intros v x X. destruct (W2 _ _ X) as [(X1 & X2)|(y & Y & Yp & Yw)].
  - left. split; [|exact X2]. destruct (ws s !! v) eqn:V; [|reflexivity]. destruct (stage_part _ _ _ _ _ _ E V) as (? & ? & _). congruence.
  - destruct (work_step _ _ _ _ _ _ Na E Y) as [(Z1 & Z2)|(z & Z & Zp & Zw)]; [left; split; [exact Z1|lia]|right]. exists z. split; [exact Z|]. split; [congruence|lia].
Qed.

(** ** Otherwise the poll loop goes on *)

(** The steps of the workers and of the loop itself, without a new poll or a rebalance *)
Definition inner (a : action) : Prop := match a with Receive | Add | Take _ | Push _ | Handle _ | Return _ => True | _ => False end.
Definition load (x : worker) : nat := sum_list ((fun n => 3 * n + 1) <$> q x) + 3 * cur x + 2 * ev x + (if busy x then 1 else 0).
Fixpoint loads (l : list worker) : nat := match l with [] => 0 | x :: l' => load x + loads l' end.
Definition left (s : st) : nat :=
  sum_list ((fun x : nat * nat => 3 * snd x + 3) <$> rest s) + match adding s with Some (_, n) => 3 * n + 2 | None => 0 end + loads (ws s).
#[local] Arguments load : simpl never.
Lemma sum_upd (l : list worker) w x y : l !! w = Some x -> loads (<[w := y]> l) + load x = loads l + load y.
Proof. revert w. induction l as [|a l IH]; intros [|w] H; try discriminate. { cbn in H. injection H as ->. cbn. lia. } change (l !! w = Some x) in H. specialize (IH _ H).
  change (load a + loads (<[w := y]> l) + load x = load a + loads l + load y). lia. Qed.
Lemma left_step cap s a s' : inner a -> step cap s a = Some s' -> left s' < left s.
Proof.
  intros Ia H. unfold left. destruct a; try destruct Ia; cbn in H.
  - destruct (rest s) as [|[p n] l] eqn:Er; [discriminate|]. destruct (adding s) eqn:Ea; [discriminate|].
    destruct (find p (live s)); [destruct n|]; injection H as <-; cbn; lia.
  - destruct (adding s) as [[w n]|] eqn:Ea; [|discriminate]. destruct (ws s !! w) as [x|] eqn:X; [|discriminate]. case_decide; [|discriminate]. injection H as <-. cbn [rest adding ws].
    pose proof (sum_upd _ _ _ (mkW (part x) (stg x) (revoked x) (q x ++ [n]) (cur x) (ev x) (busy x) (handled x)) X) as S. unfold load in S. cbn in S.
    rewrite fmap_app in S. assert (Sa : forall l1 l2 : list nat, sum_list (l1 ++ l2) = sum_list l1 + sum_list l2) by (induction l1; cbn; intros; [reflexivity|rewrite IHl1; lia]).
    rewrite Sa in S. cbn in S. lia.
  - destruct (ws s !! w) as [x|] eqn:X; [|discriminate]. destruct (q x) as [|n l] eqn:Q; [discriminate|]. destruct (cur x) eqn:Cx; [|discriminate]. case_decide; [|discriminate]. injection H as <-. cbn [rest adding ws].
    pose proof (sum_upd _ _ _ (mkW (part x) (stg x) (revoked x) l (if revoked x then 0 else n) (ev x) (busy x) (handled x)) X) as S. unfold load in S. cbn in S. rewrite Q, Cx in S. cbn in S.
    cbn. destruct (revoked x); lia.
  - destruct (ws s !! w) as [x|] eqn:X; [|discriminate]. destruct (cur x) as [|c] eqn:Cx; [discriminate|]. case_decide; [|discriminate]. injection H as <-. cbn [rest adding ws].
    pose proof (sum_upd _ _ _ (mkW (part x) (stg x) (revoked x) (q x) c (Datatypes.S (ev x)) (busy x) (handled x)) X) as S. unfold load in S. cbn in S. rewrite Cx in S. cbn. lia.
  - destruct (ws s !! w) as [x|] eqn:X; [|discriminate]. destruct (ev x) as [|e] eqn:Ex; [discriminate|]. destruct (busy x) eqn:Bx; [discriminate|]. injection H as <-. cbn [rest adding ws].
    pose proof (sum_upd _ _ _ (mkW (part x) (stg x) (revoked x) (q x) (cur x) e true (Datatypes.S (handled x))) X) as S. unfold load in S. cbn in S. rewrite Ex, Bx in S. cbn. lia.
  - destruct (ws s !! w) as [x|] eqn:X; [|discriminate]. destruct (busy x) eqn:Bx; [|discriminate]. injection H as <-. cbn [rest adding ws].
    pose proof (sum_upd _ _ _ (mkW (part x) (stg x) (revoked x) (q x) (cur x) (ev x) false (handled x)) X) as S. unfold load in S. cbn in S. rewrite Bx in S. cbn. lia.
Qed.
Lemma left_run cap acts : forall s s', Forall inner acts -> run cap s acts = Some s' -> length acts + left s' <= left s.
Proof.
  induction acts as [|a l IH]; intros s s' F H; cbn [run] in H. { injection H as <-. cbn. lia. }
  destruct (step cap s a) as [s1|] eqn:E; [|discriminate]. inversion F; subst. pose proof (left_step _ _ _ _ H2 E). specialize (IH _ _ H3 H). cbn. lia.
Qed.
Lemma inner_done cap s : 1 <= cap -> inv s -> (forall a, inner a -> step cap s a = None) ->
  (forall w x, ws s !! w = Some x -> stg x = Running \/ (length (q x) < inputCap)) ->
  rest s = [] /\ adding s = None /\ forall w x, ws s !! w = Some x -> stg x = Running -> q x = [] /\ cur x = 0 /\ ev x = 0 /\ busy x = false.
Proof.
  intros Hc I D W.
  assert (Idle : forall w x, ws s !! w = Some x -> busy x = false /\ ev x = 0 /\ cur x = 0 /\ (stg x = Running -> q x = [])).
  { intros w x X. assert (B : busy x = false). { specialize (D (Return w) Logic.I). cbn in D. rewrite X in D. destruct (busy x); [discriminate|reflexivity]. }
    assert (E : ev x = 0). { specialize (D (Handle w) Logic.I). cbn in D. rewrite X, B in D. destruct (ev x); [reflexivity|discriminate]. }
    assert (K : cur x = 0). { specialize (D (Push w) Logic.I). cbn in D. rewrite X, E in D. destruct (cur x); [reflexivity|]. case_decide; [discriminate|lia]. }
    repeat split; try assumption. intros R. specialize (D (Take w) Logic.I). cbn in D. rewrite X, K in D. destruct (q x); [reflexivity|]. case_decide; [discriminate|congruence]. }
  assert (Ad : adding s = None).
  { destruct (adding s) as [[w n]|] eqn:Ea; [|reflexivity]. destruct (i_add _ I _ _ Ea) as (x & X). specialize (D Add Logic.I). cbn in D. rewrite Ea, X in D.
    case_decide as L; [discriminate|]. destruct (W _ _ X) as [R|R]; [|lia]. destruct (Idle _ _ X) as (_ & _ & _ & Q). rewrite (Q R) in L. unfold inputCap in L. cbn in L. lia. }
  split; [|split; [exact Ad|]].
  - destruct (rest s) as [|[p n] l] eqn:Er; [reflexivity|]. specialize (D Receive Logic.I). cbn in D. rewrite Er, Ad in D. destruct (find p (live s)); [destruct n|]; discriminate.
  - intros w x X R. destruct (Idle _ _ X) as (A & B & C & Q). repeat split; auto.
Qed.

(** ** Nothing is lost (C98) *)
(** The records of [p] in a list of batches, and in all polls *)
Fixpoint lens (p : nat) (l : list (nat * nat)) : nat := match l with [] => 0 | (p', n) :: l' => (if Nat.eqb p' p then n else 0) + lens p l' end.
Fixpoint fetched (p : nat) (acts : list action) : nat := match acts with [] => 0 | a :: l => match a with Poll b => lens p b | _ => 0 end + fetched p l end.
Fixpoint sum (l : list nat) : nat := match l with [] => 0 | n :: l' => n + sum l' end.
Lemma sum_app l1 l2 : sum (l1 ++ l2) = sum l1 + sum l2.
Proof. induction l1 as [|a l IH]; [reflexivity|]. cbn. rewrite IH. lia. Qed.
Definition has (x : worker) : nat := handled x + ev x + cur x + sum (q x).
Definition hand (w : nat) (s : st) : nat := match adding s with Some (v, n) => if Nat.eqb v w then n else 0 | None => 0 end.
Definition total (p w : nat) (s : st) : nat := match ws s !! w with Some x => has x | None => 0 end + hand w s + lens p (rest s).
Lemma total_step cap p w s a s' : inv s -> find p (live s) = Some w -> a <> Revoke p -> step cap s a = Some s' ->
  find p (live s') = Some w /\ total p w s' = total p w s + fetched p [a].
Proof.
  intros I F Na H. pose proof I as [L A R C]. destruct (L _ _ F) as (y & Y & Yp & Yr).
  assert (U : forall v x z lv pa re ad, ws s !! v = Some x -> ad = adding s -> re = rest s -> (v = w -> has z = has x) ->
              total p w (mkSt (<[v := z]> (ws s)) lv pa re ad) = total p w s + 0).
  { intros v x z lv pa re ad X -> -> Lq. unfold total, hand. cbn. rewrite Y. destruct (decide (v = w)) as [->|N].
    - rewrite (lk_eq _ _ _ _ X). assert (x = y) by congruence. subst. rewrite Lq by reflexivity. lia.
    - rewrite list_lookup_insert_ne, Y by congruence. lia. }
  destruct a; cbn in H; cbn [fetched].
  - destruct (find p0 (live s)) eqn:F0; [discriminate|]. injection H as <-. cbn. split.
    + rewrite find_cons. cbn. destruct (Nat.eqb_spec p0 p) as [->|]; [congruence|exact F].
    + unfold total, hand. cbn. rewrite (lookup_app_l_Some _ _ _ _ Y), Y. lia.
  - destruct (find p0 (live s)) as [w0|] eqn:F0; [|discriminate]. destruct (L _ _ F0) as (x & X & Xp & _). rewrite X in H. injection H as <-. cbn. split.
    + rewrite find_drop. destruct (Nat.eqb_spec p p0) as [->|]; [destruct Na; reflexivity|exact F].
    + eapply U; eauto.
  - destruct (ws s !! w0) as [x|] eqn:X; [|discriminate]. case_decide; [|discriminate]. injection H as <-. split; [exact F|]. eapply U; eauto.
  - destruct (ws s !! w0) as [x|] eqn:X; [|discriminate]. case_decide; [|discriminate]. injection H as <-. split; [exact F|]. eapply U; eauto.
  - destruct (rest s) eqn:Er; [|discriminate]. destruct (adding s) eqn:Ea; [discriminate|]. case_decide as D; [|discriminate]. injection H as <-. split; [exact F|].
    unfold total, hand. cbn [ws live rest adding lens]. rewrite Y, Er, Ea. cbn. lia.
  - destruct (rest s) as [|[p0 n] l] eqn:Er; [discriminate|]. destruct (adding s) eqn:Ea; [discriminate|].
    assert (E : find p0 (live s) = Some w -> p0 = p). { intros F0. destruct (L _ _ F0) as (x & X & Xp & _). congruence. }
    destruct (find p0 (live s)) as [w0|] eqn:F0; [destruct n|]; injection H as <-; (split; [exact F|]); unfold total, hand; cbn [ws live rest adding lens]; rewrite Y, Er, Ea; cbn [lens].
    + destruct (Nat.eqb p0 p); lia.
    + destruct (Nat.eqb_spec w0 w) as [->|N]; [rewrite (E eq_refl), Nat.eqb_refl; lia|]. destruct (Nat.eqb_spec p0 p) as [->|]; [congruence|lia].
    + destruct (Nat.eqb_spec p0 p) as [->|]; [congruence|lia].
  - destruct (adding s) as [[w0 n]|] eqn:Ea; [|discriminate]. destruct (ws s !! w0) as [x|] eqn:X; [|discriminate]. case_decide as D; [|discriminate]. injection H as <-.
    split; [exact F|]. unfold total, hand. cbn [ws live rest adding]. rewrite Y, Ea. destruct (Nat.eqb_spec w0 w) as [->|N].
    + rewrite (lk_eq _ _ _ _ X). unfold has. cbn. rewrite sum_app. cbn. assert (x = y) by congruence. subst. lia.
    + rewrite list_lookup_insert_ne, Y by congruence. lia.
  - destruct (ws s !! w0) as [x|] eqn:X; [|discriminate]. destruct (q x) as [|n l] eqn:Q; [discriminate|]. destruct (cur x) eqn:Cu; [|discriminate]. case_decide; [|discriminate]. injection H as <-.
    split; [exact F|]. eapply U; eauto. intros ->. assert (x = y) by congruence. subst. rewrite Yr. unfold has. cbn. rewrite Q, Cu. cbn. lia.
  - destruct (ws s !! w0) as [x|] eqn:X; [|discriminate]. destruct (cur x) eqn:Q; [discriminate|]. case_decide; [|discriminate]. injection H as <-.
    split; [exact F|]. eapply U; eauto. intros _. unfold has. cbn. rewrite Q. lia.
  - destruct (ws s !! w0) as [x|] eqn:X; [|discriminate]. destruct (ev x) eqn:Q; [discriminate|]. destruct (busy x); [discriminate|]. injection H as <-.
    split; [exact F|]. eapply U; eauto. intros _. unfold has. cbn. rewrite Q. lia.
  - destruct (ws s !! w0) as [x|] eqn:X; [|discriminate]. destruct (busy x); [|discriminate]. injection H as <-.
    split; [exact F|]. eapply U; eauto.
Qed.
Lemma total_run cap p w acts : forall s s', inv s -> find p (live s) = Some w -> Revoke p ∉ acts -> run cap s acts = Some s' ->
  find p (live s') = Some w /\ total p w s' = total p w s + fetched p acts.
Proof.
  induction acts as [|a l IH]; intros s s' I F N H; cbn [run] in H. { injection H as <-. split; [exact F|]. cbn. lia. }
  destruct (step cap s a) as [s1|] eqn:E; [|discriminate]. apply not_elem_of_cons in N as [N1 N2].
  destruct (total_step cap p w s a s1 I F (fun X => N1 (eq_sym X)) E) as [F1 B1].
  destruct (IH _ _ (inv_step _ _ _ _ I E) F1 N2 H) as [F2 B2]. split; [exact F2|]. cbn [fetched] in *. lia.
Qed.
(** All records of [p] that polls returned after the assignment, or that waited in the poll loop then, have reached the handler or are on their way *)
Lemma nothing_lost cap l1 s0 p s1 l2 s : run cap init l1 = Some s0 -> step cap s0 (Assign p) = Some s1 -> run cap s1 l2 = Some s -> Revoke p ∉ l2 ->
  exists x, ws s !! length (ws s0) = Some x /\ part x = p /\ total p (length (ws s0)) s = lens p (rest s0) + fetched p l2.
Proof.
  intros R1 S R2 N. assert (I0 := inv_run _ _ _ _ init_inv R1). assert (I1 := inv_step _ _ _ _ I0 S). assert (I2 := inv_run _ _ _ _ I1 R2).
  cbn in S. destruct (find p (live s0)) eqn:F; [discriminate|]. injection S as <-.
  destruct (total_run cap p (length (ws s0)) l2 _ s I1) as [F' B]; [cbn; rewrite find_cons; cbn; rewrite Nat.eqb_refl; reflexivity|exact N|exact R2|].
  destruct (i_live _ I2 _ _ F') as (x & X1 & X2 & _). exists x. split; [exact X1|]. split; [exact X2|]. rewrite B. unfold total at 1, hand. cbn [ws adding rest].
  rewrite lookup_app_r, Nat.sub_diag by lia. cbn. destruct (adding s0) as [[v m]|] eqn:Ea; [|lia].
  destruct (Nat.eqb_spec v (length (ws s0))) as [->|]; [|lia]. destruct (i_add _ I0 _ _ Ea) as (z & Z). apply lookup_lt_Some in Z. lia.
Qed.

(** which partitions have a worker, told by the calls *)
Fixpoint holds (p : nat) (h : bool) (acts : list action) : bool :=
  match acts with
  | [] => h
  | Assign p' :: l => holds p (if Nat.eqb p' p then true else h) l
  | Revoke p' :: l => holds p (if Nat.eqb p' p then false else h) l
  | _ :: l => holds p h l
  end.
Definition isSome {A} (x : option A) : bool := match x with Some _ => true | None => false end.
Lemma find_drop_some p p' l : isSome (find p (drop p' l)) = if Nat.eqb p' p then false else isSome (find p l).
Proof. rewrite find_drop, Nat.eqb_sym. destruct (Nat.eqb p' p); reflexivity. Qed.
Lemma holds_step cap s a s' p : step cap s a = Some s' -> isSome (find p (live s')) = holds p (isSome (find p (live s))) [a].
Proof.
  intros E. destruct a as [p'|p'|w|w|l| | |w|w|w|w]; cbn [step holds] in *.
  - destruct (find p' (live s)) eqn:F; [discriminate|]. injection E as <-. cbn [live]. unfold find at 1. cbn. destruct (Nat.eqb p' p); reflexivity.
  - destruct (find p' (live s)) as [w|] eqn:F; [|discriminate]. destruct (ws s !! w); [|discriminate]. injection E as <-. cbn [live]. apply find_drop_some.
  - destruct (ws s !! w); [|discriminate]. case_decide; [|discriminate]. injection E as <-. reflexivity.
  - destruct (ws s !! w); [|discriminate]. case_decide; [|discriminate]. injection E as <-. reflexivity.
  - destruct (rest s), (adding s); try discriminate. case_decide; [|discriminate]. injection E as <-. reflexivity.
  - destruct (rest s) as [|[p' n] r], (adding s); try discriminate. destruct (find p' (live s)), n; injection E as <-; reflexivity.
  - destruct (adding s) as [[w n]|]; [|discriminate]. destruct (ws s !! w); [|discriminate]. case_decide; [|discriminate]. injection E as <-. reflexivity.
  - destruct (ws s !! w) as [x|]; [|discriminate]. destruct (q x), (cur x); try discriminate. case_decide; [|discriminate]. injection E as <-. reflexivity.
  - destruct (ws s !! w) as [x|]; [|discriminate]. destruct (cur x); try discriminate. case_decide; [|discriminate]. injection E as <-. reflexivity.
  - destruct (ws s !! w) as [x|]; [|discriminate]. destruct (ev x), (busy x); try discriminate. injection E as <-. reflexivity.
  - destruct (ws s !! w) as [x|]; [|discriminate]. destruct (busy x); try discriminate. injection E as <-. reflexivity.
Qed.
Lemma holds_run cap p acts : forall s s', run cap s acts = Some s' -> isSome (find p (live s')) = holds p (isSome (find p (live s))) acts.
Proof.
  induction acts as [|a acts IH]; intros s s' R; cbn [run] in R; [injection R as <-; reflexivity|].
  destruct (step cap s a) as [s1|] eqn:E; [|discriminate]. rewrite (IH _ _ R), (holds_step _ _ _ _ p E). destruct a; reflexivity.
Qed.
