From Coq Require Import ZArith List Bool Arith Lia FinFun.
From Verif.DList Require Import Model Spec.
Import ListNotations.

Lemma ptr_eqb_spec a b : reflect (a = b) (ptr_eqb a b).
Proof.
  destruct a as [x|x], b as [y|y]; cbn; try (constructor; discriminate).
  - destruct (Nat.eqb_spec x y); constructor; congruence.
  - destruct (Nat.eqb_spec x y); constructor; congruence.
Qed.
Lemma ptr_eqb_refl a : ptr_eqb a a = true.
Proof. destruct (ptr_eqb_spec a a); congruence. Qed.
Lemma ptr_eqb_neq a b : a <> b -> ptr_eqb a b = false.
Proof. destruct (ptr_eqb_spec a b); congruence. Qed.

Lemma removelast_snoc {A} (c : list A) x : removelast (c ++ [x]) = c.
Proof. rewrite removelast_app by discriminate. cbn. apply app_nil_r. Qed.

Section P.
  Context {T : Type}.
  Notation mem := (mem T).
  Notation sstate := (sstate T).

  Fixpoint chain (nx pv : ptr -> option ptr) (c : list ptr) : Prop :=
    match c with
    | a :: ((b :: _) as c') => nx a = Some b /\ pv b = Some a /\ chain nx pv c'
    | _ => True
    end.

  Lemma chain_cons2 nx pv a b c : chain nx pv (a :: b :: c) <-> nx a = Some b /\ pv b = Some a /\ chain nx pv (b :: c).
  Proof. reflexivity. Qed.

  Lemma chain_app nx pv c1 x c2 : chain nx pv (c1 ++ x :: c2) <-> chain nx pv (c1 ++ [x]) /\ chain nx pv (x :: c2).
  Proof.
    induction c1 as [|a c1 IH]; cbn [app].
    - cbn. tauto.
    - destruct c1 as [|b c1]; cbn [app] in *; rewrite !chain_cons2; [cbn; tauto|]. rewrite IH. tauto.
  Qed.

  Lemma chain_frame nx pv nx' pv' c : chain nx pv c ->
    (forall p, In p (removelast c) -> nx' p = nx p) -> (forall p, In p (tl c) -> pv' p = pv p) -> chain nx' pv' c.
  Proof.
    induction c as [|a c IH]; auto. destruct c as [|b c]; auto. rewrite !chain_cons2. cbn [tl] in *.
    intros (A & B & C) Hn Hp. split; [rewrite Hn; cbn; auto|]. split; [rewrite Hp; cbn; auto|].
    apply IH; auto.
    - intros p H. apply Hn. cbn [removelast]. right. auto.
    - intros p H. apply Hp. right. destruct c; cbn in *; auto.
  Qed.

  Definition circ (l : nat) (s : list nat) : list ptr := Root l :: map El s ++ [Root l].
  Definition ring (m : mem) (l : nat) (s : list nat) : Prop := chain (nx m) (pv m) (circ l s).

  Lemma circ_src l s : removelast (circ l s) = Root l :: map El s.
  Proof. unfold circ. rewrite app_comm_cons, removelast_snoc. auto. Qed.
  Lemma circ_src_nodup l s : NoDup s -> NoDup (Root l :: map El s).
  Proof.
    intros H. constructor.
    - rewrite in_map_iff. intros (? & ? & _). discriminate.
    - apply FinFun.Injective_map_NoDup; auto. intros x y [=]; auto.
  Qed.
  Lemma circ_tgt_nodup l s : NoDup s -> NoDup (map El s ++ [Root l]).
  Proof.
    intros H. apply NoDup_Add with (a := Root l) (l := map El s).
    - rewrite <- (app_nil_r (map El s)) at 1. apply Add_app.
    - split; [|rewrite in_map_iff; intros (? & ? & _); discriminate].
      apply FinFun.Injective_map_NoDup; auto. intros x y [=]; auto.
  Qed.

  (** ** link and unlink *)
  Lemma link_eff (m : mem) e a n : a <> El e -> n <> El e -> nx m a = Some n ->
    exists m', link m e (Some a) = Some m' /\
      (forall p, nx m' p = if ptr_eqb p a then Some (El e) else if ptr_eqb p (El e) then Some n else nx m p) /\
      (forall p, pv m' p = if ptr_eqb p n then Some (El e) else if ptr_eqb p (El e) then Some a else pv m p) /\
      own m' = own m /\ val m' = val m /\ len m' = len m /\ fresh m' = fresh m.
  Proof.
    intros Ha Hn N. unfold link. cbn [setp setn nx pv own val len fresh]. unfold fupd at 1. rewrite ptr_eqb_refl.
    unfold fupd at 1. rewrite (ptr_eqb_neq (El e) a) by congruence. unfold fupd at 1. rewrite ptr_eqb_refl. rewrite N.
    eexists. split; [reflexivity|]. cbn. repeat split; auto.
  Qed.

  Lemma unlink_eff (m : mem) e a n : a <> El e -> n <> El e -> pv m (El e) = Some a -> nx m (El e) = Some n ->
    exists m', unlink m e = Some m' /\
      (forall p, nx m' p = if ptr_eqb p a then Some n else nx m p) /\
      (forall p, pv m' p = if ptr_eqb p n then Some a else pv m p) /\
      own m' = own m /\ val m' = val m /\ len m' = len m /\ fresh m' = fresh m.
  Proof.
    intros Ha Hn P N. unfold unlink. rewrite P. cbn [setp setn nx pv own val len fresh]. unfold fupd at 1.
    rewrite (ptr_eqb_neq (El e) a) by congruence. rewrite N.
    eexists. split; [reflexivity|]. cbn. rewrite P. repeat split; auto.
  Qed.

  (** positions in a circle *)
  Record spot (c1 : list ptr) (a n : ptr) (c2 : list ptr) : Prop := {
    sp_1 : ~ In a c1; sp_2 : ~ In a (removelast (n :: c2)); sp_3 : ~ In n (tl (c1 ++ [a])); sp_4 : ~ In n c2 }.
  Lemma spot_of l s c1 a n c2 : NoDup s -> circ l s = c1 ++ a :: n :: c2 -> spot c1 a n c2.
  Proof.
    intros ND E. pose proof (circ_src_nodup l s ND) as N1. pose proof (circ_tgt_nodup l s ND) as N2.
    rewrite <- circ_src, E in N1. rewrite removelast_app in N1 by discriminate.
    change (removelast (a :: n :: c2)) with (a :: removelast (n :: c2)) in N1.
    assert (E2 : map El s ++ [Root l] = tl (c1 ++ [a]) ++ n :: c2).
    { replace (map El s ++ [Root l]) with (tl (circ l s)) by auto. rewrite E.
      destruct c1 as [|x c1]; cbn; auto. rewrite <- app_assoc. auto. }
    rewrite E2 in N2. apply NoDup_remove_2 in N1 as H1. apply NoDup_remove_2 in N2 as H2.
    rewrite in_app_iff in H1, H2. split; tauto.
  Qed.

  Lemma chain_link (m m' : mem) e c1 a n c2 :
    chain (nx m) (pv m) (c1 ++ a :: n :: c2) -> spot c1 a n c2 -> ~ In (El e) (c1 ++ a :: n :: c2) ->
    (forall p, nx m' p = if ptr_eqb p a then Some (El e) else if ptr_eqb p (El e) then Some n else nx m p) ->
    (forall p, pv m' p = if ptr_eqb p n then Some (El e) else if ptr_eqb p (El e) then Some a else pv m p) ->
    chain (nx m') (pv m') (c1 ++ a :: El e :: n :: c2).
  Proof.
    intros C S Ne Hn Hp. rewrite chain_app in C. destruct C as (C1 & C2). rewrite chain_cons2 in C2. destruct C2 as (_ & _ & C2).
    assert (Na : a <> El e) by (intros ->; apply Ne, in_or_app; cbn; auto).
    assert (Nn : n <> El e) by (intros ->; apply Ne, in_or_app; cbn; auto).
    rewrite chain_app. split.
    - eapply chain_frame; [exact C1| |].
      + rewrite removelast_snoc. intros p Hin. rewrite Hn. rewrite !ptr_eqb_neq; auto.
        * intros ->. apply Ne, in_or_app. auto.
        * intros ->. apply (sp_1 _ _ _ _ S); auto.
      + intros p Hin. rewrite Hp. rewrite !ptr_eqb_neq; auto.
        * intros ->. apply Ne. rewrite in_app_iff. destruct c1 as [|x c1]; [destruct Hin|]. cbn in Hin.
          apply in_app_or in Hin as [H|[H|[]]]; cbn; auto.
        * intros ->. apply (sp_3 _ _ _ _ S); auto.
    - rewrite !chain_cons2. rewrite Hn, ptr_eqb_refl. split; auto. rewrite Hp, ptr_eqb_refl. rewrite (ptr_eqb_neq (El e) n) by congruence.
      split; auto. rewrite Hn. rewrite (ptr_eqb_neq (El e) a) by congruence. rewrite ptr_eqb_refl. split; auto.
      rewrite Hp, ptr_eqb_refl. split; auto.
      eapply chain_frame; [exact C2| |].
      + intros p Hin. rewrite Hn. rewrite !ptr_eqb_neq; auto.
        * intros ->. apply Ne. rewrite in_app_iff. right. right. change (In (El e) (n :: c2)).
          destruct c2 as [|y c2] using rev_ind; [destruct Hin|]. rewrite app_comm_cons, removelast_snoc in Hin.
          destruct Hin as [H|H]; [left; auto|right; apply in_or_app; auto].
        * intros ->. apply (sp_2 _ _ _ _ S); auto.
      + cbn [tl]. intros p Hin. rewrite Hp. rewrite !ptr_eqb_neq; auto.
        * intros ->. apply Ne, in_or_app. cbn. auto.
        * intros ->. apply (sp_4 _ _ _ _ S); auto.
  Qed.

  Lemma chain_unlink (m m' : mem) e c1 a n c2 :
    chain (nx m) (pv m) (c1 ++ a :: El e :: n :: c2) -> spot c1 a n c2 ->
    (forall p, nx m' p = if ptr_eqb p a then Some n else nx m p) ->
    (forall p, pv m' p = if ptr_eqb p n then Some a else pv m p) ->
    chain (nx m') (pv m') (c1 ++ a :: n :: c2).
  Proof.
    intros C S Hn Hp. rewrite chain_app in C. destruct C as (C1 & C2). rewrite !chain_cons2 in C2. destruct C2 as (_ & _ & _ & _ & C2).
    rewrite chain_app. split.
    - eapply chain_frame; [exact C1| |].
      + rewrite removelast_snoc. intros p Hin. rewrite Hn. rewrite ptr_eqb_neq; auto. intros ->. apply (sp_1 _ _ _ _ S); auto.
      + intros p Hin. rewrite Hp. rewrite ptr_eqb_neq; auto. intros ->. apply (sp_3 _ _ _ _ S); auto.
    - rewrite chain_cons2. rewrite Hn, ptr_eqb_refl. split; auto. rewrite Hp, ptr_eqb_refl. split; auto.
      eapply chain_frame; [exact C2| |].
      + intros p Hin. rewrite Hn. rewrite ptr_eqb_neq; auto. intros ->. apply (sp_2 _ _ _ _ S); auto.
      + cbn [tl]. intros p Hin. rewrite Hp. rewrite ptr_eqb_neq; auto. intros ->. apply (sp_4 _ _ _ _ S); auto.
  Qed.

  Lemma chain_at nx pv c1 a n c2 : chain nx pv (c1 ++ a :: n :: c2) -> nx a = Some n /\ pv n = Some a.
  Proof. rewrite chain_app, chain_cons2. tauto. Qed.

  (** ** The relation between store and sequences *)
  Record R (m : mem) (s : sstate) : Prop := {
    r_ring : forall l, (nx m (Root l) = None /\ pv m (Root l) = None /\ seq s l = []) \/ ring m l (seq s l);
    r_nodup : forall l, NoDup (seq s l);
    r_own : forall e l, own m e = Some l <-> In e (seq s l);
    r_len : forall l, len m l = Z.of_nat (length (seq s l));
    r_val : forall e, val m e = sval s e;
    r_fresh : fresh m = sfresh s;
    r_old : forall e l, In e (seq s l) -> e < sfresh s }.

  Lemma R_disjoint m s e l l' : R m s -> In e (seq s l) -> In e (seq s l') -> l = l'.
  Proof. intros H A B. apply (r_own _ _ H) in A, B. congruence. Qed.
  Lemma R_mem m s e l : R m s -> opt_eqb (own m e) l = mem_ e (seq s l).
  Proof.
    intros H. apply eq_true_iff_eq. unfold mem_. rewrite existsb_exists. split.
    - intros O. exists e. split; [|apply Nat.eqb_refl]. apply (r_own _ _ H). unfold opt_eqb in O.
      destruct (own m e); [|discriminate]. apply Nat.eqb_eq in O. congruence.
    - intros (x & Hx & E). apply Nat.eqb_eq in E as <-. apply (r_own _ _ H) in Hx. rewrite Hx. apply Nat.eqb_refl.
  Qed.
  Lemma mem_in e s : mem_ e s = true <-> In e s.
  Proof.
    unfold mem_. rewrite existsb_exists. split.
    - intros (x & H & E). apply Nat.eqb_eq in E as <-. auto.
    - intros H. exists e. split; auto. apply Nat.eqb_refl.
  Qed.

  (** a change confined to list [l] *)
  Lemma R_upd (m m' : mem) (s : sstate) l c sv fr :
    R m s -> ring m' l c -> NoDup c ->
    (forall l' p, l' <> l -> In p (circ l' (seq s l')) -> nx m' p = nx m p /\ pv m' p = pv m p) ->
    (forall e l', own m' e = Some l' <-> if Nat.eqb l' l then In e c else In e (seq s l')) ->
    (forall l', len m' l' = if Nat.eqb l' l then Z.of_nat (length c) else len m l') ->
    (forall e, val m' e = sv e) -> fresh m' = fr ->
    (forall e, In e c -> e < fr) -> sfresh s <= fr ->
    R m' (mkS (nupd (seq s) l c) sv fr).
  Proof.
    intros H Rg ND Fr Ow Le Va Fe Ol Mo. split; cbn [seq sval sfresh]; unfold nupd.
    - intros l'. destruct (Nat.eqb_spec l' l) as [->|N]; [right; auto|].
      assert (InR : In (Root l') (circ l' (seq s l'))) by (cbn; auto).
      destruct (r_ring _ _ H l') as [(A & B & C)|C].
      + left. destruct (Fr l' (Root l') N InR) as (-> & ->). auto.
      + right. eapply chain_frame; [exact C| |].
        * intros p Hp. apply (Fr l' p N). rewrite circ_src in Hp. unfold circ. destruct Hp as [<-|Hp]; cbn; auto.
          right. apply in_or_app. auto.
        * intros p Hp. apply (Fr l' p N). right. auto.
    - intros l'. destruct (Nat.eqb l' l); auto. apply H.
    - intros e l'. rewrite Ow. destruct (Nat.eqb l' l); tauto.
    - intros l'. rewrite Le. destruct (Nat.eqb l' l); auto. apply H.
    - auto.
    - auto.
    - intros e l'. destruct (Nat.eqb l' l); auto. intros Hin. pose proof (r_old _ _ H e l' Hin). lia.
  Qed.

  Lemma in_circ p l s : In p (circ l s) <-> p = Root l \/ exists e, p = El e /\ In e s.
  Proof.
    unfold circ. cbn. rewrite in_app_iff, in_map_iff. cbn. split.
    - intros [<-|[(e & <- & H)|[<-|[]]]]; eauto.
    - intros [->|(e & -> & H)]; eauto.
  Qed.

  (** circles of different lists are disjoint *)
  Lemma circ_disjoint m s l l' p : R m s -> l <> l' -> In p (circ l (seq s l)) -> ~ In p (circ l' (seq s l')).
  Proof.
    intros H N. rewrite !in_circ. intros [->|(e & -> & A)] [B|(e' & B & C)]; try congruence.
    injection B as <-. eapply N, R_disjoint; eauto.
  Qed.

  (** ** Insertion of a new element after a pointer of the circle *)
  Definition split_at (l : nat) (s s1 s2 : list nat) (a : ptr) : Prop :=
    s = s1 ++ s2 /\ a = match rev s1 with [] => Root l | x :: _ => El x end.

  Lemma split_circ l s s1 s2 a : split_at l s s1 s2 a ->
    exists c1 n c2, circ l s = c1 ++ a :: n :: c2 /\ (forall e, circ l (s1 ++ e :: s2) = c1 ++ a :: El e :: n :: c2) /\
      n = match s2 with [] => Root l | x :: _ => El x end.
  Proof.
    intros (-> & ->).
    assert (H2 : exists n c2, map El s2 ++ [Root l] = n :: c2 /\ n = match s2 with [] => Root l | x :: _ => El x end).
    { destruct s2; cbn; eauto. }
    destruct H2 as (n & c2 & E2 & En).
    destruct s1 as [|x s1] using rev_ind.
    - exists [], n, c2. cbn [rev app]. unfold circ. rewrite E2. split; auto. split; auto. intros e. cbn. rewrite E2. auto.
    - clear IHs1. rewrite rev_app_distr. cbn [rev app]. exists (Root l :: map El s1), n, c2.
      unfold circ. split; [|split; auto].
      + rewrite !map_app, <- !app_assoc. cbn. rewrite E2. auto.
      + intros e. rewrite !map_app, <- !app_assoc. cbn. rewrite E2. auto.
  Qed.

  Lemma insertValue_ok m s l v s1 s2 a : R m s -> ring m l (seq s l) -> split_at l (seq s l) s1 s2 a ->
    exists m', insertValue m l v (Some a) = Some (sfresh s, m') /\
               R m' (put (new s v) l (s1 ++ sfresh s :: s2)) /\ ring m' l (s1 ++ sfresh s :: s2).
  Proof.
    intros H Rg Sp. destruct (split_circ _ _ _ _ _ Sp) as (c1 & n & c2 & E1 & E2 & En). destruct Sp as (Es & Ea).
    set (e := sfresh s). unfold insertValue. rewrite (r_fresh _ _ H). fold e.
    set (m1 := mkMem _ _ _ _ _ _).
    assert (Ne : ~ In (El e) (circ l (seq s l))).
    { rewrite in_circ. intros [?|(x & [= <-] & Hx)]; [discriminate|]. apply (r_old _ _ H) in Hx. unfold e in Hx. lia. }
    assert (C : chain (nx m1) (pv m1) (c1 ++ a :: n :: c2)).
    { rewrite <- E1. eapply chain_frame; [exact Rg| |]; intros p Hp; cbn; unfold fupd; rewrite ptr_eqb_neq; auto; intros ->;
        apply Ne; [rewrite circ_src in Hp|]; unfold circ; cbn; auto.
      destruct Hp as [?|Hp]; auto. right. apply in_or_app. auto. }
    rewrite E1 in Ne.
    destruct (chain_at _ _ _ _ _ _ C) as (A & _).
    assert (Na : a <> El e) by (intros ->; apply Ne, in_or_app; cbn; auto).
    assert (Nn : n <> El e) by (intros ->; apply Ne, in_or_app; cbn; auto).
    unfold insert. destruct (link_eff m1 e a n Na Nn A) as (m2 & -> & Hn & Hp & Ho & Hv & Hl & Hf).
    pose proof (spot_of l (seq s l) _ _ _ _ (r_nodup _ _ H l) E1) as St.
    pose proof (chain_link m1 m2 e c1 a n c2 C St Ne Hn Hp) as C2. rewrite <- E2 in C2.
    eexists. split; [reflexivity|]. split; [|exact C2].
    assert (Nin : ~ In e (s1 ++ s2)).
    { rewrite <- Es. intros Hx. apply (r_old _ _ H) in Hx. unfold e in Hx. lia. }
    unfold put, new. cbn [seq sval sfresh]. eapply R_upd; try exact H; auto.
    - apply NoDup_Add with (a := e) (l := s1 ++ s2); [apply Add_app|]. split; auto. rewrite <- Es. apply H.
    - intros l' p Nl Hin. cbn [setl seto nx pv]. rewrite Hn, Hp.
      assert (Hna : ~ In p (circ l (seq s l))) by (eapply circ_disjoint; eauto).
      rewrite E1, in_app_iff in Hna. cbn in Hna.
      assert (p <> El e).
      { intros ->. rewrite in_circ in Hin. destruct Hin as [?|(x & [= <-] & Hx)]; [discriminate|].
        apply (r_old _ _ H) in Hx. unfold e in Hx. lia. }
      rewrite !ptr_eqb_neq by (auto; intros ->; apply Hna; auto). cbn. unfold fupd. rewrite ptr_eqb_neq by auto. auto.
    - intros x l'. cbn [setl seto own]. unfold nupd. rewrite Ho. cbn [m1 own]. unfold nupd.
      destruct (Nat.eqb_spec x e) as [->|Nx].
      + destruct (Nat.eqb_spec l' l) as [->|Nl].
        * rewrite in_app_iff. cbn. tauto.
        * split; [congruence|]. intros Hx. apply (r_old _ _ H) in Hx. unfold e in Hx. lia.
      + rewrite (r_own _ _ H). destruct (Nat.eqb_spec l' l) as [->|Nl]; [|tauto]. rewrite Es, !in_app_iff. cbn. intuition congruence.
    - intros l'. cbn [setl seto len]. unfold nupd. rewrite Hl. cbn [m1 len]. destruct (Nat.eqb l' l); auto.
      rewrite (r_len _ _ H), Es, !app_length. cbn. lia.
    - intros x. cbn [setl seto val]. rewrite Hv. cbn. unfold nupd. rewrite (r_val _ _ H). auto.
    - intros x Hx. apply in_app_or in Hx as [Hx|[<-|Hx]]; [|unfold e; lia|];
        assert (Hin : In x (seq s l)) by (rewrite Es; apply in_or_app; auto); apply (r_old _ _ H) in Hin; lia.
  Qed.

  (** ** Unlinking an element of the list *)
  Lemma in_split_nodup (e : nat) s : In e s -> NoDup s -> exists s1 s2, s = s1 ++ e :: s2 /\ ~ In e s1 /\ ~ In e s2 /\ without e s = s1 ++ s2.
  Proof.
    intros Hin ND. apply in_split in Hin as (s1 & s2 & ->). exists s1, s2. apply NoDup_remove_2 in ND as Ni.
    rewrite in_app_iff in Ni. split; auto. split; [tauto|]. split; [tauto|].
    assert (F : forall c, ~ In e c -> without e c = c).
    { induction c as [|x c IH]; cbn; auto. intros N. destruct (Nat.eqb_spec x e); [subst; tauto|]. cbn. f_equal. auto. }
    unfold without in *. rewrite filter_app. cbn. rewrite Nat.eqb_refl. cbn. rewrite !F; tauto.
  Qed.

  Lemma unlink_ok m s l e s1 s2 : R m s -> ring m l (seq s l) -> seq s l = s1 ++ e :: s2 ->
    exists m', unlink m e = Some m' /\ ring m' l (s1 ++ s2) /\
      (forall l' p, l' <> l -> In p (circ l' (seq s l')) -> nx m' p = nx m p /\ pv m' p = pv m p) /\
      own m' = own m /\ val m' = val m /\ len m' = len m /\ fresh m' = fresh m.
  Proof.
    intros H Rg Es.
    set (a := match rev s1 with [] => Root l | x :: _ => El x end).
    assert (Sp : split_at l (s1 ++ s2) s1 s2 a) by (split; auto).
    destruct (split_circ _ _ _ _ _ Sp) as (c1 & n & c2 & E1 & E2 & En).
    unfold ring in Rg. rewrite Es, E2 in Rg.
    destruct (chain_at _ _ _ _ _ _ Rg) as (_ & P).
    assert (N : nx m (El e) = Some n).
    { replace (c1 ++ a :: El e :: n :: c2) with ((c1 ++ [a]) ++ El e :: n :: c2) in Rg by (rewrite <- app_assoc; auto).
      apply chain_at in Rg. tauto. }
    assert (ND : NoDup (s1 ++ s2) /\ ~ In e (s1 ++ s2)).
    { pose proof (r_nodup _ _ H l) as ND. rewrite Es in ND. split; [eapply NoDup_remove_1; eauto|eapply NoDup_remove_2; eauto]. }
    destruct ND as (ND & Ni).
    assert (Ne : ~ In (El e) (circ l (s1 ++ s2))).
    { rewrite in_circ. intros [?|(x & [= <-] & Hx)]; [discriminate|auto]. }
    assert (Na : a <> El e) by (intros Q; apply Ne; rewrite E1; apply in_or_app; right; left; auto).
    assert (Nn : n <> El e) by (intros Q; apply Ne; rewrite E1; apply in_or_app; right; right; left; auto).
    destruct (unlink_eff m e a n Na Nn P N) as (m2 & -> & Hn & Hp & Ho & Hv & Hl & Hf).
    exists m2. split; auto. split; [|split; [|auto]].
    - unfold ring. rewrite E1. eapply chain_unlink; eauto. eapply spot_of; eauto.
    - intros l' p Nl Hin. rewrite Hn, Hp. assert (Hna : ~ In p (circ l (seq s l))) by (eapply circ_disjoint; eauto).
      rewrite Es, E2, in_app_iff in Hna. cbn in Hna. rewrite !ptr_eqb_neq by (intros ->; apply Hna; auto). auto.
  Qed.

  Lemma ring_frame (m m' : mem) l s :
    ring m l s -> (forall p, In p (circ l s) -> nx m' p = nx m p /\ pv m' p = pv m p) -> ring m' l s.
  Proof.
    intros C F. eapply chain_frame; [exact C| |]; intros p Hp; apply F.
    - rewrite circ_src in Hp. unfold circ. destruct Hp as [<-|Hp]; cbn; auto. right. apply in_or_app. auto.
    - right. auto.
  Qed.

  Lemma ring_of m s l e : R m s -> In e (seq s l) -> ring m l (seq s l).
  Proof. intros H Hin. destruct (r_ring _ _ H l) as [(_ & _ & E)|]; auto. rewrite E in Hin. destruct Hin. Qed.

  Lemma sseq_eta (s : sstate) l c : put s l c = mkS (nupd (seq s) l c) (sval s) (sfresh s).
  Proof. auto. Qed.

  Lemma remove_ok m s l e : R m s -> In e (seq s l) ->
    exists m', remove m l e = Some m' /\ R m' (put s l (without e (seq s l))) /\ val m' = val m.
  Proof.
    intros H Hin. destruct (in_split_nodup e _ Hin (r_nodup _ _ H l)) as (s1 & s2 & Es & N1 & N2 & ->).
    pose proof (ring_of _ _ _ _ H Hin) as Rg.
    destruct (unlink_ok m s l e s1 s2 H Rg Es) as (m2 & E & Rg2 & Fr & Ho & Hv & Hl & Hf).
    unfold remove. rewrite E. eexists. split; [reflexivity|]. split; [|cbn; auto].
    assert (Ni : forall l' p, In p (circ l' (if Nat.eqb l' l then s1 ++ s2 else seq s l')) -> p <> El e).
    { intros l0 p Hp ->. rewrite in_circ in Hp. destruct Hp as [?|(x & [= <-] & Hx)]; [discriminate|].
      destruct (Nat.eqb_spec l0 l) as [Q|Nl].
      - apply in_app_or in Hx. tauto.
      - apply Nl. eapply R_disjoint; eauto. }
    eapply R_upd; try exact H; auto.
    - eapply ring_frame; [exact Rg2|]. intros p Hp. cbn. unfold fupd.
      rewrite ptr_eqb_neq; auto. eapply (Ni l). rewrite Nat.eqb_refl. auto.
    - pose proof (r_nodup _ _ H l) as ND. rewrite Es in ND. eapply NoDup_remove_1; eauto.
    - intros l' p Nl Hp. cbn. unfold fupd. rewrite ptr_eqb_neq; [apply (Fr l'); auto|].
      eapply (Ni l'). destruct (Nat.eqb_spec l' l); [congruence|auto].
    - intros x l'. cbn. unfold nupd. rewrite Ho. destruct (Nat.eqb_spec x e) as [->|Nx].
      + split; [discriminate|]. destruct (Nat.eqb_spec l' l) as [->|Nl]; intros Hx.
        * apply in_app_or in Hx. tauto.
        * exfalso. apply Nl. eapply R_disjoint; eauto.
      + rewrite (r_own _ _ H). destruct (Nat.eqb_spec l' l) as [->|Nl]; [|tauto]. rewrite Es, !in_app_iff. cbn. intuition congruence.
    - intros l'. cbn. unfold nupd. rewrite Hl. destruct (Nat.eqb l' l); auto. rewrite (r_len _ _ H), Es, !app_length. cbn. lia.
    - intros x. cbn. rewrite Hv. apply H.
    - cbn. rewrite Hf. apply H.
    - intros x Hx. apply (r_old _ _ H x l). rewrite Es. apply in_app_or in Hx. apply in_or_app. cbn. tauto.
  Qed.

  (** [a] is where the element goes after it was taken out *)
  Lemma move_ok m s l e a t1 t2 : R m s -> In e (seq s l) -> a <> El e ->
    split_at l (without e (seq s l)) t1 t2 a ->
    exists m', move m e (Some a) = Some m' /\ R m' (put s l (t1 ++ e :: t2)).
  Proof.
    intros H Hin Na Sp. destruct (in_split_nodup e _ Hin (r_nodup _ _ H l)) as (s1 & s2 & Es & N1 & N2 & Ew).
    pose proof (ring_of _ _ _ _ H Hin) as Rg.
    destruct (unlink_ok m s l e s1 s2 H Rg Es) as (m2 & E & Rg2 & Fr & Ho & Hv & Hl & Hf).
    unfold move. cbn [popt_eqb]. rewrite (ptr_eqb_neq a (El e)) by auto. rewrite E.
    destruct (split_circ _ _ _ _ _ Sp) as (c1 & n & c2 & E1 & E2 & En). destruct Sp as (Et & Ea).
    rewrite Ew in *. unfold ring in Rg2. rewrite E1 in Rg2. destruct (chain_at _ _ _ _ _ _ Rg2) as (A & _).
    assert (Ni : ~ In (El e) (circ l (s1 ++ s2))).
    { rewrite in_circ. intros [?|(x & [= <-] & Hx)]; [discriminate|]. apply in_app_or in Hx. tauto. }
    rewrite E1 in Ni. assert (Nn : n <> El e) by (intros Q; apply Ni; rewrite Q; apply in_or_app; cbn; auto).
    destruct (link_eff m2 e a n Na Nn A) as (m3 & -> & Hn & Hp & Ho3 & Hv3 & Hl3 & Hf3).
    exists m3. split; auto.
    assert (NDw : NoDup (s1 ++ s2)) by (pose proof (r_nodup _ _ H l) as ND; rewrite Es in ND; eapply NoDup_remove_1; eauto).
    assert (St : spot c1 a n c2) by (eapply spot_of; [exact NDw|exact E1]).
    pose proof (chain_link m2 m3 e c1 a n c2 Rg2 St Ni Hn Hp) as C3. rewrite <- E2 in C3.
    assert (Mem : forall x, In x (t1 ++ e :: t2) <-> In x (seq s l)).
    { intros x. rewrite Es, !in_app_iff. cbn.
      assert (In x (s1 ++ s2) <-> In x (t1 ++ t2)) by (rewrite Et; tauto). rewrite !in_app_iff in *. tauto. }
    eapply R_upd; try exact H; auto.
    - apply NoDup_Add with (a := e) (l := t1 ++ t2); [apply Add_app|]. rewrite <- Et. split; auto. rewrite in_app_iff. tauto.
    - intros l' p Nl Hq. rewrite Hn, Hp.
      assert (Hna : ~ In p (circ l (seq s l))) by (eapply circ_disjoint; eauto).
      assert (Q : forall q, In q (circ l (t1 ++ e :: t2)) -> p <> q).
      { intros q Hq2 ->. apply Hna. rewrite in_circ in *. destruct Hq2 as [->|(x & -> & Hx)]; auto. right. exists x. split; auto. apply Mem; auto. }
      rewrite E2 in Q.
      rewrite !ptr_eqb_neq by (apply Q; rewrite in_app_iff; cbn; auto). apply (Fr l'); auto.
    - intros x l'. rewrite Ho3, Ho. rewrite (r_own _ _ H). destruct (Nat.eqb_spec l' l) as [->|Nl]; [|tauto]. rewrite Mem. tauto.
    - intros l'. rewrite Hl3, Hl. destruct (Nat.eqb_spec l' l) as [->|]; auto. rewrite (r_len _ _ H).
      assert (Z : length (t1 ++ t2) = length (s1 ++ s2)) by (rewrite Et; auto).
      rewrite Es. rewrite !app_length in *. cbn. lia.
    - intros x. rewrite Hv3, Hv. apply H.
    - rewrite Hf3, Hf. apply H.
    - intros x Hx. apply (r_old _ _ H x l). apply Mem; auto.
  Qed.

  (** ** lazyInit and the reading operations *)
  Lemma Init_R m s l : R m s -> seq s l = [] -> R (Init m l) s /\ ring (Init m l) l [].
  Proof.
    intros H E. assert (Rg : ring (Init m l) l []).
    { unfold ring, circ. cbn. unfold fupd. rewrite ptr_eqb_refl. auto. }
    split; auto. split; try apply H.
    - intros l'. destruct (Nat.eq_dec l' l) as [->|N]; [right; rewrite E; auto|].
      destruct (r_ring _ _ H l') as [(A & B & C)|C].
      + left. cbn. unfold fupd. rewrite !ptr_eqb_neq by congruence. auto.
      + right. eapply ring_frame; [exact C|]. intros p Hp. cbn. unfold fupd. rewrite !ptr_eqb_neq; auto;
          intros ->; rewrite in_circ in Hp; destruct Hp as [?|(? & ? & _)]; congruence.
    - intros l'. cbn. unfold nupd. destruct (Nat.eqb_spec l' l) as [->|N]; [rewrite E; auto|apply H].
  Qed.
  Lemma lazy_R m s l : R m s -> R (lazyInit m l) s /\ ring (lazyInit m l) l (seq s l).
  Proof.
    intros H. unfold lazyInit. destruct (r_ring _ _ H l) as [(A & B & C)|C].
    - rewrite A. rewrite C. apply Init_R; auto.
    - assert (N : exists x, nx m (Root l) = Some x).
      { unfold ring, circ in C. destruct (map El (seq s l) ++ [Root l]) eqn:Q; [destruct (seq s l); discriminate|].
        apply chain_cons2 in C. eexists. apply C. }
      destruct N as (x & ->). auto.
  Qed.
  Lemma lazy_same (m : mem) l : val (lazyInit m l) = val m /\ fresh (lazyInit m l) = fresh m.
  Proof. unfold lazyInit. destruct (nx m (Root l)); auto. Qed.

  Lemma ring_root (m : mem) l s : ring m l s ->
    nx m (Root l) = Some (match s with [] => Root l | x :: _ => El x end) /\
    pv m (Root l) = Some (match rev s with [] => Root l | x :: _ => El x end).
  Proof.
    intros C. unfold ring, circ in C. split.
    - destruct s as [|x s]; cbn in C; apply C.
    - destruct s as [|x s] using rev_ind; [cbn in C; apply C|]. clear IHs. rewrite rev_app_distr. cbn [rev app].
      rewrite map_app, <- app_assoc in C. cbn [map app] in C. rewrite app_comm_cons in C. apply chain_at in C. tauto.
  Qed.
  Lemma ring_el (m : mem) l s1 e s2 : ring m l (s1 ++ e :: s2) ->
    nx m (El e) = Some (match s2 with [] => Root l | x :: _ => El x end) /\
    pv m (El e) = Some (match rev s1 with [] => Root l | x :: _ => El x end).
  Proof.
    intros C. assert (Sp : split_at l (s1 ++ s2) s1 s2 (match rev s1 with [] => Root l | x :: _ => El x end)) by (split; auto).
    destruct (split_circ _ _ _ _ _ Sp) as (c1 & n & c2 & _ & E2 & En). unfold ring in C. rewrite E2 in C.
    split.
    - replace (c1 ++ match rev s1 with [] => Root l | x :: _ => El x end :: El e :: n :: c2)
        with ((c1 ++ [match rev s1 with [] => Root l | x :: _ => El x end]) ++ El e :: n :: c2) in C by (rewrite <- app_assoc; auto).
      apply chain_at in C. rewrite <- En. tauto.
    - apply chain_at in C. tauto.
  Qed.

  Lemma front_ok m s l : R m s -> Front m l = option_map El (hd_error (seq s l)).
  Proof.
    intros H. unfold Front. rewrite (r_len _ _ H). destruct (seq s l) as [|x c] eqn:E; auto.
    replace (Z.of_nat (length (x :: c)) =? 0)%Z with false by (symmetry; apply Z.eqb_neq; cbn; lia).
    assert (Rg : ring m l (seq s l)) by (eapply ring_of; eauto; rewrite E; cbn; auto). rewrite E in Rg.
    apply ring_root in Rg as (-> & _). auto.
  Qed.
  Lemma back_ok m s l : R m s -> Back m l = option_map El (hd_error (rev (seq s l))).
  Proof.
    intros H. unfold Back. rewrite (r_len _ _ H). destruct (seq s l) as [|x c] eqn:E; auto.
    replace (Z.of_nat (length (x :: c)) =? 0)%Z with false by (symmetry; apply Z.eqb_neq; cbn; lia).
    assert (Rg : ring m l (seq s l)) by (eapply ring_of; eauto; rewrite E; cbn; auto). rewrite E in Rg.
    apply ring_root in Rg as (_ & ->). cbn [rev]. destruct (rev c ++ [x]) eqn:Q; [destruct (rev c); discriminate|auto].
  Qed.
  Lemma following_split e s1 s2 : ~ In e s1 -> following e (s1 ++ e :: s2) = hd_error s2.
  Proof.
    induction s1 as [|x s1 IH]; cbn; [rewrite Nat.eqb_refl; auto|]. intros N.
    destruct (Nat.eqb_spec x e); [subst; tauto|]. apply IH. tauto.
  Qed.
  Lemma preceding_split e s1 s2 : ~ In e s2 -> preceding e (s1 ++ e :: s2) = hd_error (rev s1).
  Proof.
    intros N. unfold preceding. rewrite rev_app_distr. cbn. rewrite <- app_assoc. cbn. apply following_split.
    rewrite <- in_rev. auto.
  Qed.
  Lemma next_ok m s l e : R m s -> In e (seq s l) -> Next m e = option_map El (following e (seq s l)).
  Proof.
    intros H Hin. pose proof (ring_of _ _ _ _ H Hin) as Rg.
    destruct (in_split_nodup e _ Hin (r_nodup _ _ H l)) as (s1 & s2 & Es & N1 & N2 & _).
    rewrite Es in *. rewrite following_split by auto. apply ring_el in Rg as (A & _). unfold Next.
    assert (O : own m e = Some l) by (apply (r_own _ _ H); rewrite Es; auto). rewrite O, A. cbn [popt_eqb].
    destruct s2 as [|y s2]; cbn; [rewrite Nat.eqb_refl|]; auto.
  Qed.
  Lemma prev_ok m s l e : R m s -> In e (seq s l) -> Prev m e = option_map El (preceding e (seq s l)).
  Proof.
    intros H Hin. pose proof (ring_of _ _ _ _ H Hin) as Rg.
    destruct (in_split_nodup e _ Hin (r_nodup _ _ H l)) as (s1 & s2 & Es & N1 & N2 & _).
    rewrite Es in *. rewrite preceding_split by auto. apply ring_el in Rg as (_ & A). unfold Prev.
    assert (O : own m e = Some l) by (apply (r_own _ _ H); rewrite Es; auto). rewrite O, A. cbn [popt_eqb].
    destruct (rev s1) as [|y s2']; cbn; [rewrite Nat.eqb_refl|]; auto.
  Qed.
  Lemma no_owner m s e : R m s -> (forall l, ~ In e (seq s l)) -> own m e = None.
  Proof. intros H N. destruct (own m e) as [l|] eqn:O; auto. apply (r_own _ _ H) in O. destruct (N l O). Qed.

  (** ** the list functions of the specification on split lists *)
  Lemma after_split x e s1 s2 : ~ In x s1 -> after x e (s1 ++ x :: s2) = s1 ++ x :: e :: s2.
  Proof.
    induction s1 as [|y s1 IH]; cbn; [rewrite Nat.eqb_refl; auto|]. intros N.
    destruct (Nat.eqb_spec y x); [subst; tauto|]. f_equal. apply IH. tauto.
  Qed.
  Lemma before_split x e s1 s2 : ~ In x s1 -> before x e (s1 ++ x :: s2) = s1 ++ e :: x :: s2.
  Proof.
    induction s1 as [|y s1 IH]; cbn; [rewrite Nat.eqb_refl; auto|]. intros N.
    destruct (Nat.eqb_spec y x); [subst; tauto|]. f_equal. apply IH. tauto.
  Qed.
  Lemma without_in x e s : In x (without e s) <-> In x s /\ x <> e.
  Proof. unfold without. rewrite filter_In. destruct (Nat.eqb_spec x e); cbn; intuition congruence. Qed.
  Lemma without_nodup e s : NoDup s -> NoDup (without e s).
  Proof. apply NoDup_filter. Qed.

  Lemma R_ext m s s' : R m s -> (forall l, seq s' l = seq s l) -> (forall e, sval s' e = sval s e) -> sfresh s' = sfresh s -> R m s'.
  Proof.
    intros H A B C. split.
    - intros l. rewrite A. apply H.
    - intros l. rewrite A. apply H.
    - intros e l. rewrite A. apply H.
    - intros l. rewrite A. apply H.
    - intros e. rewrite B. apply H.
    - rewrite C. apply H.
    - intros e l. rewrite A, C. apply H.
  Qed.
  Lemma R_put_same m s l : R m s -> R m (put s l (seq s l)).
  Proof. intros H. eapply R_ext; eauto. intros l'. cbn. unfold nupd. destruct (Nat.eqb_spec l' l) as [->|]; auto. Qed.

  Lemma pushBack_ok m s l v : R m s -> ring m l (seq s l) ->
    exists m', insertValue m l v (pv m (Root l)) = Some (sfresh s, m') /\
      R m' (put (new s v) l (seq s l ++ [sfresh s])) /\ ring m' l (seq s l ++ [sfresh s]).
  Proof.
    intros H Rg. destruct (ring_root _ _ _ Rg) as (_ & ->). apply insertValue_ok; auto. split; auto. rewrite app_nil_r. auto.
  Qed.
  Lemma pushFront_ok m s l v : R m s -> ring m l (seq s l) ->
    exists m', insertValue m l v (Some (Root l)) = Some (sfresh s, m') /\
      R m' (put (new s v) l (sfresh s :: seq s l)) /\ ring m' l (sfresh s :: seq s l).
  Proof. intros H Rg. apply (insertValue_ok m s l v [] (seq s l)); auto. split; auto. Qed.

  Lemma seq_put_same (s : sstate) l c : seq (put s l c) l = c.
  Proof. cbn. unfold nupd. rewrite Nat.eqb_refl. auto. Qed.
  Lemma seq_put_other (s : sstate) l c l' : l' <> l -> seq (put s l c) l' = seq s l'.
  Proof. intros N. cbn. unfold nupd. destruct (Nat.eqb_spec l' l); [congruence|auto]. Qed.

  Lemma following_in_split e c1 c2 : ~ In e c1 -> following e (c1 ++ e :: c2) = hd_error c2.
  Proof. apply following_split. Qed.

  Lemma pushBackLoop_ok l o todo : forall m s pre rest,
    R m s -> ring m l (seq s l) -> seq s o = pre ++ todo ++ rest ->
    exists m', pushBackLoop m l (length todo) (option_map El (hd_error (todo ++ rest))) = Some m' /\
               R m' (append_all s l (map (sval s) todo)).
  Proof.
    induction todo as [|x todo IH]; intros m s pre rest H Rg E; cbn [length pushBackLoop]; [cbn; eauto|].
    cbn [app hd_error option_map map append_all]. rewrite (r_val _ _ H).
    destruct (pushBack_ok m s l (sval s x) H Rg) as (m1 & -> & H1 & Rg1).
    set (s1 := put (new s (sval s x)) l (seq s l ++ [sfresh s])) in *.
    assert (Hx : In x (seq s o)) by (rewrite E, in_app_iff; cbn; auto).
    assert (E1 : exists rest', seq s1 o = (pre ++ [x]) ++ todo ++ rest').
    { destruct (Nat.eq_dec o l) as [->|N].
      - exists (rest ++ [sfresh s]). unfold s1. rewrite seq_put_same, E. rewrite <- !app_assoc. cbn. rewrite <- ?app_assoc. auto.
      - exists rest. unfold s1. rewrite seq_put_other by auto. cbn. rewrite E, <- app_assoc. auto. }
    destruct E1 as (rest' & E1).
    assert (Nx : Next m1 x = option_map El (hd_error (todo ++ rest'))).
    { rewrite (next_ok m1 s1 o x H1) by (rewrite E1, !in_app_iff; cbn; auto). f_equal. rewrite E1, <- app_assoc.
      apply following_split. pose proof (r_nodup _ _ H1 o) as ND. rewrite E1, <- app_assoc in ND.
      apply NoDup_remove_2 in ND. rewrite in_app_iff in ND. tauto. }
    rewrite Nx. rewrite <- (seq_put_same (new s (sval s x)) l (seq s l ++ [sfresh s])) in Rg1.
    destruct (IH m1 s1 (pre ++ [x]) rest' H1 Rg1 E1) as (m' & Hl & HR). exists m'. split; auto.
    replace (map (sval s1) todo) with (map (sval s) todo) in HR; auto.
    apply map_ext_in. intros y Hy. cbn. unfold nupd. destruct (Nat.eqb_spec y (sfresh s)) as [->|]; auto.
    assert (In (sfresh s) (seq s o)) by (rewrite E, !in_app_iff; cbn; tauto).
    pose proof (r_old _ _ H _ _ H0). lia.
  Qed.

  Lemma pushFrontLoop_ok l o todo : forall m s pre post,
    R m s -> ring m l (seq s l) -> seq s o = pre ++ rev todo ++ post ->
    exists m', pushFrontLoop m l (length todo) (option_map El (hd_error (todo ++ rev pre))) = Some m' /\
               R m' (prepend_all s l (map (sval s) todo)).
  Proof.
    induction todo as [|x todo IH]; intros m s pre post H Rg E; cbn [length pushFrontLoop]; [cbn; eauto|].
    cbn [app hd_error option_map map prepend_all]. rewrite (r_val _ _ H).
    destruct (pushFront_ok m s l (sval s x) H Rg) as (m1 & -> & H1 & Rg1).
    set (s1 := put (new s (sval s x)) l (sfresh s :: seq s l)) in *. cbn [rev] in E.
    assert (Hx : In x (seq s o)) by (rewrite E, !in_app_iff; cbn; auto).
    assert (E1 : exists pre', seq s1 o = pre' ++ rev todo ++ (x :: post)).
    { destruct (Nat.eq_dec o l) as [->|N].
      - exists (sfresh s :: pre). unfold s1. rewrite seq_put_same, E. rewrite <- !app_assoc. cbn. auto.
      - exists pre. unfold s1. rewrite seq_put_other by auto. cbn. rewrite E, <- !app_assoc. auto. }
    destruct E1 as (pre' & E1).
    assert (Nx : Prev m1 x = option_map El (hd_error (todo ++ rev pre'))).
    { rewrite (prev_ok m1 s1 o x H1) by (rewrite E1, !in_app_iff; cbn; auto). f_equal. rewrite E1, app_assoc.
      rewrite preceding_split.
      - rewrite rev_app_distr, rev_involutive. auto.
      - pose proof (r_nodup _ _ H1 o) as ND. rewrite E1, app_assoc in ND. apply NoDup_remove_2 in ND. rewrite in_app_iff in ND. tauto. }
    rewrite Nx. rewrite <- (seq_put_same (new s (sval s x)) l (sfresh s :: seq s l)) in Rg1.
    destruct (IH m1 s1 pre' (x :: post) H1 Rg1 E1) as (m' & Hl & HR). exists m'. split; auto.
    replace (map (sval s1) todo) with (map (sval s) todo) in HR; auto.
    apply map_ext_in. intros y Hy. cbn. unfold nupd. destruct (Nat.eqb_spec y (sfresh s)) as [->|]; auto.
    assert (In (sfresh s) (seq s o)) by (rewrite E, !in_app_iff, <- in_rev; auto).
    pose proof (r_old _ _ H _ _ H0). lia.
  Qed.

  (** ** Main step *)
  Lemma step_ok m s o : R m s -> (forall l, o = OInit l -> len m l = 0%Z) ->
    exists r m' s', step m o = Some (r, m') /\ spec_step s o r s' /\ R m' s'.
  Proof.
    intros H G. destruct o as [l|l|l|l|e|e|l e|l v|l v|l v k|l v k|l e|l e|l e k|l e k|l o|l o]; cbn [step spec_step].
    - (* Init *) specialize (G l eq_refl). rewrite (r_len _ _ H) in G.
      assert (E : seq s l = []) by (destruct (seq s l); [auto|cbn in G; lia]).
      do 3 eexists. split; [reflexivity|]. split; [split; reflexivity|]. rewrite <- E. apply R_put_same. apply Init_R; auto.
    - do 3 eexists. split; [reflexivity|]. split; [|exact H]. split; auto. unfold Len. rewrite (r_len _ _ H). auto.
    - do 3 eexists. split; [reflexivity|]. split; [|exact H]. split; auto. rewrite (front_ok _ _ _ H). auto.
    - do 3 eexists. split; [reflexivity|]. split; [|exact H]. split; auto. rewrite (back_ok _ _ _ H). auto.
    - do 3 eexists. split; [reflexivity|]. split; [|exact H]. split; auto. split.
      + intros l Hin. rewrite (next_ok _ _ _ _ H Hin). auto.
      + intros N. unfold Next. rewrite (no_owner _ _ _ H N). auto.
    - do 3 eexists. split; [reflexivity|]. split; [|exact H]. split; auto. split.
      + intros l Hin. rewrite (prev_ok _ _ _ _ H Hin). auto.
      + intros N. unfold Prev. rewrite (no_owner _ _ _ H N). auto.
    - (* Remove *) unfold Remove. rewrite (R_mem _ _ _ _ H). destruct (mem_ e (seq s l)) eqn:M.
      + apply mem_in in M. destruct (remove_ok m s l e H M) as (m' & -> & R' & V). rewrite V, (r_val _ _ H). eauto 10.
      + rewrite (r_val _ _ H). eauto 10.
    - (* PushFront *) destruct (lazy_R m s l H) as (H1 & Rg). unfold PushFront.
      destruct (pushFront_ok _ s l v H1 Rg) as (m' & -> & R' & _). eauto 10.
    - (* PushBack *) destruct (lazy_R m s l H) as (H1 & Rg). unfold PushBack.
      destruct (pushBack_ok _ s l v H1 Rg) as (m' & -> & R' & _). eauto 10.
    - (* InsertBefore *) unfold InsertBefore. rewrite (R_mem _ _ _ _ H). destruct (mem_ k (seq s l)) eqn:M; cbn [negb]; [|eauto 10].
      apply mem_in in M. pose proof (ring_of _ _ _ _ H M) as Rg.
      destruct (in_split_nodup k _ M (r_nodup _ _ H l)) as (s1 & s2 & Es & N1 & N2 & _).
      pose proof Rg as Rg'. rewrite Es in Rg'. apply ring_el in Rg' as (_ & ->).
      destruct (insertValue_ok m s l v s1 (k :: s2) _ H Rg (conj Es eq_refl)) as (m' & -> & R' & _).
      do 3 eexists. split; [reflexivity|]. split; [split; reflexivity|]. rewrite Es, before_split by auto. exact R'.
    - (* InsertAfter *) unfold InsertAfter. rewrite (R_mem _ _ _ _ H). destruct (mem_ k (seq s l)) eqn:M; cbn [negb]; [|eauto 10].
      apply mem_in in M. pose proof (ring_of _ _ _ _ H M) as Rg.
      destruct (in_split_nodup k _ M (r_nodup _ _ H l)) as (s1 & s2 & Es & N1 & N2 & _).
      assert (Sp : split_at l (seq s l) (s1 ++ [k]) s2 (El k)).
      { split; [rewrite Es, <- app_assoc; auto|]. rewrite rev_app_distr. auto. }
      destruct (insertValue_ok m s l v (s1 ++ [k]) s2 _ H Rg Sp) as (m' & -> & R' & _).
      do 3 eexists. split; [reflexivity|]. split; [split; reflexivity|]. rewrite Es, after_split by auto.
      rewrite <- app_assoc in R'. exact R'.
    - (* MoveToFront *) unfold MoveToFront. rewrite (R_mem _ _ _ _ H). destruct (mem_ e (seq s l)) eqn:M; cbn [negb orb]; [|cbn; eauto 10].
      apply mem_in in M. pose proof (ring_of _ _ _ _ H M) as Rg. destruct (ring_root _ _ _ Rg) as (-> & _).
      destruct (popt_eqb (Some match seq s l with [] => Root l | x :: _ => El x end) (El e)) eqn:Q.
      + cbn. do 3 eexists. split; [reflexivity|]. split; [split; reflexivity|]. cbn [popt_eqb] in Q.
        destruct (ptr_eqb_spec (match seq s l with [] => Root l | x :: _ => El x end) (El e)) as [Q1|]; [|discriminate].
        destruct (seq s l) as [|x c] eqn:E; [discriminate|]. injection Q1 as ->.
        replace (e :: without e (e :: c)) with (seq s l); [apply R_put_same; auto|]. rewrite E. f_equal.
        pose proof (r_nodup _ _ H l) as ND. rewrite E in ND.
        destruct (in_split_nodup e (e :: c) (or_introl eq_refl) ND) as (s1 & s2 & Es & N1 & N2 & Ew). rewrite Ew.
        destruct s1 as [|y s1]; cbn in Es; [injection Es as ->; auto|]. injection Es as <- _. exfalso. apply N1. cbn. auto.
      + destruct (move_ok m s l e (Root l) [] (without e (seq s l)) H M ltac:(discriminate) (conj eq_refl eq_refl)) as (m' & -> & R').
        cbn. eauto 10.
    - (* MoveToBack *) unfold MoveToBack. rewrite (R_mem _ _ _ _ H). destruct (mem_ e (seq s l)) eqn:M; cbn [negb orb]; [|cbn; eauto 10].
      apply mem_in in M. pose proof (ring_of _ _ _ _ H M) as Rg. destruct (ring_root _ _ _ Rg) as (_ & ->).
      destruct (in_split_nodup e _ M (r_nodup _ _ H l)) as (s1 & s2 & Es & N1 & N2 & Ew).
      destruct (popt_eqb (Some match rev (seq s l) with [] => Root l | x :: _ => El x end) (El e)) eqn:Q.
      + cbn. do 3 eexists. split; [reflexivity|]. split; [split; reflexivity|]. cbn [popt_eqb] in Q.
        destruct (ptr_eqb_spec (match rev (seq s l) with [] => Root l | x :: _ => El x end) (El e)) as [Q1|]; [|discriminate].
        destruct s2 as [|y s2] using rev_ind.
        * rewrite Ew, app_nil_r. rewrite <- Es. apply R_put_same; auto.
        * rewrite Es in Q1. rewrite rev_app_distr in Q1. cbn in Q1. rewrite rev_app_distr in Q1. cbn in Q1. injection Q1 as ->.
          exfalso. apply N2, in_or_app. cbn. auto.
      + cbn [popt_eqb] in Q.
        destruct (ptr_eqb_spec (match rev (seq s l) with [] => Root l | x :: _ => El x end) (El e)) as [|Q1]; [discriminate|].
        assert (Sp : split_at l (without e (seq s l)) (without e (seq s l)) [] match rev (seq s l) with [] => Root l | x :: _ => El x end).
        { split; [rewrite app_nil_r; auto|]. rewrite Ew, Es. destruct s2 as [|y s2] using rev_ind.
          - exfalso. apply Q1. rewrite Es, rev_app_distr. auto.
          - rewrite !rev_app_distr. cbn. rewrite rev_app_distr. auto. }
        destruct (move_ok m s l e _ _ _ H M Q1 Sp) as (m' & -> & R'). cbn. eauto 10.
    - (* MoveBefore *) unfold MoveBefore. rewrite !(R_mem _ _ _ _ H). destruct (mem_ e (seq s l)) eqn:M; cbn [negb orb andb]; [|cbn; eauto 10].
      destruct (Nat.eqb_spec e k) as [->|Nk]; cbn [negb orb]; [rewrite andb_false_r; cbn; eauto 10|]. rewrite andb_true_r.
      destruct (mem_ k (seq s l)) eqn:Mk; cbn [negb]; [|cbn; eauto 10].
      apply mem_in in M, Mk. pose proof (ring_of _ _ _ _ H M) as Rg.
      destruct (in_split_nodup k _ Mk (r_nodup _ _ H l)) as (s1 & s2 & Es & N1 & N2 & _).
      pose proof Rg as Rg'. rewrite Es in Rg'. apply ring_el in Rg' as (_ & ->).
      destruct (rev s1) as [|y r1] eqn:Er.
      + (* mark is the first element *)
        assert (s1 = []) as -> by (rewrite <- (rev_involutive s1), Er; auto). cbn [app] in Es.
        assert (Ew : without e (seq s l) = k :: without e s2).
        { rewrite Es. cbn. destruct (Nat.eqb_spec k e); [congruence|auto]. }
        destruct (move_ok m s l e (Root l) [] (without e (seq s l)) H M ltac:(discriminate) (conj eq_refl eq_refl)) as (m' & -> & R').
        cbn. do 3 eexists. split; [reflexivity|]. split; [split; reflexivity|]. rewrite Ew in *. cbn. rewrite Nat.eqb_refl. exact R'.
      + assert (E1 : s1 = rev r1 ++ [y]) by (rewrite <- (rev_involutive s1), Er; auto). subst s1.
        destruct (Nat.eq_dec y e) as [->|Ny].
        * (* already there *)
          unfold move. cbn [popt_eqb ptr_eqb]. rewrite Nat.eqb_refl. cbn. do 3 eexists. split; [reflexivity|].
          split; [split; reflexivity|].
          assert (NDe : ~ In e (rev r1) /\ ~ In e s2).
          { pose proof (r_nodup _ _ H l) as ND. rewrite Es, <- app_assoc in ND. apply NoDup_remove_2 in ND.
            rewrite in_app_iff in ND. cbn in ND. tauto. }
          replace (before k e (without e (seq s l))) with (seq s l); [apply R_put_same; auto|].
          destruct (in_split_nodup e _ M (r_nodup _ _ H l)) as (t1 & t2 & Et & P1 & P2 & Ew). rewrite Ew.
          assert (U : t1 = rev r1 /\ t2 = k :: s2).
          { rewrite Es, <- app_assoc in Et. cbn in Et. clear - Et P1 NDe. destruct NDe as (NDe & _). revert Et P1 NDe.
            generalize (rev r1). induction t1 as [|z t1 IH]; intros [|w ws] Et P1 Q; cbn in *.
            - injection Et as ->. auto.
            - injection Et as -> _. tauto.
            - injection Et as <- _. tauto.
            - injection Et as -> Et. destruct (IH ws Et) as (-> & ->); tauto. }
          destruct U as (-> & ->). rewrite before_split by (rewrite in_app_iff in N1; tauto). rewrite Es, <- app_assoc. auto.
        * (* some other element precedes the mark *)
          assert (Sp : split_at l (without e (seq s l)) (without e (rev r1 ++ [y])) (k :: without e s2) (El y)).
          { rewrite Es. unfold without. rewrite filter_app. cbn [filter]. destruct (Nat.eqb_spec k e); [congruence|]. cbn [negb].
            split; auto. rewrite filter_app. cbn. destruct (Nat.eqb_spec y e); [congruence|]. cbn. rewrite rev_app_distr. auto. }
          destruct (move_ok m s l e (El y) _ _ H M ltac:(congruence) Sp) as (m' & -> & R').
          cbn. do 3 eexists. split; [reflexivity|]. split; [split; reflexivity|].
          destruct Sp as (-> & _). rewrite before_split; [exact R'|]. rewrite without_in. tauto.
    - (* MoveAfter *) unfold MoveAfter. rewrite !(R_mem _ _ _ _ H). destruct (mem_ e (seq s l)) eqn:M; cbn [negb orb andb]; [|cbn; eauto 10].
      destruct (Nat.eqb_spec e k) as [->|Nk]; cbn [negb orb]; [rewrite andb_false_r; cbn; eauto 10|]. rewrite andb_true_r.
      destruct (mem_ k (seq s l)) eqn:Mk; cbn [negb]; [|cbn; eauto 10].
      apply mem_in in M, Mk.
      destruct (in_split_nodup k _ Mk (r_nodup _ _ H l)) as (s1 & s2 & Es & N1 & N2 & _).
      assert (Sp : split_at l (without e (seq s l)) (without e s1 ++ [k]) (without e s2) (El k)).
      { rewrite Es. unfold without. rewrite filter_app. cbn [filter]. destruct (Nat.eqb_spec k e); [congruence|]. cbn [negb].
        split; [rewrite <- app_assoc; auto|]. rewrite rev_app_distr. auto. }
      destruct (move_ok m s l e (El k) _ _ H M ltac:(congruence) Sp) as (m' & -> & R').
      cbn. do 3 eexists. split; [reflexivity|]. split; [split; reflexivity|].
      destruct Sp as (-> & _). rewrite <- app_assoc in *. cbn [app] in *. rewrite after_split; [exact R'|]. rewrite without_in. tauto.
    - (* PushBackList *) destruct (lazy_R m s l H) as (H1 & Rg). unfold PushBackList, Len.
      rewrite (r_len _ _ H1), Nat2Z.id, (front_ok _ _ _ H1).
      destruct (pushBackLoop_ok l o (seq s o) (lazyInit m l) s [] [] H1 Rg) as (m' & Hl & R'); [rewrite app_nil_r; auto|].
      rewrite app_nil_r in Hl. rewrite Hl. cbn. eauto 10.
    - (* PushFrontList *) destruct (lazy_R m s l H) as (H1 & Rg). unfold PushFrontList, Len.
      rewrite (r_len _ _ H1), Nat2Z.id, (back_ok _ _ _ H1).
      destruct (pushFrontLoop_ok l o (rev (seq s o)) (lazyInit m l) s [] [] H1 Rg) as (m' & Hl & R'); [rewrite rev_involutive, app_nil_r; auto|].
      cbn [rev] in Hl. rewrite app_nil_r, rev_length in Hl. rewrite Hl. cbn. rewrite <- map_rev. eauto 10.
  Qed.

  Lemma run_ok os : forall m s, R m s -> disciplined s os ->
    exists rs m' s', run m os = Some (rs, m') /\ spec_run s os rs s' /\ R m' s'.
  Proof.
    induction os as [|o os IH]; intros m s H D; cbn.
    - do 3 eexists. split; [reflexivity|]. split; [constructor|auto].
    - destruct D as (G & D). destruct (step_ok m s o H) as (r & m1 & s1 & E & Sp & H1).
      { intros l El. pose proof (r_len _ _ H l) as X. rewrite (G l El) in X. exact X. }
      rewrite E in *. destruct (IH m1 s1 H1 (D _ _ Sp)) as (rs & m2 & s2 & -> & Sp2 & H2). do 3 eexists. split; [reflexivity|].
      split; [econstructor; eauto|auto].
  Qed.

  Lemma R0 zero : R (mem0 zero) (s0 zero).
  Proof. split; cbn; auto; try constructor; try discriminate; try tauto. Qed.

  (** a walk from the front with Next, and from the back with Prev, visits the whole sequence *)
  Fixpoint walk (f : nat -> option ptr) (fuel : nat) (e : option ptr) : list nat :=
    match fuel, e with
    | S n, Some (El x) => x :: walk f n (f x)
    | _, _ => []
    end.
  Lemma walk_ok (f : nat -> option ptr) (c : list nat) : forall pre, NoDup (pre ++ c) ->
    (forall e, In e c -> f e = option_map El (following e (pre ++ c))) ->
    walk f (length c) (option_map El (hd_error c)) = c.
  Proof.
    induction c as [|x c IH]; intros pre ND F; cbn; auto. f_equal. rewrite F by (cbn; auto).
    rewrite following_split by (apply NoDup_remove_2 in ND; rewrite in_app_iff in ND; tauto).
    apply (IH (pre ++ [x])).
    - rewrite <- app_assoc. auto.
    - intros e He. rewrite F by (cbn; auto). rewrite <- app_assoc. auto.
  Qed.

  Lemma list_ok (zero : T) os : disciplined (s0 zero) os ->
    exists rs m s, run (mem0 zero) os = Some (rs, m) /\ spec_run (s0 zero) os rs s /\
      forall l, walk (Next m) (length (seq s l)) (Front m l) = seq s l /\
                walk (Prev m) (length (seq s l)) (Back m l) = rev (seq s l) /\
                Len m l = Z.of_nat (length (seq s l)) /\ map (val m) (seq s l) = map (sval s) (seq s l).
  Proof.
    intros D. destruct (run_ok os _ _ (R0 zero) D) as (rs & m & s & E & Sp & H). exists rs, m, s. split; auto. split; auto.
    intros l. pose proof (r_nodup _ _ H l) as ND. repeat split.
    - rewrite (front_ok _ _ _ H). apply (walk_ok _ _ []); auto. intros e He. apply next_ok; auto.
    - rewrite (back_ok _ _ _ H). rewrite <- rev_length. apply (walk_ok _ _ []).
      + apply NoDup_rev; auto.
      + intros e He. apply in_rev in He. apply prev_ok; auto.
    - apply H.
    - apply map_ext. apply H.
  Qed.
End P.
