From Coq Require Import Strings.Byte ZArith List Bool Lia.
From Verif.Base Require Import Bytes.
From Verif.Record Require Import Model.
From Verif.BTree Require Import Model Proofs StringOrder.
From Verif.SimpleStore Require Import Model.
Import ListNotations.

Section P.
  Context {T : Type} (itemKey : T -> bytes) (enc : T -> option bytes).
  Notation kv := (keyedValue T).

  (** ** Specification: a map from keys to items, and the entry an operation must report *)
  Definition amap := bytes -> option T.
  Definition aupd (m : amap) (k : bytes) (v : option T) : amap := fun x => if bytes_eqb x k then v else m x.
  (** an entry as it is seen in the log: key and value (empty = tombstone) *)
  Definition spec_step (m : amap) (o : op T) : option (list (bytes * bytes) * option T * amap) :=
    match o with
    | OPut i => match enc i with
                | Some b => Some ([(itemKey i, b)], None, aupd m (itemKey i) (Some i))
                | None => None
                end
    | ODelete i => match m (itemKey i) with
                   | Some _ => Some ([(itemKey i, [])], None, aupd m (itemKey i) None)
                   | None => Some ([], None, m)
                   end
    | OGet k => Some ([], m k, m)
    end.
  Fixpoint spec_run (m : amap) (os : list (op T)) : option (list (bytes * bytes) * list (option T) * amap) :=
    match os with
    | [] => Some ([], [], m)
    | o :: os' =>
        match spec_step m o with
        | None => None
        | Some (l, r, m1) => match spec_run m1 os' with
                             | None => None
                             | Some (l', rs, m2) => Some (l ++ l', r :: rs, m2)
                             end
        end
    end.
  Definition entry_view (e : Record_) : bytes * bytes :=
    let r := newIncomingRecord (toKafkaRecord e) in (Key r, Value r).

  (** ** The tree as a map *)
  Lemma kv_order : weak_order (@keyedLess T).
  Proof.
    split; unfold keyedLess.
    - intros a. apply strLess_irrefl.
    - intros a b c. apply strLess_trans.
    - intros a b c. apply (wo_neg _ strLess_order).
  Qed.
  Lemma kv_eqv (a b : kv) : eqv keyedLess a b = bytes_eqb (kv_key a) (kv_key b).
  Proof.
    apply eq_true_iff_eq. rewrite eqv_spec, bytes_eqb_spec. unfold keyedLess. split.
    - intros (A & B). apply strLess_total; auto.
    - intros ->. split; apply strLess_irrefl.
  Qed.

  Definition contents (s : store T) : amap := GetItem s.
  Record inv (s : store T) : Prop := {
    i_sorted : sorted keyedLess s;
    i_some : forall x : kv, In x s -> kv_value x <> None }.

  Lemma get_lookup (s : store T) k : sorted keyedLess s -> GetItem s k = match lookup keyedLess s (mkKV k None) with Some x => kv_value x | None => None end.
  Proof. intros S. unfold GetItem. rewrite (get_ok _ kv_order) by auto. auto. Qed.

  Lemma lookup_key (s : store T) k v v' : lookup keyedLess s (mkKV (T := T) k v) = lookup keyedLess s (mkKV k v').
  Proof.
    unfold lookup. induction s as [|a s IH]; cbn; auto.
  Qed.

  Lemma in_insert (s : store T) x y : In y (snd (ReplaceOrInsert keyedLess s x)) -> y = x \/ In y s.
  Proof.
    unfold ReplaceOrInsert. destruct (find_ keyedLess s x) as [i []]; cbn [snd]; intros H;
      apply in_app_or in H as [H|[H|H]]; auto; right;
      [rewrite <- (firstn_skipn i s)|rewrite <- (firstn_skipn (S i) s)|rewrite <- (firstn_skipn i s)|rewrite <- (firstn_skipn i s)];
      apply in_or_app; auto.
  Qed.
  Lemma in_delete (s : store T) x y : In y (snd (Delete keyedLess s x)) -> In y s.
  Proof.
    unfold Delete. destruct (find_ keyedLess s x) as [i []]; cbn [snd]; intros H; auto.
    apply in_app_or in H as [H|H]; [rewrite <- (firstn_skipn i s)|rewrite <- (firstn_skipn (S i) s)]; apply in_or_app; auto.
  Qed.

  Lemma insert_contents s (item : T) k : inv s ->
    let s' := snd (ReplaceOrInsert keyedLess s (mkKV k (Some item))) in
    inv s' /\ forall x, contents s' x = aupd (contents s) k (Some item) x.
  Proof.
    intros I s'. unfold s'. destruct (ReplaceOrInsert keyedLess s (mkKV k (Some item))) as [old s1] eqn:R. cbn [snd].
    pose proof (insert_ok _ kv_order _ _ _ _ (i_sorted _ I) R) as (S1 & _ & L & _). split.
    - split; auto. intros x Hx. replace s1 with (snd (old, s1)) in Hx by auto. rewrite <- R in Hx.
      apply in_insert in Hx as [->|Hx]; [discriminate|]. apply I; auto.
    - intros x. unfold contents. rewrite !get_lookup by (auto; apply I). rewrite L, kv_eqv. unfold aupd. cbn.
      destruct (bytes_eqb x k); auto. rewrite get_lookup by apply I. auto.
  Qed.

  Lemma delete_contents s k v : inv s ->
    let s' := snd (Delete keyedLess s (mkKV k v)) in
    inv s' /\ (forall x, contents s' x = aupd (contents s) k None x) /\
    (fst (Delete keyedLess s (mkKV k v)) = None <-> contents s k = None).
  Proof.
    intros I s'. unfold s'. destruct (Delete keyedLess s (mkKV k v)) as [old s1] eqn:R. cbn [snd fst].
    pose proof (delete_ok _ kv_order _ _ _ _ (i_sorted _ I) R) as (S1 & -> & L & _). split; [|split].
    - split; auto. intros x Hx. apply I. eapply in_delete. rewrite R. cbn. eauto.
    - intros x. unfold contents. rewrite !get_lookup by (auto; apply I). rewrite L, kv_eqv. unfold aupd. cbn.
      destruct (bytes_eqb x k); auto. rewrite get_lookup by apply I. auto.
    - unfold contents. rewrite get_lookup by apply I. rewrite (lookup_key s k None v).
      destruct (lookup keyedLess s (mkKV k v)) as [y|] eqn:E; [|tauto].
      apply lookup_some in E as (E & _). apply (i_some _ I) in E. split; [discriminate|congruence].
  Qed.

  Lemma entry_put i b : enc i = Some b ->
    exists e, ToChangeLogEntry itemKey enc i = Some e /\ entry_view e = (itemKey i, b).
  Proof.
    intros E. unfold ToChangeLogEntry. rewrite E. eexists. split; auto. unfold entry_view, Key, Value. cbn.
    destruct b; auto.
  Qed.
  Lemma entry_delete k : entry_view (WriteKey [k] blankRecord) = (k, []).
  Proof. reflexivity. Qed.

  Lemma step_ok s m o : inv s -> (forall k, contents s k = m k) ->
    match step itemKey enc s o, spec_step m o with
    | Some (l, r, s'), Some (l', r', m') => inv s' /\ (forall k, contents s' k = m' k) /\ map entry_view l = l' /\ r = r'
    | None, None => True
    | _, _ => False
    end.
  Proof.
    intros I C. destruct o as [i|i|k]; cbn.
    - destruct (enc i) as [b|] eqn:E.
      + destruct (entry_put i b E) as (e & -> & V).
        destruct (insert_contents s i (itemKey i) I) as (I' & C').
        split; auto. split; [intros k; rewrite C'; unfold aupd; rewrite C; auto|]. cbn. rewrite V. auto.
      + unfold ToChangeLogEntry. rewrite E. auto.
    - unfold DeleteItem. destruct (delete_contents s (itemKey i) None I) as (I' & C' & O).
      destruct (Delete keyedLess s (mkKV (itemKey i) None)) as [[old|] s1]; cbn [fst snd] in *.
      + destruct (m (itemKey i)) eqn:M.
        * split; auto. split; [intros k; rewrite C'; unfold aupd; rewrite C; auto|]. auto.
        * rewrite C in O. exfalso. destruct O as (_ & O). specialize (O M). discriminate.
      + destruct (m (itemKey i)) eqn:M.
        * rewrite C in O. destruct O as (O & _). specialize (O eq_refl). congruence.
        * split; auto. split; auto. intros k. rewrite C'. unfold aupd. rewrite C.
          destruct (bytes_eqb k (itemKey i)) eqn:B; auto. apply bytes_eqb_spec in B. congruence.
    - repeat split; auto; apply I.
  Qed.

  Lemma run_ok os : forall s m, inv s -> (forall k, contents s k = m k) ->
    match run itemKey enc s os, spec_run m os with
    | Some (l, r, s'), Some (l', r', m') => inv s' /\ (forall k, contents s' k = m' k) /\ map entry_view l = l' /\ r = r'
    | None, None => True
    | _, _ => False
    end.
  Proof.
    induction os as [|o os IH]; intros s m I C; cbn [run spec_run].
    - repeat split; auto; apply I.
    - pose proof (step_ok s m o I C) as S.
      destruct (step itemKey enc s o) as [[[l r] s1]|], (spec_step m o) as [[[l' r'] m1]|]; try contradiction; auto.
      destruct S as (I1 & C1 & L1 & R1). specialize (IH s1 m1 I1 C1).
      destruct (run itemKey enc s1 os) as [[[l2 r2] s2]|], (spec_run m1 os) as [[[l2' r2'] m2]|]; try contradiction; auto.
      destruct IH as (I2 & C2 & L2 & R2). repeat split; auto; try apply I2.
      + rewrite map_app. congruence.
      + congruence.
  Qed.

  Lemma inv0 : inv [].
  Proof. split; [constructor|intros ? []]. Qed.

  Lemma store_ok os :
    match run itemKey enc [] os, spec_run (fun _ => None) os with
    | Some (l, r, s'), Some (l', r', m') => (forall k, GetItem s' k = m' k) /\ map entry_view l = l' /\ r = r'
    | None, None => True
    | _, _ => False
    end.
  Proof.
    pose proof (run_ok os [] (fun _ => None) inv0 (fun _ => eq_refl)) as H.
    destruct (run itemKey enc [] os) as [[[l r] s1]|], (spec_run (fun _ => None) os) as [[[l' r'] m1]|]; auto. tauto.
  Qed.

  (** ** Replay *)
  Context (dec : bytes -> T * bool).
  (** decoding never fails on what the store wrote *)
  Definition decodes : Prop := forall i b, enc i = Some b -> b <> [] -> snd (dec b) = false.

  Lemma replay_only_deletes log : forall s, inv s ->
    (forall e, In e log -> snd (entry_view e) = [] \/ snd (dec (snd (entry_view e))) = false) ->
    inv (replay itemKey dec s log) /\ forall k, contents s k = None -> contents (replay itemKey dec s log) k = None.
  Proof.
    induction log as [|e log IH]; intros s I H; cbn; auto.
    set (s1 := snd (ReceiveChange itemKey dec s (newIncomingRecord (toKafkaRecord e)))).
    assert (Q : inv s1 /\ forall k, contents s k = None -> contents s1 k = None).
    { unfold s1, ReceiveChange. specialize (H e (or_introl eq_refl)). cbn [entry_view snd] in H.
      destruct (Value (newIncomingRecord (toKafkaRecord e))) as [|v0 v] eqn:V; cbn [length Nat.eqb].
      - destruct (delete_contents s (Key (newIncomingRecord (toKafkaRecord e))) None I) as (I' & C' & _). split; auto.
        intros k N. cbn [snd]. rewrite C'. unfold aupd. destruct (bytes_eqb _ _); auto.
      - destruct H as [H|H]; [discriminate|]. destruct (dec (v0 :: v)) as [it er]. cbn in H. subst er. cbn. auto. }
    destruct Q as (I1 & C1). destruct (IH s1 I1) as (I2 & C2); [intros e' He'; apply H; cbn; auto|].
    split; auto.
  Qed.

  Lemma log_entries os : forall s l r s', run itemKey enc s os = Some (l, r, s') -> inv s ->
    forall e, In e l -> snd (entry_view e) = [] \/ exists i, enc i = Some (snd (entry_view e)).
  Proof.
    induction os as [|o os IH]; intros s l r s' R I e He; cbn in R.
    - injection R as <- _ _. destruct He.
    - destruct (step itemKey enc s o) as [[[l1 r1] s1]|] eqn:S; [|discriminate].
      destruct (run itemKey enc s1 os) as [[[l2 r2] s2]|] eqn:R2; [|discriminate]. injection R as <- _ _.
      assert (I1 : inv s1).
      { pose proof (step_ok s (contents s) o I (fun _ => eq_refl)) as Q. rewrite S in Q.
        destruct (spec_step (contents s) o) as [[[? ?] ?]|]; [|contradiction]. apply Q. }
      apply in_app_or in He as [He|He]; [|eapply IH; eauto].
      destruct o as [i|i|k]; cbn in S.
      + destruct (ToChangeLogEntry itemKey enc i) as [e'|] eqn:E; [|discriminate]. injection S as <- _ _.
        destruct He as [<-|[]]. right. exists i. destruct (enc i) as [b|] eqn:Ei.
        * destruct (entry_put i b Ei) as (e2 & E2 & V). rewrite E in E2. injection E2 as <-. rewrite V. auto.
        * unfold ToChangeLogEntry in E. rewrite Ei in E. discriminate.
      + destruct (DeleteItem itemKey s i) as [[e'|] s''] eqn:D; injection S as <- _ _; [|destruct He].
        unfold DeleteItem in D. destruct (Delete keyedLess s (mkKV (itemKey i) None)) as [[?|] ?]; [|discriminate].
        injection D as <- _. destruct He as [<-|[]]. left. reflexivity.
      + injection S as <- _ _. destruct He.
  Qed.

  (** replay into a fresh store always gives an empty store *)
  Lemma replay_empty os l r s : decodes -> run itemKey enc [] os = Some (l, r, s) ->
    forall k, GetItem (replay itemKey dec [] l) k = None.
  Proof.
    intros D R k. apply replay_only_deletes; [apply inv0| |reflexivity].
    intros e He. destruct (log_entries os [] l r s R inv0 e He) as [H|(i & H)]; auto.
    destruct (snd (entry_view e)) as [|v0 v] eqn:V; auto. right. eapply D; eauto. discriminate.
  Qed.

  Lemma replay_iff os l r s : decodes -> run itemKey enc [] os = Some (l, r, s) ->
    (forall k, GetItem (replay itemKey dec [] l) k = GetItem s k) <-> (forall k, GetItem s k = None).
  Proof.
    intros D R. pose proof (replay_empty os l r s D R) as E. split.
    - intros H k. rewrite <- H. auto.
    - intros H k. rewrite H. auto.
  Qed.

  (** the log carries enough: a consumer that applies an entry the way it was meant gets the contents back *)
  Definition apply_entry (m : amap) (e : bytes * bytes) : amap :=
    match snd e with
    | [] => aupd m (fst e) None
    | b => aupd m (fst e) (Some (fst (dec b)))
    end.
  Definition roundtrips : Prop := forall i b, enc i = Some b -> b <> [] /\ fst (dec b) = i.

  Lemma spec_log_suffices os : roundtrips -> forall m l r m', spec_run m os = Some (l, r, m') ->
    forall m0, (forall k, m0 k = m k) -> forall k, fold_left apply_entry l m0 k = m' k.
  Proof.
    intros RT. induction os as [|o os IH]; intros m l r m' R m0 E k; cbn in R.
    - injection R as <- _ <-. cbn. auto.
    - destruct (spec_step m o) as [[[l1 r1] m1]|] eqn:S; [|discriminate].
      destruct (spec_run m1 os) as [[[l2 r2] m2]|] eqn:R2; [|discriminate]. injection R as <- _ <-.
      rewrite fold_left_app. eapply IH; eauto. clear k. intros k.
      destruct o as [i|i|k']; cbn in S.
      + destruct (enc i) as [b|] eqn:Ei; [|discriminate]. injection S as <- _ <-. destruct (RT i b Ei) as (NE & Dd).
        cbn. unfold apply_entry. cbn. destruct b as [|b0 b]; [congruence|]. rewrite Dd. unfold aupd. rewrite E. auto.
      + destruct (m (itemKey i)); injection S as <- _ <-; cbn; auto. unfold apply_entry, aupd. cbn. rewrite E. auto.
      + injection S as <- _ <-. cbn. auto.
  Qed.

  Lemma log_suffices os l r s : roundtrips -> run itemKey enc [] os = Some (l, r, s) ->
    forall k, fold_left apply_entry (map entry_view l) (fun _ => None) k = GetItem s k.
  Proof.
    intros RT R k. pose proof (store_ok os) as H. rewrite R in H.
    destruct (spec_run (fun _ => None) os) as [[[l' r'] m']|] eqn:S; [|contradiction].
    destruct H as (C & -> & _). rewrite C. eapply spec_log_suffices; eauto.
  Qed.
End P.
