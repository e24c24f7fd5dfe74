(** List facts and projections of the trace for the batcher proofs. *)
From stdpp Require Import prelude list gmap.
From Coq Require Import ZArith.
From Verif.Batcher Require Import Model.
Open Scope nat_scope.

Fixpoint lsum {A} (f : A -> nat) (l : list A) : nat := match l with [] => 0 | x :: l' => f x + lsum f l' end.
Section Sums.
Context {A : Type}.
Implicit Types (f : A -> nat) (l : list A).
Lemma lsum_app f l1 l2 : lsum f (l1 ++ l2) = lsum f l1 + lsum f l2.
Proof. induction l1 as [|x l1 IH]; cbn; lia. Qed.
Lemma lsum_insert f l i x y : l !! i = Some x -> lsum f (<[i := y]> l) + f x = lsum f l + f y.
Proof.
  revert i. induction l as [|z l IH]; intros [|i] H; simpl in *; try discriminate.
  - injection H as ->. lia.
  - specialize (IH i H). lia.
Qed.
Lemma lsum_elem f l i x : l !! i = Some x -> f x <= lsum f l.
Proof.
  revert i. induction l as [|z l IH]; intros [|i] H; simpl in *; try discriminate.
  - injection H as ->. lia.
  - specialize (IH i H). lia.
Qed.
Lemma lsum_le f l m : (forall i x, l !! i = Some x -> f x <= m) -> lsum f l <= m * length l.
Proof.
  induction l as [|z l IH]; intros H; cbn; [lia|]. pose proof (H 0 z eq_refl). assert (lsum f l <= m * length l); [|nia].
  apply IH. intros i x Hx. apply (H (S i) x Hx).
Qed.
Lemma lsum_all f l : (forall i x, l !! i = Some x -> f x <= 1) -> lsum f l = length l -> forall i x, l !! i = Some x -> f x = 1.
Proof.
  intros B E i x H. pose proof (B _ _ H). destruct (decide (f x = 1)) as [D|D]; [auto|]. exfalso.
  assert (Z : f x = 0) by lia. revert i B E H. induction l as [|z l IH]; intros [|i] B E H; simpl in *; try discriminate.
  - injection H as ->. assert (lsum f l <= 1 * length l) by (apply lsum_le; intros i y Hy; apply (B (S i) y Hy)). lia.
  - pose proof (B 0 z eq_refl). assert (lsum f l <= 1 * length l) by (apply lsum_le; intros j y Hy; apply (B (S j) y Hy)).
    apply (IH i); auto; [|lia]. intros j y Hy. apply (B (S j) y Hy).
Qed.
Lemma lsum_repeat f x n : f x = 0 -> lsum f (repeat x n) = 0.
Proof. intros E. induction n as [|n IH]; cbn; [reflexivity|]. rewrite E. exact IH. Qed.
Lemma lsum_zero f l : lsum f l = 0 -> forall i x, l !! i = Some x -> f x = 0.
Proof. intros E i x H. pose proof (lsum_elem f l i x H). lia. Qed.
Lemma lsum_pos f l : 0 < lsum f l -> exists i x, l !! i = Some x /\ 0 < f x.
Proof.
  induction l as [|z l IH]; cbn; [lia|]. intros H. destruct (f z) eqn:E.
  - destruct IH as (i & x & Hx & P); [lia|]. exists (S i), x. auto.
  - exists 0, z. split; [reflexivity|lia].
Qed.
End Sums.

(** parts of an item list: of a key, of a BatchItems, normal items, placeholders *)
Definition fk (k : nat) (l : list item) : list item := filter (fun it => i_k it = k) l.
Definition fb (b : nat) (l : list item) : list item := filter (fun it => i_b it = b) l.
Definition nm (l : list item) : list item := filter (fun it => i_n it <> None) l.
Definition ph (l : list item) : list item := filter (fun it => i_n it = None) l.
Lemma filter_comm {A} (P Q : A -> Prop) `{!forall x, Decision (P x)} `{!forall x, Decision (Q x)} (l : list A) :
  filter P (filter Q l) = filter Q (filter P l).
Proof. rewrite !list_filter_filter. apply list_filter_iff. intros x. tauto. Qed.
Lemma fk_app k l1 l2 : fk k (l1 ++ l2) = fk k l1 ++ fk k l2. Proof. apply filter_app. Qed.
Lemma fb_app b l1 l2 : fb b (l1 ++ l2) = fb b l1 ++ fb b l2. Proof. apply filter_app. Qed.
Lemma nm_app l1 l2 : nm (l1 ++ l2) = nm l1 ++ nm l2. Proof. apply filter_app. Qed.
Lemma ph_app l1 l2 : ph (l1 ++ l2) = ph l1 ++ ph l2. Proof. apply filter_app. Qed.
Lemma fk_nm k l : fk k (nm l) = nm (fk k l). Proof. apply filter_comm. Qed.
Lemma fk_ph k l : fk k (ph l) = ph (fk k l). Proof. apply filter_comm. Qed.
Lemma fb_nm b l : fb b (nm l) = nm (fb b l). Proof. apply filter_comm. Qed.
Lemma fb_ph b l : fb b (ph l) = ph (fb b l). Proof. apply filter_comm. Qed.
Lemma elem_fk k it l : it ∈ fk k l <-> i_k it = k /\ it ∈ l. Proof. unfold fk, fb, nm, ph. rewrite elem_of_list_filter. reflexivity. Qed.
Lemma elem_fb b it l : it ∈ fb b l <-> i_b it = b /\ it ∈ l. Proof. unfold fk, fb, nm, ph. rewrite elem_of_list_filter. reflexivity. Qed.
Lemma elem_nm it l : it ∈ nm l <-> i_n it <> None /\ it ∈ l. Proof. unfold fk, fb, nm, ph. rewrite elem_of_list_filter. reflexivity. Qed.
Lemma elem_ph it l : it ∈ ph l <-> i_n it = None /\ it ∈ l. Proof. unfold fk, fb, nm, ph. rewrite elem_of_list_filter. reflexivity. Qed.
Lemma fk_one k it : fk k [it] = if decide (i_k it = k) then [it] else [].
Proof. unfold fk. rewrite filter_cons. destruct (decide _); rewrite ?filter_nil; reflexivity. Qed.
Lemma fb_one b it : fb b [it] = if decide (i_b it = b) then [it] else [].
Proof. unfold fb. rewrite filter_cons. destruct (decide _); rewrite ?filter_nil; reflexivity. Qed.
Lemma nm_one it : nm [it] = match i_n it with None => [] | Some _ => [it] end.
Proof. unfold nm. rewrite filter_cons, filter_nil. destruct (i_n it); destruct (decide _) as [D|D]; try reflexivity; exfalso; try (apply D; congruence); congruence. Qed.
Lemma ph_one it : ph [it] = match i_n it with None => [it] | Some _ => [] end.
Proof. unfold ph. rewrite filter_cons, filter_nil. destruct (i_n it); destruct (decide _) as [D|D]; try reflexivity; exfalso; try (apply D; congruence); congruence. Qed.
Lemma fk_none k l : (forall it, it ∈ l -> i_k it <> k) -> fk k l = [].
Proof.
  induction l as [|x l IH]; intros H; [reflexivity|]. change (x :: l) with ([x] ++ l). rewrite fk_app, fk_one, IH.
  - destruct (decide _) as [D|D]; [|reflexivity]. exfalso. apply (H x); [left|exact D].
  - intros it Hit. apply H. right. exact Hit.
Qed.
Lemma nm_ph_length l : length (nm l) + length (ph l) = length l.
Proof.
  induction l as [|x l IH]; [reflexivity|]. change (x :: l) with ([x] ++ l). rewrite nm_app, ph_app, nm_one, ph_one, !app_length.
  destruct (i_n x); cbn [length app]; lia.
Qed.

(** projections of the trace *)
Definition added (tr : list ev) : list item := flat_map (fun e => match e with EvAdd it => [it] | _ => [] end) tr.
Definition handed (tr : list ev) : list item := flat_map (fun e => match e with EvCall _ l => l | _ => [] end) tr.
Definition comp (tr : list ev) : list item := flat_map (fun e => match e with EvComp it => [it] | _ => [] end) tr.
Definition cbs (tr : list ev) : list nat := flat_map (fun e => match e with EvCb b => [b] | _ => [] end) tr.
Lemma added_app t1 t2 : added (t1 ++ t2) = added t1 ++ added t2. Proof. apply flat_map_app. Qed.
Lemma handed_app t1 t2 : handed (t1 ++ t2) = handed t1 ++ handed t2. Proof. apply flat_map_app. Qed.
Lemma comp_app t1 t2 : comp (t1 ++ t2) = comp t1 ++ comp t2. Proof. apply flat_map_app. Qed.
Lemma cbs_app t1 t2 : cbs (t1 ++ t2) = cbs t1 ++ cbs t2. Proof. apply flat_map_app. Qed.
Lemma elem_flat {A B} (f : A -> list B) l y : y ∈ flat_map f l <-> exists x, x ∈ l /\ y ∈ f x.
Proof. rewrite elem_of_list_In, in_flat_map. setoid_rewrite elem_of_list_In. reflexivity. Qed.
Lemma elem_added it tr : it ∈ added tr <-> EvAdd it ∈ tr.
Proof.
  unfold added. rewrite elem_flat. split.
  - intros ([x|c l|c|x|b] & H & Hx); try (apply elem_of_nil in Hx; contradiction). apply elem_of_list_singleton in Hx as ->. exact H.
  - intros H. exists (EvAdd it). split; [exact H|left].
Qed.
Lemma elem_comp it tr : it ∈ comp tr <-> EvComp it ∈ tr.
Proof.
  unfold comp. rewrite elem_flat. split.
  - intros ([x|c l|c|x|b] & H & Hx); try (apply elem_of_nil in Hx; contradiction). apply elem_of_list_singleton in Hx as ->. exact H.
  - intros H. exists (EvComp it). split; [exact H|left].
Qed.
Lemma elem_cbs b tr : b ∈ cbs tr <-> EvCb b ∈ tr.
Proof.
  unfold cbs. rewrite elem_flat. split.
  - intros ([x|c l|c|x|b'] & H & Hx); try (apply elem_of_nil in Hx; contradiction). apply elem_of_list_singleton in Hx as ->. exact H.
  - intros H. exists (EvCb b). split; [exact H|left].
Qed.
Lemma elem_handed it tr : it ∈ handed tr <-> exists c l, EvCall c l ∈ tr /\ it ∈ l.
Proof.
  unfold handed. rewrite elem_flat. split.
  - intros ([x|c l|c|x|b'] & H & Hx); try (apply elem_of_nil in Hx; contradiction). eauto.
  - intros (c & l & H & Hx). exists (EvCall c l). auto.
Qed.

Lemma NoDup_parts l : (forall b, NoDup (fb b l)) -> NoDup l.
Proof.
  induction l as [|x l IH]; intros H; [constructor|]. constructor.
  - intros Hx. specialize (H (i_b x)). change (x :: l) with ([x] ++ l) in H. rewrite fb_app, fb_one in H. destruct (decide _) as [D|D]; [|congruence].
    cbn in H. apply NoDup_cons in H as (H & _). apply H. apply elem_fb. auto.
  - apply IH. intros b. specialize (H b). change (x :: l) with ([x] ++ l) in H. rewrite fb_app in H. apply NoDup_app in H as (_ & _ & H). exact H.
Qed.
Lemma NoDup_keys l : (forall k, NoDup (fk k l)) -> NoDup l.
Proof.
  induction l as [|x l IH]; intros H; [constructor|]. constructor.
  - intros Hx. specialize (H (i_k x)). change (x :: l) with ([x] ++ l) in H. rewrite fk_app, fk_one in H. destruct (decide _) as [D|D]; [|congruence].
    cbn in H. apply NoDup_cons in H as (H & _). apply H. apply elem_fk. auto.
  - apply IH. intros b. specialize (H b). change (x :: l) with ([x] ++ l) in H. rewrite fk_app in H. apply NoDup_app in H as (_ & _ & H). exact H.
Qed.
Lemma itemsOf_elem b x it : it ∈ itemsOf b x -> i_b it = b /\ (i_n it = None <-> b_items x = []).
Proof.
  unfold itemsOf. destruct (decide _) as [D|D].
  - intros H. apply elem_of_list_singleton in H as ->. cbn. tauto.
  - intros H. apply elem_of_lookup_imap in H as (i & k & -> & _). cbn. split; [auto|]. split; [discriminate|contradiction].
Qed.
Lemma itemsOf_NoDup b x : NoDup (itemsOf b x).
Proof.
  unfold itemsOf. destruct (decide _) as [D|D]; [apply NoDup_singleton|]. apply NoDup_alt. intros i j it H1 H2.
  rewrite list_lookup_imap in H1, H2. destruct (b_items x !! i); [|discriminate]. destruct (b_items x !! j); [|discriminate]. cbn in *. congruence.
Qed.
Lemma itemsOf_length b x : b_items x <> [] -> length (itemsOf b x) = length (b_items x).
Proof. intros H. unfold itemsOf. destruct (decide _) as [D|D]; [contradiction|]. apply imap_length. Qed.
Lemma nm_all l : (forall it, it ∈ l -> i_n it <> None) -> nm l = l.
Proof.
  induction l as [|x l IH]; intros H; [reflexivity|]. change (x :: l) with ([x] ++ l). rewrite nm_app, nm_one, IH.
  - specialize (H x ltac:(left)). destruct (i_n x); [reflexivity|congruence].
  - intros it Hit. apply H. right. exact Hit.
Qed.
Lemma nm_none l : (forall it, it ∈ l -> i_n it = None) -> nm l = [].
Proof.
  induction l as [|x l IH]; intros H; [reflexivity|]. change (x :: l) with ([x] ++ l). rewrite nm_app, nm_one, IH.
  - specialize (H x ltac:(left)). rewrite H. reflexivity.
  - intros it Hit. apply H. right. exact Hit.
Qed.
Lemma foldr_delete (l : list item) (m : gmap nat nat) k :
  foldr (fun it m => delete (i_k it) m) m l !! k = if decide (k ∈ map i_k l) then None else m !! k.
Proof.
  induction l as [|x l IH]; cbn.
  - rewrite decide_False; [reflexivity|]. intros H. inversion H.
  - destruct (decide (i_k x = k)) as [<-|D].
    + rewrite lookup_delete, decide_True; [reflexivity|left].
    + rewrite lookup_delete_ne, IH by auto. destruct (decide (k ∈ map i_k l)) as [D1|D1].
      * rewrite decide_True; [reflexivity|right; exact D1].
      * rewrite decide_False; [reflexivity|]. intros H. apply elem_of_cons in H as [H|H]; congruence.
Qed.
Lemma firstReady_Some l : forall i e, firstReady l i = Some e -> exists x, i <= e /\ l !! (e - i) = Some x /\ e_busy x = false.
Proof.
  induction l as [|y l IH]; intros i e H; cbn in H; [discriminate|]. destruct (e_busy y) eqn:B.
  - apply IH in H as (x & L & H & Bx). exists x. split; [lia|]. replace (e - i) with (S (e - S i)) by lia. auto.
  - injection H as <-. exists y. rewrite Nat.sub_diag. auto.
Qed.
Lemma firstReady_None l : forall i, firstReady l i = None -> forall e x, l !! e = Some x -> e_busy x = true.
Proof.
  induction l as [|y l IH]; intros i H e x E; [destruct e; discriminate|]. cbn in H. destruct (e_busy y) eqn:B; [|discriminate].
  destruct e as [|e]; simpl in E; [injection E as <-; auto|eauto].
Qed.
