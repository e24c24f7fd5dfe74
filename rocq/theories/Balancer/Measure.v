(** A measure that every change of the group makes smaller. *)
From Verif.Balancer Require Export Converge.
From stdpp Require Export prelude list gmap sorting.
From Coq Require Import Lia.
Open Scope nat_scope.

(** sums *)
Definition total {A} (f : A -> nat) (l : list A) : nat := sum_list (f <$> l).
Lemma total_cons {A} (f : A -> nat) x l : total f (x :: l) = f x + total f l.
Proof. done. Qed.
Lemma total_perm {A} (f : A -> nat) l l' : l ≡ₚ l' -> total f l = total f l'.
Proof. induction 1; rewrite ?total_cons; lia. Qed.
Lemma total_ext {A} (f g : A -> nat) l : (forall x, x ∈ l -> f x = g x) -> total f l = total g l.
Proof. induction l as [|x l IH]; [done|]. intros H. rewrite !total_cons, (H x) by left. rewrite IH; [done|]. intros y Y. apply H. by right. Qed.
Lemma total_le {A} (f g : A -> nat) l : (forall x, x ∈ l -> f x <= g x) -> total f l <= total g l.
Proof. induction l as [|x l IH]; [done|]. intros H. rewrite !total_cons. pose proof (H x ltac:(left)). assert (total f l <= total g l) by (apply IH; intros y Y; apply H; by right). lia. Qed.
Lemma total_map {A B} (f : B -> nat) (h : A -> B) l : total f (h <$> l) = total (fun x => f (h x)) l.
Proof. unfold total. by rewrite <- list_fmap_compose. Qed.
Lemma total_const {A} k (l : list A) : total (fun _ => k) l = length l * k.
Proof. induction l as [|x l IH]; [done|]. rewrite total_cons, IH. simpl. lia. Qed.
Lemma total_mult {A} k (f : A -> nat) (l : list A) : total (fun x => f x * k) l = total f l * k.
Proof. induction l as [|x l IH]; [done|]. rewrite !total_cons, IH. lia. Qed.
Lemma take_out {A} (l : list A) x : x ∈ l -> exists l', l ≡ₚ x :: l'.
Proof. intros H. apply elem_of_list_split in H as (a & b & ->). exists (a ++ b). solve_Permutation. Qed.
Lemma take_two {A} (l : list A) x y : x ∈ l -> y ∈ l -> x <> y -> exists l', l ≡ₚ x :: y :: l'.
Proof. intros X Y N. destruct (take_out l x X) as [l1 E1]. rewrite E1 in Y. apply elem_of_cons in Y as [->|Y]; [done|]. destruct (take_out l1 y Y) as [l2 E2]. exists l2. by rewrite E1, E2. Qed.
Lemma total_filter {A} (P : A -> Prop) `{!forall x, Decision (P x)} (f : A -> nat) l : (forall x, x ∈ l -> ~ P x -> f x = 0) -> total f (filter P l) = total f l.
Proof.
  induction l as [|x l IH]; [done|]. intros HZ. assert (E : total f (filter P l) = total f l) by (apply IH; intros y Y; apply HZ; by right). rewrite filter_cons, total_cons. case_decide as D; [by rewrite total_cons, E|].
  rewrite (HZ x); [done|left|done].
Qed.

Definition ownset (ps : list peer) : gset nat := ⋃ (pown <$> ps).
Lemma elem_ownset ps q : q ∈ ownset ps <-> Owned ps q.
Proof.
  unfold ownset, Owned. rewrite elem_of_union_list. split.
  - intros (s & H & Q). apply elem_of_list_fmap in H as (x & -> & X). by exists x.
  - intros (x & X & Q). exists (pown x). split; [by apply elem_of_list_fmap_1|done].
Qed.
Lemma size_ownset ps : NoDup ps -> (forall x y p, x ∈ ps -> y ∈ ps -> p ∈ pown x -> p ∈ pown y -> x = y) -> size (ownset ps) = total (fun x => size (pown x)) ps.
Proof.
  induction ps as [|x ps IH]; [intros; exact (size_empty (C := gset nat))|]. intros N D. apply NoDup_cons in N as [N1 N2]. rewrite total_cons, <- IH; [|done|intros y z p Y Z; apply D; by right].
  unfold ownset. simpl. apply size_union. intros p P Q. fold (ownset ps) in Q. apply elem_ownset in Q as (y & Y & Q). apply N1. rewrite (D x y p); [done|left|by right|done|done].
Qed.
Lemma Sane_nodup n ps : Sane n ps -> NoDup ps.
Proof. intros V. apply (NoDup_fmap_1 pid). apply V. Qed.
Lemma own_total n ps : Sane n ps -> (forall q, q < n -> Owned ps q) -> total (fun x => size (pown x)) ps = n.
Proof.
  intros V AO. rewrite <- size_ownset; [|by apply (Sane_nodup n)|apply V]. assert (ownset ps = list_to_set (seq 0 n)) as ->.
  - apply set_eq. intros q. rewrite elem_ownset, elem_of_list_to_set, elem_of_seq. split; [intros (x & X & Q); pose proof (v_lt _ _ V x q X Q); lia|intros Q; apply AO; lia].
  - rewrite size_list_to_set by apply NoDup_seq. apply seq_length.
Qed.
Lemma own_size n ps x : Sane n ps -> x ∈ ps -> size (pown x) <= n.
Proof.
  intros V X. rewrite <- (seq_length n 0). rewrite <- (size_list_to_set (C := gset nat)) by apply NoDup_seq. apply subseteq_size. intros q Q. rewrite elem_of_list_to_set, elem_of_seq.
  pose proof (v_lt _ _ V x q X Q). lia.
Qed.

Definition weight (n : nat) (x : peer) (s : gset nat) : nat := if decide (pstat x = Inactive) then size s * (2 * n + 2) else size s * size s.
Definition heavy (n : nat) (ps : list peer) : nat := total (fun x => weight n x (pown x)) ps.
(** with the partition in flight counted for its receiver *)
Definition fv (i p : nat) (x : peer) : gset nat := (pown x ∖ {[p]}) ∪ (if decide (pid x = i) then {[p]} else ∅).
Definition heavyF (n i p : nat) (ps : list peer) : nat := total (fun x => weight n x (fv i p x)) ps.
Definition top (n : nat) : nat := 4 * (n * (2 * n + 2)) + 1.
Lemma heavy_top n ps : Sane n ps -> (forall q, q < n -> Owned ps q) -> 4 * heavy n ps < top n.
Proof.
  intros V AO. unfold heavy, top. assert (total (fun x => weight n x (pown x)) ps <= total (fun x => size (pown x) * (2 * n + 2)) ps).
  - apply total_le. intros x X. unfold weight. case_decide; [done|]. pose proof (own_size n ps x V X). nia.
  - rewrite total_mult, (own_total n ps V AO) in H. lia.
Qed.

(** the measure, as a relation *)
Inductive Meas (n : nat) (ps : list peer) : nat -> Prop :=
  | MOrphans : Calm ps -> ~ (forall q, q < n -> Owned ps q) -> Meas n ps (top n)
  | MCalm : Calm ps -> (forall q, q < n -> Owned ps q) -> Meas n ps (4 * heavy n ps)
  | MPrep r p : Flight n ps r p -> pprep r = {[p]} -> Meas n ps (4 * heavyF n (pid r) p ps + 3)
  | MReady r p : Flight n ps r p -> prdy r = {[p]} -> Owned ps p -> Meas n ps (4 * heavyF n (pid r) p ps + 2)
  | MFree r p : Flight n ps r p -> prdy r = {[p]} -> ~ Owned ps p -> Meas n ps (4 * heavyF n (pid r) p ps + 1).
Lemma allowned_dec n ps : (forall q, q < n -> Owned ps q) \/ ~ (forall q, q < n -> Owned ps q).
Proof.
  destruct (decide (Forall (fun q => q ∈ ownset ps) (seq 0 n))) as [H|H]; rewrite Forall_forall in H; [left|right].
  - intros q Q. apply elem_ownset, H, elem_of_seq. lia.
  - intros K. apply H. intros q Q. apply elem_ownset, K. apply elem_of_seq in Q. lia.
Qed.
Lemma owned_dec ps q : Owned ps q \/ ~ Owned ps q.
Proof. rewrite <- elem_ownset. destruct (decide (q ∈ ownset ps)); auto. Qed.
Lemma Meas_ex n ps : Inv n ps -> exists k, Meas n ps k.
Proof.
  intros [V [C|(r & p & F)]].
  - destruct (allowned_dec n ps); [eexists; by apply MCalm|eexists; by apply MOrphans].
  - pose proof F as [_ _ _ _ [(K & _)|[_ K]] _ _]; [eexists; by apply (MPrep n ps r p)|]. destruct (owned_dec ps p); eexists; [by apply (MReady n ps r p)|by apply (MFree n ps r p)].
Qed.
Lemma Flight_fun n ps r p r' p' : Flight n ps r p -> Flight n ps r' p' -> r = r' /\ p = p'.
Proof.
  intros F F'. destruct (decide (r = r')) as [->|NE].
  - split; [done|]. destruct (fl_kind _ _ _ _ F) as [(H1 & H2 & _)|[H1 H2]], (fl_kind _ _ _ _ F') as [(K1 & K2 & _)|[K1 K2]]; set_solver.
  - destruct (fl_others _ _ _ _ F' r (fl_in _ _ _ _ F) NE). destruct (fl_kind _ _ _ _ F) as [(H1 & H2 & _)|[H1 H2]]; set_solver.
Qed.
Lemma Flight_calm n ps r p : Flight n ps r p -> ~ Calm ps.
Proof. intros F C. destruct (C r (fl_in _ _ _ _ F)). destruct (fl_kind _ _ _ _ F) as [(H1 & H2 & _)|[H1 H2]]; set_solver. Qed.
Lemma Meas_fun n ps k k' : Meas n ps k -> Meas n ps k' -> k = k'.
Proof.
  assert (FF : forall r p r' p', Flight n ps r p -> Flight n ps r' p' -> r = r' /\ p = p') by (intros *; apply Flight_fun).
  assert (FC : forall r p, Flight n ps r p -> Calm ps -> False) by (intros r p F C; by apply (Flight_calm n ps r p)).
  assert (FK : forall r p, Flight n ps r p -> pprep r = {[p]} -> prdy r = {[p]} -> False).
  { intros r p F P Q. destruct (fl_kind _ _ _ _ F) as [(H1 & H2 & _)|[H1 H2]]; set_solver. }
  destruct 1 as [C A|C A|r p F P|r p F P A|r p F P A]; destruct 1 as [C' A'|C' A'|r' p' F' P'|r' p' F' P' A'|r' p' F' P' A']; try done; try (exfalso; by eauto);
    try (by destruct (FF _ _ _ _ F F') as [<- <-]); try (destruct (FF _ _ _ _ F F') as [<- <-]; exfalso; by eauto).
Qed.
