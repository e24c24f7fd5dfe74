(** Views of the trace and of the state, and the structural invariant: the producers form a pipeline, one transaction each, in order. *)
From stdpp Require Import prelude list sorting.
From Coq Require Import ZArith.
From Verif.Eos Require Import Model.
Open Scope nat_scope.

(** ** views of the trace *)
Definition arrs (tr : list ev) : list ec := flat_map (fun x => match x with EvArr e => [e] | _ => [] end) tr.
Definition taken (tr : list ev) : list ec := flat_map (fun x => match x with EvTake e | EvRej e => [e] | _ => [] end) tr.
Definition takes (tr : list ev) : list ec := flat_map (fun x => match x with EvTake e => [e] | _ => [] end) tr.
Definition added (tr : list ev) : list (nat * ec) := flat_map (fun x => match x with EvAdd t e => [(t, e)] | _ => [] end) tr.
Definition ends (tr : list ev) : list (nat * bool) := flat_map (fun x => match x with EvEnd t ok => [(t, ok)] | _ => [] end) tr.
Definition called (tr : list ev) : list (nat * (ec * orec)) := flat_map (fun x => match x with EvCall t e r => [(t, (e, r))] | _ => [] end) tr.
Definition sent (tr : list ev) : list (nat * (ec * orec)) := flat_map (fun x => match x with EvSend t e r => [(t, (e, r))] | _ => [] end) tr.
Definition dones (tr : list ev) : list ec := flat_map (fun x => match x with EvDone e => [e] | _ => [] end) tr.
Definition of_txn {A} (t : nat) (l : list (nat * A)) : list A := map snd (filter (fun x => fst x = t) l).
Definition adds (t : nat) (tr : list ev) : list ec := of_txn t (added tr).

Global Arguments upd : simpl never. Global Arguments decide : simpl never. Global Arguments of_txn : simpl never.
Global Arguments arrs : simpl never. Global Arguments taken : simpl never. Global Arguments takes : simpl never. Global Arguments added : simpl never.
Global Arguments ends : simpl never. Global Arguments called : simpl never. Global Arguments sent : simpl never. Global Arguments dones : simpl never.
Section FlatMap.
Lemma arrs_app u v : arrs (u ++ v) = arrs u ++ arrs v. Proof. apply flat_map_app. Qed.
Lemma taken_app u v : taken (u ++ v) = taken u ++ taken v. Proof. apply flat_map_app. Qed.
Lemma takes_app u v : takes (u ++ v) = takes u ++ takes v. Proof. apply flat_map_app. Qed.
Lemma added_app u v : added (u ++ v) = added u ++ added v. Proof. apply flat_map_app. Qed.
Lemma ends_app u v : ends (u ++ v) = ends u ++ ends v. Proof. apply flat_map_app. Qed.
Lemma called_app u v : called (u ++ v) = called u ++ called v. Proof. apply flat_map_app. Qed.
Lemma sent_app u v : sent (u ++ v) = sent u ++ sent v. Proof. apply flat_map_app. Qed.
Lemma dones_app u v : dones (u ++ v) = dones u ++ dones v. Proof. apply flat_map_app. Qed.
End FlatMap.
Lemma of_txn_app {A} t (u v : list (nat * A)) : of_txn t (u ++ v) = of_txn t u ++ of_txn t v.
Proof. unfold of_txn. by rewrite filter_app, map_app. Qed.
Lemma elem_of_txn {A} t (x : A) l : x ∈ of_txn t l <-> (t, x) ∈ l.
Proof.
  unfold of_txn. rewrite elem_of_list_fmap. split.
  - intros ([t' y] & -> & H). rewrite elem_of_list_filter in H. cbn in H. destruct H as [<- H]. done.
  - intros H. exists (t, x). split; [done|]. rewrite elem_of_list_filter. done.
Qed.
Lemma elem_of_flat_map' {A B} (f : A -> list B) l x : x ∈ flat_map f l <-> exists y, y ∈ l /\ x ∈ f y.
Proof. rewrite elem_of_list_In, in_flat_map. setoid_rewrite elem_of_list_In. done. Qed.
Lemma elem_added t e tr : (t, e) ∈ added tr <-> EvAdd t e ∈ tr.
Proof.
  unfold added. rewrite elem_of_flat_map'. split.
  - intros (y & Hy & H). destruct y; try by apply elem_of_nil in H. apply elem_of_list_singleton in H. by injection H as -> ->.
  - intros H. eexists. split; [exact H|]. by apply elem_of_list_singleton.
Qed.
Lemma elem_ends t ok tr : (t, ok) ∈ ends tr <-> EvEnd t ok ∈ tr.
Proof.
  unfold ends. rewrite elem_of_flat_map'. split.
  - intros (y & Hy & H). destruct y; try by apply elem_of_nil in H. apply elem_of_list_singleton in H. by injection H as -> ->.
  - intros H. eexists. split; [exact H|]. by apply elem_of_list_singleton.
Qed.
Lemma elem_called t e r tr : (t, (e, r)) ∈ called tr <-> EvCall t e r ∈ tr.
Proof.
  unfold called. rewrite elem_of_flat_map'. split.
  - intros (y & Hy & H). destruct y; try by apply elem_of_nil in H. apply elem_of_list_singleton in H. by injection H as -> -> ->.
  - intros H. eexists. split; [exact H|]. by apply elem_of_list_singleton.
Qed.
Lemma elem_sent t e r tr : (t, (e, r)) ∈ sent tr <-> EvSend t e r ∈ tr.
Proof.
  unfold sent. rewrite elem_of_flat_map'. split.
  - intros (y & Hy & H). destruct y; try by apply elem_of_nil in H. apply elem_of_list_singleton in H. by injection H as -> -> ->.
  - intros H. eexists. split; [exact H|]. by apply elem_of_list_singleton.
Qed.
Lemma elem_dones e tr : e ∈ dones tr <-> EvDone e ∈ tr.
Proof.
  unfold dones. rewrite elem_of_flat_map'. split.
  - intros (y & Hy & H). destruct y; try by apply elem_of_nil in H. apply elem_of_list_singleton in H. by subst.
  - intros H. eexists. split; [exact H|]. by apply elem_of_list_singleton.
Qed.
Lemma elem_arrs e tr : e ∈ arrs tr <-> EvArr e ∈ tr.
Proof.
  unfold arrs. rewrite elem_of_flat_map'. split.
  - intros (y & Hy & H). destruct y; try by apply elem_of_nil in H. apply elem_of_list_singleton in H. by subst.
  - intros H. eexists. split; [exact H|]. by apply elem_of_list_singleton.
Qed.
Lemma elem_takes e tr : e ∈ takes tr <-> EvTake e ∈ tr.
Proof.
  unfold takes. rewrite elem_of_flat_map'. split.
  - intros (y & Hy & H). destruct y; try by apply elem_of_nil in H. apply elem_of_list_singleton in H. by subst.
  - intros H. eexists. split; [exact H|]. by apply elem_of_list_singleton.
Qed.
Lemma elem_taken e tr : e ∈ taken tr <-> EvTake e ∈ tr \/ EvRej e ∈ tr.
Proof.
  unfold taken. rewrite elem_of_flat_map'. split.
  - intros (y & Hy & H). destruct y; try by apply elem_of_nil in H. all: apply elem_of_list_singleton in H; subst; auto.
  - intros [H|H]; (eexists; split; [exact H|]); by apply elem_of_list_singleton.
Qed.
Lemma sent_sendAll t l : sent (sendAll t l) = map (fun x => (t, x)) l.
Proof. induction l as [|[e r] l IH]; [done|]. change ((t, (e, r)) :: sent (sendAll t l) = (t, (e, r)) :: map (fun x => (t, x)) l). by f_equal. Qed.
Lemma of_txn_same {A} t (l : list A) : of_txn t (map (fun x => (t, x)) l) = l.
Proof. unfold of_txn. induction l as [|x l IH]; [done|]. cbn [map]. rewrite filter_cons_True by done. cbn [map snd]. by f_equal. Qed.
Lemma of_txn_other {A} t t' (l : list A) : t <> t' -> of_txn t (map (fun x => (t', x)) l) = [].
Proof. intros H. unfold of_txn. induction l as [|x l IH]; [done|]. cbn [map]. rewrite filter_cons_False by (cbn; congruence). done. Qed.
Lemma of_txn_one {A} t (x : A) : of_txn t [(t, x)] = [x]. Proof. apply (of_txn_same t [x]). Qed.
Lemma of_txn_one_ne {A} t t' (x : A) : t <> t' -> of_txn t [(t', x)] = []. Proof. apply (of_txn_other t t' [x]). Qed.
Lemma sendAll_other t l : arrs (sendAll t l) = [] /\ taken (sendAll t l) = [] /\ takes (sendAll t l) = [] /\ added (sendAll t l) = [] /\ ends (sendAll t l) = []
  /\ called (sendAll t l) = [] /\ dones (sendAll t l) = [].
Proof. induction l as [|x l IH]; [done|]. exact IH. Qed.

(** splitting a longer trace *)
Lemma snoc_split {A} (tr w u v : list A) (x : A) : tr ++ w = u ++ x :: v ->
  (exists v', tr = u ++ x :: v' /\ v = v' ++ w) \/ (exists w1, w = w1 ++ x :: v /\ u = tr ++ w1).
Proof.
  intros H. apply app_eq_app in H. destruct H as (k & [[-> H]|[-> H]]).
  - destruct k as [|y k]; cbn in H.
    + right. exists []. rewrite !app_nil_r. auto.
    + injection H as <- ->. left. eauto.
  - right. eauto.
Qed.
Lemma snoc_split1 {A} (tr u v : list A) (x y : A) : tr ++ [y] = u ++ x :: v ->
  (exists v', tr = u ++ x :: v' /\ v = v' ++ [y]) \/ (v = [] /\ x = y /\ u = tr).
Proof.
  intros H. destruct (snoc_split _ _ _ _ _ H) as [?|(w1 & E & ->)]; [by left|]. right.
  destruct w1 as [|z w1]; cbn in E; [injection E as -> <-; rewrite app_nil_r; done|].
  injection E as _ E. by destruct w1.
Qed.

(** ** the pipeline *)
Definition kn (s : st) : list nat := match kp s with KIdle => [] | KFin n _ _ _ | KEnded n | KRel n _ | KDead n => [n] end.
Definition deck (s : st) : list nat := match fp s with FPop => [] | _ => [onDeck s] end.
Definition pipe (s : st) : list nat := kn s ++ queue s ++ deck s.
Definition evs (s : st) (n : nat) : nat := n_ev (nodes s n).
Definition txn (s : st) (n : nat) : nat := n_txn (nodes s n).
Definition busy (s : st) : list nat := filter (fun n => evs s n <> 0) (pipe s).
Definition over (s : st) : nat := match kp s with KEnded _ | KRel _ _ | KDead _ => 1 | _ => 0 end.
(** what is left of a node's events while it is handing over its partitions *)
Definition cut (s : st) (n : nat) (l : list ec) : list ec :=
  match kp s with KRel m todo => if decide (n = m) then filter (fun e => e_p e ∈ todo) l else l | _ => l end.

Global Arguments busy : simpl never. Global Arguments pipe : simpl never. Global Arguments cut : simpl never. Global Arguments adds : simpl never.
Record Str (c : cfg) (s : st) : Prop := {
  str_ring : exists h, h < poolSize c /\ pipe s ++ freeq s = h :: ring (poolSize c) h;
  str_kq : forall n, n ∈ kn s ++ queue s -> evs s n <> 0;
  str_deck : match fp s with FAdded _ | FOwned _ | FTried | FPush => evs s (onDeck s) <> 0 | _ => True end;
  str_idle : forall n, evs s n = 0 -> n_ecs (nodes s n) = [] /\ n_prod (nodes s n) = 0 /\ n_pend (nodes s n) = [];
  str_free : forall n, n ∈ freeq s -> evs s n = 0;
  str_txn : exists k, map (txn s) (busy s) = seq k (length (busy s)) /\ ntxn s = k + length (busy s) /\ map fst (ends (trace s)) = seq 0 (k + over s);
  str_adds : forall n, n ∈ busy s -> n_ecs (nodes s n) = cut s n (adds (txn s n) (trace s));
  str_nev : forall n, n ∈ busy s -> evs s n = length (adds (txn s n) (trace s));
  str_lt : forall t e, (t, e) ∈ added (trace s) -> t < ntxn s;
  str_sorted : StronglySorted le (map fst (added (trace s)));
  str_take : takes (trace s) = map snd (added (trace s)) ++ match fp s with FChecked e => [e] | _ => [] end;
  str_arr : arrs (trace s) = taken (trace s) ++ buffer s;
  str_ids : map e_id (arrs (trace s)) = seq 0 (narr s);
}.

Definition valid (c : cfg) : Prop := 1 <= poolSize c /\ 1 <= pendingTxn c /\ 1 <= target c <= maxBatch c.

Lemma ring_rot k h : h < k -> ring k h ++ [h] = (S h mod k) :: ring k (S h mod k).
Proof.
  intros Hh. unfold ring. destruct k as [|k]; [lia|]. replace (S k - 1) with k by lia.
  transitivity (map (fun i => (h + i) mod S k) (seq 1 (S k))).
  - rewrite seq_S, map_app. cbn [map]. f_equal. f_equal. replace (h + (1 + k)) with (h + 1 * S k) by lia. rewrite Nat.mod_add by lia. by rewrite Nat.mod_small.
  - cbn [seq map]. replace (h + 1) with (S h) by lia. f_equal.
    rewrite <- seq_shift, map_map. apply map_ext. intros i. rewrite Nat.add_mod_idemp_l by lia. f_equal. lia.
Qed.
Lemma ring_nodup k h : h < k -> NoDup (h :: ring k h).
Proof.
  intros Hh. assert (h :: ring k h = map (fun i => (h + i) mod k) (seq 0 k)) as ->.
  { destruct k as [|k]; [lia|]. unfold ring. replace (S k - 1) with k by lia. cbn [seq map]. f_equal. rewrite Nat.add_0_r. by rewrite Nat.mod_small. }
  apply NoDup_fmap_2_strong; [|apply NoDup_seq].
  intros x y Hx Hy E. rewrite elem_of_seq in Hx, Hy.
  assert (forall z, z < k -> (h + z < k /\ (h + z) mod k = h + z) \/ (k <= h + z /\ (h + z) mod k = h + z - k)) as M.
  { intros z Hz. destruct (decide (h + z < k)) as [L|L]; [left; split; [done|by apply Nat.mod_small]|right].
    split; [lia|]. replace (h + z) with (h + z - k + 1 * k) at 1 by lia. rewrite Nat.mod_add by lia. apply Nat.mod_small. lia. }
  destruct (M x) as [[? ?]|[? ?]], (M y) as [[? ?]|[? ?]]; lia.
Qed.
Lemma Str_nodup c s : Str c s -> NoDup (pipe s ++ freeq s).
Proof. intros I. destruct (str_ring _ _ I) as (h & Hh & ->). by apply ring_nodup. Qed.
Lemma Str_nodup_pipe c s : Str c s -> NoDup (pipe s).
Proof. intros I. apply Str_nodup, NoDup_app in I. tauto. Qed.
Lemma busy_nodup c s : Str c s -> NoDup (busy s).
Proof. intros I. apply NoDup_filter. by eapply Str_nodup_pipe. Qed.
Lemma elem_busy s n : n ∈ busy s <-> evs s n <> 0 /\ n ∈ pipe s.
Proof. unfold busy. by rewrite elem_of_list_filter. Qed.
(** the head and the tail of the ring *)
Lemma ring_tail c s n l : Str c s -> pipe s ++ freeq s = n :: l -> ring (poolSize c) n = l.
Proof. intros I E. destruct (str_ring _ _ I) as (h & Hh & E'). rewrite E in E'. injection E' as -> ->. done. Qed.
Lemma filter_eq_in {A} (P Q : A -> Prop) `{!forall x, Decision (P x), !forall x, Decision (Q x)} (l : list A) : (forall x, x ∈ l -> P x <-> Q x) -> filter P l = filter Q l.
Proof.
  induction l as [|x l IH]; intros HH; [done|].
  destruct (decide (P x)) as [p|p].
  - rewrite !filter_cons_True; [|apply HH; [by left|done]|done]. f_equal. apply IH. intros y Hy. apply HH. by right.
  - rewrite !filter_cons_False; [|rewrite <- HH; [done|by left]|done]. apply IH. intros y Hy. apply HH. by right.
Qed.
Lemma SSorted_snoc {A} (R : A -> A -> Prop) l y : StronglySorted R l -> (forall x, x ∈ l -> R x y) -> StronglySorted R (l ++ [y]).
Proof.
  induction 1 as [|x l S IH F]; intros H; cbn; [repeat constructor|]. constructor.
  - apply IH. intros z Hz. apply H. by right.
  - apply Forall_app. split; [done|]. constructor; [|done]. apply H. by left.
Qed.
Lemma sublist_nodup {A} (l k : list A) : sublist l k -> NoDup k -> NoDup l.
Proof.
  induction 1 as [|x l k S IH|x l k S IH]; intros ND; [done| |].
  - apply NoDup_cons in ND as [H ND]. constructor; [|auto]. intros Hx. apply H. eapply elem_of_submseteq; [exact Hx|]. by apply sublist_submseteq.
  - apply NoDup_cons in ND as [_ ND]. auto.
Qed.
