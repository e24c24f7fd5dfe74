(** The invariant of the batcher. *)
From stdpp Require Import prelude list gmap.
From Coq Require Import ZArith.
From Verif.Batcher Require Import Model Base.
Open Scope nat_scope.

Ltac ss := cbn [set_batches set_execs set_assign set_pending set_count set_timers set_calls log batches execs assign pending count maxb timers calls trace
                e_items e_noops e_busy e_timer e_go e_all b_key b_items b_done b_next t_ex t_st] in *.

Definition pcOK (x : ex) (p : pc) : Prop :=
  match p with PStart => True | PExec _ => e_items x <> [] | PComp i => i <= length (e_items x) | PNoops i => i <= length (e_noops x) end.
Record exOK (m : nat) (x : ex) : Prop := {
  x_items : e_items x = nm (e_all x);
  x_noops : e_noops x = ph (e_all x);
  x_size : 1 <= m -> length (e_all x) <= m;
  x_go : if e_busy x then e_timer x = None /\ exists p, e_go x = [p] /\ pcOK x p else e_go x = [] }.
Definition readyOK (m : nat) (x : ex) : Prop :=
  e_busy x = false -> (1 <= m -> length (e_all x) < m) /\ (e_all x <> [] -> e_timer x <> None).

(** the executor a key is assigned to *)
Definition cur (s : st) (k : nat) : ex := match assign s !! k with Some e => default freshE (execs s !! e) | None => freshE end.
Definition called (go : list pc) : bool := match go with PExec _ :: _ | PComp _ :: _ | PNoops _ :: _ => true | _ => false end.
Definition ncomp (x : ex) : nat := match e_go x with PComp i :: _ => i | PNoops _ :: _ => length (e_items x) | _ => 0 end.
Definition nnoop (x : ex) : nat := match e_go x with PNoops i :: _ => i | _ => 0 end.
(** per key: what was added is what went through finished executions, then what is in the executor, then what is pending *)
Definition kOK (t : list ev) (c : ex) (pd : list item) (k : nat) : Prop :=
  exists f, fk k (added t) = f ++ fk k (e_all c) ++ fk k pd /\
            fk k (handed t) = nm f ++ (if called (e_go c) then fk k (e_items c) else []) /\
            fk k (nm (comp t)) = nm f ++ fk k (take (ncomp c) (e_items c)) /\
            fk k (ph (comp t)) = ph f ++ fk k (take (nnoop c) (e_noops c)).
Definition busy1 (x : ex) : nat := if e_busy x then 1 else 0.
Definition cb (b : nat) (t : list ev) : nat := length (filter (fun b' => b' = b) (cbs t)).
Record base (s : st) (pd : list item) : Prop := {
  a_ex : forall e x, execs s !! e = Some x -> exOK (maxb s) x;
  a_asg : forall e x it, execs s !! e = Some x -> it ∈ e_all x -> assign s !! i_k it = Some e;
  a_len : forall k e, assign s !! k = Some e -> e < length (execs s);
  a_count : count s = Z.of_nat (lsum busy1 (execs s));
  a_timer : forall e x t, execs s !! e = Some x -> e_timer x = Some t -> exists ts, timers s !! t = Some (mkT e ts) /\ ts <> TOver;
  a_key : forall k, kOK (trace s) (cur s k) pd k;
  a_added : forall b, fb b (added (trace s)) = match batches s !! b with Some x => take (b_next x) (itemsOf b x) | None => [] end;
  a_next : forall b x, batches s !! b = Some x -> b_next x <= length (itemsOf b x);
  a_done : forall b x, batches s !! b = Some x -> b_done x = length (nm (fb b (comp (trace s))));
  a_cb : forall b, cb b (trace s) = match batches s !! b with
           | Some x => if decide (b_items x = []) then length (ph (fb b (comp (trace s)))) else if b_done x =? length (b_items x) then 1 else 0
           | None => 0 end;
  a_calls : forall c l, EvCall c l ∈ trace s -> c < calls s;
  a_call1 : forall c l l', EvCall c l ∈ trace s -> EvCall c l' ∈ trace s -> l = l';
  a_rets : forall c, EvRet c ∈ trace s -> c < calls s;
  a_open : forall c l, EvCall c l ∈ trace s -> EvRet c ∈ trace s \/ exists e x, execs s !! e = Some x /\ e_go x = [PExec c] /\ e_items x = l;
  a_pexec : forall e x c, execs s !! e = Some x -> e_go x = [PExec c] -> EvCall c (e_items x) ∈ trace s /\ EvRet c ∉ trace s;
  a_size : forall c l, EvCall c l ∈ trace s -> l <> [] /\ (1 <= maxb s -> length l <= maxb s) }.
Definition ready (s : st) : Prop := forall e x, execs s !! e = Some x -> readyOK (maxb s) x.
Definition blocked (s : st) (k : nat) : Prop := exists e x, assign s !! k = Some e /\ execs s !! e = Some x /\ e_busy x = true.
Definition full (s : st) : Prop := count s = Z.of_nat (length (execs s)).
Record inv (s : st) : Prop := { i_base : base s (pending s); i_ready : ready s; i_wait : forall it, it ∈ pending s -> blocked s (i_k it) \/ full s }.

(** ** consequences *)
Lemma cur_at s k e x : assign s !! k = Some e -> execs s !! e = Some x -> cur s k = x.
Proof. intros A E. unfold cur. rewrite A, E. reflexivity. Qed.
Lemma full_busy s pd : base s pd -> full s -> forall e x, execs s !! e = Some x -> e_busy x = true.
Proof.
  intros B F e x E. unfold full in F. rewrite (a_count s pd B) in F. apply Nat2Z.inj in F.
  pose proof (lsum_all busy1 (execs s)) as Q. specialize (Q ltac:(intros i y _; unfold busy1; destruct (e_busy y); lia) F _ _ E). unfold busy1 in Q. destruct (e_busy x); [auto|lia].
Qed.
Lemma busy_full s pd : base s pd -> (forall e x, execs s !! e = Some x -> e_busy x = true) -> full s.
Proof.
  intros B F. unfold full. rewrite (a_count s pd B). f_equal. clear B. induction (execs s) as [|x l IH]; [reflexivity|]. cbn.
  pose proof (F 0 x eq_refl) as Fx. unfold busy1 at 1. rewrite Fx. f_equal. apply IH. intros e y E. apply (F (S e) y E).
Qed.
Lemma all_added s pd e x it : base s pd -> execs s !! e = Some x -> it ∈ e_all x -> it ∈ added (trace s).
Proof.
  intros B E H. pose proof (a_asg s pd B e x it E H) as A. destruct (a_key s pd B (i_k it)) as (f & K & _). rewrite (cur_at s _ e x A E) in K.
  assert (Q : it ∈ fk (i_k it) (added (trace s))).
  { rewrite K. apply elem_of_app. right. apply elem_of_app. left. apply elem_fk. auto. }
  apply elem_fk in Q. tauto.
Qed.
Lemma added_batch s pd it : base s pd -> it ∈ added (trace s) -> exists x, batches s !! i_b it = Some x /\ it ∈ itemsOf (i_b it) x.
Proof.
  intros B H. pose proof (a_added s pd B (i_b it)) as A. assert (Q : it ∈ fb (i_b it) (added (trace s))) by (apply elem_fb; auto). rewrite A in Q.
  destruct (batches s !! i_b it) as [x|]; [|inversion Q]. exists x. split; [reflexivity|]. rewrite <- (take_drop (b_next x) (itemsOf (i_b it) x)). apply elem_of_app. auto.
Qed.
Lemma added_NoDup s pd : base s pd -> NoDup (added (trace s)).
Proof.
  intros B. apply NoDup_parts. intros b. rewrite (a_added s pd B b). destruct (batches s !! b) as [x|]; [|constructor].
  pose proof (itemsOf_NoDup b x) as N. rewrite <- (take_drop (b_next x) (itemsOf b x)) in N. apply NoDup_app in N. tauto.
Qed.
Lemma fk_NoDup k l : NoDup l -> NoDup (fk k l). Proof. apply NoDup_filter. Qed.
Lemma comp_sub s pd k : base s pd -> exists r1 r2, nm (fk k (added (trace s))) = nm (fk k (comp (trace s))) ++ r1 /\ ph (fk k (added (trace s))) = ph (fk k (comp (trace s))) ++ r2.
Proof.
  intros B. destruct (a_key s pd B k) as (f & K1 & K2 & K3 & K4). rewrite <- fk_nm, <- fk_ph.
  assert (X : exOK (maxb s) (cur s k) \/ cur s k = freshE).
  { unfold cur. destruct (assign s !! k) as [e|]; [|auto]. destruct (execs s !! e) as [x|] eqn:E; cbn; [left; eapply a_ex; eauto|auto]. }
  assert (E1 : e_items (cur s k) = nm (e_all (cur s k))) by (destruct X as [X| ->]; [apply X|reflexivity]).
  assert (E2 : e_noops (cur s k) = ph (e_all (cur s k))) by (destruct X as [X| ->]; [apply X|reflexivity]).
  rewrite !fk_nm, !fk_ph, K1, <- fk_nm, <- fk_ph, K3, K4, !nm_app, !ph_app, <- !fk_nm, <- !fk_ph, <- E1, <- E2.
  exists (fk k (drop (ncomp (cur s k)) (e_items (cur s k))) ++ fk k (nm pd)), (fk k (drop (nnoop (cur s k)) (e_noops (cur s k))) ++ fk k (ph pd)).
  rewrite <- (take_drop (ncomp (cur s k)) (e_items (cur s k))) at 1. rewrite <- (take_drop (nnoop (cur s k)) (e_noops (cur s k))) at 1.
  rewrite !fk_app, !app_assoc. auto.
Qed.
Lemma comp_added s pd it : base s pd -> it ∈ comp (trace s) -> it ∈ added (trace s).
Proof.
  intros B H. destruct (comp_sub s pd (i_k it) B) as (r1 & r2 & E1 & E2).
  destruct (i_n it) eqn:N.
  - assert (Q : it ∈ nm (fk (i_k it) (added (trace s)))).
    { rewrite E1. apply elem_of_app. left. apply elem_nm. split; [congruence|]. apply elem_fk. auto. }
    apply elem_nm in Q as (_ & Q). apply elem_fk in Q. tauto.
  - assert (Q : it ∈ ph (fk (i_k it) (added (trace s)))).
    { rewrite E2. apply elem_of_app. left. apply elem_ph. split; [congruence|]. apply elem_fk. auto. }
    apply elem_ph in Q as (_ & Q). apply elem_fk in Q. tauto.
Qed.
Lemma NoDup_split l : NoDup (nm l) -> NoDup (ph l) -> NoDup l.
Proof.
  induction l as [|x l IH]; intros H1 H2; [constructor|]. change (x :: l) with ([x] ++ l) in H1, H2. rewrite nm_app, nm_one in H1. rewrite ph_app, ph_one in H2. constructor.
  - intros Hx. destruct (i_n x) eqn:N; cbn in *.
    + apply NoDup_cons in H1 as (H1 & _). apply H1. apply elem_nm. split; [congruence|auto].
    + apply NoDup_cons in H2 as (H2 & _). apply H2. apply elem_ph. split; [congruence|auto].
  - apply IH; [apply NoDup_app in H1|apply NoDup_app in H2]; tauto.
Qed.
Lemma comp_NoDup s pd : base s pd -> NoDup (comp (trace s)).
Proof.
  intros B. apply NoDup_keys. intros k. destruct (comp_sub s pd k B) as (r1 & r2 & E1 & E2). pose proof (fk_NoDup k _ (added_NoDup s pd B)) as N.
  apply NoDup_split.
  - assert (Q : NoDup (nm (fk k (added (trace s))))) by (apply NoDup_filter; exact N). rewrite E1 in Q. apply NoDup_app in Q. tauto.
  - assert (Q : NoDup (ph (fk k (added (trace s))))) by (apply NoDup_filter; exact N). rewrite E2 in Q. apply NoDup_app in Q. tauto.
Qed.
Lemma comp_le s pd b x : base s pd -> batches s !! b = Some x -> b_items x <> [] -> length (nm (fb b (comp (trace s)))) <= length (b_items x).
Proof.
  intros B E N. rewrite <- (itemsOf_length b x N). apply submseteq_length. apply NoDup_submseteq.
  - apply NoDup_filter, NoDup_filter, (comp_NoDup s pd B).
  - intros it H. apply elem_nm in H as (_ & H). apply elem_fb in H as (<- & H). apply (comp_added s pd it B) in H. apply (added_batch s pd it B) in H as (x' & E' & H). congruence.
Qed.
Lemma comp_all s pd b x : base s pd -> batches s !! b = Some x -> b_items x <> [] -> b_done x = length (b_items x) -> forall it, it ∈ itemsOf b x -> it ∈ comp (trace s).
Proof.
  intros B E N D it H. rewrite (a_done s pd B b x E) in D.
  assert (P : nm (fb b (comp (trace s))) ≡ₚ itemsOf b x).
  { apply submseteq_Permutation_length_eq; [rewrite itemsOf_length by auto; lia|]. apply NoDup_submseteq.
    - apply NoDup_filter, NoDup_filter, (comp_NoDup s pd B).
    - intros i Hi. apply elem_nm in Hi as (_ & Hi). apply elem_fb in Hi as (<- & Hi). apply (comp_added s pd i B) in Hi. apply (added_batch s pd i B) in Hi as (x' & E' & Hi). congruence. }
  rewrite <- P in H. apply elem_nm in H as (_ & H). apply elem_fb in H. tauto.
Qed.
Lemma all_comp s pd b x : base s pd -> batches s !! b = Some x -> b_items x <> [] -> (forall it, it ∈ itemsOf b x -> it ∈ comp (trace s)) -> b_done x = length (b_items x).
Proof.
  intros B E N H. rewrite (a_done s pd B b x E). apply Nat.le_antisymm; [eapply comp_le; eauto|]. rewrite <- (itemsOf_length b x N).
  apply submseteq_length. apply NoDup_submseteq; [apply itemsOf_NoDup|]. intros it Hit. apply elem_nm. pose proof (itemsOf_elem b x it Hit) as (Q1 & Q2). split; [tauto|]. apply elem_fb. auto.
Qed.
