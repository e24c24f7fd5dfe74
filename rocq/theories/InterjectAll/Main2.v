From stdpp Require Import prelude list.
From Coq Require Import Lia.
From Verif.InterjectAll Require Import Model Proofs Main.
Open Scope nat_scope.

Lemma started_called b acts : forall s, run b init acts = Some s -> started s = true -> exists ps, Call ps ∈ acts.
Proof.
  induction acts as [|a l IH] using rev_ind; intros s R St; [injection R as <-; discriminate|]. rewrite run_snoc in R. destruct (run b init l) as [s0|]; [|discriminate].
  destruct (started_step _ _ _ _ R) as [Q|(ps & -> & _)]; [|exists ps; apply elem_of_app; right; left]. rewrite Q in St. destruct (IH _ eq_refl St) as (ps & H). exists ps. apply elem_of_app. left. exact H.
Qed.
Lemma err_reason' b acts : forall s p, run b init acts = Some s -> (p, false) ∈ ans s ->
  exists l1 l2, acts = l1 ++ Next :: l2 /\ (exists ps, Call ps ∈ l1) /\ match owner p l1 with None => True | Some w => Ready w ∉ l1 end.
Proof.
  induction acts as [|a l IH] using rev_ind; intros s p R H; [injection R as <-; inversion H|]. rewrite run_snoc in R. destruct (run b init l) as [s0|] eqn:R0; [|discriminate].
  assert (D : (p, false) ∈ ans s0 \/ a = Next /\ todo s0 <> [] /\ match find p (live s0) with None => True | Some w => match ws s0 !! w with Some x => ready x = false | None => False end end).
  { destruct a as [q|q|w|w|w|w|w g|w|ps| | | |]; [..|apply call_case in R as (_ & _ & ->); inversion H| | | |]; cases R; norm; el; auto.
    all: right; try (injection H as H); subst; split_and!; [reflexivity|congruence|].
    - match goal with K : find _ _ = _ |- _ => rewrite K end. match goal with K : ws _ !! _ = _ |- _ => rewrite K end. assumption.
    - match goal with K : find _ _ = _ |- _ => rewrite K end. exact Logic.I. }
  destruct D as [D|(-> & Td & D)].
  - destruct (IH _ _ eq_refl D) as (l1 & l2 & -> & Q). exists l1, (l2 ++ [a]). rewrite <- app_assoc. auto.
  - exists l, []. split_and!; [reflexivity| |].
    + eapply started_called; [exact R0|]. pose proof (i_fresh _ _ (inv_at _ _ _ R0)) as F. destruct (started s0); [reflexivity|]. destruct (F eq_refl) as (T & _). congruence.
    + destruct (hist_at _ _ _ R0) as (_ & O & Rd). rewrite <- O. destruct (find p (live s0)) as [w|]; [|exact Logic.I]. destruct (ws s0 !! w) as [x|] eqn:X; [|contradiction]. intros K. apply (Rd _ _ X) in K. congruence.
Qed.
Lemma err_reason b acts s p : run b init acts = Some s -> EvErr p ∈ trace s ->
  exists l1 l2, acts = l1 ++ Next :: l2 /\ (exists ps, Call ps ∈ l1) /\ match owner p l1 with None => True | Some w => Ready w ∉ l1 end.
Proof. intros R H. eapply err_reason'; [exact R|]. apply (i_err _ _ (inv_at _ _ _ R)), H. Qed.

Lemma begin_case b s a s' p : step b s a = Some s' -> trace s' = trace s ++ [EvBegin p] -> exists w x, a = Take w true /\ ws s !! w = Some x /\ busy x = None /\ exists l, evq x = Some p :: l.
Proof.
  intros E T. destruct a as [q|q|w|w|w|w|w g|w|ps| | | |]; [..|apply call_case in E as (_ & _ & ->); norm; apply app_inj_tail in T as [_ T]; discriminate T| | | |]; cases E; norm; rewrite ?app_nil_r in T;
    try (apply app_inj_tail in T as [_ T]; try discriminate T); try (apply (f_equal length) in T; rewrite app_length in T; cbn in T; lia).
  injection T as <-. eauto 8.
Qed.
Lemma own_worker b acts s t1 p t2 : run b init acts = Some s -> trace s = t1 ++ EvBegin p :: t2 ->
  exists l1 w l2, acts = l1 ++ Take w true :: l2 /\ (exists s1, run b init l1 = Some s1 /\ trace s1 = t1) /\ made l1 !! w = Some p /\ Ready w ∈ l1.
Proof.
  intros R T. destruct (trace_split _ _ _ _ _ _ R T) as (l1 & a & l2 & s1 & s2 & -> & R1 & E & T1 & T2). subst t1. destruct (begin_case _ _ _ _ _ E T2) as (w & x & -> & X & B & l & Q).
  exists l1, w, l2. destruct (i_part _ _ (inv_at _ _ _ R1) p w x X) as [P Rd]; [unfold held; rewrite Q, occ_cons; cbn; rewrite Nat.eqb_refl; lia|]. destruct (hist_at _ _ _ R1) as (M & _ & H).
  split_and!; [reflexivity|eauto| |apply (H w x X), Rd]. rewrite <- M. change (map part (ws s1)) with (part <$> ws s1). rewrite list_lookup_fmap, X. cbn. rewrite P. reflexivity.
Qed.
Lemma only_snapshot b acts s p : run b init acts = Some s -> EvBegin p ∈ trace s \/ EvErr p ∈ trace s -> exists ps, EvCall ps ∈ trace s /\ p ∈ ps.
Proof.
  intros R H. pose proof (inv_at _ _ _ R) as I. assert (St : started s = true). { destruct (started s) eqn:Z; [reflexivity|]. destruct (i_fresh _ _ I Z) as (_ & _ & _ & _ & T & _). rewrite T in H. destruct H as [H|H]; inversion H. }
  destruct (started_called _ _ _ R St) as (ps & C). apply elem_of_list_split in C as (l1 & l2 & ->). destruct (snapshot _ _ _ _ _ R) as (_ & _ & C). exists ps. split; [exact C|]. destruct (decide (p ∈ ps)) as [Y|N]; [exact Y|exfalso].
  destruct (i_snap _ _ I ps C) as (_ & _ & Z). specialize (Z p N). unfold total in Z. destruct H as [H|H]; [pose proof (occ_in (isB p) _ _ H (Nat.eqb_refl p)); lia|]. apply (i_err _ _ I) in H.
  pose proof (occ_in (isF p) _ _ H) as F. unfold isF in F at 1. cbn in F. rewrite Nat.eqb_refl in F. specialize (F eq_refl). lia.
Qed.

(** ** C110 *)
Fixpoint begun (t : list ev) : nat := match t with [] => 0 | EvBegin _ :: t' => S (begun t') | _ :: t' => begun t' end.
Fixpoint ended_n (t : list ev) : nat := match t with [] => 0 | EvEnd _ :: t' => S (ended_n t') | _ :: t' => ended_n t' end.
Lemma begun_occ t : begun t = occ isBeg t.
Proof. induction t as [|e t IH]; [reflexivity|]. rewrite occ_cons. destruct e; cbn; lia. Qed.
Lemma ended_occ t : ended_n t = occ isEnd t.
Proof. induction t as [|e t IH]; [reflexivity|]. rewrite occ_cons. destruct e; cbn; lia. Qed.
Lemma one_at_a_time acts s t1 p t2 : run true init acts = Some s -> trace s = t1 ++ EvBegin p :: t2 -> begun t1 = ended_n t1.
Proof.
  intros R T. destruct (trace_split _ _ _ _ _ _ R T) as (l1 & a & l2 & s1 & s2 & -> & R1 & E & T1 & T2). subst t1. destruct (begin_case _ _ _ _ _ E T2) as (w & x & -> & X & B & l & Q).
  pose proof (inv_at _ _ _ R1) as I. rewrite begun_occ, ended_occ, (i_all _ _ I). destruct (Nat.eq_dec (sumw bza (ws s1)) 0) as [->|Z]; [lia|exfalso]. destruct (sumw_pos bza (ws s1) ltac:(lia)) as (v & y & Y & K).
  unfold bza in K. destruct (busy y) as [[q|]|] eqn:Bq; try lia.
  assert (Hx : 0 < sumw (held p) (ws s1)) by (pose proof (sumw_in (held p) _ _ _ X); unfold held in * at 1; rewrite Q, occ_cons in *; cbn in *; rewrite Nat.eqb_refl in *; lia).
  assert (Hy : 0 < sumw (bz q) (ws s1)) by (pose proof (sumw_in (bz q) _ _ _ Y); unfold bz in * at 1; rewrite Bq in *; cbn in *; rewrite Nat.eqb_refl in *; lia).
  assert (Wp : p ∈ waiting s1) by (apply (i_wait _ _ I); unfold out; lia). assert (Wq : q ∈ waiting s1) by (apply (i_wait _ _ I); unfold out; lia).
  pose proof (i_sync _ _ I eq_refl) as L. destruct (waiting s1) as [|r [|]]; cbn in L; [inversion Wp| |lia]. apply elem_of_list_singleton in Wp, Wq. subst p q.
  destruct (i_tot _ _ I) as (Tt & Tb & _). specialize (Tt r). specialize (Tb r). unfold total in Tt. lia.
Qed.

(** ** C111 *)
Definition lost (p : nat) (s : st) : Prop := p ∈ waiting s /\ total p s = 0.
Lemma lost_step b s a s' p : step b s a = Some s' -> inv b s -> started s = true -> lost p s -> started s' = true /\ lost p s'.
Proof.
  intros E I St [W Z]. assert (N : forall qs, a <> Call qs) by (intros qs ->; apply call_case in E as (F & _); congruence).
  split; [destruct (started_step _ _ _ _ E) as [->|(qs & -> & _)]; [exact St|destruct (N qs); reflexivity]|]. split; [|pose proof (total_step _ _ _ _ p E N); lia].
  destruct (i_tot _ _ I) as (_ & B & A). specialize (B p). specialize (A p). unfold total in Z.
  assert (Np : forall c, (p, c) ∉ ans s).
  { intros [|] H; [pose proof (occ_in (isT p) _ _ H) as F; unfold isT in F at 1|pose proof (occ_in (isF p) _ _ H) as F; unfold isF in F at 1]; cbn in F; rewrite Nat.eqb_refl in F; specialize (F eq_refl); lia. }
  destruct a as [q|q|w|w|w|w|w g|w|qs| | | |]; [..|destruct (N qs); reflexivity| | | |]; cases E; norm; try exact W; try (apply elem_of_app; left; exact W).
  all: apply elem_of_cons in W as [->|W]; [|exact W]; match goal with K : bool_decide ((?n, ?c) ∈ _) = true |- _ => apply bool_decide_eq_true_1 in K; destruct (Np c K) end.
Qed.
Lemma lost_run b acts : forall s s' p, run b s acts = Some s' -> inv b s -> started s = true -> lost p s -> EvReturn ∉ trace s'.
Proof.
  induction acts as [|a l IH]; intros s s' p R I St L.
  - injection R as <-. intros H. destruct (i_ret _ _ I H) as (_ & _ & _ & W). destruct L as [L _]. rewrite W in L. inversion L.
  - cbn in R. destruct (step b s a) as [s1|] eqn:E; [|discriminate]. destruct (lost_step _ _ _ _ _ E I St L) as [St1 L1]. exact (IH _ _ _ R (inv_step _ _ _ _ E I) St1 L1).
Qed.

(** the steps of the workers and of the call itself *)
Definition inner (a : action) : bool := match a with Pull _ | Take _ _ | End _ | Next | Send | Await | Return => true | _ => false end.
Definition wsize (x : worker) : nat := 3 * length (chan x) + 2 * length (evq x) + match busy x with Some _ => 1 | None => 0 end.
Definition size (s : st) : nat := sumw wsize (ws s) + 6 * length (todo s) + 5 * sendn s + length (waiting s) + (if bool_decide (EvReturn ∈ trace s) then 0 else 1).
Lemma ret_snoc t e : e <> EvReturn -> bool_decide (EvReturn ∈ t ++ [e]) = bool_decide (EvReturn ∈ t).
Proof. intros N. apply bool_decide_ext. rewrite elem_of_app, elem_of_list_singleton. split; [intros [H|H]; congruence|auto]. Qed.
Lemma size_step b s a s' : step b s a = Some s' -> inner a = true -> size s' < size s.
Proof.
  intros E N. unfold size, sendn. destruct a as [q|q|w|w|w|w|w g|w|qs| | | |]; try discriminate N; cases E; norm; rewrite ?app_nil_r; rewrite ?ret_snoc by discriminate.
  all: upds wsize; unfold wsize in *; norm; eqns; rewrite ?app_length; cbn [length] in *; repeat match goal with K : waiting _ = _ |- _ => rewrite K in *; clear K end; cbn [length] in *; try lia.
  rewrite bool_decide_true by (apply elem_of_app; right; left). lia.
Qed.
Lemma size_run b acts : forall s s', run b s acts = Some s' -> Forall (fun a => inner a = true) acts -> length acts + size s' <= size s.
Proof.
  induction acts as [|a l IH]; intros s s' R F; [injection R as <-; cbn; lia|]. cbn in R. destruct (step b s a) as [s1|] eqn:E; [|discriminate]. apply Forall_cons in F as [Fa F]. specialize (IH _ _ R F). pose proof (size_step _ _ _ _ E Fa). cbn. lia.
Qed.

(** without revocations during the call an accepted interjection stays with a worker that takes it *)
Definition safe (s : st) : Prop :=
  (forall p, p ∈ waiting s -> (p, true) ∈ ans s \/ (p, false) ∈ ans s \/ 0 < out p s) /\
  (forall w x p, ws s !! w = Some x -> 0 < held p x + bz p x -> halted x = false).
Lemma safe_call b s ps s' : step b s (Call ps) = Some s' -> inv b s -> safe s'.
Proof.
  intros E I. apply call_case in E as (F & _ & ->). destruct (i_fresh _ _ I F) as (_ & _ & _ & _ & _ & H & B). split; cbn.
  - intros p K. inversion K.
  - intros w x p X K. pose proof (sumw_in (held p) _ _ _ X). pose proof (sumw_in (bz p) _ _ _ X). rewrite H, B in *. lia.
Qed.
Lemma ans_step b s a s' x : step b s a = Some s' -> (forall qs, a <> Call qs) -> x ∈ ans s -> x ∈ ans s'.
Proof.
  intros E N2 H. destruct a as [q|q|w|w|w|w|w g|w|qs| | | |]; [..|destruct (N2 qs); reflexivity| | | |]; cases E; norm; try exact H; apply elem_of_app; left; exact H.
Qed.
Lemma waiting_step b s a s' p : step b s a = Some s' -> (forall qs, a <> Call qs) -> p ∈ waiting s' -> p ∈ waiting s \/ (p, false) ∈ ans s' \/ 0 < out p s'.
Proof.
  intros E N2 H. destruct a as [q|q|w|w|w|w|w g|w|qs| | | |]; [..|destruct (N2 qs); reflexivity| | | |]; cases E; norm; auto.
  all: try (apply elem_of_app in H as [H|H]; [auto|apply elem_of_list_singleton in H; subst]; right; left; apply elem_of_app; right; left).
  all: try (left; right; exact H).
  apply elem_of_app in H as [H|H]; [auto|apply elem_of_list_singleton in H; subst]. right; right. unfold out. norm.
  match goal with K : ws ?s !! ?w = Some ?x |- context [<[?w := ?x']> _] => pose proof (sumw_in (held n) (<[w := x']> (ws s)) w x') as Z end. rewrite list_lookup_insert in Z by (eapply lookup_lt_Some; eassumption). specialize (Z eq_refl). unfold held in Z at 1. norm. rewrite occ_cons in Z. cbn [isJ] in Z. rewrite Nat.eqb_refl in Z. lia.
Qed.
Lemma out_ge b s a s' p : step b s a = Some s' -> (forall q, a <> Revoke q) -> (forall qs, a <> Call qs) -> (forall w x q, ws s !! w = Some x -> 0 < held q x + bz q x -> halted x = false) -> out p s <= out p s' \/ (p, true) ∈ ans s'.
Proof.
  intros E N1 N2 H. destruct a as [q|q|w|w|w|w|w g|w|qs| | | |]; [|destruct (N1 q); reflexivity|..|destruct (N2 qs); reflexivity| | | |]; cases E; norm; try (left; unfold out; norm; lia).
  1: { left. unfold out. norm. rewrite !sumw_app. lia. }
  all: match goal with K : ws ?s !! ?w = Some ?x |- context [<[?w := ?x']> _] => pose proof (sumw_upd (held p) (ws s) w x x' K) as U1; pose proof (sumw_upd (bz p) (ws s) w x x' K) as U2; specialize (H w x p K); unfold out; norm; set (y := x') in * end.
  all: try (assert (held p y = held p w0 /\ bz p y = bz p w0) by (unfold held, bz, y; norm; eqns; split; reflexivity); left; lia).
  all: try (assert (held p w0 + bz p w0 <= held p y + bz p y) by (unfold held, bz, y; norm; eqns; rewrite ?occ_cons, ?occ_nil; cbn [isJ]; try destruct (isJ p _); lia); left; lia).
  - left. destruct (Nat.eq_dec (held p w0 + bz p w0) 0); [lia|]. specialize (H ltac:(lia)). congruence.
  - left. destruct (Nat.eq_dec (held p w0 + bz p w0) 0); [lia|]. specialize (H ltac:(lia)). congruence.
  - destruct (Nat.eq_dec p n) as [->|D]; [right; apply elem_of_app; right; left|]. left. assert (held p w0 + bz p w0 <= held p y + bz p y); [|lia]. unfold held, bz, y; norm; eqns. cbn [isJ]. destruct (Nat.eqb_spec p n); [congruence|lia].
  - left. assert (held p w + bz p w <= held p y + bz p y); [|lia]. unfold held, bz, y; norm; eqns. rewrite occ_cons, !occ_nil. lia.
Qed.
Lemma safe_step b s a s' : step b s a = Some s' -> inv b s -> (forall q, a <> Revoke q) -> (forall qs, a <> Call qs) -> safe s -> safe s'.
Proof.
  intros E I N1 N2 [W H]. split.
  - intros p P. destruct (waiting_step _ _ _ _ p E N2 P) as [K|K]; [|auto]. destruct (W p K) as [Q|[Q|Q]]; [left; eapply ans_step; eassumption|right; left; eapply ans_step; eassumption|].
    destruct (out_ge _ _ _ _ p E N1 N2 H) as [Z|Z]; [right; right; lia|auto].
  - intros v y p. destruct a as [q|q|w|w|w|w|w g|w|qs| | | |]; [|destruct (N1 q); reflexivity|..|destruct (N2 qs); reflexivity| | | |]; cases E; norm; try (apply H).
    1: { intros V. apply lookup_app_Some in V as [V|[_ V]]; [apply (H v y p V)|]. destruct (v - length (ws s)) as [|[]]; [|discriminate|discriminate]. injection V as <-. reflexivity. }
    all: intros V; apply upd_lookup in V as [[-> ->]|[_ V]]; [|exact (H v y p V)]; norm; try reflexivity.
    all: try (match goal with K : ws ?s !! ?w = Some ?x |- _ => specialize (H w x p K) end; unfold held, bz in *; norm; eqns; rewrite ?occ_cons, ?occ_nil in *; rewrite ?isJ_None in *; intros Z; apply H in Z || (apply H; repeat destruct (isJ p _); lia); congruence || lia).
    1, 2: match goal with K : ws ?s !! ?w = Some ?x |- _ => specialize (H w x p K) end; unfold held, bz in *; norm; eqns; rewrite ?occ_cons in *; intros Z; assert (Q : halted w0 = false) by (apply H; lia); congruence.
    intros _. match goal with K : sending _ = Some _ |- _ => destruct (i_send _ _ I _ _ K) as (z & Z & _ & Hz & _) end. congruence.
Qed.
Lemma safe_run b acts : forall s s', run b s acts = Some s' -> inv b s -> started s = true -> (forall q, Revoke q ∉ acts) -> safe s -> safe s' /\ started s' = true.
Proof.
  induction acts as [|a l IH]; intros s s' R I St N Sf; [injection R as <-; auto|]. cbn in R. destruct (step b s a) as [s1|] eqn:E; [|discriminate].
  assert (N2 : forall qs, a <> Call qs) by (intros qs ->; apply call_case in E as (F & _); congruence).
  apply (IH _ _ R); [eapply inv_step; eassumption| | |].
  - destruct (started_step _ _ _ _ E) as [->|(qs & -> & _)]; [exact St|destruct (N2 qs); reflexivity].
  - intros q H. apply (N q). right. exact H.
  - eapply safe_step; [exact E|exact I|intros q ->; apply (N q); left|exact N2|exact Sf].
Qed.
Definition blocked (b : bool) (s : st) : Prop := forall a, inner a = true -> step b s a = None.
(** a worker that has something to do and is not halted can do it *)
Lemma worker_moves b s w x p : inv b s -> ws s !! w = Some x -> ready x = true -> halted x = false -> 0 < held p x + bz p x \/ chan x <> [] -> ~ blocked b s.
Proof.
  intros I X Rd Hl H B. assert (G : gone x = false) by (destruct (gone x) eqn:G; [|reflexivity]; destruct (i_live _ _ I) as (_ & _ & K); rewrite (K _ _ X G) in Hl; discriminate).
  assert (Bs : busy x = None) by (pose proof (B (End w) eq_refl) as Q; cbn in Q; rewrite X in Q; destruct (busy x); [discriminate|reflexivity]).
  assert (Ev : evq x = []) by (pose proof (B (Take w true) eq_refl) as Q; cbn in Q; rewrite X, Bs in Q; destruct (evq x); [reflexivity|discriminate]).
  assert (Ch : chan x = []) by (pose proof (B (Pull w) eq_refl) as Q; cbn in Q; rewrite X, Rd, G, Hl, Ev in Q; destruct (chan x); [reflexivity|discriminate]).
  destruct H as [H|H]; [|contradiction]. unfold held, bz in H. rewrite Bs, Ev, Ch in H. cbn in H. lia.
Qed.
Lemma progress b s : inv b s -> safe s -> started s = true -> blocked b s -> EvReturn ∈ trace s.
Proof.
  intros I [W H] St B. destruct (i_live _ _ I) as (_ & L & _).
  assert (Sd : sending s = None).
  { destruct (sending s) as [[p w]|] eqn:Sd; [exfalso|reflexivity]. destruct (i_send _ _ I _ _ Sd) as (x & X & Rd & Hl & _). destruct (chan x) eqn:C.
    - pose proof (B Send eq_refl) as Q. cbn in Q. rewrite Sd, X, C in Q. discriminate.
    - apply (worker_moves b s w x p I X Rd Hl); [right; congruence|exact B]. }
  assert (Aw : forall p l, waiting s = p :: l -> negb b && negb (bool_decide (todo s = [])) = false -> False).
  { intros p l Wt C. pose proof (B Await eq_refl) as Q. cbn in Q. rewrite Wt, Sd, C in Q. destruct (bool_decide ((p, true) ∈ ans s)) eqn:T; [discriminate|]. destruct (bool_decide ((p, false) ∈ ans s)) eqn:F; [discriminate|].
    apply bool_decide_eq_false_1 in T, F. destruct (W p) as [K|[K|K]]; [rewrite Wt; left|contradiction|contradiction|]. unfold out in K.
    assert (exists w x, ws s !! w = Some x /\ 0 < held p x + bz p x) as (w & x & X & Z).
    { destruct (Nat.eq_dec (sumw (held p) (ws s)) 0); [destruct (sumw_pos (bz p) (ws s) ltac:(lia)) as (w & x & X & Z)|destruct (sumw_pos (held p) (ws s) ltac:(lia)) as (w & x & X & Z)]; exists w, x; split; auto; lia. }
    destruct (i_part _ _ I p w x X Z) as [_ Rd]. apply (worker_moves b s w x p I X Rd (H _ _ _ X Z)); [left; exact Z|exact B]. }
  assert (Td : todo s = []).
  { destruct (todo s) as [|p l] eqn:Td; [reflexivity|exfalso]. assert (C : b && negb (bool_decide (waiting s = [])) = false).
    { destruct b; [|reflexivity]. cbn. apply negb_false_iff, bool_decide_eq_true_2. destruct (waiting s) as [|q m]; [reflexivity|]. destruct (Aw q m eq_refl eq_refl). }
    pose proof (B Next eq_refl) as Q. cbn in Q. rewrite Td, Sd, C in Q. destruct (find p (live s)) as [w|] eqn:Fd; [|discriminate]. destruct (L p w (find_in _ _ _ Fd)) as (x & X & _). rewrite X in Q. destruct (ready x); discriminate. }
  assert (Wt : waiting s = []).
  { destruct (waiting s) as [|q m] eqn:Wt; [reflexivity|]. destruct (Aw q m eq_refl). rewrite bool_decide_eq_true_2 by exact Td. apply andb_false_r. }
  pose proof (B Return eq_refl) as Q. cbn in Q. rewrite St, Td, Sd, Wt in Q. destruct (bool_decide (EvReturn ∈ trace s)) eqn:Z; [|discriminate]. apply bool_decide_eq_true_1 in Z. exact Z.
Qed.
Lemma returns b l1 ps l2 s : run b init (l1 ++ Call ps :: l2) = Some s -> (forall q, Revoke q ∉ l2) ->
  (exists n, forall l3 s', Forall (fun a => inner a = true) l3 -> run b s l3 = Some s' -> length l3 <= n) /\
  (forall l3 s', Forall (fun a => inner a = true) l3 -> run b s l3 = Some s' -> (forall a, inner a = true -> step b s' a = None) -> EvReturn ∈ trace s').
Proof.
  intros R N. destruct (run_cut _ _ _ _ _ R) as (s1 & s2 & R1 & E & R2). pose proof (inv_at _ _ _ R1) as I1. pose proof (inv_step _ _ _ _ E I1) as I2. pose proof (safe_call _ _ _ _ E I1) as Sf.
  assert (St : started s2 = true) by (apply call_case in E as (_ & _ & ->); reflexivity). destruct (safe_run _ _ _ _ R2 I2 St N Sf) as [Sf2 St2]. pose proof (inv_at _ _ _ R) as I. split.
  - exists (size s). intros l3 s' F R3. pose proof (size_run _ _ _ _ R3 F). lia.
  - intros l3 s' F R3 B. assert (N3 : forall q, Revoke q ∉ l3) by (intros q H; rewrite Forall_forall in F; specialize (F _ H); discriminate).
    destruct (safe_run _ _ _ _ R3 I St2 N3 Sf2) as [Sf3 St3]. exact (progress _ _ (inv_run _ _ _ _ R3 I) Sf3 St3 B).
Qed.
