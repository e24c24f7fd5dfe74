From stdpp Require Import prelude list.
From Coq Require Import Lia.
From Verif.InterjectAll Require Import Model.
Open Scope nat_scope.

Lemma run_app b l1 : forall s l2, run b s (l1 ++ l2) = match run b s l1 with Some s' => run b s' l2 | None => None end.
Proof. induction l1 as [|a l IH]; intros s l2; [reflexivity|]. cbn. destruct (step b s a); [apply IH|reflexivity]. Qed.
Lemma run_snoc b s l a : run b s (l ++ [a]) = match run b s l with Some s' => step b s' a | None => None end.
Proof. rewrite run_app. destruct (run b s l) as [s'|]; [|reflexivity]. cbn. destruct (step b s' a); reflexivity. Qed.

(** ** Counting *)
Definition occ {A} (f : A -> bool) (l : list A) : nat := length (List.filter f l).
Lemma occ_app {A} (f : A -> bool) l1 l2 : occ f (l1 ++ l2) = occ f l1 + occ f l2.
Proof. unfold occ. rewrite List.filter_app, app_length. reflexivity. Qed.
Lemma occ_cons {A} (f : A -> bool) x l : occ f (x :: l) = (if f x then 1 else 0) + occ f l.
Proof. unfold occ. cbn. destruct (f x); reflexivity. Qed.
Lemma occ_nil {A} (f : A -> bool) : occ f [] = 0.
Proof. reflexivity. Qed.
Lemma occ_pos {A} (f : A -> bool) l : 0 < occ f l -> exists x, x ∈ l /\ f x = true.
Proof.
  induction l as [|a l IH]; [cbn; lia|]. rewrite occ_cons. destruct (f a) eqn:E; [intros _; exists a; split; [left|exact E]|]. intros H. destruct (IH H) as (x & X & F). exists x. split; [right; exact X|exact F].
Qed.
Lemma occ_in {A} (f : A -> bool) l x : x ∈ l -> f x = true -> 0 < occ f l.
Proof. induction 1 as [x l|x y l H IH]; intros F; rewrite occ_cons; [rewrite F; lia|]. specialize (IH F). lia. Qed.
Lemma occ_nodup p l : NoDup l -> occ (Nat.eqb p) l <= 1.
Proof.
  induction 1 as [|x l N D IH]; [cbn; lia|]. rewrite occ_cons. destruct (Nat.eqb_spec p x) as [<-|]; [|lia].
  destruct (Nat.eq_dec (occ (Nat.eqb p) l) 0) as [->|Z]; [lia|]. destruct (occ_pos (Nat.eqb p) l ltac:(lia)) as (y & Y & E). apply Nat.eqb_eq in E as <-. contradiction.
Qed.
Fixpoint sumw (f : worker -> nat) (l : list worker) : nat := match l with [] => 0 | x :: l' => f x + sumw f l' end.
Lemma sumw_app f l1 l2 : sumw f (l1 ++ l2) = sumw f l1 + sumw f l2.
Proof. induction l1 as [|a l IH]; [reflexivity|]. cbn. rewrite IH. lia. Qed.
Lemma sumw_upd f l w x x' : l !! w = Some x -> sumw f (<[w := x']> l) + f x = sumw f l + f x'.
Proof.
  revert w. induction l as [|a l IH]; intros w H; [destruct w; discriminate|]. destruct w as [|w]; cbn [lookup list_lookup] in H.
  - injection H as ->. change (<[0 := x']> (x :: l)) with (x' :: l). cbn. lia.
  - change (<[S w := x']> (a :: l)) with (a :: <[w := x']> l). cbn. specialize (IH w H). lia.
Qed.
Lemma sumw_pos f l : 0 < sumw f l -> exists w x, l !! w = Some x /\ 0 < f x.
Proof.
  induction l as [|a l IH]; [cbn; lia|]. cbn. intros H. destruct (Nat.eq_dec (f a) 0) as [Z|Z]; [|exists 0, a; split; [reflexivity|lia]].
  destruct (IH ltac:(lia)) as (w & x & X & P). exists (S w), x. auto.
Qed.
Lemma sumw_in f l w x : l !! w = Some x -> f x <= sumw f l.
Proof. revert w. induction l as [|a l IH]; intros w H; [destruct w; discriminate|]. destruct w as [|w]; cbn in *; [injection H as ->; lia|]. specialize (IH w H). lia. Qed.

(** the interjection for p: in the channels of a worker; at work *)
Definition isJ (p : nat) (i : ij) : bool := match i with Some q => Nat.eqb p q | None => false end.
Lemma isJ_None p : isJ p None = false.
Proof. reflexivity. Qed.
Definition held (p : nat) (x : worker) : nat := occ (isJ p) (chan x) + occ (isJ p) (evq x).
Definition bz (p : nat) (x : worker) : nat := match busy x with Some i => if isJ p i then 1 else 0 | None => 0 end.
Definition isB (p : nat) (e : ev) : bool := match e with EvBegin q => Nat.eqb p q | _ => false end.
Definition isE (p : nat) (e : ev) : bool := match e with EvEnd q => Nat.eqb p q | _ => false end.
Definition isF (p : nat) (a : nat * bool) : bool := Nat.eqb p (fst a) && negb (snd a).
Definition isT (p : nat) (a : nat * bool) : bool := Nat.eqb p (fst a) && snd a.
Definition snds (p : nat) (s : st) : nat := match sending s with Some (q, _) => if Nat.eqb p q then 1 else 0 | None => 0 end.
Definition total (p : nat) (s : st) : nat := occ (Nat.eqb p) (todo s) + snds p s + sumw (held p) (ws s) + occ (isB p) (trace s) + occ (isF p) (ans s).

Ltac cases E :=
  cbn [step] in E; repeat (match type of E with context [match ?x with _ => _ end] => destruct x eqn:?; try discriminate E end); injection E as <-.
Ltac norm := unfold setW, refuse in *; cbn [ws live started todo sending waiting ans trace chan evq busy part ready halted gone] in *.
Ltac upds f :=
  repeat match goal with
  | H : ws ?s !! ?w = Some ?x |- context [sumw f (<[?w := ?x']> (ws ?s))] => pose proof (sumw_upd f (ws s) w x x' H); generalize dependent (sumw f (<[w := x']> (ws s))); intros
  end.
Ltac eqns := repeat match goal with H : chan _ = _ |- _ => rewrite H in *; clear H | H : evq _ = _ |- _ => rewrite H in *; clear H | H : busy _ = _ |- _ => rewrite H in *; clear H
  | H : sending _ = _ |- _ => rewrite H in *; clear H | H : todo _ = _ |- _ => rewrite H in *; clear H end.
Ltac fin := unfold isF, isT in *; cbn [isJ isB isE isF isT fst snd negb andb] in *; repeat match goal with |- context [Nat.eqb ?a ?b] => destruct (Nat.eqb a b) | H : context [Nat.eqb ?a ?b] |- _ => destruct (Nat.eqb a b) end; cbn [andb] in *; try lia.
Lemma total_step b s a s' p : step b s a = Some s' -> (forall ps, a <> Call ps) -> total p s' <= total p s.
Proof.
  intros E N. destruct a as [q|q|w|w|w|w|w g|w|ps| | | |]; [..|destruct (N ps); reflexivity| | | |]; cases E; unfold total, snds; norm.
  all: rewrite ?sumw_app, ?occ_app; upds (held p); unfold held in *; norm; eqns; rewrite ?occ_cons, ?occ_nil in *; cbn [sumw]; unfold held; norm; rewrite ?occ_cons, ?occ_nil; try fin.
Qed.

Lemma call_case b s ps s' : step b s (Call ps) = Some s' -> started s = false /\ ps ≡ₚ map fst (live s) /\ s' = mkSt (ws s) (live s) true ps None [] [] (trace s ++ [EvCall ps]).
Proof. cbn [step]. destruct (started s); [discriminate|]. destruct (decide (ps ≡ₚ map fst (live s))) as [D|D]; [|discriminate]. intros [= <-]. auto. Qed.

(** ** Before the call *)
Definition fresh (s : st) : Prop := todo s = [] /\ sending s = None /\ waiting s = [] /\ ans s = [] /\ trace s = [] /\ (forall p, sumw (held p) (ws s) = 0) /\ (forall p, sumw (bz p) (ws s) = 0).
Lemma started_step b s a s' : step b s a = Some s' -> started s' = started s \/ exists ps, a = Call ps /\ started s = false /\ started s' = true.
Proof.
  intros E. destruct a as [q|q|w|w|w|w|w g|w|ps| | | |]; [..|right; apply call_case in E as (F & _ & ->); eauto| | | |]; left; cases E; norm; auto.
Qed.
Lemma zero_upd f l w x x' : (forall p : nat, sumw (f p) l = 0) -> l !! w = Some x -> (forall p, f p x = 0 -> f p x' = 0) -> forall p, sumw (f p) (<[w := x']> l) = 0.
Proof. intros Z X F p. pose proof (sumw_upd (f p) l w x x' X). pose proof (sumw_in (f p) l w x X). rewrite (Z p) in *. specialize (F p). lia. Qed.
Lemma fresh_step b s a s' : (started s = false -> fresh s) -> step b s a = Some s' -> started s' = false -> fresh s'.
Proof.
  intros I E N. destruct (started_step b s a s' E) as [Q|(ps & _ & _ & Q)]; [|congruence]. assert (N' : started s = false) by congruence. specialize (I N'). destruct I as (T & Sd & W & A & Tr & H & B).
  destruct a as [q|q|w|w|w|w|w g|w|ps| | | |]; [..|apply call_case in E as (_ & _ & ->); discriminate N| | | |]; cases E; try congruence; clear Q N N'.
  all: try (match goal with K : ws ?s !! ?w = Some ?x |- _ => pose proof (fun p => Nat.le_trans _ _ _ (sumw_in (held p) (ws s) w x K) (Nat.eq_le_incl _ _ (H p))); pose proof (fun p => Nat.le_trans _ _ _ (sumw_in (bz p) (ws s) w x K) (Nat.eq_le_incl _ _ (B p))) end).
  all: try (match goal with K : context [Some ?n] |- _ => exfalso; match goal with Q : forall p, held p _ <= 0 |- _ => specialize (Q n); unfold held in Q; eqns; rewrite ?occ_cons in Q; cbn [isJ] in Q; rewrite Nat.eqb_refl in Q; lia | Q : forall p, bz p _ <= 0 |- _ => specialize (Q n); unfold bz in Q; eqns; cbn [isJ] in Q; rewrite Nat.eqb_refl in Q; lia end end).
  all: unfold fresh; norm; rewrite ?app_nil_r; split_and!; try assumption; try (intros p; rewrite sumw_app; cbn; rewrite ?H, ?B; reflexivity).
  all: try (eapply zero_upd; [eassumption|eassumption|intros p; unfold held, bz; norm; eqns; rewrite ?occ_cons, ?occ_nil; cbn; try destruct (isJ p _); try lia]).
Qed.
Lemma total_call b s ps s' p : fresh s -> step b s (Call ps) = Some s' -> total p s' = occ (Nat.eqb p) ps.
Proof.
  intros (T & Sd & W & A & Tr & H & B) E. apply call_case in E as (_ & _ & ->). unfold total, snds. norm. rewrite Tr, H. cbn [app]. rewrite occ_cons, !occ_nil. cbn [isB]. lia.
Qed.

(** ** Begun, ended, being answered *)
Definition isBeg (e : ev) : bool := match e with EvBegin _ => true | _ => false end.
Definition isEnd (e : ev) : bool := match e with EvEnd _ => true | _ => false end.
Definition bza (x : worker) : nat := match busy x with Some (Some _) => 1 | _ => 0 end.
Lemma be_step b s a s' p : step b s a = Some s' -> occ (isB p) (trace s) = occ (isE p) (trace s) + sumw (bz p) (ws s) -> occ (isB p) (trace s') = occ (isE p) (trace s') + sumw (bz p) (ws s').
Proof.
  intros E. destruct a as [q|q|w|w|w|w|w g|w|ps| | | |]; [..|apply call_case in E as (_ & _ & ->); norm; rewrite !occ_app; cbn; unfold occ; cbn; lia| | | |]; cases E; norm.
  all: rewrite ?sumw_app, ?occ_app; upds (bz p); unfold bz in *; norm; eqns; rewrite ?occ_cons, ?occ_nil in *; cbn [sumw]; norm; rewrite ?occ_cons, ?occ_nil; try fin.
Qed.
Lemma ba_step b s a s' : step b s a = Some s' -> occ isBeg (trace s) = occ isEnd (trace s) + sumw bza (ws s) -> occ isBeg (trace s') = occ isEnd (trace s') + sumw bza (ws s').
Proof.
  intros E. destruct a as [q|q|w|w|w|w|w g|w|ps| | | |]; [..|apply call_case in E as (_ & _ & ->); norm; rewrite !occ_app; cbn; unfold occ; cbn; lia| | | |]; cases E; norm.
  all: rewrite ?sumw_app, ?occ_app; upds bza; unfold bza in *; norm; eqns; rewrite ?occ_cons, ?occ_nil in *; cbn [sumw isBeg isEnd]; norm; rewrite ?occ_cons, ?occ_nil; try lia.
Qed.
Lemma te_step b s a s' p : step b s a = Some s' -> (started s = false -> fresh s) -> occ (isT p) (ans s) = occ (isE p) (trace s) -> occ (isT p) (ans s') = occ (isE p) (trace s').
Proof.
  intros E I. destruct a as [q|q|w|w|w|w|w g|w|ps| | | |]; [..|apply call_case in E as (F & _ & ->); destruct (I F) as (_ & _ & _ & _ & -> & _); reflexivity| | | |]; cases E; norm.
  all: rewrite ?occ_app, ?occ_cons, ?occ_nil; try fin.
Qed.

(** ** The workers *)
Definition livew (s : st) : Prop :=
  NoDup (map fst (live s)) /\ (forall p w, (p, w) ∈ live s -> exists x, ws s !! w = Some x /\ part x = p /\ halted x = false) /\ (forall w x, ws s !! w = Some x -> gone x = true -> halted x = true).
Lemma find_in p l w : find p l = Some w -> (p, w) ∈ l.
Proof.
  unfold find. induction l as [|[q v] l IH]; [discriminate|]. cbn. destruct (Nat.eqb_spec q p) as [->|]; [intros [= ->]; left|]. intros H. right. apply IH, H.
Qed.
Lemma find_None p l : find p l = None -> p ∉ map fst l.
Proof.
  unfold find. induction l as [|[q v] l IH]; [intros _ H; inversion H|]. cbn. destruct (Nat.eqb_spec q p) as [->|]; [discriminate|]. intros H. rewrite elem_of_cons. intros [->|K]; [congruence|]. exact (IH H K).
Qed.
Lemma drop_in p l q w : (q, w) ∈ drop p l <-> (q, w) ∈ l /\ q <> p.
Proof.
  unfold drop. rewrite !elem_of_list_In, filter_In. cbn. destruct (Nat.eqb_spec q p); split; intros [H1 H2]; split; auto; try discriminate; try congruence.
Qed.
Lemma drop_nodup p l : NoDup (map fst l) -> NoDup (map fst (drop p l)).
Proof.
  induction l as [|[q v] l IH]; [intros; constructor|]. cbn. intros H. apply NoDup_cons in H as [N D]. destruct (Nat.eqb q p); cbn; [apply IH, D|]. constructor; [|apply IH, D].
  intros K. apply N. apply elem_of_list_In, in_map_iff in K as ([q' v'] & <- & Q). apply elem_of_list_In, drop_in in Q as [Q _]. apply elem_of_list_In, in_map_iff. exists (q', v'). split; [reflexivity|apply elem_of_list_In, Q].
Qed.
Lemma upd_lookup (l : list worker) w x' v y : <[w := x']> l !! v = Some y -> v = w /\ y = x' \/ v <> w /\ l !! v = Some y.
Proof. intros H. apply list_lookup_insert_Some in H as [(-> & -> & _)|[N H]]; [left|right]; auto. Qed.
Lemma livew_upd s w x x' : livew s -> ws s !! w = Some x -> part x' = part x -> halted x' = halted x -> (gone x' = true -> halted x' = true) ->
  forall t sd wt an tr sta, livew (mkSt (<[w := x']> (ws s)) (live s) sta t sd wt an tr).
Proof.
  intros (N & L & G) X P H K *. unfold livew. norm. split_and!; [exact N| |].
  - intros p v V. destruct (L p v V) as (y & Y & Q). destruct (decide (v = w)) as [->|D]; [|exists y; rewrite list_lookup_insert_ne by congruence; auto].
    exists x'. rewrite list_lookup_insert by (eapply lookup_lt_Some, X). rewrite X in Y. injection Y as <-. rewrite P, H. auto.
  - intros v y V. apply upd_lookup in V as [[-> ->]|[_ V]]; eauto.
Qed.
Lemma livew_step b s a s' : step b s a = Some s' -> livew s -> livew s'.
Proof.
  intros E I. pose proof I as (N & L & G). destruct a as [q|q|w|w|w|w|w g|w|ps| | | |]; [..|apply call_case in E as (F & _ & ->); exact I| | | |]; cases E; unfold setW, refuse; norm; try exact I.
  all: try (eapply livew_upd; [exact I|eassumption|reflexivity|cbn; congruence|cbn; try congruence; eauto]).
  - unfold livew. norm. split_and!; [cbn; constructor; [apply find_None; assumption|exact N]| |].
    + intros p w. rewrite elem_of_cons. intros [[= -> ->]|H].
      * eexists. split; [apply list_lookup_middle; reflexivity|]. auto.
      * destruct (L p w H) as (x & X & Q). exists x. split; [|exact Q]. apply lookup_app_l_Some, X.
    + intros w x X. apply lookup_app_Some in X as [X|[_ X]]; [eauto|]. destruct (w - length (ws s)) as [|[]]; [|discriminate|discriminate]. injection X as <-. discriminate.
  - rename n into w, w into x. unfold livew. norm. split_and!; [apply drop_nodup, N| |].
    + intros p v V. apply drop_in in V as [V D]. destruct (L p v V) as (y & Y & Q). exists y. split; [|exact Q]. rewrite list_lookup_insert_ne; [exact Y|]. intros <-.
      destruct (L q w) as (z & Z & Q'); [apply find_in; assumption|]. assert (y = z) as -> by congruence. apply D. destruct Q as [<- _], Q' as [<- _]. reflexivity.
    + intros v y V. apply upd_lookup in V as [[-> ->]|[_ V]]; [reflexivity|eauto].
Qed.

(** a worker to which the call sends is ready, is not halted and is the one of the partition *)
Definition sendw (s : st) : Prop := forall p w, sending s = Some (p, w) -> exists x, ws s !! w = Some x /\ ready x = true /\ halted x = false /\ part x = p.
Lemma sendw_step b s a s' : step b s a = Some s' -> livew s -> sendw s -> sendw s'.
Proof.
  intros E (N & L & G) I p v. destruct a as [q|q|w|w|w|w|w g|w|ps| | | |]; [..|apply call_case in E as (F & _ & ->); discriminate| | | |]; cases E; unfold setW, refuse; norm; try discriminate; try (intros [= <- <-]).
  all: try (intros V; destruct (I p v V) as (y & Y & Q)).
  all: try match goal with K : ws ?s !! ?w = Some ?x |- context [<[?w := _]> _] => destruct (decide (v = w)) as [->|D]; [|exists y; rewrite list_lookup_insert_ne by congruence; auto]; eexists; rewrite list_lookup_insert by (eapply lookup_lt_Some, K); split; [reflexivity|]; assert (y = x) as -> by congruence; norm; intuition congruence end.
  match goal with K : find _ _ = Some _ |- _ => apply find_in, L in K as (y & Y & P & H) end. exists y. split_and!; auto. congruence.
Qed.

(** a worker that has an interjection of the call is the one of the partition *)
Definition partw (s : st) : Prop := forall p w x, ws s !! w = Some x -> 0 < held p x + bz p x -> part x = p /\ ready x = true.
Lemma partw_step b s a s' : step b s a = Some s' -> sendw s -> partw s -> partw s'.
Proof.
  intros E D I p v y. destruct a as [q|q|w|w|w|w|w g|w|ps| | | |]; [..|apply call_case in E as (F & _ & ->); norm; apply I| | | |]; cases E; norm; try (apply I).
  all: try (intros V; apply upd_lookup in V as [[-> ->]|[_ V]]; [|exact (I p v y V)]).
  all: try (match goal with K : ws ?s !! ?w = Some ?x |- _ => specialize (I p w x K) end; unfold held, bz in *; norm; eqns; rewrite ?occ_cons, ?occ_nil in *; intros; (split; [|try reflexivity; try assumption]); apply I; rewrite ?isJ_None in *; repeat destruct (isJ p _); lia).
  - intros V. apply lookup_app_Some in V as [V|[_ V]]; [apply (I p v y V)|]. destruct (v - length (ws s)) as [|[]]; [|discriminate|discriminate]. injection V as <-. cbn. lia.
  - match goal with K : sending _ = Some _ |- _ => destruct (D _ _ K) as (z & Z & Rz & _ & P) end. match goal with K : ws ?s !! ?w = Some ?x |- _ => assert (z = x) as -> by congruence; specialize (I p w x K) end.
    unfold held, bz in *. norm. eqns. rewrite ?occ_cons, ?occ_nil in *. cbn [isJ]. destruct (Nat.eqb_spec p n) as [->|]; [auto|]. intros; apply I. lia.
Qed.

(** an interjection on its way or at work is waited for *)
Definition out (p : nat) (s : st) : nat := sumw (held p) (ws s) + sumw (bz p) (ws s).
Definition waitw (s : st) : Prop := forall p, 0 < out p s -> p ∈ waiting s.
Definition tots (s : st) : Prop := (forall p, total p s <= 1) /\ (forall p, occ (isB p) (trace s) = occ (isE p) (trace s) + sumw (bz p) (ws s)) /\ (forall p, occ (isT p) (ans s) = occ (isE p) (trace s)).
Lemma answered_out s p c : tots s -> (p, c) ∈ ans s -> out p s = 0.
Proof.
  intros (T & B & A) H. specialize (T p). specialize (B p). specialize (A p). unfold total, out in *. destruct c.
  - pose proof (occ_in (isT p) _ _ H) as Q. unfold isT in Q at 1. cbn in Q. rewrite Nat.eqb_refl in Q. specialize (Q eq_refl). lia.
  - pose proof (occ_in (isF p) _ _ H) as Q. unfold isF in Q at 1. cbn in Q. rewrite Nat.eqb_refl in Q. specialize (Q eq_refl). lia.
Qed.
Lemma out_step b s a s' p : step b s a = Some s' -> a <> Send -> out p s' <= out p s.
Proof.
  intros E N. unfold out. destruct a as [q|q|w|w|w|w|w g|w|ps| | | |]; [..|apply call_case in E as (F & _ & ->); norm; lia| | | |]; [..|congruence| |]; cases E; norm; try lia.
  all: rewrite ?sumw_app; upds (held p); upds (bz p); unfold held, bz in *; norm; eqns; rewrite ?occ_cons, ?occ_nil in *; cbn [sumw]; norm; rewrite ?occ_cons, ?occ_nil; try fin.
Qed.
Lemma waitw_step b s a s' : step b s a = Some s' -> (started s = false -> fresh s) -> tots s -> waitw s -> waitw s'.
Proof.
  intros E F T I p H. destruct a as [q|q|w|w|w|w|w g|w|ps| | | |].
  all: try (match type of E with step _ _ ?a = _ => pose proof (out_step b s a s' p E ltac:(discriminate)) end; specialize (I p ltac:(lia)); revert I; cases E; norm; clear; set_solver).
  - match type of E with step _ _ ?a = _ => pose proof (out_step b s a s' p E ltac:(discriminate)) end. apply call_case in E as (Q & _ & ->). destruct (F Q) as (_ & _ & _ & _ & _ & Z1 & Z2). unfold out in H. norm. rewrite Z1, Z2 in H. lia.
  - cases E. norm. apply elem_of_app. unfold out in *. norm. revert H. destruct (Nat.eq_dec p n) as [->|D]; [intros _; right; left|]. intros H. left. apply I. unfold out. match goal with K : ws ?s !! ?w = Some ?x, H : context [<[?w := ?x']> _] |- _ => pose proof (sumw_upd (held p) (ws s) w x x' K); pose proof (sumw_upd (bz p) (ws s) w x x' K) as Z2; set (y := x') in *; assert (held p y = held p x) by (unfold held, y; norm; eqns; rewrite occ_cons, !occ_nil; cbn [isJ]; destruct (Nat.eqb_spec p n); [congruence|lia]); assert (bz p y = bz p x) by reflexivity; lia end.
  - pose proof (out_step b s Await s' p E ltac:(discriminate)) as Q. specialize (I p ltac:(lia)). revert E. intros E. cases E; norm; apply elem_of_cons in I as [->|I]; try exact I; exfalso;
    match goal with K : bool_decide (_ ∈ ans _) = true |- _ => apply bool_decide_eq_true_1 in K; pose proof (answered_out s _ _ T K) end; unfold out in *; norm; lia.
Qed.

Definition errw (s : st) : Prop := forall p, EvErr p ∈ trace s -> (p, false) ∈ ans s.
Ltac el := repeat match goal with
  | H : _ ∈ _ ++ _ |- _ => apply elem_of_app in H as [H|H]
  | H : _ ∈ [] |- _ => inversion H
  | H : _ ∈ [_] |- _ => apply elem_of_list_singleton in H; try discriminate H; try (injection H as H) end.
Lemma errw_step b s a s' : step b s a = Some s' -> (started s = false -> fresh s) -> errw s -> errw s'.
Proof.
  intros E F I p H. destruct a as [q|q|w|w|w|w|w g|w|ps| | | |]; [..|apply call_case in E as (Q & _ & ->); destruct (F Q) as (_ & _ & _ & _ & Z & _); norm; rewrite Z in H; el| | | |]; cases E; norm; el; try (apply elem_of_app; left); try (apply I, H).
  subst. match goal with K : bool_decide ((_, false) ∈ _) = true |- _ => apply bool_decide_eq_true_1 in K; exact K end.
Qed.
Definition retw (s : st) : Prop := EvReturn ∈ trace s -> started s = true /\ todo s = [] /\ sending s = None /\ waiting s = [].
Lemma retw_step b s a s' : step b s a = Some s' -> (started s = false -> fresh s) -> retw s -> retw s'.
Proof.
  intros E F I H. destruct a as [q|q|w|w|w|w|w g|w|ps| | | |]; [..|apply call_case in E as (Q & _ & ->); destruct (F Q) as (_ & _ & _ & _ & Z & _); norm; rewrite Z in H; el| | | |]; cases E; norm; el; try (destruct (I H) as (I1 & I2 & I3 & I4); split_and!; congruence).
  split_and!; congruence.
Qed.
Lemma ended s p : tots s -> (p, true) ∈ ans s -> EvEnd p ∈ trace s.
Proof.
  intros (T & B & A) H. specialize (A p). pose proof (occ_in (isT p) _ _ H) as Q. unfold isT in Q at 1. cbn in Q. rewrite Nat.eqb_refl in Q. specialize (Q eq_refl). rewrite A in Q.
  apply occ_pos in Q as (e & X & Y). destruct e; try discriminate Y. apply Nat.eqb_eq in Y as <-. exact X.
Qed.
Definition snap (ps : list nat) (s : st) : Prop :=
  started s = true /\ (forall p, p ∈ ps -> p ∈ todo s \/ (exists w, sending s = Some (p, w)) \/ p ∈ waiting s \/ EvEnd p ∈ trace s \/ EvErr p ∈ trace s) /\ (forall p, p ∉ ps -> total p s = 0).
Definition snapw (s : st) : Prop := forall ps, EvCall ps ∈ trace s -> snap ps s.
Lemma snap_later b s a s' ps : step b s a = Some s' -> (forall qs, a <> Call qs) -> tots s -> snap ps s -> snap ps s'.
Proof.
  intros E N (T & B & A) (St & P & Z). split_and!.
  - destruct (started_step b s a s' E) as [->|(? & -> & _)]; [exact St|destruct (N x); reflexivity].
  - intros p H. specialize (P p H).
    destruct a as [q|q|w|w|w|w|w g|w|qs| | | |]; [..|destruct (N qs); reflexivity| | | |]; cases E; norm; rewrite ?app_nil_r; try exact P.
    all: try (destruct P as [P|[(v & P)|[P|[P|P]]]]; try congruence; try (right; right; right; left; apply elem_of_app; left; exact P); try (right; right; right; right; apply elem_of_app; left; exact P); eauto; fail).
    all: destruct P as [P|[(v & P)|[P|[P|P]]]]; try (apply elem_of_cons in P as [->|P]); try (injection P as <- <-); try discriminate P; eauto 6.
    all: try (do 2 right; left; apply elem_of_app; (left; exact P) || (right; left)).
    all: try (do 3 right; left; eapply ended; [split_and!; eassumption|eapply bool_decide_eq_true_1; eassumption]).
    all: try (do 4 right; apply elem_of_app; (left; exact P) || (right; left)).
    all: try (do 3 right; left; apply elem_of_app; left; exact P).
  - intros p H. pose proof (total_step b s a s' p E N). specialize (Z p H). lia.
Qed.
Lemma snap_call b s ps s' : step b s (Call ps) = Some s' -> (started s = false -> fresh s) -> snap ps s'.
Proof.
  intros E F. pose proof E as E'. apply call_case in E as (Q & _ & ->). split_and!; [reflexivity|auto|]. intros p H. rewrite (total_call b s ps _ p (F Q) E').
  destruct (Nat.eq_dec (occ (Nat.eqb p) ps) 0) as [Z|Z]; [exact Z|]. destruct (occ_pos (Nat.eqb p) ps ltac:(lia)) as (y & Y & K). apply Nat.eqb_eq in K as <-. contradiction.
Qed.
Lemma callev_step b s a s' ps : step b s a = Some s' -> (forall qs, a <> Call qs) -> EvCall ps ∈ trace s' -> EvCall ps ∈ trace s.
Proof.
  intros E N H. destruct a as [q|q|w|w|w|w|w g|w|qs| | | |]; [..|destruct (N qs); reflexivity| | | |]; cases E; norm; el; exact H.
Qed.
Lemma snapw_step b s a s' : step b s a = Some s' -> (started s = false -> fresh s) -> tots s -> snapw s -> snapw s'.
Proof.
  intros E F T I ps H. assert (D : (exists qs, a = Call qs) \/ forall qs, a <> Call qs) by (destruct a; eauto; right; discriminate). destruct D as [[qs ->]|D].
  - pose proof E as E'. apply call_case in E as (Q & _ & ->). destruct (F Q) as (_ & _ & _ & _ & Z & _). norm. rewrite Z in H. el. subst. eapply snap_call; [exact E'|exact F].
  - eapply snap_later; [exact E|exact D|exact T|]. apply I. eapply callev_step; eassumption.
Qed.

(** ** InterjectAllSync has one interjection at a time *)
Definition sendn (s : st) : nat := match sending s with Some _ => 1 | None => 0 end.
Definition syncw (b : bool) (s : st) : Prop := b = true -> length (waiting s) + sendn s <= 1.
Lemma syncw_step b s a s' : step b s a = Some s' -> (started s = false -> fresh s) -> syncw b s -> syncw b s'.
Proof.
  intros E F I ->. specialize (I eq_refl). destruct a as [q|q|w|w|w|w|w g|w|qs| | | |]; [..|apply call_case in E as (Q & _ & ->); cbn; lia| | | |]; cases E; unfold sendn in *; norm; rewrite ?app_length; cbn [length]; eqns; try lia.
  all: repeat match goal with K : true && negb (bool_decide _) = false |- _ => cbn in K; apply negb_false_iff, bool_decide_eq_true_1 in K; rewrite K in *; cbn [length] in * | K : waiting _ = _ :: _ |- _ => rewrite K in *; cbn [length] in * end; cbn [length] in *; try lia.
Qed.

Record inv (b : bool) (s : st) : Prop := mkInv {
  i_fresh : started s = false -> fresh s; i_tot : tots s; i_all : occ isBeg (trace s) = occ isEnd (trace s) + sumw bza (ws s);
  i_live : livew s; i_send : sendw s; i_part : partw s; i_wait : waitw s; i_err : errw s; i_ret : retw s; i_snap : snapw s; i_sync : syncw b s }.
Lemma inv_init b : inv b init.
Proof.
  split; try (intros ? H; cbn in H; inversion H; fail).
  - intros _. split_and!; auto.
  - split_and!; intros; cbn; auto.
  - reflexivity.
  - split_and!; [constructor|intros p w H; inversion H|intros w x H; discriminate].
  - intros p w H. discriminate.
  - intros p w x H. discriminate.
  - intros H. inversion H.
  - intros _. cbn. lia.
Qed.
Lemma inv_step b s a s' : step b s a = Some s' -> inv b s -> inv b s'.
Proof.
  intros E [I1 I2 I3 I4 I5 I6 I7 I8 I9 I10 I11]. split.
  - eapply fresh_step; eassumption.
  - destruct I2 as (T & B & A). split_and!; intros p.
    + assert (D : (exists qs, a = Call qs) \/ forall qs, a <> Call qs) by (destruct a; eauto; right; discriminate). destruct D as [[qs ->]|D].
      * pose proof (call_case _ _ _ _ E) as (Q & P & _). rewrite (total_call b s qs s' p (I1 Q) E). apply occ_nodup. rewrite P. apply I4.
      * pose proof (total_step b s a s' p E D). specialize (T p). lia.
    + eapply be_step; [exact E|apply B].
    + eapply te_step; [exact E|exact I1|apply A].
  - eapply ba_step; eassumption.
  - eapply livew_step; eassumption.
  - eapply sendw_step; eassumption.
  - eapply partw_step; eassumption.
  - eapply waitw_step; eassumption.
  - eapply errw_step; eassumption.
  - eapply retw_step; eassumption.
  - eapply snapw_step; eassumption.
  - eapply syncw_step; eassumption.
Qed.
Lemma inv_run b acts : forall s s', run b s acts = Some s' -> inv b s -> inv b s'.
Proof. induction acts as [|a l IH]; intros s s' R I; [injection R as <-; exact I|]. cbn in R. destruct (step b s a) eqn:E; [|discriminate]. exact (IH _ _ R (inv_step _ _ _ _ E I)). Qed.
