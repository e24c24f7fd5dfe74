From Coq Require Import ZArith List Bool Lia.
From Verif.Logging Require Import Model.
Import ListNotations.
Open Scope Z_scope.

(** spec: rank of a method, and whether a level lets it through *)
Definition rank (m : method) : Z :=
  match m with Tracef => 1 | Debugf => 2 | Infof => 3 | Warnf => 4 | Errorf => 5 end.
Definition lets_through (level : Z) (m : method) : Prop := level <> 0 /\ level <= rank m.

Lemma simpleCond_spec m sl : simpleCond m sl = true <-> lets_through sl m.
Proof.
  unfold lets_through, LogLevelNone in *.
  destruct m; cbn; rewrite andb_true_iff, Z.geb_le, negb_true_iff, Z.eqb_neq;
    unfold LogLevelTrace, LogLevelDebug, LogLevelInfo, LogLevelWarn, LogLevelError, LogLevelNone; tauto.
Qed.
Lemma wrapCond_spec m sl : wrapCond m sl = true <-> lets_through sl m.
Proof. exact (simpleCond_spec m sl). Qed.

Section L.
  Context {msg : Type}.
  Implicit Types (l : Logger) (x : msg).

  (** the levels around the innermost logger, and what the innermost logger receives or prints *)
  Fixpoint levels l : list Z :=
    match l with
    | SimpleLogger sl => [sl]
    | AppLogger _ => []
    | logWrapper level inner => level :: levels inner
    end.
  Fixpoint sink l (m : method) (x : msg) : output :=
    match l with
    | SimpleLogger _ => Printed m x
    | AppLogger i => AppCall i m x
    | logWrapper _ inner => sink inner m x
    end.

  Lemma call_spec l m x :
    (Forall (fun lv => lets_through lv m) (levels l) -> call l m x = [sink l m x]) /\
    (~ Forall (fun lv => lets_through lv m) (levels l) -> call l m x = []).
  Proof.
    induction l as [sl|i|lv l IH]; cbn.
    - destruct (simpleCond m sl) eqn:E; split; auto; intros H.
      + destruct H. constructor; auto. apply simpleCond_spec; auto.
      + inversion H; subst. apply simpleCond_spec in H2. congruence.
    - split; auto. intros H. destruct H. constructor.
    - destruct (wrapCond m lv) eqn:E; split; intros H.
      + inversion H; subst. apply IH; auto.
      + apply IH. intros H2. apply H. constructor; auto. apply wrapCond_spec; auto.
      + inversion H; subst. apply wrapCond_spec in H2. congruence.
      + auto.
  Qed.

  Lemma wrap_suppresses l level m x : call (WrapLogger l level) m x = call l m x \/ call (WrapLogger l level) m x = [].
  Proof. unfold WrapLogger. cbn. destruct wrapCond; auto. Qed.

  (** driver messages: Debug=4 .. Error=1 in the driver's numbering *)
  Definition kgo_of (m : method) : Z :=
    match m with Tracef | Debugf => 4 | Infof => 3 | Warnf => 2 | Errorf => 1 end.

  Lemma driver_spec l L m x :
    m <> Tracef -> 1 <= L <= 5 ->
    driverLog l (toKgoLoglevel L) (kgo_of m) x = if L <=? rank m then call l m x else [].
  Proof.
    intros N R. assert (L = 1 \/ L = 2 \/ L = 3 \/ L = 4 \/ L = 5) as H by lia.
    destruct H as [->|[->|[->|[->| ->]]]]; destruct m; try congruence; reflexivity.
  Qed.
  Lemma driver_none l L m x : ~ 1 <= L <= 5 -> driverLog l (toKgoLoglevel L) (kgo_of m) x = [].
  Proof.
    intros R. unfold toKgoLoglevel, LogLevelTrace, LogLevelDebug, LogLevelInfo, LogLevelWarn, LogLevelError.
    destruct (Z.eqb_spec L 1), (Z.eqb_spec L 2), (Z.eqb_spec L 3), (Z.eqb_spec L 4), (Z.eqb_spec L 5); try lia.
    destruct m; reflexivity.
  Qed.

  Lemma init_once (l : Logger) k (cs : list (Logger * Z)) :
    fold_left (fun g c => InitLogger (fst c) (snd c) g) ((l, k) :: cs) globals0 = mkG l (toKgoLoglevel k) true.
  Proof.
    cbn. induction cs as [|c cs IH]; cbn; auto.
  Qed.
End L.
