(** Proofs about GlobalLog.Model (C99 - C101) *)
From stdpp Require Import prelude list.
From Coq Require Import Lia.
From Verif.GlobalLog Require Import Model.
Open Scope nat_scope.
#[local] Arguments Nat.ltb : simpl never. #[local] Arguments of_part : simpl never.

Lemma of_part_app p l1 l2 : of_part p (l1 ++ l2) = of_part p l1 ++ of_part p l2.
Proof. unfold of_part. induction l1 as [|a l IH]; [reflexivity|]. cbn. destruct (Nat.eqb (fst a) p); cbn; rewrite IH; reflexivity. Qed.
Lemma of_part_cons p x l : of_part p (x :: l) = (if Nat.eqb (fst x) p then [snd x] else []) ++ of_part p l.
Proof. unfold of_part. cbn. destruct (Nat.eqb (fst x) p); reflexivity. Qed.
Lemma of_part_records p s x : of_part p (records s x) = if Nat.eqb (fst x) p then seq (pos s (fst x)) (snd x) else [].
Proof.
  unfold records. generalize (seq (pos s (fst x)) (snd x)) as l. intros l. induction l as [|a l IH]; [destruct (Nat.eqb (fst x) p); reflexivity|].
  change (of_part p ((fst x, a) :: (pair (fst x) <$> l)) = if Nat.eqb (fst x) p then a :: l else []). rewrite of_part_cons, IH. cbn. destruct (Nat.eqb (fst x) p); reflexivity.
Qed.
Lemma advance_other f l p : p ∉ fst <$> l -> advance f l p = f p.
Proof.
  induction l as [|x l IH]; intros N; [reflexivity|]. cbn in N. apply not_elem_of_cons in N as [N1 N2]. cbn. unfold set at 1.
  destruct (Nat.eqb_spec p (fst x)); [congruence|]. exact (IH N2).
Qed.
Lemma of_part_bind p s l : NoDup (fst <$> l) -> of_part p (l ≫= records s) = seq (pos s p) (advance (pos s) l p - pos s p) /\ pos s p <= advance (pos s) l p.
Proof.
  induction l as [|x l IH]; intros N. { cbn. rewrite Nat.sub_diag. split; [reflexivity|lia]. }
  cbn in N. apply NoDup_cons in N as [N1 N2]. specialize (IH N2). change (of_part p (records s x ++ (l ≫= records s)) = seq (pos s p) (advance (pos s) (x :: l) p - pos s p) /\ pos s p <= advance (pos s) (x :: l) p).
  rewrite of_part_app, of_part_records.
  assert (A : advance (pos s) (x :: l) p = if Nat.eqb p (fst x) then advance (pos s) l (fst x) + snd x else advance (pos s) l p) by reflexivity. rewrite A. clear A. destruct (Nat.eqb_spec (fst x) p) as [E|E].
  - subst p. rewrite Nat.eqb_refl. rewrite (advance_other _ _ _ N1) in *. destruct IH as [IH _]. rewrite IH, Nat.sub_diag. cbn. rewrite app_nil_r. split; [f_equal; lia|lia].
  - destruct (Nat.eqb_spec p (fst x)) as [E'|_]; [congruence|]. exact IH.
Qed.

(** What the goroutines have got and not forwarded *)
Definition inflight (s : st) : list (nat * nat) := gs s ≫= (fun g => match g with Batch l => l | _ => [] end).
Definition one (s : st) : Prop := length (gs s) <= 1.
Lemma one_gs s g x : one s -> gs s !! g = Some x -> g = 0 /\ gs s = [x].
Proof. unfold one. destruct (gs s) as [|a [|b l]]; cbn; intros; [discriminate| |lia]. destruct g; [|discriminate]. split; [reflexivity|]. cbn in *. congruence. Qed.

(** With one goroutine: what has been forwarded, and what is under way, grows by the records from the position on *)
Lemma flow_step n s a s' p : one s' -> (forall o, a <> ResumeAt p o) -> step n s a = Some s' ->
  one s /\ pos s p <= pos s' p /\ of_part p (out s') ++ of_part p (inflight s') = of_part p (out s) ++ of_part p (inflight s) ++ seq (pos s p) (pos s' p - pos s p).
Proof.
  intros O Na H. assert (O' : one s).
  { unfold one in *. destruct a; cbn in H; repeat (match goal with H : match ?e with _ => _ end = Some _ |- _ => destruct e eqn:?; try discriminate H end); injection H as <-; cbn in *;
      rewrite ?app_length, ?insert_length in O; cbn in O; try lia; destruct (running s); cbn in O; rewrite ?insert_length in O; lia. }
  split; [exact O'|].
  assert (Keep : pos s' p = pos s p -> inflight s' = inflight s -> out s' = out s -> pos s p <= pos s' p /\
    of_part p (out s') ++ of_part p (inflight s') = of_part p (out s) ++ of_part p (inflight s) ++ seq (pos s p) (pos s' p - pos s p)).
  { intros -> -> ->. rewrite Nat.sub_diag. cbn. rewrite app_nil_r. split; [lia|reflexivity]. }
  destruct a; cbn in H.
  1,3,4,5: injection H as <-; apply Keep; reflexivity.
  - injection H as <-. apply Keep; try reflexivity. unfold inflight. cbn. rewrite bind_app. cbn. rewrite app_nil_r. reflexivity.
  - destruct (p0 <? n); injection H as <-; apply Keep; try reflexivity. cbn. unfold set. destruct (Nat.eqb_spec p p0) as [->|]; [destruct (Na o); reflexivity|reflexivity].
  - destruct (gs s !! g) as [[]|] eqn:G; try discriminate. injection H as <-. destruct (one_gs _ _ _ O' G) as [-> E].
    destruct (running s); apply Keep; try reflexivity; unfold inflight; cbn; rewrite E; reflexivity.
  - destruct (gs s !! g) as [[]|] eqn:G; try discriminate. destruct (one_gs _ _ _ O' G) as [-> E]. destruct (closed s).
    + destruct l; [|discriminate]. injection H as <-. apply Keep; try reflexivity. unfold inflight. cbn. rewrite E. reflexivity.
    + case_decide as D; [|discriminate]. injection H as <-. destruct D as [D _]. destruct (of_part_bind p s l D) as [B1 B2]. cbn [pos out]. split; [exact B2|].
      unfold inflight. cbn [gs]. rewrite E. change (of_part p (out s) ++ of_part p ((l ≫= records s) ++ []) = of_part p (out s) ++ seq (pos s p) (advance (pos s) l p - pos s p)).
      rewrite app_nil_r, B1. reflexivity.
  - destruct (gs s !! g) as [[| |[|x l]|]|] eqn:G; try discriminate; injection H as <-; destruct (one_gs _ _ _ O' G) as [-> E].
    + apply Keep; try reflexivity. unfold inflight. cbn. rewrite E. reflexivity.
    + cbn [pos out]. split; [lia|]. rewrite Nat.sub_diag. unfold inflight. cbn [gs]. rewrite E.
      change (of_part p (out s ++ [x]) ++ of_part p (l ++ []) = of_part p (out s) ++ of_part p ((x :: l) ++ []) ++ []).
      rewrite !app_nil_r, of_part_app, (of_part_cons p x l), (of_part_cons p x []), <- app_assoc. change (of_part p []) with (@nil nat). rewrite app_nil_r. reflexivity.
Qed.
Lemma flow n acts p : forall s s', one s' -> (forall o, ResumeAt p o ∉ acts) -> run n s acts = Some s' ->
  one s /\ pos s p <= pos s' p /\ of_part p (out s') ++ of_part p (inflight s') = of_part p (out s) ++ of_part p (inflight s) ++ seq (pos s p) (pos s' p - pos s p).
Proof.
  induction acts as [|a l IH]; intros s s' O N H; cbn in H. { injection H as <-. rewrite Nat.sub_diag. cbn. rewrite app_nil_r. auto. }
  destruct (step n s a) as [s1|] eqn:E; [|discriminate].
  destruct (IH s1 s' O) as (O1 & P1 & F1); [intros o X; exact (N o (elem_of_list_further _ _ _ X))|exact H|].
  destruct (flow_step n s a s1 p O1) as (O0 & P0 & F0); [intros o ->; exact (N o (elem_of_list_here _ _))|exact E|].
  split; [exact O0|]. split; [lia|]. rewrite F1, app_assoc, F0, <- !app_assoc. do 2 f_equal.
  replace (pos s1 p) with (pos s p + (pos s1 p - pos s p)) at 2 by lia. rewrite <- seq_app. f_equal. lia.
Qed.
Lemma position n p s a s' : pos s p <= len s p -> (forall o, a <> ResumeAt p o) -> step n s a = Some s' -> pos s' p <= len s' p.
Proof.
  intros L N H. destruct a; cbn in H.
  - injection H as <-. cbn. unfold set. destruct (Nat.eqb_spec p p0) as [->|]; lia.
  - injection H as <-. exact L.
  - injection H as <-. exact L.
  - injection H as <-. exact L.
  - injection H as <-. exact L.
  - destruct (p0 <? n); injection H as <-; [|exact L]. cbn. unfold set. destruct (Nat.eqb_spec p p0) as [->|]; [destruct (N o); reflexivity|exact L].
  - destruct (gs s !! g) as [[]|]; try discriminate. injection H as <-. destruct (running s); exact L.
  - destruct (gs s !! g) as [[]|]; try discriminate. destruct (closed s); [destruct l; [|discriminate]; injection H as <-; exact L|].
    case_decide as D; [|discriminate]. injection H as <-. cbn. destruct D as [D1 D2]. clear -L D1 D2. induction l as [|x l IH]; [exact L|].
    cbn in *. apply NoDup_cons in D1 as [N1 D1]. inversion D2; subst. unfold set. destruct (Nat.eqb_spec p (fst x)) as [->|]; [|exact (IH D1 H2)].
    fold (advance (pos s) l). rewrite (advance_other _ _ _ N1). tauto.
  - destruct (gs s !! g) as [[| |[|x l]|]|]; try discriminate; injection H as <-; exact L.
Qed.
Lemma position_run n p acts : forall s s', pos s p <= len s p -> (forall o, ResumeAt p o ∉ acts) -> run n s acts = Some s' -> pos s' p <= len s' p.
Proof.
  induction acts as [|a l IH]; intros s s' L N H; cbn in H. { injection H as <-. exact L. }
  destruct (step n s a) as [s1|] eqn:E; [|discriminate]. refine (IH s1 s' _ _ H); [|intros o X; exact (N o (elem_of_list_further _ _ _ X))].
  refine (position n p s a s1 L _ E). intros o ->. exact (N o (elem_of_list_here _ _)).
Qed.
(** Nothing of a partition is read while it is paused *)
Lemma paused_step n p s a s' : paused s p = true -> (forall o, a <> ResumeAt p o) -> step n s a = Some s' -> paused s' p = true /\ pos s' p = pos s p.
Proof.
  intros P N H. destruct a; cbn in H.
  - injection H as <-. auto.
  - injection H as <-. auto.
  - injection H as <-. auto.
  - injection H as <-. cbn. unfold set. destruct (Nat.eqb p p0); auto.
  - injection H as <-. cbn. destruct (p <? n); auto.
  - destruct (p0 <? n); injection H as <-; [|auto]. cbn. unfold set. destruct (Nat.eqb_spec p p0) as [->|]; [destruct (N o); reflexivity|auto].
  - destruct (gs s !! g) as [[]|]; try discriminate. injection H as <-. destruct (running s); auto.
  - destruct (gs s !! g) as [[]|]; try discriminate. destruct (closed s); [destruct l; [|discriminate]; injection H as <-; auto|].
    case_decide as D; [|discriminate]. injection H as <-. cbn. split; [exact P|]. apply advance_other. intros X. apply elem_of_list_fmap in X as (x & -> & X).
    destruct D as [_ D]. rewrite Forall_forall in D. destruct (D x X) as (_ & D' & _). congruence.
  - destruct (gs s !! g) as [[| |[|x l]|]|]; try discriminate; injection H as <-; auto.
Qed.
Lemma paused_run n p acts : forall s s', paused s p = true -> (forall o, ResumeAt p o ∉ acts) -> run n s acts = Some s' -> paused s' p = true /\ pos s' p = pos s p.
Proof.
  induction acts as [|a l IH]; intros s s' L N H; cbn in H. { injection H as <-. auto. }
  destruct (step n s a) as [s1|] eqn:E; [|discriminate].
  destruct (paused_step n p s a s1 L) as [P1 P2]; [intros o ->; exact (N o (elem_of_list_here _ _))|exact E|].
  destruct (IH s1 s' P1) as [P3 P4]; [intros o X; exact (N o (elem_of_list_further _ _ _ X))|exact H|]. split; [exact P3|congruence].
Qed.
(** Partitions beyond numPartitions *)
Lemma beyond_step n p s a s' : n <= p -> (forall g l, gs s !! g = Some (Batch l) -> of_part p l = []) -> of_part p (out s) = [] -> step n s a = Some s' ->
  (forall g l, gs s' !! g = Some (Batch l) -> of_part p l = []) /\ of_part p (out s') = [].
Proof.
  intros Lp G O H.
  assert (U : forall g x, is_Some (gs s !! g) -> (forall l, x = Batch l -> of_part p l = []) -> forall g' l, <[g := x]> (gs s) !! g' = Some (Batch l) -> of_part p l = []).
  { intros g x Hg Hx g' l E. destruct (decide (g = g')) as [<-|N]; [rewrite list_lookup_insert in E by (apply lookup_lt_is_Some; exact Hg); injection E as ->; exact (Hx l eq_refl)|].
    rewrite list_lookup_insert_ne in E by exact N. exact (G _ _ E). }
  destruct a; cbn in H.
  1,3,4,5: injection H as <-; auto.
  - injection H as <-. split; [|exact O]. cbn. intros g l E. apply lookup_app_Some in E as [E|(_ & E)]; [exact (G _ _ E)|]. apply list_lookup_singleton_Some in E as [_ E]. discriminate.
  - destruct (p0 <? n); injection H as <-; auto.
  - destruct (gs s !! g) as [[]|] eqn:Eg; try discriminate. injection H as <-. split; [|destruct (running s); exact O].
    destruct (running s); cbn; (apply U; [eexists; exact Eg|discriminate]).
  - destruct (gs s !! g) as [[]|] eqn:Eg; try discriminate. destruct (closed s).
    + destruct l; [|discriminate]. injection H as <-. split; [|exact O]. cbn. apply U; [eexists; exact Eg|discriminate].
    + case_decide as D; [|discriminate]. injection H as <-. split; [|exact O]. cbn. apply U; [eexists; exact Eg|]. intros l' [= <-]. destruct D as [D1 D2].
      destruct (of_part_bind p s l D1) as [B _]. rewrite B, (advance_other _ _ p), Nat.sub_diag; [reflexivity|]. intros X. apply elem_of_list_fmap in X as (x & -> & X).
      rewrite Forall_forall in D2. destruct (D2 x X). lia.
  - destruct (gs s !! g) as [[| |[|x l]|]|] eqn:Eg; try discriminate; injection H as <-; cbn.
    + split; [|exact O]. apply U; [eexists; exact Eg|discriminate].
    + assert (B := G _ _ Eg). rewrite of_part_cons in B. apply app_eq_nil in B as [B1 B2]. split.
      * apply U; [eexists; exact Eg|]. intros l' [= <-]. exact B2.
      * rewrite of_part_app, O. rewrite of_part_cons, B1. reflexivity.
Qed.
Lemma beyond n p acts : forall s s', n <= p -> (forall g l, gs s !! g = Some (Batch l) -> of_part p l = []) -> of_part p (out s) = [] -> run n s acts = Some s' -> of_part p (out s') = [].
Proof.
  induction acts as [|a l IH]; intros s s' Lp G O H; cbn in H. { injection H as <-. exact O. }
  destruct (step n s a) as [s1|] eqn:E; [|discriminate]. destruct (beyond_step n p s a s1 Lp G O E) as [G1 O1]. exact (IH s1 s' Lp G1 O1 H).
Qed.

(** ** The end: once Stop has been called each goroutine gets at most the result of the poll it is in *)
Definition halted (s : st) : Prop := running s = false.
Lemma halted_step n s a s' : halted s -> step n s a = Some s' -> halted s'.
Proof.
  unfold halted. intros R H. destruct a; cbn in H; repeat (match goal with H : match ?e with _ => _ end = Some _ |- _ => destruct e eqn:?; try discriminate H end); injection H as <-; cbn; try congruence; destruct (running s) eqn:E; cbn; congruence.
Qed.
(** Returns of polls of goroutine [g] in a run *)
Definition returns (g : nat) (acts : list action) : nat := length (List.filter (fun a => match a with Return g' _ => Nat.eqb g' g | _ => false end) acts).
Definition mayPoll (g : nat) (s : st) : nat := match gs s !! g with Some Polling => 1 | None => 0 | _ => 0 end.
Lemma returns_step n s a s' g : halted s -> step n s a = Some s' -> returns g [a] + mayPoll g s' <= mayPoll g s.
Proof.
  unfold halted, returns, mayPoll. intros R H.
  assert (U : forall h x y, gs s !! h = Some y -> (match <[h := x]> (gs s) !! g with Some Polling => 1 | None => 0 | _ => 0 end) = if decide (h = g) then match x with Polling => 1 | _ => 0 end else match gs s !! g with Some Polling => 1 | None => 0 | _ => 0 end).
  { intros h x y Y. case_decide as D; [subst h; rewrite list_lookup_insert by (eapply lookup_lt_Some; exact Y); destruct x; reflexivity|rewrite list_lookup_insert_ne by exact D; reflexivity]. }
  destruct a; cbn in H |- *.
  1,3,4,5: injection H as <-; cbn; lia.
  - injection H as <-. cbn. destruct (gs s !! g) as [y|] eqn:G; [rewrite (lookup_app_l_Some _ _ _ _ G); lia|]. rewrite lookup_app_r by (apply lookup_ge_None; exact G).
    destruct (g - length (gs s)) as [|[|k]]; cbn; lia.
  - destruct (p <? n); injection H as <-; cbn; lia.
  - destruct (gs s !! g0) as [[]|] eqn:G; try discriminate. rewrite R in H. injection H as <-. cbn. rewrite (U _ _ _ G). case_decide; lia.
  - destruct (gs s !! g0) as [[]|] eqn:G; try discriminate. assert (E : mayPoll g0 s = 1) by (unfold mayPoll; rewrite G; reflexivity).
    destruct (closed s); [destruct l; [|discriminate]|case_decide; [|discriminate]]; injection H as <-; cbn; rewrite (U _ _ _ G); (destruct (Nat.eqb_spec g0 g) as [->|N]; [rewrite decide_True by reflexivity; rewrite G; cbn; lia|rewrite decide_False by exact N; cbn; lia]).
  - destruct (gs s !! g0) as [[| |[|x l]|]|] eqn:G; try discriminate; injection H as <-; cbn; rewrite (U _ _ _ G); case_decide; lia.
Qed.
Lemma returns_cons g a l : returns g (a :: l) = returns g [a] + returns g l.
Proof. unfold returns. cbn. destruct (match a with Return _ _ => _ | _ => _ end); cbn; lia. Qed.
Lemma returns_run n g acts : forall s s', halted s -> run n s acts = Some s' -> returns g acts + mayPoll g s' <= mayPoll g s.
Proof.
  induction acts as [|a l IH]; intros s s' R H; cbn [run] in H. { injection H as <-. unfold returns. cbn. lia. }
  destruct (step n s a) as [s1|] eqn:E; [|discriminate]. rewrite returns_cons. pose proof (returns_step n s a s1 g R E). pose proof (IH s1 s' (halted_step n s a s1 R E) H). lia.
Qed.
(** A goroutine that can do nothing any more has ended, and one that ends sees to it that the client is closed *)
Lemma ended_or_enabled n s g x : gs s !! g = Some x -> x = Ended \/ (exists s', step n s (Check g) = Some s') \/ (exists s', step n s (Return g []) = Some s') \/ (exists s', step n s (Forward g) = Some s').
Proof.
  intros G. destruct x as [| |[|y l]|]; [right; left|right; right; left|right; right; right|right; right; right|left; reflexivity]; cbn; rewrite G; try (eexists; reflexivity).
  destruct (closed s); [eexists; reflexivity|]. rewrite decide_True; [eexists; reflexivity|]. split; constructor.
Qed.
Definition closing (s : st) : Prop := forall g, gs s !! g = Some Ended -> closed s = true.
Lemma closing_step n s a s' : closing s -> step n s a = Some s' -> closing s'.
Proof.
  intros C H.
  assert (U : forall h x y, gs s !! h = Some y -> x <> Ended -> forall g, <[h := x]> (gs s) !! g = Some Ended -> closed s = true).
  { intros h x y Y N g E. destruct (decide (h = g)) as [<-|D]; [rewrite list_lookup_insert in E by (eapply lookup_lt_Some; exact Y); congruence|]. rewrite list_lookup_insert_ne in E by exact D. exact (C g E). }
  destruct a; cbn in H.
  1,3,4,5: injection H as <-; exact C.
  - injection H as <-. intros g E. cbn in E. apply lookup_app_Some in E as [E|(_ & E)]; [exact (C g E)|]. apply list_lookup_singleton_Some in E as [_ E]. discriminate.
  - destruct (p <? n); injection H as <-; exact C.
  - destruct (gs s !! g) as [[]|] eqn:G; try discriminate. injection H as <-. destruct (running s); [intros h E; cbn in *; refine (U _ _ _ G _ h E); discriminate|intros h E; reflexivity].
  - destruct (gs s !! g) as [[]|] eqn:G; try discriminate. destruct (closed s) eqn:K.
    + destruct l; [|discriminate]. injection H as <-. intros h E. cbn in *. reflexivity.
    + case_decide; [|discriminate]. injection H as <-. intros h E. cbn in *. refine (U _ _ _ G _ h E); discriminate.
  - destruct (gs s !! g) as [[| |[|x l]|]|] eqn:G; try discriminate; injection H as <-; intros h E; cbn in *; refine (U _ _ _ G _ h E); discriminate.
Qed.
Lemma closing_run n acts : forall s s', closing s -> run n s acts = Some s' -> closing s'.
Proof.
  induction acts as [|a l IH]; intros s s' C H; cbn in H. { injection H as <-. exact C. }
  destruct (step n s a) as [s1|] eqn:E; [|discriminate]. exact (IH s1 s' (closing_step _ _ _ _ C E) H).
Qed.
Lemma never_started n acts : forall s s', gs s = [] -> closed s = false -> Start ∉ acts -> run n s acts = Some s' -> gs s' = [] /\ closed s' = false.
Proof.
  induction acts as [|a l IH]; intros s s' G C N H; cbn in H. { injection H as <-. auto. }
  destruct (step n s a) as [s1|] eqn:E; [|discriminate]. apply not_elem_of_cons in N as [N N'].
  assert (gs s1 = [] /\ closed s1 = false) as [G1 C1]; [|exact (IH s1 s' G1 C1 N' H)].
  destruct a; cbn in E; try rewrite G in E; try discriminate; try (injection E as <-; auto; fail); [congruence|]. destruct (p <? n); injection E as <-; auto.
Qed.

(** ** Everything is forwarded in the end *)
Definition open_ok (s : st) : Prop := running s = true -> closed s = false.
Lemma open_step n s a s' : open_ok s -> step n s a = Some s' -> open_ok s'.
Proof.
  unfold open_ok. intros O H. destruct a; cbn in H; repeat (match goal with H : match ?e with _ => _ end = Some _ |- _ => destruct e eqn:?; try discriminate H end); injection H as <-; cbn; try congruence; auto;
    destruct (running s) eqn:E; cbn; auto; congruence.
Qed.
Lemma open_run n acts : forall s s', open_ok s -> run n s acts = Some s' -> open_ok s'.
Proof.
  induction acts as [|a l IH]; intros s s' C H; cbn in H. { injection H as <-. exact C. }
  destruct (step n s a) as [s1|] eqn:E; [|discriminate]. exact (IH s1 s' (open_step _ _ _ _ C E) H).
Qed.
Lemma run_app n l1 : forall s l2, run n s (l1 ++ l2) = match run n s l1 with Some s' => run n s' l2 | None => None end.
Proof. induction l1 as [|a l IH]; intros s l2; [reflexivity|]. cbn. destruct (step n s a); [apply IH|reflexivity]. Qed.
(** The goroutine forwards what it has and comes back to the head of the loop *)
Lemma finish n l : forall s, gs s = [Batch l] ->
  exists acts, Forall (fun a => a = Forward 0) acts /\ run n s acts = Some (mkSt (len s) (pos s) (paused s) (running s) (closed s) [Top] (out s ++ l)).
Proof.
  induction l as [|x l IH]; intros s G.
  - exists [Forward 0]. split; [repeat constructor|]. cbn. rewrite G, app_nil_r. reflexivity.
  - destruct (IH (mkSt (len s) (pos s) (paused s) (running s) (closed s) [Batch l] (out s ++ [x])) eq_refl) as (acts & F & R). exists (Forward 0 :: acts). split; [constructor; auto|].
    cbn. rewrite G. cbn. cbn in R. rewrite R, <- app_assoc. reflexivity.
Qed.
Definition own (a : action) : Prop := match a with Check 0 | Return 0 _ | Forward 0 => True | _ => False end.
Lemma to_polling n s g : gs s = [g] -> g <> Ended -> running s = true -> closed s = false ->
  exists acts s', Forall own acts /\ run n s acts = Some s' /\ gs s' = [Polling] /\ running s' = true /\ closed s' = false /\ len s' = len s /\ pos s' = pos s /\ paused s' = paused s /\
    out s' = out s ++ inflight s.
Proof.
  intros G N R C. destruct g as [| |l|].
  - exists [Check 0]. eexists. split; [repeat constructor|]. cbn. rewrite G, R. cbn. split; [reflexivity|]. unfold inflight. rewrite G. cbn. rewrite app_nil_r. repeat split; assumption.
  - exists [], s. split; [constructor|]. unfold inflight. rewrite G. cbn. rewrite app_nil_r. repeat split; assumption.
  - destruct (finish n l s G) as (acts & F & H). exists (acts ++ [Check 0]). eexists. split.
    + apply Forall_app. split; [|repeat constructor]. eapply Forall_impl; [exact F|]. intros a ->. exact Logic.I.
    + rewrite run_app, H. cbn. rewrite R. cbn. split; [reflexivity|]. unfold inflight. rewrite G. cbn. rewrite app_nil_r. repeat split; assumption.
  - congruence.
Qed.
Lemma all_forwarded n s g p : gs s = [g] -> g <> Ended -> running s = true -> closed s = false -> p < n -> paused s p = false -> pos s p <= len s p ->
  exists acts s', Forall own acts /\ run n s acts = Some s' /\ len s' = len s /\ of_part p (out s') = of_part p (out s) ++ of_part p (inflight s) ++ seq (pos s p) (len s p - pos s p).
Proof.
  intros G N R C Lp P L. destruct (to_polling n s g G N R C) as (acts & s1 & F1 & R1 & G1 & Ru & Cl & El & Ep & Epa & Eo).
  destruct (finish n (records s1 (p, len s p - pos s p) ++ []) (mkSt (len s1) (advance (pos s1) [(p, len s p - pos s p)]) (paused s1) (running s1) (closed s1) [Batch (records s1 (p, len s p - pos s p) ++ [])] (out s1)) eq_refl) as (acts2 & F2 & R2).
  exists (acts ++ Return 0 [(p, len s p - pos s p)] :: acts2). eexists. split.
  - apply Forall_app. split; [exact F1|]. constructor; [exact Logic.I|]. eapply Forall_impl; [exact F2|]. intros a ->. exact Logic.I.
  - rewrite run_app, R1. cbn [run]. replace (step n s1 _) with (Some (mkSt (len s1) (advance (pos s1) [(p, len s p - pos s p)]) (paused s1) (running s1) (closed s1) [Batch (records s1 (p, len s p - pos s p) ++ [])] (out s1))).
    + rewrite R2. split; [reflexivity|]. cbn [len out]. split; [exact El|]. rewrite Eo, app_nil_r, !of_part_app, of_part_records, Ep. cbn. rewrite Nat.eqb_refl, <- app_assoc. reflexivity.
    + cbn. rewrite G1, Cl. cbn. rewrite decide_True; [reflexivity|]. split; [cbn; repeat constructor; set_solver|]. constructor; [|constructor]. cbn. rewrite Epa, El, Ep. repeat split; [exact Lp|exact P|lia].
Qed.

(** After Stop a goroutine that is not in a poll has only this many steps to go *)
Definition due (g : gor) : nat := match g with Top => 1 | Polling => 0 | Batch l => 2 + length l | Ended => 0 end.
Definition steps (g : nat) (acts : list action) : nat :=
  length (List.filter (fun a => match a with Check h | Return h _ | Forward h => Nat.eqb h g | _ => false end) acts).
Lemma due_step n s a s' g x : halted s -> gs s !! g = Some x -> x <> Polling -> step n s a = Some s' ->
  exists y, gs s' !! g = Some y /\ y <> Polling /\ steps g [a] + due y <= due x.
Proof.
  unfold halted, steps. intros R G N H.
  assert (U : forall h y, h <> g -> gs s !! h = Some y -> forall z, exists y, <[h := z]> (gs s) !! g = Some y /\ y <> Polling /\ 0 + due y <= due x).
  { intros h y Nh Y z. exists x. rewrite list_lookup_insert_ne by exact Nh. repeat split; [exact G|exact N|lia]. }
  assert (Same : exists y, gs s !! g = Some y /\ y <> Polling /\ 0 + due y <= due x) by (exists x; repeat split; [exact G|exact N|lia]).
  assert (Me : forall y, <[g := y]> (gs s) !! g = Some y) by (intros y; apply list_lookup_insert; eapply lookup_lt_Some; exact G).
  destruct a; cbn in H |- *.
  1,3,4,5: injection H as <-; exact Same.
  - injection H as <-. exists x. cbn. split; [apply lookup_app_l_Some; exact G|]. split; [exact N|lia].
  - destruct (p <? n); injection H as <-; exact Same.
  - destruct (gs s !! g0) as [[]|] eqn:E; try discriminate. rewrite R in H. injection H as <-. cbn [gs]. destruct (Nat.eqb_spec g0 g) as [->|D]; [|exact (U _ _ D E _)].
    exists Ended. rewrite Me. split; [reflexivity|]. split; [discriminate|]. assert (x = Top) by congruence. subst. cbn. lia.
  - destruct (gs s !! g0) as [[]|] eqn:E; try discriminate. assert (D : g0 <> g) by congruence. destruct (Nat.eqb_spec g0 g) as [D'|_]; [congruence|].
    destruct (closed s); [destruct l; [|discriminate]|case_decide; [|discriminate]]; injection H as <-; exact (U _ _ D E _).
  - destruct (gs s !! g0) as [[| |[|y l]|]|] eqn:E; try discriminate; injection H as <-; cbn [gs]; (destruct (Nat.eqb_spec g0 g) as [->|D]; [|exact (U _ _ D E _)]).
    + exists Top. rewrite Me. split; [reflexivity|]. split; [discriminate|]. assert (x = Batch []) by congruence. subst. cbn. lia.
    + exists (Batch l). rewrite Me. split; [reflexivity|]. split; [discriminate|]. assert (x = Batch (y :: l)) by congruence. subst. cbn. lia.
Qed.
Lemma steps_cons g a l : steps g (a :: l) = steps g [a] + steps g l.
Proof. unfold steps. cbn. destruct (match a with Check _ => _ | _ => _ end); cbn; lia. Qed.
Lemma due_run n g acts : forall s s' x, halted s -> gs s !! g = Some x -> x <> Polling -> run n s acts = Some s' ->
  exists y, gs s' !! g = Some y /\ y <> Polling /\ steps g acts + due y <= due x.
Proof.
  induction acts as [|a l IH]; intros s s' x R G N H; cbn [run] in H. { injection H as <-. exists x. split; [exact G|]. split; [exact N|]. unfold steps. cbn. lia. }
  destruct (step n s a) as [s1|] eqn:E; [|discriminate]. destruct (due_step n s a s1 g x R G N E) as (y & G1 & N1 & D1).
  destruct (IH s1 s' y (halted_step n s a s1 R E) G1 N1 H) as (z & G2 & N2 & D2). exists z. split; [exact G2|]. split; [exact N2|]. rewrite steps_cons. lia.
Qed.

(** What the calls and writes say about the state *)
Definition starts (acts : list action) : nat := length (List.filter (fun a => match a with Start => true | _ => false end) acts).
Definition appends (p : nat) (acts : list action) : nat := length (List.filter (fun a => match a with Append q => Nat.eqb q p | _ => false end) acts).
Lemma counts_step n s a s' : step n s a = Some s' -> length (gs s') = length (gs s) + starts [a] /\ (forall p, len s' p = len s p + appends p [a]) /\
  (running s' = true <-> running s = true /\ a <> Stop).
Proof.
  intros H. destruct a; cbn in H; repeat (match goal with H : match ?e with _ => _ end = Some _ |- _ => destruct e eqn:?; try discriminate H end); injection H as <-; cbn;
    try (destruct (running s) eqn:?; cbn); rewrite ?insert_length, ?app_length; cbn; (split; [lia|split; [intros q|]]); try lia; try (split; [intros ?; split; congruence|intros [? ?]; congruence]).
  all: unfold set; destruct (Nat.eqb_spec q p); subst; rewrite ?Nat.eqb_refl; cbn; try lia; destruct (Nat.eqb_spec p q); subst; cbn; try lia; congruence.
Qed.
Lemma starts_cons a l : starts (a :: l) = starts [a] + starts l.
Proof. unfold starts. cbn. destruct a; reflexivity. Qed.
Lemma appends_cons p a l : appends p (a :: l) = appends p [a] + appends p l.
Proof. unfold appends. cbn. destruct (match a with Append _ => _ | _ => _ end); reflexivity. Qed.
Lemma starts_app l1 l2 : starts (l1 ++ l2) = starts l1 + starts l2.
Proof. induction l1 as [|a l IH]; [reflexivity|]. cbn [app]. rewrite starts_cons, (starts_cons a l), IH. lia. Qed.
Lemma appends_app p l1 l2 : appends p (l1 ++ l2) = appends p l1 + appends p l2.
Proof. induction l1 as [|a l IH]; [reflexivity|]. cbn [app]. rewrite appends_cons, (appends_cons p a l), IH. lia. Qed.
Lemma counts n acts : forall s s', run n s acts = Some s' -> length (gs s') = length (gs s) + starts acts /\ (forall p, len s' p = len s p + appends p acts) /\
  (running s' = true <-> running s = true /\ Stop ∉ acts).
Proof.
  induction acts as [|a l IH]; intros s s' H; cbn [run] in H.
  { injection H as <-. cbn. split; [lia|]. split; [intros; lia|]. split; [intros; split; [assumption|intros X; inversion X]|tauto]. }
  destruct (step n s a) as [s1|] eqn:E; [|discriminate]. destruct (counts_step n s a s1 E) as (A1 & A2 & A3). destruct (IH s1 s' H) as (B1 & B2 & B3).
  split; [rewrite starts_cons; lia|]. split; [intros p; rewrite appends_cons, B2, A2; lia|]. rewrite B3, A3, not_elem_of_cons. split; intros; intuition congruence.
Qed.
Lemma unpaused_run n p acts : forall s s', paused s p = false -> Pause p ∉ acts -> PauseAll ∉ acts -> run n s acts = Some s' -> paused s' p = false.
Proof.
  induction acts as [|a l IH]; intros s s' P N1 N2 H; cbn [run] in H. { injection H as <-. exact P. }
  apply not_elem_of_cons in N1 as [N1 N1'], N2 as [N2 N2']. destruct (step n s a) as [s1|] eqn:E; [|discriminate]. refine (IH s1 s' _ N1' N2' H). clear IH H.
  destruct a; cbn in E; repeat (match goal with H : match ?e with _ => _ end = Some _ |- _ => destruct e eqn:?; try discriminate H end); injection E as <-; cbn; try exact P;
    try (destruct (running s); exact P); try congruence.
  all: unfold set; destruct (Nat.eqb_spec p p0); subst; try congruence; exact P.
Qed.
