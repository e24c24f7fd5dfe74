From stdpp Require Import prelude list.
From Coq Require Import Lia.
From Verif.Signals Require Import Channel.
Open Scope nat_scope.

Lemma run_snoc l : forall s a, run s (l ++ [a]) = match run s l with Some s' => step s' a | None => None end.
Proof. induction l as [|b l IH]; intros s a; cbn; [destruct (step s a); reflexivity|]. destruct (step s b); [apply IH|reflexivity]. Qed.
Lemma run_inv (P : list action -> st -> Prop) : P [] init -> (forall l s a s', run init l = Some s -> P l s -> step s a = Some s' -> P (l ++ [a]) s') ->
  forall l s, run init l = Some s -> P l s.
Proof.
  intros P0 PS l. induction l as [|a l IH] using rev_ind; intros s E; [injection E as <-; exact P0|].
  rewrite run_snoc in E. destruct (run init l) as [s1|] eqn:E1; [|discriminate]. eapply PS; [exact E1|apply IH; reflexivity|exact E].
Qed.

(** ** What the trace says *)
Definition ofCall (i : nat) (e : ev) : bool := match e with EvCall k _ | EvStop k | EvCallback k | EvReturn k => k =? i | _ => false end.
Definition isSend (e : ev) : bool := match e with EvSend => true | _ => false end.
Definition isStop (e : ev) : bool := match e with EvStop _ => true | _ => false end.
Definition cnt (f : ev -> bool) (t : list ev) : nat := length (List.filter f t).
Lemma cnt_app f a b : cnt f (a ++ b) = cnt f a + cnt f b. Proof. unfold cnt. now rewrite List.filter_app, app_length. Qed.
Definition allowed (t : list ev) (x : ev) : Prop :=
  match x with
  | EvStop i => (exists j, EvCall i j ∈ t) /\ (EvClose ∈ t \/ cnt isStop t < cnt isSend t)
  | EvCallback i | EvReturn i => EvStop i ∈ t /\ exists j, EvCall i j ∈ t /\ EvEnded j ∈ t
  | _ => True
  end.
Definition ordered (t : list ev) : Prop := forall pre x post, t = pre ++ x :: post -> allowed pre x.
Lemma ordered_snoc t e : ordered t -> allowed t e -> ordered (t ++ [e]).
Proof.
  intros O A pre x post E. induction post as [|y post _] using rev_ind; [apply app_inj_tail in E as [<- <-]; exact A|].
  rewrite app_comm_cons, app_assoc in E. apply app_inj_tail in E as [E _]. eapply O, E.
Qed.

Definition started (c : call) : bool := match at_ c with Recv => false | _ => true end.
Definition called (c : call) : bool := match at_ c with Recv | AtStop => false | _ => true end.
Definition past (c : call) : bool := match at_ c with AtCallback | AtReturn | Returned => true | _ => false end.
(** the events of call i *)
Definition script (i : nat) (c : call) : list ev :=
  EvCall i (src c) :: (if called c then [EvStop i] else []) ++
  (match at_ c with AtReturn | Returned => if cb c then [EvCallback i] else [] | _ => [] end) ++ (match at_ c with Returned => [EvReturn i] | _ => [] end).
Definition count (p : call -> bool) (l : list call) : nat := length (List.filter p l).
Definition b2n (b : bool) : nat := if b then 1 else 0.
Lemma count_app p a b : count p (a ++ b) = count p a + count p b. Proof. unfold count. now rewrite List.filter_app, app_length. Qed.
Lemma count_insert p l : forall i c c', l !! i = Some c -> count p (<[i := c']> l) + b2n (p c) = count p l + b2n (p c').
Proof.
  unfold count. induction l as [|d l IH]; intros [|i] c c' E; try discriminate E.
  - injection E as ->. cbn. destruct (p c), (p c'); cbn; lia.
  - specialize (IH i c c' E). change (<[S i := c']> (d :: l)) with (d :: <[i := c']> l). cbn [List.filter]. destruct (p d); cbn [length]; lia.
Qed.
Lemma count_one p l i i' c c' : count p l <= 1 -> l !! i = Some c -> l !! i' = Some c' -> p c = true -> p c' = true -> i = i'.
Proof.
  revert i i'. unfold count. induction l as [|d l IH]; intros i i' L E E' P P'; [discriminate|].
  assert (Z : forall k x, l !! k = Some x -> p x = true -> 1 <= length (List.filter p l)).
  { intros k x K Q. apply elem_of_list_lookup_2, elem_of_list_In in K. assert (M : In x (List.filter p l)) by now apply filter_In. destruct (List.filter p l); [destruct M|cbn; lia]. }
  destruct i as [|i], i' as [|i']; cbn in *.
  - reflexivity.
  - injection E as ->. rewrite P in L. cbn in L. specialize (Z _ _ E' P'). lia.
  - injection E' as ->. rewrite P' in L. cbn in L. specialize (Z _ _ E P). lia.
  - f_equal. apply IH; auto. destruct (p d); cbn in L; lia.
Qed.
Lemma count_in p l c : c ∈ l -> p c = true -> 1 <= count p l.
Proof. intros M P. unfold count. apply elem_of_list_In in M. assert (M' : In c (List.filter p l)) by now apply filter_In. destruct (List.filter p l); [destruct M'|cbn; lia]. Qed.
Lemma count_pos p l : 1 <= count p l -> exists i c, l !! i = Some c /\ p c = true.
Proof.
  unfold count. intros L. destruct (List.filter p l) as [|c t] eqn:E; [cbn in L; lia|]. assert (M : In c (List.filter p l)) by (rewrite E; now left).
  apply filter_In in M as [M P]. apply elem_of_list_In, elem_of_list_lookup_1 in M as [i M]. now exists i, c.
Qed.
Lemma has_spec j l : has j l = true <-> j ∈ l. Proof. unfold has. apply bool_decide_eq_true. Qed.
Lemma has_false j l : has j l = false <-> j ∉ l. Proof. unfold has. apply bool_decide_eq_false. Qed.
Lemma in_put j k l : k ∈ put j l <-> k = j \/ k ∈ l.
Proof. unfold put. destruct (has j l) eqn:H; [apply has_spec in H|]; set_solver. Qed.
Lemma in_del j k l : k ∈ del j l <-> k <> j /\ k ∈ l. Proof. unfold del. rewrite elem_of_list_filter. reflexivity. Qed.
Lemma lookup_go i c x s k : calls s !! i = Some c -> go i c x s !! k = if k =? i then Some (mkCall (src c) (cb c) x) else calls s !! k.
Proof. intros E. unfold go. destruct (Nat.eqb_spec k i) as [->|N]; [apply list_lookup_insert; eapply lookup_lt_Some, E|apply list_lookup_insert_ne; congruence]. Qed.

Definition events (s : st) : Prop := forall i, List.filter (ofCall i) (trace s) = match calls s !! i with Some c => script i c | None => [] end.
Definition ofSrc (j : nat) (f : call -> bool) (c : call) : bool := (src c =? j) && f c.
Definition isEnded (j : nat) (e : ev) : bool := match e with EvEnded k => k =? j | _ => false end.

Lemma go_events i c x s t : events s -> calls s !! i = Some c -> (forall k, k <> i -> List.filter (ofCall k) t = []) -> script i (mkCall (src c) (cb c) x) = script i c ++ List.filter (ofCall i) t ->
  forall k, List.filter (ofCall k) (trace s ++ t) = match go i c x s !! k with Some c => script k c | None => [] end.
Proof.
  intros Ev E O S k. rewrite List.filter_app, (lookup_go i c x s k E), (Ev k). destruct (Nat.eqb_spec k i) as [->|N]; [rewrite E, S; reflexivity|].
  rewrite (O k N), app_nil_r. reflexivity.
Qed.
Ltac one := intros ? ?; cbn; rewrite (proj2 (Nat.eqb_neq _ _)) by congruence; reflexivity.
Lemma events_step s a s' : step s a = Some s' -> events s -> events s'.
Proof.
  intros E Ev. destruct a as [j b| | |i|j|j|j]; cbn [step] in E.
  - injection E as <-. intros k. cbn [trace calls]. rewrite List.filter_app, (Ev k). destruct (decide (k < length (calls s))) as [L|L].
    + rewrite lookup_app_l by exact L. destruct (lookup_lt_is_Some_2 _ _ L) as [c C]. rewrite C. cbn [List.filter ofCall]. rewrite (proj2 (Nat.eqb_neq _ _)) by lia. apply app_nil_r.
    + rewrite (lookup_ge_None_2 (calls s) k) by lia. rewrite lookup_app_r by lia. cbn. destruct (Nat.eqb_spec (length (calls s)) k) as [<-|N]; [rewrite Nat.sub_diag; reflexivity|].
      destruct (k - length (calls s)) as [|n] eqn:D; [lia|]. reflexivity.
  - destruct (closed s); [discriminate|]. injection E as <-. intros k. cbn [trace calls]. rewrite List.filter_app. cbn. rewrite app_nil_r. apply Ev.
  - destruct (closed s); [discriminate|]. injection E as <-. intros k. cbn [trace calls]. rewrite List.filter_app. cbn. rewrite app_nil_r. apply Ev.
  - destruct (calls s !! i) as [c|] eqn:C; [|discriminate].
    assert (Z : forall x, script i (mkCall (src c) (cb c) x) = script i c -> forall k, List.filter (ofCall k) (trace s) = match go i c x s !! k with Some c => script k c | None => [] end).
    { intros x X k. rewrite <- (app_nil_r (trace s)). apply go_events; auto. rewrite X. cbn. now rewrite app_nil_r. }
    assert (R : i =? i = true) by apply Nat.eqb_refl.
    destruct (at_ c) eqn:A.
    + destruct (values s); [destruct (closed s); [|discriminate]|]; injection E as <-; intros k; cbn [trace calls]; apply Z; unfold script, called; cbn; now rewrite A.
    + assert (Y : forall k, List.filter (ofCall k) (trace s ++ [EvStop i]) = match go i c Wait s !! k with Some c => script k c | None => [] end).
      { apply go_events; auto; [one|]. unfold script, called. cbn. now rewrite A, R. }
      destruct (has (src c) (once s)); injection E as <-; exact Y.
    + destruct (has (src c) (full s)); [|discriminate]. injection E as <-. intros k; cbn [trace calls]; apply Z; unfold script, called; cbn; now rewrite A.
    + injection E as <-. intros k. cbn [trace calls]. apply go_events; auto; [intros ? ?; destruct (cb c); [cbn; rewrite (proj2 (Nat.eqb_neq _ _)) by congruence|]; reflexivity|]. unfold script, called; cbn; rewrite A. cbn. destruct (cb c); cbn; [rewrite R|]; reflexivity.
    + injection E as <-. intros k. cbn [trace calls]. apply go_events; auto; [one|]. unfold script, called; cbn; rewrite A, R. cbn. rewrite app_nil_r. reflexivity.
    + discriminate.
  - destruct (has j (leaving s)); [|discriminate]. injection E as <-. intros k. cbn [trace calls]. rewrite List.filter_app. cbn. rewrite app_nil_r. apply Ev.
  - injection E as <-. intros k. cbn [trace calls]. rewrite List.filter_app. cbn. rewrite app_nil_r. apply Ev.
  - destruct (has j (full s)); [|discriminate]. injection E as <-. intros k. cbn [trace calls]. rewrite List.filter_app. cbn. rewrite app_nil_r. apply Ev.
Qed.
Lemma events_run acts s : run init acts = Some s -> events s.
Proof. apply (run_inv (fun _ => events)); [intros i; reflexivity|intros l s0 a s' _ G E; eapply events_step; eauto]. Qed.

(** what can be read off the events of a call *)
Lemma in_script s i e : events s -> ofCall i e = true -> e ∈ trace s <-> exists c, calls s !! i = Some c /\ e ∈ script i c.
Proof.
  intros Ev O. assert (Z : e ∈ trace s <-> e ∈ List.filter (ofCall i) (trace s)). { rewrite !elem_of_list_In, filter_In. tauto. }
  rewrite Z, (Ev i). destruct (calls s !! i) as [c|]; [|split; [intros []%elem_of_nil|intros (c & D & _); discriminate]].
  split; [intros M; eauto|intros (c' & D & M); injection D as <-; exact M].
Qed.
Lemma call_in s i j : events s -> EvCall i j ∈ trace s <-> exists c, calls s !! i = Some c /\ src c = j.
Proof.
  intros Ev. rewrite (in_script s i) by (auto; cbn; apply Nat.eqb_refl). unfold script. split; intros (c & C & M); exists c; (split; [exact C|]).
  - destruct (called c), (at_ c), (cb c); set_solver.
  - subst j. set_solver.
Qed.
Lemma stop_in s i : events s -> EvStop i ∈ trace s <-> exists c, calls s !! i = Some c /\ called c = true.
Proof.
  intros Ev. rewrite (in_script s i) by (auto; cbn; apply Nat.eqb_refl). unfold script. split; intros (c & C & M); exists c; (split; [exact C|]).
  - destruct (called c), (at_ c), (cb c); set_solver.
  - rewrite M. set_solver.
Qed.
Lemma return_in s i : events s -> EvReturn i ∈ trace s <-> exists c, calls s !! i = Some c /\ at_ c = Returned.
Proof.
  intros Ev. rewrite (in_script s i) by (auto; cbn; apply Nat.eqb_refl). unfold script. split; intros (c & C & M); exists c; (split; [exact C|]).
  - destruct (called c), (at_ c), (cb c); set_solver.
  - rewrite M. set_solver.
Qed.

(** ** Stop, the end of the source, the values *)
Lemma elem_snoc (e : ev) t x : e ∈ t ++ [x] <-> e ∈ t \/ e = x.
Proof. rewrite elem_of_app, elem_of_list_singleton. reflexivity. Qed.
Definition atStop (c : call) : bool := match at_ c with AtStop => true | _ => false end.
Definition sums (s : st) : Prop :=
  (closed s = true <-> EvClose ∈ trace s) /\
  (closed s = false -> cnt isStop (trace s) + count atStop (calls s) + values s = cnt isSend (trace s)) /\
  (forall j, j ∈ full s -> EvEnded j ∈ trace s) /\
  (forall i c, calls s !! i = Some c -> past c = true -> EvEnded (src c) ∈ trace s).
Ltac app_cases k := match goal with H : (_ ++ [_]) !! k = Some _ |- _ => apply lookup_app_Some in H as [H|[? H]]; [|apply list_lookup_singleton_Some in H as [? <-]] end.
Lemma sums_step s a s' : step s a = Some s' -> sums s -> sums s'.
Proof.
  intros E (Cl & Su & Fu & Pa). destruct a as [j b| | |i|j|j|j]; cbn [step] in E.
  - injection E as <-. unfold sums. cbn [closed trace calls values full]. split_and!.
    + rewrite elem_snoc. rewrite Cl. split; [auto|intros [H|H]; [auto|discriminate]].
    + intros N. specialize (Su N). rewrite !cnt_app, count_app. cbn. unfold count, cnt in *. cbn. lia.
    + intros k K. rewrite elem_snoc. left. auto.
    + intros k c K P. rewrite elem_snoc. left. app_cases k; [eauto|discriminate P].
  - destruct (closed s) eqn:N; [discriminate|]. injection E as <-. unfold sums. cbn [closed trace calls values full]. split_and!.
    + rewrite elem_snoc, <- Cl. split; [auto|intros [H|H]; [auto|discriminate]].
    + intros _. specialize (Su eq_refl). rewrite !cnt_app. cbn. unfold cnt in *. cbn. lia.
    + intros k K. rewrite elem_snoc. left. auto.
    + intros k c K P. rewrite elem_snoc. left. eauto.
  - destruct (closed s) eqn:N; [discriminate|]. injection E as <-. unfold sums. cbn [closed trace calls values full]. split_and!.
    + rewrite elem_snoc. split; auto.
    + discriminate.
    + intros k K. rewrite elem_snoc. left. auto.
    + intros k c K P. rewrite elem_snoc. left. eauto.
  - destruct (calls s !! i) as [c|] eqn:C; [|discriminate].
    assert (Z : forall x, count atStop (go i c x s) + b2n (atStop c) = count atStop (calls s) + b2n (atStop (mkCall (src c) (cb c) x))) by (intros x; apply count_insert, C).
    assert (Y : forall x t, (past (mkCall (src c) (cb c) x) = true -> EvEnded (src c) ∈ trace s) -> forall k d, go i c x s !! k = Some d -> past d = true -> EvEnded (src d) ∈ trace s ++ t).
    { intros x t X k d D P. apply elem_of_app. left. rewrite (lookup_go i c x s k C) in D. destruct (k =? i); [injection D as <-; auto|eauto]. }
    destruct (at_ c) eqn:A; try discriminate.
    + specialize (Z AtStop). unfold atStop in Z at 2. rewrite A in Z. cbn in Z.
      assert (Y' : forall k d, go i c AtStop s !! k = Some d -> past d = true -> EvEnded (src d) ∈ trace s) by (rewrite <- (app_nil_r (trace s)); apply Y; discriminate).
      destruct (values s) as [|n]; [destruct (closed s) eqn:N; [|discriminate]|]; injection E as <-; unfold sums; cbn [closed trace calls values full]; split_and!; auto; [discriminate|].
      intros N. specialize (Su N). lia.
    + specialize (Z Wait). unfold atStop in Z at 2. rewrite A in Z. cbn in Z.
      assert (G : forall o l, sums (mkSt (go i c Wait s) (values s) (closed s) o l (full s) (trace s ++ [EvStop i]))).
      { intros o l. unfold sums. cbn [closed trace calls values full]. split_and!.
        + rewrite elem_snoc, <- Cl. split; [auto|intros [H|H]; [auto|discriminate]].
        + intros N. specialize (Su N). rewrite !cnt_app. unfold cnt in *. cbn. lia.
        + intros k K. rewrite elem_snoc. left. auto.
        + apply Y. discriminate. }
      destruct (has (src c) (once s)); injection E as <-; apply G.
    + specialize (Z AtCallback). unfold atStop in Z at 2. rewrite A in Z. cbn in Z. destruct (has (src c) (full s)) eqn:H; [|discriminate]. apply has_spec in H. injection E as <-.
      unfold sums. cbn [closed trace calls values full]. split_and!; auto.
      * intros N. specialize (Su N). lia.
      * intros k K. apply in_del in K as [_ K]. auto.
      * rewrite <- (app_nil_r (trace s)). apply Y. auto.
    + specialize (Z AtReturn). unfold atStop in Z at 2. rewrite A in Z. cbn in Z. injection E as <-. unfold sums. cbn [closed trace calls values full]. split_and!.
      * rewrite elem_of_app, <- Cl. split; [auto|]. intros [H|H]; [auto|]. destruct (cb c); set_solver.
      * intros N. specialize (Su N). rewrite !cnt_app. unfold cnt in *. destruct (cb c); cbn; lia.
      * intros k K. apply elem_of_app. left. auto.
      * apply Y. intros _. apply (Pa i c C). unfold past. now rewrite A.
    + specialize (Z Returned). unfold atStop in Z at 2. rewrite A in Z. cbn in Z. injection E as <-. unfold sums. cbn [closed trace calls values full]. split_and!.
      * rewrite elem_snoc, <- Cl. split; [auto|intros [H|H]; [auto|discriminate]].
      * intros N. specialize (Su N). rewrite !cnt_app. unfold cnt in *. cbn; lia.
      * intros k K. apply elem_of_app. left. auto.
      * apply Y. intros _. apply (Pa i c C). unfold past. now rewrite A.
  - destruct (has j (leaving s)); [|discriminate]. injection E as <-. unfold sums. cbn [closed trace calls values full]. split_and!.
    + rewrite elem_snoc, <- Cl. split; [auto|intros [H|H]; [auto|discriminate]].
    + intros N. specialize (Su N). rewrite !cnt_app. unfold cnt in *. cbn. lia.
    + intros k K. rewrite elem_snoc. apply in_put in K as [->|K]; auto.
    + intros k c K P. rewrite elem_snoc. left. eauto.
  - injection E as <-. unfold sums. cbn [closed trace calls values full]. split_and!.
    + rewrite elem_snoc, <- Cl. split; [auto|intros [H|H]; [auto|discriminate]].
    + intros N. specialize (Su N). rewrite !cnt_app. unfold cnt in *. cbn. lia.
    + intros k K. rewrite elem_snoc. apply in_put in K as [->|K]; auto.
    + intros k c K P. rewrite elem_snoc. left. eauto.
  - destruct (has j (full s)); [|discriminate]. injection E as <-. unfold sums. cbn [closed trace calls values full]. split_and!.
    + rewrite elem_snoc, <- Cl. split; [auto|intros [H|H]; [auto|discriminate]].
    + intros N. specialize (Su N). rewrite !cnt_app. unfold cnt in *. cbn. lia.
    + intros k K. rewrite elem_snoc. apply in_del in K as [_ K]; auto.
    + intros k c K P. rewrite elem_snoc. left. eauto.
Qed.
Lemma sums_run acts s : run init acts = Some s -> sums s.
Proof. apply (run_inv (fun _ => sums)); [|intros l s0 a s' _ G E; eapply sums_step; eauto]. unfold sums. cbn. split_and!; intros; try set_solver; auto. Qed.

Lemma ordered_run acts s : run init acts = Some s -> ordered (trace s).
Proof.
  apply (run_inv (fun _ s => ordered (trace s))); [intros [|] ? ? D; discriminate|]. clear acts s. intros l s a s' R O E.
  pose proof (events_run _ _ R) as Ev. pose proof (sums_run _ _ R) as (Cl & Su & Fu & Pa).
  destruct a as [j b| | |i|j|j|j]; cbn [step] in E.
  - injection E as <-. apply ordered_snoc; [exact O|exact I].
  - destruct (closed s); [discriminate|]. injection E as <-. apply ordered_snoc; [exact O|exact I].
  - destruct (closed s); [discriminate|]. injection E as <-. apply ordered_snoc; [exact O|exact I].
  - destruct (calls s !! i) as [c|] eqn:C; [|discriminate].
    assert (Z : exists j, EvCall i j ∈ trace s) by (exists (src c); apply call_in; eauto).
    assert (Y : past c = true -> EvStop i ∈ trace s /\ exists j, EvCall i j ∈ trace s /\ EvEnded j ∈ trace s).
    { intros P. split; [apply stop_in; [exact Ev|]; exists c; split; [exact C|]; unfold past in P; unfold called; destruct (at_ c); auto; discriminate|].
      exists (src c). split; [apply call_in; eauto|apply (Pa i c C P)]. }
    destruct (at_ c) eqn:A; try discriminate.
    + destruct (values s); [destruct (closed s); [|discriminate]|]; injection E as <-; exact O.
    + assert (G : ordered (trace s ++ [EvStop i])).
      { apply ordered_snoc; [exact O|]. split; [exact Z|]. destruct (closed s) eqn:N; [left; now apply Cl|right]. specialize (Su eq_refl).
        assert (1 <= count atStop (calls s)); [|lia]. eapply count_in; [eapply elem_of_list_lookup_2, C|]. unfold atStop. now rewrite A. }
      destruct (has (src c) (once s)); injection E as <-; exact G.
    + destruct (has (src c) (full s)); [|discriminate]. injection E as <-. exact O.
    + injection E as <-. cbn [trace]. destruct (cb c); [apply ordered_snoc; [exact O|]; apply Y; unfold past; now rewrite A|rewrite app_nil_r; exact O].
    + injection E as <-. apply ordered_snoc; [exact O|]. apply Y. unfold past. now rewrite A.
  - destruct (has j (leaving s)); [|discriminate]. injection E as <-. apply ordered_snoc; [exact O|exact I].
  - injection E as <-. apply ordered_snoc; [exact O|exact I].
  - destruct (has j (full s)); [|discriminate]. injection E as <-. apply ordered_snoc; [exact O|exact I].
Qed.

(** ** One value for each end of a source *)
Definition tokens (acts : list action) (s : st) : Prop :=
  forall j, count (ofSrc j past) (calls s) + b2n (has j (full s)) <= cnt (isEnded j) (trace s) /\
  (StopNow j ∉ acts -> cnt (isEnded j) (trace s) + b2n (has j (leaving s)) <= b2n (has j (once s))) /\
  (j ∈ leaving s -> j ∈ once s) /\ (forall i c, calls s !! i = Some c -> src c = j -> called c = true -> j ∈ once s) /\
  (j ∈ once s -> j ∈ leaving s \/ EvEnded j ∈ trace s) /\
  (EvEnded j ∈ trace s -> Other j ∉ acts -> j ∈ full s \/ 1 <= count (ofSrc j past) (calls s)).
Lemma has_put j k l : has k (put j l) = (k =? j) || has k l.
Proof. destruct (has k (put j l)) eqn:H; symmetry; [apply has_spec, in_put in H as [->|H]; [now rewrite Nat.eqb_refl|apply has_spec in H; rewrite H; apply orb_true_r]|].
  apply has_false in H. rewrite in_put in H. apply orb_false_iff. split; [apply Nat.eqb_neq; tauto|apply has_false; tauto]. Qed.
Lemma has_del j k l : has k (del j l) = negb (k =? j) && has k l.
Proof. destruct (has k (del j l)) eqn:H; symmetry; [apply has_spec, in_del in H as [N H]; rewrite (proj2 (Nat.eqb_neq _ _) N); now apply has_spec|].
  apply has_false in H. rewrite in_del in H. destruct (Nat.eqb_spec k j) as [->|N]; [reflexivity|]. apply has_false. tauto. Qed.
Lemma has_cons j k l : has k (j :: l) = (k =? j) || has k l.
Proof. destruct (has k (j :: l)) eqn:H; symmetry; [apply has_spec in H|apply has_false in H]; rewrite elem_of_cons in H.
  - destruct H as [->|H]; [now rewrite Nat.eqb_refl|apply has_spec in H; rewrite H; apply orb_true_r].
  - apply orb_false_iff. split; [apply Nat.eqb_neq; tauto|apply has_false; tauto]. Qed.
Lemma tokens_step acts s a s' : step s a = Some s' -> tokens acts s -> tokens (acts ++ [a]) s'.
Proof.
  intros E T k. destruct (T k) as (T1 & T2 & T3 & T4 & T5 & T6).
  assert (S2 : StopNow k ∉ acts ++ [a] -> StopNow k ∉ acts /\ a <> StopNow k) by (intros N; split; [|intros ->]; apply N, elem_of_app; [auto|right; now left] || idtac; set_solver).
  assert (S6 : Other k ∉ acts ++ [a] -> Other k ∉ acts /\ a <> Other k) by (intros N; split; [|intros ->]; set_solver).
  assert (NE : forall x, (forall j, x <> EvEnded j) -> cnt (isEnded k) (trace s ++ [x]) = cnt (isEnded k) (trace s)).
  { intros x X. rewrite cnt_app. unfold cnt at 2. cbn. destruct x; cbn; try lia. exfalso. eapply X. reflexivity. }
  assert (ME : forall x, (forall j, x <> EvEnded j) -> EvEnded k ∈ trace s ++ [x] <-> EvEnded k ∈ trace s).
  { intros x X. rewrite elem_snoc. split; [intros [H|H]; [exact H|exfalso; eapply X; eauto]|auto]. }
  destruct a as [j b| | |i|j|j|j]; cbn [step] in E.
  - injection E as <-. cbn [closed trace calls values full once leaving]. rewrite NE, ME by discriminate. rewrite count_app.
    replace (count (ofSrc k past) [mkCall j b Recv]) with 0 by (unfold count, ofSrc; cbn; now rewrite andb_false_r). rewrite Nat.add_0_r. split_and!; auto.
    + intros N. apply T2, S2, N.
    + intros i c D Ee P. apply lookup_app_Some in D as [D|[? D]]; [eauto|]. apply list_lookup_singleton_Some in D as [? <-]. discriminate P.
    + intros M N. apply T6; [exact M|apply S6, N].
  - destruct (closed s); [discriminate|]. injection E as <-. cbn [closed trace calls values full once leaving]. rewrite NE, ME by discriminate. split_and!; auto; [intros N; apply T2, S2, N|intros M N; apply T6; [exact M|apply S6, N]].
  - destruct (closed s); [discriminate|]. injection E as <-. cbn [closed trace calls values full once leaving]. rewrite NE, ME by discriminate. split_and!; auto; [intros N; apply T2, S2, N|intros M N; apply T6; [exact M|apply S6, N]].
  - destruct (calls s !! i) as [c|] eqn:C; [|discriminate].
    assert (Z : forall x, count (ofSrc k past) (go i c x s) + b2n (ofSrc k past c) = count (ofSrc k past) (calls s) + b2n (ofSrc k past (mkCall (src c) (cb c) x))) by (intros x; apply count_insert, C).
    assert (Same : forall x, past (mkCall (src c) (cb c) x) = past c -> count (ofSrc k past) (go i c x s) = count (ofSrc k past) (calls s)).
    { intros x X. specialize (Z x). unfold ofSrc in *. cbn [src] in Z. rewrite X in Z. lia. }
    assert (Y : forall x, (src c = k -> called (mkCall (src c) (cb c) x) = true -> k ∈ once s) -> forall i' d, go i c x s !! i' = Some d -> src d = k -> called d = true -> k ∈ once s).
    { intros x X i' d D Sd P. rewrite (lookup_go i c x s i' C) in D. destruct (i' =? i); [injection D as <-; auto|eauto]. }
    destruct (at_ c) eqn:A; try discriminate.
    + assert (G : forall v, count (ofSrc k past) (calls (mkSt (go i c AtStop s) v (closed s) (once s) (leaving s) (full s) (trace s))) = count (ofSrc k past) (calls s)) by (intros v; apply Same; unfold past; cbn; now rewrite A).
      destruct (values s); [destruct (closed s) eqn:N; [|discriminate]|]; injection E as <-; rewrite G; cbn [closed trace calls values full once leaving]; (split_and!; auto; [intros N'; apply T2, S2, N'|apply Y; discriminate|intros M N'; apply T6; [exact M|apply S6, N']]).
    + assert (G : count (ofSrc k past) (go i c Wait s) = count (ofSrc k past) (calls s)) by (apply Same; unfold past; cbn; now rewrite A).
      destruct (has (src c) (once s)) eqn:H; injection E as <-; cbn [closed trace calls values full once leaving]; rewrite G, NE, ME by discriminate.
      * split_and!; auto; [intros N'; apply T2, S2, N'|apply Y; intros <- _; now apply has_spec|intros M N'; apply T6; [exact M|apply S6, N']].
      * split_and!; auto.
        -- intros N. apply S2 in N as [N _]. specialize (T2 N). rewrite !has_cons. destruct (Nat.eqb_spec k (src c)) as [->|D]; [rewrite H in T2; cbn in *; lia|cbn; lia].
        -- intros M. apply elem_of_cons in M as [->|M]; [now left|right; auto].
        -- intros i' d D Sd P. rewrite (lookup_go i c Wait s i' C) in D. destruct (i' =? i); [injection D as <-; cbn in Sd; subst k; now left|right; eauto].
        -- intros M. apply elem_of_cons in M as [->|M]; [left; now left|]. destruct (T5 M) as [Q|Q]; [left; now right|now right].
        -- intros M N'; apply T6; [exact M|apply S6, N'].
    + destruct (has (src c) (full s)) eqn:H; [|discriminate]. injection E as <-. cbn [closed trace calls values full once leaving]. specialize (Z AtCallback).
      assert (Z1 : ofSrc k past c = false) by (unfold ofSrc, past; now rewrite A, andb_false_r). assert (Z2 : ofSrc k past (mkCall (src c) (cb c) AtCallback) = (src c =? k)) by (unfold ofSrc, past; cbn; apply andb_true_r).
      rewrite Z1, Z2 in Z. cbn [b2n] in Z. rewrite Nat.add_0_r in Z.
      rewrite has_del. split_and!; auto.
      * rewrite Z. rewrite (Nat.eqb_sym k (src c)). destruct (Nat.eqb_spec (src c) k) as [<-|D]; cbn; [rewrite H in T1; cbn in T1; lia|destruct (has k (full s)); cbn in *; lia].
      * intros N'; apply T2, S2, N'.
      * apply Y. intros Ee _. apply (T4 i c C Ee). unfold called. now rewrite A.
      * intros M N'. rewrite Z. destruct (Nat.eqb_spec (src c) k) as [Ee|D]; [right; cbn; lia|]. destruct (T6 M (proj1 (S6 N'))) as [Q|Q]; [left; apply in_del; split; [congruence|exact Q]|right; lia].
    + assert (G : count (ofSrc k past) (go i c AtReturn s) = count (ofSrc k past) (calls s)) by (apply Same; unfold past; cbn; now rewrite A).
      injection E as <-. cbn [closed trace calls values full once leaving].
      assert (NE' : cnt (isEnded k) (trace s ++ (if cb c then [EvCallback i] else [])) = cnt (isEnded k) (trace s)) by (destruct (cb c); [apply NE; discriminate|now rewrite app_nil_r]).
      assert (ME' : EvEnded k ∈ trace s ++ (if cb c then [EvCallback i] else []) <-> EvEnded k ∈ trace s) by (destruct (cb c); [apply ME; discriminate|now rewrite app_nil_r]).
      rewrite G, NE', ME'. split_and!; auto; [intros N'; apply T2, S2, N'|apply Y; intros Ee _; apply (T4 i c C Ee); unfold called; now rewrite A|intros M N'; apply T6; [exact M|apply S6, N']].
    + assert (G : count (ofSrc k past) (go i c Returned s) = count (ofSrc k past) (calls s)) by (apply Same; unfold past; cbn; now rewrite A).
      injection E as <-. cbn [closed trace calls values full once leaving]. rewrite G, NE, ME by discriminate.
      split_and!; auto; [intros N'; apply T2, S2, N'|apply Y; intros Ee _; apply (T4 i c C Ee); unfold called; now rewrite A|intros M N'; apply T6; [exact M|apply S6, N']].
  - destruct (has j (leaving s)) eqn:H; [|discriminate]. injection E as <-. cbn [closed trace calls values full once leaving].
    rewrite cnt_app, has_put, has_del. replace (cnt (isEnded k) [EvEnded j]) with (b2n (k =? j)) by (unfold cnt; cbn; rewrite (Nat.eqb_sym j k); destruct (k =? j); reflexivity).
    split_and!; auto.
    + destruct (k =? j), (has k (full s)); cbn in *; lia.
    + intros N. specialize (T2 (proj1 (S2 N))). destruct (Nat.eqb_spec k j) as [->|D]; [rewrite H in T2; cbn in *; lia|cbn; lia].
    + intros M. apply in_del in M as [_ M]. auto.
    + intros M. rewrite elem_snoc. destruct (Nat.eqb_spec k j) as [->|D]; [auto|]. destruct (T5 M) as [Q|Q]; [left; apply in_del; auto|auto].
    + intros M N. rewrite in_put. apply elem_snoc in M as [M|M]; [|injection M as <-; auto]. destruct (T6 M (proj1 (S6 N))); auto.
  - injection E as <-. cbn [closed trace calls values full once leaving].
    rewrite cnt_app, has_put. replace (cnt (isEnded k) [EvEnded j]) with (b2n (k =? j)) by (unfold cnt; cbn; rewrite (Nat.eqb_sym j k); destruct (k =? j); reflexivity).
    split_and!; auto.
    + destruct (k =? j), (has k (full s)); cbn in *; lia.
    + intros N. apply S2 in N as [N D]. specialize (T2 N). rewrite (proj2 (Nat.eqb_neq k j)) by congruence. cbn. lia.
    + intros M. rewrite elem_snoc. destruct (T5 M); auto.
    + intros M N. rewrite in_put. apply elem_snoc in M as [M|M]; [|injection M as <-; auto]. destruct (T6 M (proj1 (S6 N))); auto.
  - destruct (has j (full s)) eqn:H; [|discriminate]. injection E as <-. cbn [closed trace calls values full once leaving]. rewrite NE, ME by discriminate. rewrite has_del. split_and!; auto.
    + destruct (k =? j), (has k (full s)); cbn in *; lia.
    + intros N; apply T2, S2, N.
    + intros M N. apply S6 in N as [N D]. destruct (T6 M N) as [Q|Q]; [left; apply in_del; split; [congruence|exact Q]|auto].
Qed.
Lemma tokens_run acts s : run init acts = Some s -> tokens acts s.
Proof. apply run_inv; [intros j; cbn; unfold cnt, count; cbn; split_and!; intros; try set_solver; lia|intros l s0 a s' _ G E; eapply tokens_step; eauto]. Qed.

(** ** The statements *)
Definition settled (s : st) : Prop := (forall i, step s (Step i) = None) /\ forall j, step s (Finish j) = None.
Lemma closed_acts acts s : run init acts = Some s -> Close ∈ acts -> closed s = true.
Proof.
  apply (run_inv (fun l s => Close ∈ l -> closed s = true)); [intros H; set_solver|]. clear. intros l s a s' _ IH E M.
  apply elem_of_app in M as [M|M%elem_of_list_singleton]; [specialize (IH M)|subst a; cbn [step] in E; destruct (closed s); [discriminate|]; injection E as <-; reflexivity].
  destruct a; cbn [step] in E; repeat (case_match; try discriminate E); injection E as <-; cbn; congruence.
Qed.
Lemma acts_closed acts s : run init acts = Some s -> closed s = true -> Close ∈ acts.
Proof.
  apply (run_inv (fun l s => closed s = true -> Close ∈ l)); [discriminate|]. clear. intros l s a s' _ IH E C. apply elem_of_app.
  destruct a; [left|left|right; by left|left|left|left|left]; apply IH; cbn [step] in E; repeat (case_match; try discriminate E); injection E as <-; cbn in C; congruence.
Qed.
Lemma only_one acts s i i' j : run init acts = Some s -> StopNow j ∉ acts -> EvCall i j ∈ trace s -> EvCall i' j ∈ trace s -> EvReturn i ∈ trace s -> EvReturn i' ∈ trace s -> i = i'.
Proof.
  intros R N C C' Rt Rt'. pose proof (events_run _ _ R) as Ev. destruct (tokens_run _ _ R j) as (T1 & T2 & _). specialize (T2 N).
  apply call_in in C as (c & C & S); [|exact Ev]. apply call_in in C' as (c' & C' & S'); [|exact Ev].
  apply return_in in Rt as (d & D & P); [|exact Ev]. apply return_in in Rt' as (d' & D' & P'); [|exact Ev]. simplify_eq.
  eapply (count_one (ofSrc (src c) past) (calls s)); [destruct (has (src c) (once s)); cbn in T2; lia|exact C|exact C'| |]; unfold ofSrc, past; [rewrite P, Nat.eqb_refl|rewrite P', S', Nat.eqb_refl]; reflexivity.
Qed.
Lemma returns acts s i j : run init acts = Some s -> settled s -> Close ∈ acts -> EvCall i j ∈ trace s -> (forall i', EvCall i' j ∈ trace s -> i' = i) -> Other j ∉ acts -> EvReturn i ∈ trace s.
Proof.
  intros R [SS SF] Cl C U O. pose proof (events_run _ _ R) as Ev. destruct (tokens_run _ _ R j) as (T1 & T2 & T3 & T4 & T5 & T6). pose proof (closed_acts _ _ R Cl) as K.
  apply call_in in C as (c & C & S); [|exact Ev]. apply return_in; [exact Ev|]. exists c. split; [exact C|]. specialize (SS i). cbn [step] in SS. rewrite C in SS. destruct (at_ c) eqn:A; try discriminate SS; auto.
  - rewrite K in SS. destruct (values s); discriminate.
  - destruct (has (src c) (once s)); discriminate.
  - exfalso. rewrite S in SS. destruct (has j (full s)) eqn:H; [discriminate|]. apply has_false in H.
    assert (L : j ∉ leaving s). { intros L. apply has_spec in L. specialize (SF j). cbn [step] in SF. rewrite L in SF. discriminate. }
    assert (M : j ∈ once s) by (apply (T4 i c C S); unfold called; now rewrite A).
    destruct (T5 M) as [Q|Q]; [contradiction|]. destruct (T6 Q O) as [W|W]; [contradiction|]. apply count_pos in W as (i' & d & D & P). unfold ofSrc in P. apply andb_true_iff in P as [P1 P2]. apply Nat.eqb_eq in P1.
    assert (i' = i) by (apply U, call_in; eauto). subst i'. rewrite C in D. injection D as <-. unfold past in P2. rewrite A in P2. discriminate.
Qed.
