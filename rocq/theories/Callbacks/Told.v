(** OnPartitionWillRevoke and OnPartitionRevoked enclose what is done to the worker and to the store of the partition. *)
From stdpp Require Import prelude list.
From Coq Require Import Lia.
From Verif.Callbacks Require Import Model Proofs.
Open Scope nat_scope.

(** What the group's goroutine does with partition p: the three callbacks it calls, and telling the store *)
Inductive told := TAssigned | TWill | TStore | TRevoked.
Definition toldOf (p : nat) (e : ev) : list told :=
  match e with
  | EvAssigned p' => if Nat.eqb p' p then [TAssigned] else []
  | EvWill p' => if Nat.eqb p' p then [TWill] else []
  | EvStore p' => if Nat.eqb p' p then [TStore] else []
  | EvRevoked p' => if Nat.eqb p' p then [TRevoked] else []
  | _ => []
  end.
Definition tells (p : nat) (t : list ev) : list told := flat_map (toldOf p) t.
Definition nthT (i : nat) : told := match i mod 4 with 0 => TAssigned | 1 => TWill | 2 => TStore | _ => TRevoked end.
Lemma tells_app p t1 t2 : tells p (t1 ++ t2) = tells p t1 ++ tells p t2.
Proof. apply flat_map_app. Qed.

Definition mtoldOf (p : nat) (m : micro) : list told :=
  match m with
  | MAssigned p' => if Nat.eqb p' p then [TAssigned] else []
  | MWill p' => if Nat.eqb p' p then [TWill] else []
  | MStore p' => if Nat.eqb p' p then [TStore] else []
  | MRevoked p' => if Nat.eqb p' p then [TRevoked] else []
  | _ => []
  end.
Definition mtells (p : nat) (l : list micro) : list told := flat_map (mtoldOf p) l.
Lemma mtells_app p l1 l2 : mtells p (l1 ++ l2) = mtells p l1 ++ mtells p l2.
Proof. apply flat_map_app. Qed.
Lemma mtells_flat p (f : nat -> list micro) ks l : (forall p', mtells p (f p') = if Nat.eqb p' p then ks else []) -> NoDup l ->
  mtells p (flat_map f l) = if has p l then ks else [].
Proof.
  intros F. induction l as [|a l IH]; intros N; [reflexivity|]. apply NoDup_cons in N as [N1 N2]. cbn [flat_map]. rewrite mtells_app, F, IH by auto. unfold has.
  destruct (Nat.eqb_spec a p) as [->|Ne].
  - rewrite (bool_decide_eq_false_2 (p ∈ l)), bool_decide_eq_true_2 by (auto; left). apply app_nil_r.
  - cbn [app]. destruct (bool_decide_reflect (p ∈ l)); [rewrite bool_decide_eq_true_2 by (right; auto); reflexivity|].
    rewrite bool_decide_eq_false_2; [reflexivity|]. intros [->|]%elem_of_cons; congruence.
Qed.
Lemma map_flat {A B} (f : A -> B) l : map f l = flat_map (fun x => [f x]) l.
Proof. induction l as [|a l IH]; [reflexivity|]. cbn. rewrite IH. reflexivity. Qed.
Lemma one_eqb p p' (k : told) : (if Nat.eqb p' p then [k] else []) ++ [] = if Nat.eqb p' p then [k] else [].
Proof. apply app_nil_r. Qed.
Lemma mtells_assign p ps : NoDup ps -> mtells p (map MCreate ps ++ map MAssigned ps) = if has p ps then [TAssigned] else [].
Proof.
  intros N. rewrite mtells_app, !map_flat, (mtells_flat p _ []), (mtells_flat p _ [TAssigned]); auto.
  - destruct (has p ps); reflexivity.
  - intros p'. apply one_eqb.
  - intros p'. destruct (Nat.eqb p' p); reflexivity.
Qed.
Lemma mtells_revoke p ps : NoDup ps -> mtells p (flat_map (fun p => [MWill p; MHalt p; MStore p]) ps ++ map MRevoked ps) = if has p ps then [TWill; TStore; TRevoked] else [].
Proof.
  intros N. rewrite mtells_app, map_flat, (mtells_flat p _ [TWill; TStore]), (mtells_flat p _ [TRevoked]); auto.
  - destruct (has p ps); reflexivity.
  - intros p'. apply one_eqb.
  - intros p'. cbn. destruct (Nat.eqb p' p); reflexivity.
Qed.
Lemma micro_told s m l : exists es, trace (micro_step s m l) = trace s ++ es /\ forall p, tells p es = mtoldOf p m.
Proof.
  destruct m as [p'|p'|p'|p'|p'|p']; cbn [micro_step].
  4: destruct (find p' (live s)) as [w|]; [destruct (ws s !! w)|]; cbn [trace].
  all: try (exists []; split; [symmetry; apply app_nil_r|intros p; reflexivity]); eexists; (split; [reflexivity|]); intros p; cbn;
    try destruct (Nat.eqb p' p); reflexivity.
Qed.
(** steps of workers and of the pool tell nothing and halt nobody *)
Definition isHalt (e : ev) : bool := match e with EvHalt _ => true | _ => false end.
Lemma worker_told s a s' : step s a = Some s' -> (match a with GAssign _ | GRevoke _ | GStep => False | _ => True end) ->
  exists w x x' es, ws s !! w = Some x /\ s' = upd w x' es s /\ part x' = part x /\ (forall p, tells p es = []) /\ (forall v, EvHalt v ∉ es).
Proof.
  assert (Z : forall v, EvHalt v ∉ []) by (intros v; apply not_elem_of_nil).
  intros E K. destruct a as [ps|ps| |w|w|w n|w|w|w|w|w|w]; try contradiction; cbn [step] in E; destruct (ws s !! w) as [x|] eqn:X; try discriminate; exists w, x.
  - case_decide; [|discriminate]. injection E as <-. eexists _, _. split; [exact X|]. split; [reflexivity|]. split; [reflexivity|]. split; [reflexivity|]. set_solver.
  - case_decide; [|discriminate]. injection E as <-. eexists _, _. split; [exact X|]. split; [reflexivity|]. split; [reflexivity|]. split; [reflexivity|]. set_solver.
  - case_decide; [|discriminate]. injection E as <-. eexists _, _. split; [exact X|]. split; [reflexivity|]. split; [reflexivity|]. split; [reflexivity|]. exact Z.
  - destruct (batch x); [discriminate|]. injection E as <-. eexists _, _. split; [exact X|]. split; [reflexivity|]. split; [reflexivity|]. split; [reflexivity|]. exact Z.
  - destruct (batch x); [discriminate|]. injection E as <-. eexists _, _. split; [exact X|]. split; [reflexivity|]. split; [reflexivity|]. split; [reflexivity|]. exact Z.
  - destruct (look _ _) as [[c l]|]; [|discriminate]. injection E as <-. eexists _, _. split; [exact X|]. split; [reflexivity|]. split; [reflexivity|]. destruct (halted x); split; try reflexivity; set_solver.
  - destruct (q x) as [|[c [b|]] l]; try discriminate. destruct (busy x); [discriminate|]. case_decide; [|discriminate]. injection E as <-. eexists _, _.
    split; [exact X|]. split; [reflexivity|]. split; [reflexivity|]. destruct b; split; try reflexivity; set_solver.
  - destruct (busy x); [|discriminate]. injection E as <-. eexists _, _. split; [exact X|]. split; [reflexivity|]. split; [reflexivity|]. split; [reflexivity|]. set_solver.
  - case_decide; [|discriminate]. injection E as <-. eexists _, _. split; [exact X|]. split; [reflexivity|]. split; [reflexivity|]. split; [reflexivity|]. set_solver.
Qed.

Definition cycT (l : list told) : Prop := forall i c, l !! i = Some c -> c = nthT i.
Lemma cycT_snoc l c : cycT l -> c = nthT (length l) -> cycT (l ++ [c]).
Proof.
  intros H E i d L. apply lookup_app_Some in L as [L|[L1 L2]]; [exact (H _ _ L)|]. apply list_lookup_singleton_Some in L2 as [L2 <-]. rewrite E. f_equal. lia.
Qed.
(** the worker is halted right before the store is told *)
Fixpoint paired (l : list micro) : Prop :=
  match l with [] => True | MHalt p :: l' => (exists l'', l' = MStore p :: l'') /\ paired l' | _ :: l' => paired l' end.
Lemma paired_app l1 l2 : paired l1 -> paired l2 -> paired (l1 ++ l2).
Proof.
  induction l1 as [|m l1 IH]; intros P1 P2; [exact P2|]. destruct m; cbn [paired app] in *; auto. destruct P1 as [(l'' & ->) P1]. split; [|auto]. exists (l'' ++ l2). reflexivity.
Qed.
Lemma paired_map (f : nat -> micro) l : (forall p p', f p <> MHalt p') -> paired (map f l).
Proof. intros F. induction l as [|a l IH]; [exact Logic.I|]. cbn [map]. specialize (F a). destruct (f a); try exact IH. destruct (F p); reflexivity. Qed.
Record invT (s : st) : Prop := {
  t_cyc : forall p, let l := tells p (trace s) ++ mtells p (cur s) in cycT l /\ length l mod 4 = if has p (owned s) then 1 else 0;
  t_pair : paired (cur s);
  t_live : forall p w, (p, w) ∈ live s -> exists x, ws s !! w = Some x /\ part x = p;
  t_halt : forall t1 w t2, trace s = t1 ++ EvHalt w :: t2 -> exists x, ws s !! w = Some x /\ last (tells (part x) t1) = Some TWill
}.
Lemma invT_init : invT init.
Proof. constructor; cbn; auto. - intros p. split; [intros i c H; discriminate|reflexivity]. - intros p w H. apply elem_of_nil in H as []. - intros t1 w t2 H. destruct t1; discriminate. Qed.
Lemma last_cyc l c : cycT (l ++ [c]) -> c = TStore -> last l = Some TWill.
Proof.
  intros C ->. pose proof (C (length l) TStore ltac:(rewrite lookup_app_r, Nat.sub_diag by lia; reflexivity)) as E. destruct l as [|a l _] using rev_ind; [discriminate|].
  rewrite last_snoc. f_equal. pose proof (C (length l) a) as Ea. rewrite <- app_assoc, lookup_app_r, Nat.sub_diag in Ea by lia. specialize (Ea eq_refl). rewrite Ea.
  rewrite app_length, Nat.add_1_r in E. unfold nthT in *. destruct (length l mod 4) as [|[|[|k]]] eqn:M; rewrite (mod_S4 _ _ M) in E; try discriminate; reflexivity.
Qed.
Lemma lookup_part (l : list worker) w v x x' y : l !! w = Some x -> part x' = part x -> l !! v = Some y -> exists z, <[w := x']> l !! v = Some z /\ part z = part y.
Proof.
  intros X P Y. destruct (decide (v = w)) as [->|Ne].
  - exists x'. split; [apply list_lookup_insert, (lookup_lt_Some _ _ _ X)|]. congruence.
  - exists y. rewrite list_lookup_insert_ne by auto. auto.
Qed.
Lemma split_snoc {A} (t : list A) es t1 e t2 : t ++ es = t1 ++ e :: t2 -> (exists t3, t = t1 ++ e :: t3) \/ (exists e1, t1 = t ++ e1 /\ es = e1 ++ e :: t2).
Proof.
  revert t1. induction t as [|a t IH]; intros t1 E; [right; exists t1; auto|]. destruct t1 as [|b t1]; injection E as -> E; [left; exists t; reflexivity|].
  destruct (IH t1 E) as [(t3 & ->)|(e1 & -> & ->)]; [left; eauto|right; eauto].
Qed.
Lemma invT_step s a s' : invT s -> step s a = Some s' -> invT s'.
Proof.
  intros [C Pr Lv Ha] E. destruct a as [ps|ps| |w|w|w n|w|w|w|w|w|w].
  4-12: destruct (worker_told _ _ _ E Logic.I) as (w' & x & x' & es & X & -> & P & T & H); constructor; cbn [trace cur owned upd ws live]; auto;
    [ intros p; rewrite tells_app, T, app_nil_r; exact (C p)
    | intros p v L; destruct (Lv p v L) as (y & Y & <-); destruct (lookup_part _ _ _ _ _ _ X P Y) as (z & Z & Q); exists z; rewrite Q; auto
    | intros t1 v t2 Q; apply split_snoc in Q as [(t3 & Q)|(e1 & -> & Q)];
      [ destruct (Ha _ _ _ Q) as (y & Y & L); destruct (lookup_part _ _ _ _ _ _ X P Y) as (z & Z & R); exists z; rewrite R; auto
      | exfalso; apply (H v); rewrite Q; apply elem_of_app; right; left ] ].
  - cbn [step] in E. destruct (cur s) as [|m l] eqn:Cu; [|discriminate]. case_decide as D; [|discriminate]. injection E as <-. destruct D as [N F].
    constructor; cbn [trace cur owned ws live]; auto.
    + intros p. destruct (C p) as [I1 I2]. change (mtells p []) with (@nil told) in *. rewrite app_nil_r in *. rewrite mtells_assign, has_app by auto.
      destruct (has p ps) eqn:H; [|rewrite app_nil_r, orb_false_r; auto]. rewrite (not_has _ _ _ F H) in *. cbn [orb].
      split; [apply cycT_snoc; [exact I1|]; unfold nthT; rewrite I2; reflexivity|]. rewrite app_length, Nat.add_1_r, (mod_S4 _ _ I2). reflexivity.
    + apply paired_app; apply paired_map; discriminate.
  - cbn [step] in E. destruct (cur s) as [|m l] eqn:Cu; [|discriminate]. case_decide as D; [|discriminate]. injection E as <-. destruct D as [N F].
    constructor; cbn [trace cur owned ws live]; auto.
    + intros p. destruct (C p) as [I1 I2]. change (mtells p []) with (@nil told) in *. rewrite app_nil_r in *. rewrite mtells_revoke, has_filter by auto.
      destruct (has p ps) eqn:H; [|cbn [negb]; rewrite app_nil_r, andb_true_r; auto]. rewrite (is_has _ _ _ F H) in *. cbn [negb andb].
      set (l := tells p (trace s)) in *. change [TWill; TStore; TRevoked] with ([TWill] ++ [TStore] ++ [TRevoked]). rewrite !app_assoc.
      assert (L1 : length (l ++ [TWill]) mod 4 = 2) by (rewrite app_length, Nat.add_1_r, (mod_S4 _ _ I2); reflexivity).
      assert (L2 : length ((l ++ [TWill]) ++ [TStore]) mod 4 = 3) by (rewrite app_length, Nat.add_1_r, (mod_S4 _ _ L1); reflexivity).
      split; [|rewrite app_length, Nat.add_1_r, (mod_S4 _ _ L2); reflexivity].
      apply cycT_snoc; [apply cycT_snoc; [apply cycT_snoc; [exact I1|]|]|]; unfold nthT; [rewrite I2|rewrite L1|rewrite L2]; reflexivity.
    + apply paired_app; [|apply paired_map; discriminate]. clear. induction ps as [|p ps IH]; [exact Logic.I|]. cbn. eauto.
  - cbn [step] in E. destruct (cur s) as [|m l] eqn:Cu; [discriminate|]. injection E as <-. pose proof (micro_rest s m l) as [Q1 Q2].
    constructor; rewrite ?Q1, ?Q2.
    + intros p. destruct (micro_told s m l) as (es & -> & G). rewrite tells_app, G, <- app_assoc. exact (C p).
    + destruct m; cbn [paired] in Pr; tauto.
    + intros p w L. destruct m as [p'|p'|p'|p'|p'|p']; cbn [micro_step] in L |- *.
      * cbn [live ws] in *. apply elem_of_cons in L as [L|L].
        -- injection L as -> ->. exists (mkW p' Boot false 0 [] 0 false). split; [|reflexivity]. rewrite lookup_app_r, Nat.sub_diag by lia. reflexivity.
        -- destruct (Lv p w L) as (x & X & P). exists x. split; [|exact P]. apply lookup_app_l_Some. exact X.
      * exact (Lv p w L).
      * exact (Lv p w L).
      * destruct (find p' (live s)) as [v|]; [destruct (ws s !! v) as [y|] eqn:Y|]; cbn [live ws] in *; auto.
        assert (L' : (p, w) ∈ live s). { apply elem_of_list_In. apply elem_of_list_In in L. unfold drop in L. apply filter_In in L as [L _]. exact L. }
        destruct (Lv p w L') as (x & X & <-).
        apply (lookup_part (ws s) v w y (mkW (part y) (stg y) true (batch y) (q y) (next y) (busy y)) x Y eq_refl X).
      * exact (Lv p w L).
      * exact (Lv p w L).
    + intros t1 w t2 Q. destruct m as [p'|p'|p'|p'|p'|p']; cbn [micro_step] in Q |- *; cbn [trace ws] in *.
      * destruct (Ha _ _ _ Q) as (x & X & L). exists x. split; [|exact L]. apply lookup_app_l_Some. exact X.
      * apply split_snoc in Q as [(t3 & Q)|(e1 & -> & Q)]; [exact (Ha _ _ _ Q)|]. destruct e1 as [|e [|? ?]]; discriminate.
      * apply split_snoc in Q as [(t3 & Q)|(e1 & -> & Q)]; [exact (Ha _ _ _ Q)|]. destruct e1 as [|e [|? ?]]; discriminate.
      * destruct (find p' (live s)) as [v|] eqn:Fi; [destruct (ws s !! v) as [y|] eqn:Y|]; cbn [trace ws] in *; try exact (Ha _ _ _ Q).
        apply split_snoc in Q as [(t3 & Q)|(e1 & -> & Q)].
        -- destruct (Ha _ _ _ Q) as (x & X & L).
           destruct (lookup_part (ws s) v w y (mkW (part y) (stg y) true (batch y) (q y) (next y) (busy y)) x Y eq_refl X) as (z & Z & R). exists z. rewrite R. auto.
        -- destruct e1 as [|e [|? ?]]; try discriminate. injection Q as <- _. rewrite app_nil_r.
           assert (L' : (p', v) ∈ live s).
           { unfold find in Fi. destruct (List.filter _ (live s)) as [|[a b] k] eqn:Fl; [discriminate|]. injection Fi as <-.
             assert (I : In (a, b) (List.filter (fun x => Nat.eqb (fst x) p') (live s))) by (rewrite Fl; left; reflexivity). apply filter_In in I as [I J]. cbn in J. apply Nat.eqb_eq in J as ->.
             apply elem_of_list_In. exact I. }
           destruct (Lv p' v L') as (x & X & Px). rewrite Y in X. injection X as <-.
           exists (mkW (part y) (stg y) true (batch y) (q y) (next y) (busy y)). split; [apply list_lookup_insert, (lookup_lt_Some _ _ _ Y)|]. cbn [part]. rewrite Px.
           cbn [paired] in Pr. destruct Pr as [(l'' & ->) _]. destruct (C p') as [C1 _]. cbn in C1. rewrite Nat.eqb_refl in C1. cbn [app] in C1.
           apply (last_cyc _ TStore); [|reflexivity]. intros i c H. apply C1. change (TStore :: flat_map (mtoldOf p') l'') with ([TStore] ++ flat_map (mtoldOf p') l''). rewrite app_assoc. apply lookup_app_l_Some. exact H.
      * apply split_snoc in Q as [(t3 & Q)|(e1 & -> & Q)]; [exact (Ha _ _ _ Q)|]. destruct e1 as [|e [|? ?]]; discriminate.
      * apply split_snoc in Q as [(t3 & Q)|(e1 & -> & Q)]; [exact (Ha _ _ _ Q)|]. destruct e1 as [|e [|? ?]]; discriminate.
Qed.
Lemma invT_run acts : forall s s', invT s -> run s acts = Some s' -> invT s'.
Proof. induction acts as [|a l IH]; intros s s' I R; cbn in R; [injection R as <-; exact I|]. destruct (step s a) eqn:E; [|discriminate]. exact (IH _ _ (invT_step _ _ _ I E) R). Qed.
Lemma told_order acts s p i c : run init acts = Some s -> tells p (trace s) !! i = Some c -> c = nthT i.
Proof. intros R L. apply (proj1 (t_cyc _ (invT_run _ _ _ invT_init R) p)). apply lookup_app_l_Some. exact L. Qed.
Lemma halt_between acts s t1 w t2 x : run init acts = Some s -> trace s = t1 ++ EvHalt w :: t2 -> ws s !! w = Some x -> last (tells (part x) t1) = Some TWill.
Proof. intros R E X. destruct (t_halt _ (invT_run _ _ _ invT_init R) _ _ _ E) as (y & Y & L). rewrite X in Y. injection Y as <-. exact L. Qed.
