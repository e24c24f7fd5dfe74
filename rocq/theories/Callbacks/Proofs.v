From stdpp Require Import prelude list.
From Coq Require Import Lia.
From Verif.Callbacks Require Import Model.
Open Scope nat_scope.

Lemma run_app l1 : forall s l2, run s (l1 ++ l2) = match run s l1 with Some s' => run s' l2 | None => None end.
Proof. induction l1 as [|a l IH]; intros s l2; [reflexivity|]. cbn. destruct (step s a); [apply IH|reflexivity]. Qed.

(** The callbacks for partition p, in the order of the calls *)
Inductive call := Assigned | Activated | WillRevoke | Revoked.
#[global] Instance call_dec : EqDecision call. Proof. solve_decision. Defined.
Definition callOf (p : nat) (e : ev) : list call :=
  match e with
  | EvAssigned p' => if Nat.eqb p' p then [Assigned] else []
  | EvActivated p' _ => if Nat.eqb p' p then [Activated] else []
  | EvWill p' => if Nat.eqb p' p then [WillRevoke] else []
  | EvRevoked p' => if Nat.eqb p' p then [Revoked] else []
  | _ => []
  end.
Definition calls (p : nat) (t : list ev) : list call := flat_map (callOf p) t.
Definition isActivated (c : call) : bool := match c with Activated => true | _ => false end.
(** ... without OnPartitionActivated, which is called by another goroutine *)
Definition groupCalls (p : nat) (t : list ev) : list call := List.filter (fun c => negb (isActivated c)) (calls p t).
Definition nth3 (i : nat) : call := match i mod 3 with 0 => Assigned | 1 => WillRevoke | _ => Revoked end.
Definition nth4 (i : nat) : call := match i mod 4 with 0 => Assigned | 1 => Activated | 2 => WillRevoke | _ => Revoked end.
(** how often p has been assigned *)
Fixpoint assigns (p : nat) (acts : list action) : nat :=
  match acts with [] => 0 | GAssign ps :: l => (if bool_decide (p ∈ ps) then 1 else 0) + assigns p l | _ :: l => assigns p l end.

Lemma calls_app p t1 t2 : calls p (t1 ++ t2) = calls p t1 ++ calls p t2.
Proof. apply flat_map_app. Qed.
Lemma groupCalls_app p t1 t2 : groupCalls p (t1 ++ t2) = groupCalls p t1 ++ groupCalls p t2.
Proof. unfold groupCalls. rewrite calls_app, List.filter_app. reflexivity. Qed.

(** what is still to come of the call in progress *)
Definition mcallOf (p : nat) (m : micro) : list call :=
  match m with
  | MAssigned p' => if Nat.eqb p' p then [Assigned] else []
  | MWill p' => if Nat.eqb p' p then [WillRevoke] else []
  | MRevoked p' => if Nat.eqb p' p then [Revoked] else []
  | _ => []
  end.
Definition mcalls (p : nat) (l : list micro) : list call := flat_map (mcallOf p) l.
Lemma mcalls_app p l1 l2 : mcalls p (l1 ++ l2) = mcalls p l1 ++ mcalls p l2.
Proof. apply flat_map_app. Qed.
Lemma mcalls_create p l : mcalls p (map MCreate l) = [].
Proof. induction l; auto. Qed.
Lemma mcalls_sel p (f : nat -> micro) c l : (forall p', mcallOf p (f p') = if Nat.eqb p' p then [c] else []) -> NoDup l ->
  mcalls p (map f l) = if bool_decide (p ∈ l) then [c] else [].
Proof.
  intros F. induction l as [|a l IH]; intros N; [reflexivity|]. apply NoDup_cons in N as [N1 N2]. cbn. rewrite F. unfold mcalls in IH. rewrite IH by auto.
  destruct (Nat.eqb_spec a p) as [->|Ne].
  - rewrite (bool_decide_eq_false_2 (p ∈ l)), bool_decide_eq_true_2 by (auto; left). reflexivity.
  - cbn. apply f_equal2; [|reflexivity] || idtac. destruct (bool_decide_reflect (p ∈ l)); [rewrite bool_decide_eq_true_2 by (right; auto); reflexivity|].
    rewrite bool_decide_eq_false_2; [reflexivity|]. intros [->|]%elem_of_cons; congruence.
Qed.
Lemma mcalls_will p l : NoDup l -> mcalls p (flat_map (fun p => [MWill p; MHalt p; MStore p]) l) = if bool_decide (p ∈ l) then [WillRevoke] else [].
Proof.
  intros N. rewrite <- (mcalls_sel p MWill WillRevoke l); [|reflexivity|exact N]. clear N. induction l as [|a l IH]; [reflexivity|]. cbn. rewrite app_nil_r || idtac.
  unfold mcalls in IH. rewrite IH. reflexivity.
Qed.
Lemma micro_trace s m l : exists es, trace (micro_step s m l) = trace s ++ es /\ forall p, groupCalls p es = mcallOf p m /\ calls p es = mcallOf p m.
Proof.
  destruct m as [p'|p'|p'|p'|p'|p']; cbn [micro_step].
  4: destruct (find p' (live s)) as [w|]; [destruct (ws s !! w)|]; cbn [trace].
  all: try (exists []; split; [symmetry; apply app_nil_r|intros p; split; reflexivity]); eexists; (split; [reflexivity|]); intros p; unfold groupCalls; cbn;
    try destruct (Nat.eqb p' p); split; reflexivity.
Qed.
Lemma micro_rest s m l : cur (micro_step s m l) = l /\ owned (micro_step s m l) = owned s.
Proof. destruct m as [p'|p'|p'|p'|p'|p']; cbn [micro_step]; auto. destruct (find p' (live s)) as [w|]; [destruct (ws s !! w)|]; auto. Qed.

(** steps of workers and of the pool *)
Lemma worker_step s a s' : step s a = Some s' -> (match a with GAssign _ | GRevoke _ | GStep => False | _ => True end) ->
  exists w x x' es, ws s !! w = Some x /\ s' = upd w x' es s /\ part x' = part x /\
    ((es = [EvActivated (part x) w] /\ a = WActivate w /\ stg x = Booted /\ stg x' = Active) \/
     (forall p, calls p es = []) /\ (stg x = stg x' \/ stg x = Boot /\ stg x' = Booted \/ stg x = Active /\ stg x' = Over)).
Proof.
  intros E K. destruct a as [ps|ps| |w|w|w n|w|w|w|w|w|w]; try contradiction; cbn [step] in E; destruct (ws s !! w) as [x|] eqn:X; try discriminate.
  - destruct (decide (stg x = Boot)) as [D|]; [|discriminate]. injection E as <-. exists w, x. eexists _, _. split; [exact X|]. split; [reflexivity|]. split; [reflexivity|]. right. split; [reflexivity|]. cbn. auto.
  - destruct (decide (stg x = Booted)) as [D|]; [|discriminate]. injection E as <-. exists w, x. eexists _, _. split; [exact X|]. split; [reflexivity|]. split; [reflexivity|]. left. cbn. auto.
  - case_decide as D; [|discriminate]. injection E as <-. exists w, x. eexists _, _. split; [exact X|]. split; [reflexivity|]. split; [reflexivity|]. right. split; [reflexivity|]. cbn. auto.
  - destruct (batch x); [discriminate|]. injection E as <-. exists w, x. eexists _, _. split; [exact X|]. split; [reflexivity|]. split; [reflexivity|]. right. split; [reflexivity|]. cbn. auto.
  - destruct (batch x); [discriminate|]. injection E as <-. exists w, x. eexists _, _. split; [exact X|]. split; [reflexivity|]. split; [reflexivity|]. right. split; [reflexivity|]. cbn. auto.
  - destruct (look _ _) as [[c l]|]; [|discriminate]. injection E as <-. exists w, x. eexists _, _. split; [exact X|]. split; [reflexivity|]. split; [reflexivity|]. right. split; [destruct (halted x); reflexivity|]. cbn. auto.
  - destruct (q x) as [|[c [b|]] l]; try discriminate. destruct (busy x); [discriminate|]. case_decide as D; [|discriminate]. injection E as <-. exists w, x. eexists _, _.
    split; [exact X|]. split; [reflexivity|]. split; [reflexivity|]. right. split; [destruct b; reflexivity|]. cbn. auto.
  - destruct (busy x); [|discriminate]. injection E as <-. exists w, x. eexists _, _. split; [exact X|]. split; [reflexivity|]. split; [reflexivity|]. right. split; [reflexivity|]. cbn. auto.
  - case_decide as D; [|discriminate]. injection E as <-. exists w, x. eexists _, _. split; [exact X|]. split; [reflexivity|]. split; [reflexivity|]. right. split; [reflexivity|]. cbn. intuition.
Qed.

(** ** The callbacks of the group *)
Definition cyc (f : nat -> call) (l : list call) : Prop := forall i c, l !! i = Some c -> c = f i.
Lemma cyc_snoc f l c : cyc f l -> c = f (length l) -> cyc f (l ++ [c]).
Proof.
  intros H E i d L. apply lookup_app_Some in L as [L|[L1 L2]]; [exact (H _ _ L)|]. apply list_lookup_singleton_Some in L2 as [L2 <-]. rewrite E. f_equal. lia.
Qed.
Lemma cyc_prefix f l k : cyc f (l ++ k) -> cyc f l.
Proof. intros H i c L. apply H. apply lookup_app_l_Some. exact L. Qed.
Definition has (p : nat) (l : list nat) : bool := bool_decide (p ∈ l).
Definition inv3 (s : st) : Prop := forall p, let l := groupCalls p (trace s) ++ mcalls p (cur s) in
  cyc nth3 l /\ length l mod 3 = if has p (owned s) then 1 else 0.
Lemma mod_S3 n k : n mod 3 = k -> S n mod 3 = match k with 0 => 1 | 1 => 2 | _ => 0 end.
Proof.
  intros <-. pose proof (Nat.div_mod n 3 ltac:(lia)) as D. pose proof (Nat.mod_upper_bound n 3 ltac:(lia)) as B. set (k := n mod 3) in *. set (j := n / 3) in *.
  destruct k as [|[|[|k]]]; [| | |lia]; symmetry.
  - apply (Nat.mod_unique _ _ j); lia.
  - apply (Nat.mod_unique _ _ j); lia.
  - apply (Nat.mod_unique _ _ (S j)); lia.
Qed.
Lemma mod_S4 n k : n mod 4 = k -> S n mod 4 = match k with 0 => 1 | 1 => 2 | 2 => 3 | _ => 0 end.
Proof.
  intros <-. pose proof (Nat.div_mod n 4 ltac:(lia)) as D. pose proof (Nat.mod_upper_bound n 4 ltac:(lia)) as B. set (k := n mod 4) in *. set (j := n / 4) in *.
  destruct k as [|[|[|[|k]]]]; [| | | |lia]; symmetry.
  - apply (Nat.mod_unique _ _ j); lia.
  - apply (Nat.mod_unique _ _ j); lia.
  - apply (Nat.mod_unique _ _ j); lia.
  - apply (Nat.mod_unique _ _ (S j)); lia.
Qed.
Lemma has_app p l1 l2 : has p (l1 ++ l2) = has p l1 || has p l2.
Proof.
  unfold has. destruct (bool_decide_reflect (p ∈ l1)) as [I|I], (bool_decide_reflect (p ∈ l2)) as [J|J]; cbn; try apply bool_decide_eq_true_2; try apply bool_decide_eq_false_2; rewrite elem_of_app; tauto.
Qed.
Lemma has_filter p ps l : has p (List.filter (fun p => negb (bool_decide (p ∈ ps))) l) = has p l && negb (has p ps).
Proof.
  unfold has. destruct (bool_decide_reflect (p ∈ l)) as [I|I], (bool_decide_reflect (p ∈ ps)) as [J|J]; cbn; try apply bool_decide_eq_true_2; try apply bool_decide_eq_false_2.
  all: rewrite elem_of_list_In, filter_In, <- elem_of_list_In.
  - intros [_ H]. rewrite bool_decide_eq_true_2 in H by auto. discriminate.
  - split; [auto|]. rewrite bool_decide_eq_false_2 by auto. reflexivity.
  - tauto.
  - tauto.
Qed.
Lemma not_has p ps l : Forall (fun p => p ∉ l) ps -> has p ps = true -> has p l = false.
Proof. intros F H. apply bool_decide_eq_true in H. apply bool_decide_eq_false. rewrite Forall_forall in F. auto. Qed.
Lemma is_has p ps l : Forall (fun p => p ∈ l) ps -> has p ps = true -> has p l = true.
Proof. intros F H. apply bool_decide_eq_true in H. apply bool_decide_eq_true. rewrite Forall_forall in F. auto. Qed.

Lemma inv3_init : inv3 init.
Proof. intros p. cbn. split; [intros i c H; discriminate|reflexivity]. Qed.
Lemma inv3_step s a s' : inv3 s -> step s a = Some s' -> inv3 s'.
Proof.
  intros I E p. destruct a as [ps|ps| |w|w|w n|w|w|w|w|w|w].
  4-12: destruct (worker_step _ _ _ E Logic.I) as (w' & x & x' & es & X & -> & _ & H); specialize (I p); cbn [trace cur owned upd] in *; rewrite groupCalls_app;
    (replace (groupCalls p es) with (@nil call); [rewrite app_nil_r; exact I|]); unfold groupCalls;
    destruct H as [(-> & _)|(H & _)]; [cbn; destruct (Nat.eqb (part x) p); reflexivity|rewrite H; reflexivity].
  - cbn [step] in E. destruct (cur s) as [|m l] eqn:C; [|discriminate]. case_decide as D; [|discriminate]. injection E as <-. destruct D as [N F].
    destruct (I p) as [I1 I2]. rewrite C in *. cbn [trace cur owned]. change (mcalls p []) with (@nil call) in *. rewrite app_nil_r in *.
    rewrite mcalls_app, mcalls_create, (mcalls_sel p MAssigned Assigned ps) by (auto; reflexivity). cbn [app]. rewrite has_app. fold (has p ps).
    destruct (has p ps) eqn:H; [|rewrite app_nil_r, orb_false_r; auto]. rewrite (not_has _ _ _ F H) in *. cbn [orb].
    split; [apply cyc_snoc; [exact I1|]; unfold nth3; rewrite I2; reflexivity|]. rewrite app_length, Nat.add_1_r. rewrite (mod_S3 _ _ I2). reflexivity.
  - cbn [step] in E. destruct (cur s) as [|m l] eqn:C; [|discriminate]. case_decide as D; [|discriminate]. injection E as <-. destruct D as [N F].
    destruct (I p) as [I1 I2]. rewrite C in *. cbn [trace cur owned]. change (mcalls p []) with (@nil call) in *. rewrite app_nil_r in *.
    rewrite mcalls_app, mcalls_will, (mcalls_sel p MRevoked Revoked ps) by (auto; reflexivity). rewrite has_filter. fold (has p ps).
    destruct (has p ps) eqn:H; [|cbn [app negb]; rewrite app_nil_r, andb_true_r; auto]. rewrite (is_has _ _ _ F H) in *. cbn [negb andb].
    assert (L : length (groupCalls p (trace s) ++ [WillRevoke]) mod 3 = 2) by (rewrite app_length, Nat.add_1_r, (mod_S3 _ _ I2); reflexivity).
    rewrite app_assoc. split.
    + apply cyc_snoc; [apply cyc_snoc; [exact I1|]|]; unfold nth3; [rewrite I2|rewrite L]; reflexivity.
    + rewrite app_length, Nat.add_1_r. rewrite (mod_S3 _ _ L). reflexivity.
  - cbn [step] in E. destruct (cur s) as [|m l] eqn:C; [discriminate|]. injection E as <-. destruct (micro_trace s m l) as (es & -> & G). destruct (micro_rest s m l) as [-> ->].
    destruct (G p) as [G1 _]. rewrite groupCalls_app, G1, <- app_assoc. specialize (I p). rewrite C in I. exact I.
Qed.
Lemma inv3_run acts : forall s s', inv3 s -> run s acts = Some s' -> inv3 s'.
Proof. induction acts as [|a l IH]; intros s s' I R; cbn in R; [injection R as <-; exact I|]. destruct (step s a) eqn:E; [|discriminate]. exact (IH _ _ (inv3_step _ _ _ I E) R). Qed.
Lemma group_order acts s p i c : run init acts = Some s -> groupCalls p (trace s) !! i = Some c -> c = nth3 i.
Proof. intros R. exact (cyc_prefix _ _ _ (proj1 (inv3_run _ _ _ inv3_init R p)) i c). Qed.

(** ** How often OnPartitionActivated is called *)
(** workers of p that have not called it yet *)
Definition early (p : nat) (x : worker) : bool := Nat.eqb (part x) p && match stg x with Boot | Booted => true | _ => false end.
Definition countIf {A} (f : A -> bool) (l : list A) : nat := length (List.filter f l).
Lemma countIf_app {A} (f : A -> bool) l1 l2 : countIf f (l1 ++ l2) = countIf f l1 + countIf f l2.
Proof. unfold countIf. rewrite List.filter_app, app_length. reflexivity. Qed.
Lemma countIf_upd {A} (f : A -> bool) (l : list A) w x x' : l !! w = Some x -> countIf f (<[w := x']> l) + (if f x then 1 else 0) = countIf f l + (if f x' then 1 else 0).
Proof.
  unfold countIf. revert w. induction l as [|a l IH]; intros w H; [destruct w; discriminate|]. destruct w as [|w]; cbn [lookup list_lookup] in H.
  - injection H as ->. change (<[0 := x']> (x :: l)) with (x' :: l). cbn [List.filter]. destruct (f x), (f x'); cbn [length]; lia.
  - specialize (IH w H). change (<[Datatypes.S w := x']> (a :: l)) with (a :: <[w := x']> l). cbn [List.filter]. destruct (f a); cbn [length]; lia.
Qed.
Definition isCreate (p : nat) (m : micro) : bool := match m with MCreate p' => Nat.eqb p' p | _ => false end.
Definition unact (p : nat) (s : st) : nat := countIf (early p) (ws s) + countIf (isCreate p) (cur s).
Definition nact (p : nat) (t : list ev) : nat := countIf isActivated (calls p t).
Lemma create_sel p l : NoDup l -> countIf (isCreate p) (map MCreate l) = if has p l then 1 else 0.
Proof.
  unfold countIf. induction l as [|a l IH]; intros N; [reflexivity|]. apply NoDup_cons in N as [N1 N2]. cbn. specialize (IH N2). unfold has in *. destruct (Nat.eqb_spec a p) as [->|Ne]; cbn.
  - rewrite IH, (bool_decide_eq_false_2 _ N1), bool_decide_eq_true_2 by left. reflexivity.
  - rewrite IH. destruct (bool_decide_reflect (p ∈ l)); [rewrite bool_decide_eq_true_2 by (right; auto); reflexivity|].
    rewrite bool_decide_eq_false_2; [reflexivity|]. intros [->|]%elem_of_cons; congruence.
Qed.
Lemma no_create p l : (forall m, m ∈ l -> isCreate p m = false) -> countIf (isCreate p) l = 0.
Proof. unfold countIf. induction l as [|a l IH]; intros H; [reflexivity|]. cbn. rewrite (H a) by left. apply IH. intros m M. apply H. right. exact M. Qed.
Lemma no_create_map p (f : nat -> micro) l : (forall p', isCreate p (f p') = false) -> countIf (isCreate p) (map f l) = 0.
Proof. intros F. apply no_create. intros m M. apply elem_of_list_In, in_map_iff in M as (y & <- & _). apply F. Qed.
Lemma no_create_will p l : countIf (isCreate p) (flat_map (fun p => [MWill p; MHalt p; MStore p]) l) = 0.
Proof. apply no_create. intros m M. apply elem_of_list_In, in_flat_map in M as (y & _ & [<-|[<-|[<-|[]]]]); reflexivity. Qed.
Lemma mcall_noact p m : countIf isActivated (mcallOf p m) = 0.
Proof. destruct m as [a|a|a|a|a|a]; cbn; try destruct (Nat.eqb a p); reflexivity. Qed.
Lemma micro_unact p s m l : cur s = m :: l -> unact p (micro_step s m l) = unact p s.
Proof.
  intros C. unfold unact. rewrite C. destruct (micro_rest s m l) as [-> _]. change (m :: l) with ([m] ++ l). rewrite countIf_app.
  destruct m as [a|a|a|a|a|a]; cbn [micro_step ws]; try (unfold countIf; cbn; lia).
  - rewrite countIf_app. unfold countIf. cbn. unfold early. cbn. destruct (Nat.eqb a p); cbn; lia.
  - destruct (find a (live s)) as [w|]; [destruct (ws s !! w) as [x|] eqn:X|]; cbn [ws]; try (unfold countIf; cbn; lia).
    pose proof (countIf_upd (early p) (ws s) w x (mkW (part x) (stg x) true (batch x) (q x) (next x) (busy x)) X) as U. unfold early in U at 2 4. cbn [part stg] in U. cbn. lia.
Qed.
Lemma nact_step s a s' p : step s a = Some s' -> nact p (trace s') + unact p s' = nact p (trace s) + unact p s + assigns p [a].
Proof.
  intros E. destruct a as [ps|ps| |w|w|w n|w|w|w|w|w|w].
  4-12: destruct (worker_step _ _ _ E Logic.I) as (w' & x & x' & es & X & -> & P & H); unfold nact, unact; cbn [trace cur ws upd assigns]; rewrite calls_app, countIf_app;
    pose proof (countIf_upd (early p) (ws s) w' x x' X) as U; unfold early in U at 2 4; rewrite P in U;
    destruct H as [(-> & _ & S1 & S2)|(-> & H)]; [rewrite S1, S2 in U; cbn in *; destruct (Nat.eqb (part x) p); cbn in *; lia|];
    destruct H as [H|[(H1 & H2)|(H1 & H2)]]; [rewrite H in U|rewrite H1, H2 in U|rewrite H1, H2 in U]; unfold countIf at 2; cbn in *; lia.
  - cbn [step] in E. destruct (cur s) as [|m l] eqn:C; [|discriminate]. case_decide as D; [|discriminate]. injection E as <-. destruct D as [N F].
    unfold nact, unact. cbn [trace cur ws assigns]. rewrite C, countIf_app, create_sel, (no_create_map p MAssigned) by (auto; reflexivity). unfold has. change (countIf (isCreate p) []) with 0. lia.
  - cbn [step] in E. destruct (cur s) as [|m l] eqn:C; [|discriminate]. case_decide as D; [|discriminate]. injection E as <-. destruct D as [N F].
    unfold nact, unact. cbn [trace cur ws assigns]. rewrite C, countIf_app, no_create_will, (no_create_map p MRevoked) by reflexivity. change (countIf (isCreate p) []) with 0. lia.
  - cbn [step] in E. destruct (cur s) as [|m l] eqn:C; [discriminate|]. injection E as <-. rewrite micro_unact by exact C. destruct (micro_trace s m l) as (es & -> & G).
    destruct (G p) as [_ G2]. unfold nact. rewrite calls_app, countIf_app, G2, mcall_noact. cbn [assigns]. lia.
Qed.
Lemma assigns_app p l1 : forall l2, assigns p (l1 ++ l2) = assigns p l1 + assigns p l2.
Proof. induction l1 as [|a l IH]; intros l2; [reflexivity|]. cbn. destruct a; rewrite ?IH; lia. Qed.
Lemma nact_run p acts : forall s s', run s acts = Some s' -> nact p (trace s') + unact p s' = nact p (trace s) + unact p s + assigns p acts.
Proof.
  induction acts as [|a l IH]; intros s s' R; cbn [run] in R; [injection R as <-; cbn; lia|]. destruct (step s a) as [s1|] eqn:E; [|discriminate].
  rewrite (IH _ _ R), (nact_step _ _ _ p E). change (a :: l) with ([a] ++ l). rewrite assigns_app. lia.
Qed.
Lemma activated_at_most acts s p : run init acts = Some s -> length (List.filter isActivated (calls p (trace s))) <= assigns p acts.
Proof. intros R. pose proof (nact_run p _ _ _ R) as H. unfold nact, countIf in H. cbn in H. unfold unact, countIf in H. cbn in H. lia. Qed.

(** ** All four in order *)
Definition tidy (s : st) (a : action) : Prop :=
  match a with WActivate _ => cur s = [] | GRevoke ps => forall p, p ∈ ps -> last (calls p (trace s)) = Some Activated | _ => True end.
Definition inv4 (s : st) : Prop := forall p, let l := calls p (trace s) ++ mcalls p (cur s) in
  cyc nth4 l /\ unact p s <= 1 /\ length l mod 4 = if has p (owned s) then 2 - unact p s else 0.
Lemma inv4_init : inv4 init.
Proof. intros p. cbn. split; [intros i c H; discriminate|]. unfold unact, countIf. cbn. auto. Qed.
Lemma inv4_step s a s' : inv4 s -> (forall p, has p (owned s) = false -> unact p s = 0) -> tidy s a -> step s a = Some s' -> inv4 s'.
Proof.
  intros I O T E p. pose proof (nact_step _ _ _ p E) as NS. destruct (I p) as (I1 & I2 & I3). specialize (O p). destruct a as [ps|ps| |w|w|w n|w|w|w|w|w|w].
  4-12: destruct (worker_step _ _ _ E Logic.I) as (w' & x & x' & es & X & -> & P & H); cbn [trace cur owned upd assigns] in *; unfold nact in NS; rewrite calls_app in *;
    rewrite countIf_app in NS;
    destruct H as [(-> & Ea & S1 & S2)|(H & _)]; [|rewrite H in *; rewrite app_nil_r in *; unfold countIf at 2 in NS; cbn [List.filter length] in NS;
      (replace (unact p (upd w' x' es s)) with (unact p s) by lia); auto]; try discriminate Ea.
  - cbn [step] in E. destruct (cur s) as [|m l] eqn:C; [|discriminate]. case_decide as D; [|discriminate]. injection E as <-. destruct D as [N F].
    cbn [trace cur owned assigns] in *. change (mcalls p []) with (@nil call) in *. rewrite app_nil_r in *.
    rewrite mcalls_app, mcalls_create, (mcalls_sel p MAssigned Assigned ps) by (auto; reflexivity). cbn [app]. rewrite has_app. fold (has p ps) in *.
    destruct (has p ps) eqn:H.
    + rewrite (not_has _ _ _ F H) in *. cbn [orb]. specialize (O eq_refl). split; [|split; [lia|]].
      * apply cyc_snoc; [exact I1|]; unfold nth4; rewrite I3; reflexivity.
      * rewrite app_length, Nat.add_1_r. rewrite (mod_S4 _ _ I3). lia.
    + rewrite app_nil_r, orb_false_r. split; [auto|]. split; [lia|]. destruct (has p (owned s)); lia.
  - cbn [step] in E. destruct (cur s) as [|m l] eqn:C; [|discriminate]. case_decide as D; [|discriminate]. injection E as <-. destruct D as [N F].
    cbn [trace cur owned assigns] in *. change (mcalls p []) with (@nil call) in *. rewrite app_nil_r in *.
    rewrite mcalls_app, mcalls_will, (mcalls_sel p MRevoked Revoked ps) by (auto; reflexivity). rewrite has_filter. fold (has p ps).
    destruct (has p ps) eqn:H.
    + rewrite (is_has _ _ _ F H) in *. cbn [negb andb]. apply bool_decide_eq_true in H. specialize (T p H).
      assert (U : length (calls p (trace s)) mod 4 = 2 /\ unact p s = 0).
      { rewrite last_lookup in T. specialize (I1 _ _ T). unfold nth4 in I1. destruct (length (calls p (trace s))) as [|n] eqn:Ln; [cbn in I3; destruct (unact p s) as [|[|]]; lia|].
        cbn [pred] in I1. pose proof (mod_S4 n _ eq_refl) as M. destruct (n mod 4) as [|[|[|k]]] eqn:Em; try discriminate I1. rewrite M. split; [reflexivity|]. lia. }
      destruct U as [U1 U2].
      assert (L : length (calls p (trace s) ++ [WillRevoke]) mod 4 = 3) by (rewrite app_length, Nat.add_1_r, (mod_S4 _ _ U1); reflexivity).
      rewrite app_assoc. split; [|split; [lia|]].
      * apply cyc_snoc; [apply cyc_snoc; [exact I1|]|]; unfold nth4; [rewrite U1|rewrite L]; reflexivity.
      * rewrite app_length, Nat.add_1_r. rewrite (mod_S4 _ _ L). reflexivity.
    + cbn [app negb]. rewrite app_nil_r, andb_true_r. split; [auto|]. split; [lia|]. destruct (has p (owned s)); lia.
  - cbn [step] in E. destruct (cur s) as [|m l] eqn:C; [discriminate|]. injection E as <-. rewrite micro_unact by exact C. destruct (micro_trace s m l) as (es & -> & G).
    destruct (micro_rest s m l) as [-> ->]. destruct (G p) as [_ G2]. rewrite calls_app, G2, <- app_assoc. auto.
  - injection Ea as <-. cbn in T. rewrite T in *. change (mcalls p []) with (@nil call) in *. rewrite app_nil_r in *. cbn [calls flat_map callOf] in *. rewrite app_nil_r in *.
    destruct (Nat.eqb_spec (part x) p) as [Ep|Ne].
    + unfold countIf at 2 in NS. cbn [List.filter isActivated length] in NS. assert (U : unact p s = 1) by lia. assert (U' : unact p (upd w x' [EvActivated (part x) w] s) = 0) by lia.
      destruct (has p (owned s)); [|specialize (O eq_refl); lia]. rewrite U in I3. rewrite U'. split; [|split; [lia|]].
      * apply cyc_snoc; [exact I1|]. unfold nth4. rewrite I3. reflexivity.
      * rewrite app_length, Nat.add_1_r. rewrite (mod_S4 _ _ I3). reflexivity.
    + unfold countIf at 2 in NS. cbn [List.filter length] in NS. rewrite app_nil_r. replace (unact p (upd w x' [EvActivated (part x) w] s)) with (unact p s) by lia. auto.
Qed.
(** a partition that is not owned has no worker that waits, if the revocations are tidy *)
Lemma owned_step s a s' : inv4 s -> (forall p, has p (owned s) = false -> unact p s = 0) -> tidy s a -> step s a = Some s' -> forall p, has p (owned s') = false -> unact p s' = 0.
Proof.
  intros I O T E p. pose proof (nact_step _ _ _ p E) as NS. destruct (I p) as (I1 & I2 & I3). specialize (O p). destruct a as [ps|ps| |w|w|w n|w|w|w|w|w|w].
  4-12: destruct (worker_step _ _ _ E Logic.I) as (w' & x & x' & es & X & -> & P & H); cbn [trace cur owned upd assigns] in *; unfold nact in NS; rewrite calls_app, countIf_app in NS;
    intros Q; specialize (O Q); lia.
  - cbn [step] in E. destruct (cur s) as [|m l] eqn:C; [|discriminate]. case_decide as D; [|discriminate]. injection E as <-. cbn [owned trace assigns] in *. rewrite has_app. unfold has at 2.
    intros [Q1 Q2]%orb_false_iff. rewrite Q2 in NS. specialize (O Q1). lia.
  - intros Q. cbn [step] in E. destruct (cur s) as [|m l] eqn:C; [|discriminate]. case_decide as D; [|discriminate]. injection E as <-. cbn [owned trace assigns] in *. rewrite has_filter in Q.
    destruct (has p ps) eqn:H; [|cbn in Q; rewrite andb_true_r in Q; specialize (O Q); lia]. clear Q. destruct D as [N F]. rewrite (is_has _ _ _ F H) in *.
    apply bool_decide_eq_true in H. specialize (T p H). change (mcalls p []) with (@nil call) in *. rewrite app_nil_r in *.
    rewrite last_lookup in T. specialize (I1 _ _ T). unfold nth4 in I1. destruct (length (calls p (trace s))) as [|n] eqn:Ln; [cbn in I3; destruct (unact p s) as [|[|]]; lia|].
    cbn [pred] in I1. pose proof (mod_S4 n _ eq_refl) as M. destruct (n mod 4) as [|[|[|k]]] eqn:Em; try discriminate I1. lia.
  - cbn [step] in E. destruct (cur s) as [|m l] eqn:C; [discriminate|]. injection E as <-. destruct (micro_rest s m l) as [_ ->]. rewrite micro_unact by exact C. exact O.
Qed.
Lemma all_order acts : forall s s', inv4 s -> (forall p, has p (owned s) = false -> unact p s = 0) ->
  (forall l1 a l2 s1, acts = l1 ++ a :: l2 -> run s l1 = Some s1 -> tidy s1 a) -> run s acts = Some s' -> inv4 s'.
Proof.
  induction acts as [|a l IH]; intros s s' I O T R; cbn [run] in R; [injection R as <-; exact I|]. destruct (step s a) as [s1|] eqn:E; [|discriminate].
  assert (Ta : tidy s a) by exact (T [] a l s eq_refl eq_refl).
  apply (IH s1 s'); [eapply inv4_step; eauto|eapply owned_step; eauto| |exact R]. intros l1 b l2 s2 -> R2. apply (T (a :: l1) b l2); [reflexivity|]. cbn. rewrite E. exact R2.
Qed.
Lemma tidy_order acts s p i c : run init acts = Some s ->
  (forall l1 w l2 s1, acts = l1 ++ WActivate w :: l2 -> run init l1 = Some s1 -> cur s1 = []) ->
  (forall l1 ps l2 s1 p, acts = l1 ++ GRevoke ps :: l2 -> run init l1 = Some s1 -> p ∈ ps -> last (calls p (trace s1)) = Some Activated) ->
  calls p (trace s) !! i = Some c -> c = nth4 i.
Proof.
  intros R H1 H2. assert (I : inv4 s); [|exact (cyc_prefix _ _ _ (proj1 (I p)) i c)]. apply (all_order acts init s inv4_init); [reflexivity| |exact R].
  intros l1 a l2 s1 E R1. destruct a; cbn; auto; eauto.
Qed.
