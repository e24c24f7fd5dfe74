From stdpp Require Import prelude list.
From Coq Require Import Lia.
From Verif.Producer Require Import Model.
Open Scope nat_scope.

(** ** What the user has said, from the history alone *)
Definition userTopic (r : nat) (acts : list action) : nat := fold_left (fun t a => match a with SetTopic q u => if Nat.eqb q r then u else t | _ => t end) acts 0.
Definition userPart (r : nat) (acts : list action) : option nat := fold_left (fun t a => match a with SetPart q u => if Nat.eqb q r then u else t | _ => t end) acts None.
(** the producer and the record of each call, in the order of the calls *)
Definition callsOf (acts : list action) : list (nat * nat * bool) := omap (fun a => match a with Call j r b => Some (j, r, b) | _ => None end) acts.
Lemma userTopic_snoc r l a : userTopic r (l ++ [a]) = match a with SetTopic q u => if Nat.eqb q r then u else userTopic r l | _ => userTopic r l end.
Proof. unfold userTopic. rewrite fold_left_app. destruct a; reflexivity. Qed.
Lemma userPart_snoc r l a : userPart r (l ++ [a]) = match a with SetPart q u => if Nat.eqb q r then u else userPart r l | _ => userPart r l end.
Proof. unfold userPart. rewrite fold_left_app. destruct a; reflexivity. Qed.
Lemma callsOf_snoc l a : callsOf (l ++ [a]) = callsOf l ++ match a with Call j r b => [(j, r, b)] | _ => [] end.
Proof. unfold callsOf. rewrite omap_app. destruct a; reflexivity. Qed.

Section S.
Context (D : list nat).
Notation step := (step D). Notation run := (run D).
Lemma run_app l1 : forall s l2, run s (l1 ++ l2) = match run s l1 with Some s' => run s' l2 | None => None end.
Proof. induction l1 as [|a l IH]; intros s l2; [reflexivity|]. cbn. destruct (step s a); [apply IH|reflexivity]. Qed.
Lemma run_snoc s l a : run s (l ++ [a]) = match run s l with Some s' => step s' a | None => None end.
Proof. rewrite run_app. destruct (run s l) as [s'|]; [|reflexivity]. cbn. destruct (step s' a); reflexivity. Qed.
Lemma run_cut l1 a l2 s : run init (l1 ++ a :: l2) = Some s -> exists s1 s2, run init l1 = Some s1 /\ step s1 a = Some s2 /\ run s2 l2 = Some s.
Proof. rewrite run_app. destruct (run init l1) as [s1|]; [|discriminate]. cbn. destruct (step s1 a) as [s2|] eqn:E; [|discriminate]. eauto. Qed.


Definition inv (acts : list action) (s : st) : Prop :=
  map (fun c => (prod c, rc c, sync c)) (calls s) = callsOf acts /\
  (forall r x, recs s !! r = Some x ->
     (topic x = userTopic r acts \/ userTopic r acts = 0 /\ exists j b d, (j, r, b) ∈ callsOf acts /\ D !! j = Some d /\ topic x = d) /\
     (part x = userPart r acts \/ userPart r acts = None /\ exists i pick j b, Wire i pick ∈ acts /\ callsOf acts !! i = Some (j, r, b))) /\
  (forall r, length (recs s) <= r -> userTopic r acts = 0 /\ userPart r acts = None).

Lemma callsOf_of s acts i c : map (fun c => (prod c, rc c, sync c)) (calls s) = callsOf acts -> calls s !! i = Some c -> callsOf acts !! i = Some (prod c, rc c, sync c).
Proof. intros <- H. apply (list_lookup_fmap_Some_2 _ _ _ _ H) || (rewrite list_lookup_fmap, H; reflexivity). Qed.
Lemma map_set l i c c' : l !! i = Some c -> (prod c, rc c, sync c) = (prod c', rc c', sync c') ->
  map (fun c => (prod c, rc c, sync c)) (<[i := c']> l) = map (fun c => (prod c, rc c, sync c)) l.
Proof.
  intros H E. change (map ?f ?l) with (f <$> l). rewrite list_fmap_insert. apply list_insert_id. rewrite list_lookup_fmap, H. cbn. now rewrite E.
Qed.
Lemma weak r x acts a : 
  (topic x = userTopic r acts \/ userTopic r acts = 0 /\ exists j b d, (j, r, b) ∈ callsOf acts /\ D !! j = Some d /\ topic x = d) ->
  userTopic r (acts ++ [a]) = userTopic r acts ->
  (topic x = userTopic r (acts ++ [a]) \/ userTopic r (acts ++ [a]) = 0 /\ exists j b d, (j, r, b) ∈ callsOf (acts ++ [a]) /\ D !! j = Some d /\ topic x = d).
Proof.
  intros [H|[H (j & b & d & H1 & H2)]] E; rewrite E; [auto|]. right. split; [exact H|]. exists j, b, d. split; [|exact H2]. rewrite callsOf_snoc. apply elem_of_app. auto.
Qed.
Lemma weakp r x acts a : 
  (part x = userPart r acts \/ userPart r acts = None /\ exists i pick j b, Wire i pick ∈ acts /\ callsOf acts !! i = Some (j, r, b)) ->
  userPart r (acts ++ [a]) = userPart r acts ->
  (part x = userPart r (acts ++ [a]) \/ userPart r (acts ++ [a]) = None /\ exists i pick j b, Wire i pick ∈ (acts ++ [a]) /\ callsOf (acts ++ [a]) !! i = Some (j, r, b)).
Proof.
  intros [H|[H (i & k & j & b & H1 & H2)]] E; rewrite E; [auto|]. right. split; [exact H|]. exists i, k, j, b. split; [apply elem_of_app; auto|]. rewrite callsOf_snoc. apply lookup_app_l_Some. exact H2.
Qed.
Lemma in_lt {A} (l : list A) i x : l !! i = Some x -> i < length l.
Proof. apply lookup_lt_Some. Qed.

Lemma inv_step acts s a s' : inv acts s -> step s a = Some s' -> inv (acts ++ [a]) s'.
Proof.
  intros (I1 & I2 & I3) E. destruct a as [|r t|r p|j r b|i k|i e|i]; cbn [Model.step] in E.
  - injection E as <-. split; [|split]; cbn.
    + rewrite callsOf_snoc, app_nil_r. exact I1.
    + intros r x H. apply lookup_app_Some in H. destruct H as [H|[H1 H2]].
      * destruct (I2 r x H). split; [apply weak|apply weakp]; auto; rewrite ?userTopic_snoc, ?userPart_snoc; auto.
      * destruct (r - length (recs s)) eqn:Er; [|discriminate]. injection H2 as <-. destruct (I3 r H1) as [A B].
        rewrite userTopic_snoc, userPart_snoc. cbn. auto.
    + intros r H. rewrite app_length in H. cbn in H. rewrite userTopic_snoc, userPart_snoc. apply I3. lia.
  - destruct (recs s !! r) as [y|] eqn:Y; [|discriminate]. injection E as <-. split; [|split]; cbn.
    + rewrite callsOf_snoc, app_nil_r. exact I1.
    + intros q x H. destruct (decide (q = r)) as [->|N].
      * rewrite list_lookup_insert in H by eauto using in_lt. injection H as <-. cbn. destruct (I2 r y Y) as [_ B]. split.
        -- left. rewrite userTopic_snoc, Nat.eqb_refl. reflexivity.
        -- apply weakp with (x := mkRec t (part y)); [exact B|apply userPart_snoc].
      * rewrite list_lookup_insert_ne in H by congruence. destruct (I2 q x H). split; [apply weak|apply weakp]; auto; rewrite ?userTopic_snoc, ?userPart_snoc; auto.
        destruct (Nat.eqb_spec r q); congruence.
    + intros q H. rewrite insert_length in H. pose proof (in_lt _ _ _ Y). rewrite userTopic_snoc, userPart_snoc. destruct (Nat.eqb_spec r q); [lia|]. auto.
  - destruct (recs s !! r) as [y|] eqn:Y; [|discriminate]. injection E as <-. split; [|split]; cbn.
    + rewrite callsOf_snoc, app_nil_r. exact I1.
    + intros q x H. destruct (decide (q = r)) as [->|N].
      * rewrite list_lookup_insert in H by eauto using in_lt. injection H as <-. cbn. destruct (I2 r y Y) as [B _]. split.
        -- apply weak with (x := mkRec (topic y) p); [exact B|apply userTopic_snoc].
        -- left. rewrite userPart_snoc, Nat.eqb_refl. reflexivity.
      * rewrite list_lookup_insert_ne in H by congruence. destruct (I2 q x H). split; [apply weak|apply weakp]; auto; rewrite ?userTopic_snoc, ?userPart_snoc; auto.
        destruct (Nat.eqb_spec r q); congruence.
    + intros q H. rewrite insert_length in H. pose proof (in_lt _ _ _ Y). rewrite userTopic_snoc, userPart_snoc. destruct (Nat.eqb_spec r q); [lia|]. auto.
  - destruct (D !! j) as [d|] eqn:Hd; [|discriminate]. destruct (recs s !! r) as [y|] eqn:Y; [|discriminate]. injection E as <-. split; [|split]; cbn.
    + rewrite callsOf_snoc, map_app, I1. reflexivity.
    + intros q x H. destruct (decide (q = r)) as [->|N].
      * rewrite list_lookup_insert in H by eauto using in_lt. injection H as <-. destruct (I2 r y Y) as [B C]. split.
        -- destruct (Nat.eqb_spec (topic y) 0) as [Z|Z].
           ++ cbn. rewrite userTopic_snoc. assert (U : userTopic r acts = 0) by (destruct B as [B|[B _]]; congruence).
              right. split; [exact U|]. exists j, b, d. split; [|auto]. rewrite callsOf_snoc. apply elem_of_app. right. now apply elem_of_list_singleton.
           ++ apply weak with (x := mkRec (topic y) (part y)); [exact B|apply userTopic_snoc].
        -- apply weakp with (x := mkRec (if topic y =? 0 then d else topic y) (part y)); [exact C|apply userPart_snoc].
      * rewrite list_lookup_insert_ne in H by congruence. destruct (I2 q x H). split; [apply weak|apply weakp]; auto; rewrite ?userTopic_snoc, ?userPart_snoc; auto.
    + intros q H. rewrite insert_length in H. rewrite userTopic_snoc, userPart_snoc. auto.
  - destruct (calls s !! i) as [c|] eqn:C; [|discriminate]. destruct (stg c) eqn:G; try discriminate. destruct (recs s !! rc c) as [y|] eqn:Y; [|discriminate]. injection E as <-. split; [|split]; cbn.
    + rewrite callsOf_snoc, app_nil_r. rewrite (map_set _ _ c); auto.
    + intros q x H. destruct (decide (q = rc c)) as [->|N].
      * rewrite list_lookup_insert in H by eauto using in_lt. injection H as <-. destruct (I2 _ y Y) as [B Z]. split.
        -- apply weak with (x := mkRec (topic y) (Some (match part y with Some p => p | None => k end))); [exact B|apply userTopic_snoc].
        -- destruct (part y) as [p|] eqn:P.
           ++ apply weakp with (x := mkRec (topic y) (Some p)); [exact Z|apply userPart_snoc].
           ++ right. rewrite userPart_snoc. split; [destruct Z as [Z|[Z _]]; congruence|].
              exists i, k, (prod c), (sync c). split; [apply elem_of_app; right; now apply elem_of_list_singleton|]. rewrite callsOf_snoc, app_nil_r. eauto using callsOf_of.
      * rewrite list_lookup_insert_ne in H by congruence. destruct (I2 q x H). split; [apply weak|apply weakp]; auto; rewrite ?userTopic_snoc, ?userPart_snoc; auto.
    + intros q H. rewrite insert_length in H. rewrite userTopic_snoc, userPart_snoc. auto.
  - destruct (calls s !! i) as [c|] eqn:C; [|discriminate].
    assert (M : s' = mkSt (recs s) (<[i := mkCall (prod c) (rc c) (sync c) (to c) (Answered e)]> (calls s)) (trace s ++ (if sync c then [] else [EvCallback i e]))) by (destruct (stg c), e; congruence).
    subst s'. split; [|split]; cbn.
    + rewrite callsOf_snoc, app_nil_r. rewrite (map_set _ _ c); auto.
    + intros q x H. destruct (I2 q x H). split; [apply weak|apply weakp]; auto; rewrite ?userTopic_snoc, ?userPart_snoc; auto.
    + intros q H. rewrite userTopic_snoc, userPart_snoc. auto.
  - destruct (calls s !! i) as [c|] eqn:C; [|discriminate]. destruct (stg c) eqn:G; try discriminate. destruct (sync c) eqn:Sc; [|discriminate]. injection E as <-. split; [|split]; cbn.
    + rewrite callsOf_snoc, app_nil_r. rewrite (map_set _ _ c); auto. cbn. congruence.
    + intros q x H. destruct (I2 q x H). split; [apply weak|apply weakp]; auto; rewrite ?userTopic_snoc, ?userPart_snoc; auto.
    + intros q H. rewrite userTopic_snoc, userPart_snoc. auto.
Qed.
Lemma inv_run acts s : run init acts = Some s -> inv acts s.
Proof.
  revert s. induction acts as [|a l IH] using rev_ind; intros s H.
  - injection H as <-. split; [reflexivity|split]; [intros r x Hx; cbn in Hx; rewrite lookup_nil in Hx; discriminate|intros r _; split; reflexivity].
  - rewrite run_snoc in H. destruct (run init l) as [s1|] eqn:E; [|discriminate]. eauto using inv_step.
Qed.

(** ** Where the records go *)
(** the target of a call is fixed when it is made *)
Lemma to_step s a s' i c : step s a = Some s' -> calls s !! i = Some c -> exists c', calls s' !! i = Some c' /\ prod c' = prod c /\ rc c' = rc c /\ sync c' = sync c /\ to c' = to c.
Proof.
  intros E C. destruct a as [|r t|r p|j r b|k q|k e|k]; cbn [Model.step] in E.
  1: { injection E as <-. eauto 6. }
  1, 2: destruct (recs s !! r); [|discriminate]; injection E as <-; eauto 6.
  1: { destruct (D !! j); [|discriminate]. destruct (recs s !! r); [|discriminate]. injection E as <-. cbn. exists c. rewrite (lookup_app_l_Some _ _ _ _ C). auto. }
  all: destruct (calls s !! k) as [y|] eqn:Y; [|discriminate].
  - destruct (stg y); try discriminate. destruct (recs s !! rc y); [|discriminate]. injection E as <-. cbn.
    destruct (decide (i = k)) as [->|N]; [rewrite list_lookup_insert by eauto using in_lt; assert (y = c) by congruence; subst; eauto 6|rewrite list_lookup_insert_ne by congruence; eauto 6].
  - assert (M : s' = mkSt (recs s) (<[k := mkCall (prod y) (rc y) (sync y) (to y) (Answered e)]> (calls s)) (trace s ++ (if sync y then [] else [EvCallback k e]))) by (destruct (stg y), e; congruence).
    subst s'. cbn. destruct (decide (i = k)) as [->|N]; [rewrite list_lookup_insert by eauto using in_lt; assert (y = c) by congruence; subst; eauto 6|rewrite list_lookup_insert_ne by congruence; eauto 6].
  - destruct (stg y); try discriminate. destruct (sync y) eqn:Sy; [|discriminate]. injection E as <-. cbn.
    destruct (decide (i = k)) as [->|N]; [rewrite list_lookup_insert by eauto using in_lt; assert (y = c) by congruence; subst; eauto 6|rewrite list_lookup_insert_ne by congruence; eauto 6].
Qed.
Lemma to_run l : forall s s' i c, run s l = Some s' -> calls s !! i = Some c -> exists c', calls s' !! i = Some c' /\ prod c' = prod c /\ rc c' = rc c /\ sync c' = sync c /\ to c' = to c.
Proof.
  induction l as [|a l IH]; intros s s' i c H C; cbn in H.
  - injection H as <-. eauto 6.
  - destruct (step s a) as [s1|] eqn:E; [|discriminate]. destruct (to_step _ _ _ _ _ E C) as (c1 & C1 & ? & ? & ? & ?). destruct (IH _ _ _ _ H C1) as (c2 & ? & ? & ? & ? & ?). exists c2. repeat split; congruence.
Qed.
(** the trace grows, and by what *)
Lemma trace_step s a s' : step s a = Some s' -> exists l, trace s' = trace s ++ l /\
  forall e, e ∈ l -> match e with
    | EvWire i t p => exists k c x, a = Wire i k /\ calls s !! i = Some c /\ recs s !! rc c = Some x /\ t = to c /\ p = match part x with Some p => p | None => k end
    | EvCallback i e => a = Promise i e
    | EvReturn i e => a = Return i end.
Proof.
  intros E. destruct a as [|r t|r p|j r b|k q|k e|k]; cbn [Model.step] in E.
  1: { injection E as <-. exists []. rewrite app_nil_r. split; [reflexivity|]. intros e He. inversion He. }
  1, 2: destruct (recs s !! r); [|discriminate]; injection E as <-; exists []; rewrite app_nil_r; (split; [reflexivity|]); intros e He; inversion He.
  1: { destruct (D !! j); [|discriminate]. destruct (recs s !! r); [|discriminate]. injection E as <-. exists []. rewrite app_nil_r. split; [reflexivity|]. intros e He; inversion He. }
  all: destruct (calls s !! k) as [y|] eqn:Y; [|discriminate].
  - destruct (stg y); try discriminate. destruct (recs s !! rc y) as [x|] eqn:X; [|discriminate]. injection E as <-. eexists. split; [reflexivity|]. intros e He%elem_of_list_singleton. subst e. eauto 10.
  - assert (M : s' = mkSt (recs s) (<[k := mkCall (prod y) (rc y) (sync y) (to y) (Answered e)]> (calls s)) (trace s ++ (if sync y then [] else [EvCallback k e]))) by (destruct (stg y), e; congruence).
    subst s'. eexists. split; [reflexivity|]. destruct (sync y); intros z Hz; [inversion Hz|]. apply elem_of_list_singleton in Hz. subst z. reflexivity.
  - destruct (stg y); try discriminate. destruct (sync y) eqn:Sy; [|discriminate]. injection E as <-. eexists. split; [reflexivity|]. intros e He%elem_of_list_singleton. subst e. reflexivity.
Qed.
Lemma ev_origin acts s e : run init acts = Some s -> e ∈ trace s -> exists l1 a l2 s1, acts = l1 ++ a :: l2 /\ run init l1 = Some s1 /\ 
  match e with
    | EvWire i t p => exists k c x, a = Wire i k /\ calls s1 !! i = Some c /\ recs s1 !! rc c = Some x /\ t = to c /\ p = match part x with Some p => p | None => k end
    | EvCallback i e => a = Promise i e
    | EvReturn i e => a = Return i end.
Proof.
  revert s. induction acts as [|a l IH] using rev_ind; intros s H He.
  - injection H as <-. inversion He.
  - rewrite run_snoc in H. destruct (run init l) as [s1|] eqn:E; [|discriminate]. destruct (trace_step _ _ _ H) as (t & Ht & P). rewrite Ht in He. apply elem_of_app in He. destruct He as [He|He].
    + destruct (IH _ eq_refl He) as (l1 & b & l2 & s2 & -> & H1 & H2). exists l1, b, (l2 ++ [a]), s2. rewrite <- app_assoc. auto.
    + exists l, a, [], s1. split; [reflexivity|]. split; [exact E|]. exact (P e He).
Qed.

Definition same_default (r j : nat) (l : list action) : Prop := forall j' b, Call j' r b ∈ l -> D !! j' = D !! j.
Lemma calls_in l j r b : (j, r, b) ∈ callsOf l -> Call j r b ∈ l.
Proof. unfold callsOf. rewrite elem_of_list_omap. intros (a & Ha & E). destruct a; try discriminate. injection E as -> -> ->. exact Ha. Qed.

(** C114, the topic *)
Theorem topic_ok l1 j r b l2 s d t p :
  run init (l1 ++ Call j r b :: l2) = Some s -> D !! j = Some d -> same_default r j l1 ->
  EvWire (length (callsOf l1)) t p ∈ trace s -> t = if userTopic r l1 =? 0 then d else userTopic r l1.
Proof.
  intros H Hd SD W. destruct (run_cut _ _ _ _ H) as (s1 & s2 & R1 & S1 & R2). pose proof (inv_run _ _ R1) as (I1 & I2 & _).
  destruct (ev_origin _ _ _ H W) as (m1 & a & m2 & s3 & Eq & R3 & k & c & x & -> & C & X & -> & _).
  assert (Hm : exists c', calls s !! length (callsOf l1) = Some c' /\ to c' = to c).
  { rewrite Eq, run_app, R3 in H. destruct (to_run _ _ _ _ _ H C) as (c' & ? & _ & _ & _ & ?). eauto. }
  destruct Hm as (c' & C' & <-). cbn [Model.step] in S1. rewrite Hd in S1. destruct (recs s1 !! r) as [y|] eqn:Y; [|discriminate]. injection S1 as <-.
  assert (L : length (calls s1) = length (callsOf l1)) by (rewrite <- I1, map_length; reflexivity).
  destruct (to_run _ _ _ (length (callsOf l1)) (mkCall j r b (if topic y =? 0 then d else topic y) Queued) R2) as (c2 & C2 & _ & _ & _ & T).
  { cbn. rewrite <- L. apply list_lookup_middle. reflexivity. }
  assert (c2 = c') by congruence. subst c2. rewrite T. cbn. destruct (I2 r y Y) as [[B|[U (j' & b' & d' & B1 & B2 & B3)]] _].
  - rewrite B. reflexivity.
  - rewrite U. cbn. apply calls_in in B1. apply SD in B1. assert (E : topic y = d) by congruence. rewrite E. destruct d; reflexivity.
Qed.

(** ** What has happened to a call *)
Definition about (i : nat) (e : ev) : bool := match e with EvWire _ _ _ => false | EvCallback k _ | EvReturn k _ => Nat.eqb k i end.
Definition outs (i : nat) (t : list ev) : list ev := List.filter (about i) t.
Definition wired (i : nat) (e : ev) : bool := match e with EvWire k _ _ => Nat.eqb k i | _ => false end.
Definition wires (i : nat) (t : list ev) : list ev := List.filter (wired i) t.
Definition hist (acts : list action) (s : st) : Prop := forall i,
  match calls s !! i with
  | None => outs i (trace s) = [] /\ wires i (trace s) = [] /\ (forall e, Promise i e ∉ acts) /\ (Return i ∉ acts) /\ (forall k, Wire i k ∉ acts)
  | Some c => match stg c with
    | Queued => outs i (trace s) = [] /\ wires i (trace s) = [] /\ (forall e, Promise i e ∉ acts) /\ (Return i ∉ acts) /\ (forall k, Wire i k ∉ acts)
    | Wired => outs i (trace s) = [] /\ (forall e, Promise i e ∉ acts) /\ (Return i ∉ acts)
    | Answered e => outs i (trace s) = (if sync c then [] else [EvCallback i e]) /\ (forall e', Promise i e' ∈ acts <-> e' = e) /\ (Return i ∉ acts)
    | Returned => sync c = true /\ Return i ∈ acts /\ exists e, outs i (trace s) = [EvReturn i e] /\ (forall e', Promise i e' ∈ acts <-> e' = e)
    end end.
Lemma outs_app i t u : outs i (t ++ u) = outs i t ++ outs i u. Proof. apply List.filter_app. Qed.
Lemma wires_app i t u : wires i (t ++ u) = wires i t ++ wires i u. Proof. apply List.filter_app. Qed.
Lemma hist_same acts s s' a :
  (forall i, calls s' !! i = calls s !! i) -> trace s' = trace s -> (forall i, (forall e, a <> Promise i e) /\ a <> Return i /\ (forall k, a <> Wire i k)) -> hist acts s -> hist (acts ++ [a]) s'.
Proof.
  intros E T N H i. specialize (H i). destruct (N i) as (N1 & N2 & N3). rewrite E, T. destruct (calls s !! i) as [c|]; [destruct (stg c)|]; setoid_rewrite elem_of_app; setoid_rewrite elem_of_list_singleton; naive_solver.
Qed.
Lemma hist_other acts s a i : forall s', hist acts s -> calls s' !! i = calls s !! i -> outs i (trace s') = outs i (trace s) -> wires i (trace s') = wires i (trace s) ->
  (forall e, a <> Promise i e) -> a <> Return i -> (forall k, a <> Wire i k) ->
  match calls s' !! i with
  | None => outs i (trace s') = [] /\ wires i (trace s') = [] /\ (forall e, Promise i e ∉ acts ++ [a]) /\ (Return i ∉ acts ++ [a]) /\ (forall k, Wire i k ∉ acts ++ [a])
  | Some c => match stg c with
    | Queued => outs i (trace s') = [] /\ wires i (trace s') = [] /\ (forall e, Promise i e ∉ acts ++ [a]) /\ (Return i ∉ acts ++ [a]) /\ (forall k, Wire i k ∉ acts ++ [a])
    | Wired => outs i (trace s') = [] /\ (forall e, Promise i e ∉ acts ++ [a]) /\ (Return i ∉ acts ++ [a])
    | Answered e => outs i (trace s') = (if sync c then [] else [EvCallback i e]) /\ (forall e', Promise i e' ∈ acts ++ [a] <-> e' = e) /\ (Return i ∉ acts ++ [a])
    | Returned => sync c = true /\ Return i ∈ acts ++ [a] /\ exists e, outs i (trace s') = [EvReturn i e] /\ (forall e', Promise i e' ∈ acts ++ [a] <-> e' = e)
    end end.
Proof.
  intros s' H E T W N1 N2 N3. specialize (H i). rewrite E, T, W. destruct (calls s !! i) as [c|]; [destruct (stg c)|]; setoid_rewrite elem_of_app; setoid_rewrite elem_of_list_singleton; naive_solver.
Qed.
Lemma hist_step acts s a s' : hist acts s -> step s a = Some s' -> hist (acts ++ [a]) s'.
Proof.
  intros H E i. destruct a as [|r t|r p|j r b|k q|k e|k]; cbn [Model.step] in E.
  1: { injection E as <-. apply (hist_other _ s); auto; intros; discriminate. }
  1, 2: destruct (recs s !! r); [|discriminate]; injection E as <-; apply (hist_other _ s); auto; intros; discriminate.
  1: { destruct (D !! j); [|discriminate]. destruct (recs s !! r); [|discriminate]. injection E as <-. cbn [calls trace].
       destruct (decide (i = length (calls s))) as [->|N].
       - rewrite list_lookup_middle by reflexivity. cbn. specialize (H (length (calls s))). rewrite lookup_ge_None_2 in H by lia.
         setoid_rewrite elem_of_app; setoid_rewrite elem_of_list_singleton. naive_solver.
       - assert (L : (calls s ++ [mkCall j r b (if topic r0 =? 0 then n else topic r0) Queued]) !! i = calls s !! i).
         { destruct (decide (i < length (calls s))); [apply lookup_app_l; lia|]. rewrite (lookup_ge_None_2 (calls s)) by lia. apply lookup_ge_None_2. rewrite app_length. cbn. lia. }
         rewrite L. pose proof (hist_other acts s (Call j r b) i s H eq_refl eq_refl eq_refl) as Q. apply Q; intros; discriminate. }
  all: destruct (calls s !! k) as [y|] eqn:Y; [|discriminate].
  - destruct (stg y) eqn:G; try discriminate. destruct (recs s !! rc y) as [x|] eqn:X; [|discriminate]. injection E as <-.
    destruct (decide (i = k)) as [->|N].
    + specialize (H k). rewrite Y, G in H. cbn [calls trace]. rewrite list_lookup_insert by eauto using in_lt. cbn. rewrite outs_app. cbn. 
      setoid_rewrite elem_of_app; setoid_rewrite elem_of_list_singleton. rewrite app_nil_r. naive_solver.
    + apply (hist_other _ s); auto; cbn [calls trace]; try (intros; congruence).
      * rewrite list_lookup_insert_ne by congruence. reflexivity.
      * rewrite outs_app. cbn. apply app_nil_r.
      * rewrite wires_app. cbn. destruct (Nat.eqb_spec k i); [congruence|]. apply app_nil_r.
  - assert (M : s' = mkSt (recs s) (<[k := mkCall (prod y) (rc y) (sync y) (to y) (Answered e)]> (calls s)) (trace s ++ (if sync y then [] else [EvCallback k e])) /\ (stg y = Wired \/ stg y = Queued)) by (destruct (stg y), e; split; first [congruence|auto|discriminate]).
    destruct M as [-> M]. destruct (decide (i = k)) as [->|N].
    + specialize (H k). rewrite Y in H. cbn [calls trace]. rewrite list_lookup_insert by eauto using in_lt. cbn. rewrite outs_app.
      assert (O : outs k (trace s) = [] /\ (forall e, Promise k e ∉ acts) /\ (Return k ∉ acts)) by (destruct M as [M|M]; rewrite M in H; naive_solver).
      destruct O as (O1 & O2 & O3). rewrite O1. setoid_rewrite elem_of_app; setoid_rewrite elem_of_list_singleton.
      split; [destruct (sync y); cbn; rewrite ?Nat.eqb_refl; reflexivity|]. naive_solver.
    + apply (hist_other _ s); auto; cbn [calls trace]; try (intros; congruence).
      * rewrite list_lookup_insert_ne by congruence. reflexivity.
      * rewrite outs_app. destruct (sync y); cbn; [apply app_nil_r|]. destruct (Nat.eqb_spec k i); [congruence|]. apply app_nil_r.
      * rewrite wires_app. destruct (sync y); cbn; apply app_nil_r.
  - destruct (stg y) eqn:G; try discriminate. destruct (sync y) eqn:Sy; [|discriminate]. injection E as <-. destruct (decide (i = k)) as [->|N].
    + specialize (H k). rewrite Y, G, Sy in H. cbn [calls trace]. rewrite list_lookup_insert by eauto using in_lt. cbn. rewrite outs_app. cbn. rewrite Nat.eqb_refl.
      destruct H as (O1 & O2 & O3). rewrite O1. setoid_rewrite elem_of_app; setoid_rewrite elem_of_list_singleton. split; [reflexivity|]. split; [auto|]. exists err. split; [reflexivity|]. naive_solver.
    + apply (hist_other _ s); auto; cbn [calls trace]; try (intros; congruence).
      * rewrite list_lookup_insert_ne by congruence. reflexivity.
      * rewrite outs_app. cbn. destruct (Nat.eqb_spec k i); [congruence|]. apply app_nil_r.
      * rewrite wires_app. cbn; apply app_nil_r.
Qed.
Lemma hist_run acts s : run init acts = Some s -> hist acts s.
Proof.
  revert s. induction acts as [|a l IH] using rev_ind; intros s H.
  - injection H as <-. intros i. cbn. rewrite lookup_nil. setoid_rewrite elem_of_nil. naive_solver.
  - rewrite run_snoc in H. destruct (run init l) as [s1|] eqn:E; [|discriminate]. eauto using hist_step.
Qed.

(** C115 *)
Theorem answered acts s i j r (b : bool) :
  run init acts = Some s -> callsOf acts !! i = Some (j, r, b) ->
  (outs i (trace s) = [] /\ if b then Return i ∉ acts else forall e, Promise i e ∉ acts) \/
  (exists e, (forall e', Promise i e' ∈ acts <-> e' = e) /\ outs i (trace s) = [if b then EvReturn i e else EvCallback i e]).
Proof.
  intros H C. pose proof (inv_run _ _ H) as (I1 & _). pose proof (hist_run _ _ H i) as Hi. rewrite <- I1 in C. change (map ?f ?l) with (f <$> l) in C. rewrite list_lookup_fmap in C.
  destruct (calls s !! i) as [c|]; [|discriminate]. injection C as E1 E2 E3. subst b. destruct (stg c).
  - left. destruct Hi as (? & _ & ? & ? & _). destruct (sync c); auto.
  - left. destruct Hi as (? & ? & ?). destruct (sync c); auto.
  - destruct Hi as (? & ? & ?). destruct (sync c); [left; auto|right; eauto].
  - destruct Hi as (-> & _ & e & ? & ?). right. eauto.
Qed.
Theorem returns acts s i j r e :
  run init acts = Some s -> callsOf acts !! i = Some (j, r, true) -> Promise i e ∈ acts -> Return i ∉ acts -> exists s', run init (acts ++ [Return i]) = Some s' /\ outs i (trace s') = [EvReturn i e].
Proof.
  intros H C P R. pose proof (inv_run _ _ H) as (I1 & _). pose proof (hist_run _ _ H i) as Hi. rewrite <- I1 in C. change (map ?f ?l) with (f <$> l) in C. rewrite list_lookup_fmap in C.
  destruct (calls s !! i) as [c|] eqn:Y; [|discriminate]. injection C as E1 E2 E3.
  destruct (stg c) as [| |x|] eqn:G.
  - destruct Hi as (_ & _ & N & _). destruct (N _ P).
  - destruct Hi as (_ & N & _). destruct (N _ P).
  - destruct Hi as (O & N & _). apply N in P. subst x. rewrite E3 in O. eexists. split; [rewrite run_snoc, H; cbn; rewrite Y, G, E3; reflexivity|]. cbn [trace]. rewrite outs_app, O. cbn. rewrite Nat.eqb_refl. reflexivity.
  - destruct Hi as (_ & ? & _). contradiction.
Qed.

(** a record is sent at most once for each call *)
Lemma wire_once l1 i k l2 s : run init (l1 ++ Wire i k :: l2) = Some s -> forall k', Wire i k' ∉ l1.
Proof.
  intros H. destruct (run_cut _ _ _ _ H) as (s1 & s2 & R1 & S1 & _). pose proof (hist_run _ _ R1 i) as Hi. cbn [Model.step] in S1.
  destruct (calls s1 !! i) as [c|]; [|discriminate]. destruct (stg c); try discriminate. naive_solver.
Qed.
Lemma same_cut i k k' l1 : forall m1 l2 m2, l1 ++ Wire i k :: l2 = m1 ++ Wire i k' :: m2 -> (forall x, Wire i x ∉ l1) -> (forall x, Wire i x ∉ m1) -> l1 = m1 /\ k = k'.
Proof.
  induction l1 as [|a l1 IH]; intros [|b m1] l2 m2 E H1 H2; cbn in E.
  - injection E as -> _. auto.
  - injection E as <- _. destruct (H2 k). left.
  - injection E as -> _. destruct (H1 k'). left.
  - injection E as -> E. destruct (IH _ _ _ E) as [-> ->]; [intros x Hx; apply (H1 x); now right|intros x Hx; apply (H2 x); now right|]. auto.
Qed.
(** C114, the partition *)
Theorem part_ok l1 i k l2 s j r b t p :
  run init (l1 ++ Wire i k :: l2) = Some s -> callsOf l1 !! i = Some (j, r, b) ->
  (forall i' k' j' b', Wire i' k' ∈ l1 -> callsOf l1 !! i' <> Some (j', r, b')) ->
  EvWire i t p ∈ trace s -> p = match userPart r l1 with Some q => q | None => k end.
Proof.
  intros H C N W. destruct (ev_origin _ _ _ H W) as (m1 & a & m2 & s3 & Eq & R3 & k' & c & x & -> & Y & X & _ & ->).
  destruct (same_cut _ _ _ _ _ _ _ Eq) as [<- <-]; [eapply wire_once; eauto| |].
  { eapply wire_once. rewrite <- Eq. exact H. }
  pose proof (inv_run _ _ R3) as (I1 & I2 & _). rewrite <- I1 in C. change (map ?f ?l) with (f <$> l) in C. rewrite list_lookup_fmap, Y in C. injection C as E1 E2 E3. subst.
  destruct (I2 _ _ X) as [_ [B|[U (i' & k' & j' & b' & B1 & B2)]]]; [rewrite B; reflexivity|]. destruct (N _ _ _ _ B1 B2).
Qed.
(** one record for each call *)
Theorem sent_once acts s i : run init acts = Some s -> length (wires i (trace s)) <= 1.
Proof.
  revert s. induction acts as [|a l IH] using rev_ind; intros s H; [injection H as <-; cbn; lia|].
  rewrite run_snoc in H. destruct (run init l) as [s1|] eqn:E; [|discriminate]. specialize (IH _ eq_refl). pose proof (hist_run _ _ E i) as Hi.
  destruct a as [|r t|r p|j r b|k q|k e|k]; cbn [Model.step] in H.
  1: injection H as <-; exact IH.
  1, 2: destruct (recs s1 !! r); [|discriminate]; injection H as <-; exact IH.
  1: { destruct (D !! j); [|discriminate]. destruct (recs s1 !! r); [|discriminate]. injection H as <-. exact IH. }
  all: destruct (calls s1 !! k) as [y|] eqn:Y; [|discriminate].
  - destruct (stg y) eqn:G; try discriminate. destruct (recs s1 !! rc y) as [x|] eqn:X; [|discriminate]. injection H as <-. cbn [trace]. rewrite wires_app, app_length. cbn.
    destruct (Nat.eqb_spec k i) as [->|Nk]; cbn; [|lia]. rewrite Y, G in Hi. destruct Hi as (_ & -> & _). cbn. lia.
  - assert (M : trace s = (trace s1 ++ (if sync y then [] else [EvCallback k e]))) by (destruct (stg y), e; try discriminate; injection H as <-; reflexivity).
    rewrite M, wires_app. destruct (sync y); cbn; rewrite app_nil_r; exact IH.
  - destruct (stg y) eqn:G; try discriminate. destruct (sync y) eqn:Sy; [|discriminate]. injection H as <-. cbn [trace]. rewrite wires_app. cbn. rewrite app_nil_r. exact IH.
Qed.
End S.
