(** Who may produce for a partition, and in which order records are handed to Kafka. *)
From stdpp Require Import prelude list sorting.
From Coq Require Import ZArith.
From Verif.Eos Require Import Model Base Struct Struct2 Step1.
Open Scope nat_scope.

Definition first (s : st) (p : nat) : option nat := List.find (holds s p) (pipe s).
Definition callsOf (t p : nat) (tr : list ev) : list (ec * orec) := filter (fun er => e_p (fst er) = p) (of_txn t (called tr)).
Definition sendsOf (t p : nat) (tr : list ev) : list (ec * orec) := filter (fun er => e_p (fst er) = p) (of_txn t (sent tr)).
Definition ordered (tr : list ev) : Prop :=
  forall u v t e r, tr = u ++ EvSend t e r :: v -> forall t' e', t' < t -> (t', e') ∈ added tr -> e_p e' = e_p e -> t' ∈ map fst (ends u).

Record Own (s : st) : Prop := {
  own_eq : forall p, owners s p = first s p \/
    (owners s p = None /\ first s p = Some (onDeck s) /\ exists e, fp s = FAdded e /\ e_p e = p /\ ofPart p (n_ecs (nodes s (onDeck s))) = [e]);
  own_pend : forall n e r, n ∈ busy s -> (e, r) ∈ n_pend (nodes s n) -> e ∈ n_ecs (nodes s n) /\ exists m, owners s (e_p e) = Some m /\ m <> n;
  own_calls : forall n p, n ∈ busy s -> callsOf (txn s n) p (trace s) = sendsOf (txn s n) p (trace s) ++ filter (fun er => e_p (fst er) = p) (n_pend (nodes s n));
  own_calls' : forall t p, t ∉ map (txn s) (busy s) -> callsOf t p (trace s) = sendsOf t p (trace s);
  own_added : forall t e r, (t, (e, r)) ∈ called (trace s) -> (t, e) ∈ added (trace s);
  own_prod : forall n, n ∈ busy s -> n_prod (nodes s n) = length (of_txn (txn s n) (called (trace s)));
  own_order : ordered (trace s);
}.
Global Arguments first : simpl never. Global Arguments callsOf : simpl never. Global Arguments sendsOf : simpl never.

Lemma holds_spec s p n : holds s p n = true <-> exists e, e ∈ n_ecs (nodes s n) /\ e_p e = p.
Proof. unfold holds. rewrite bool_decide_eq_true, elem_of_list_fmap. split; intros (e & H1 & H2); eauto. Qed.
Lemma find_split {A} (f : A -> bool) l x : List.find f l = Some x -> exists l1 l2, l = l1 ++ x :: l2 /\ f x = true /\ forall y, y ∈ l1 -> f y = false.
Proof.
  induction l as [|y l IH]; cbn; [done|]. destruct (f y) eqn:E; intros H.
  - injection H as ->. exists [], l. split; [done|]. split; [done|]. intros z Hz. by apply elem_of_nil in Hz.
  - destruct (IH H) as (l1 & l2 & -> & H1 & H2). exists (y :: l1), l2. split; [done|]. split; [done|]. intros z Hz. apply elem_of_cons in Hz as [->|Hz]; auto.
Qed.
Lemma find_app' {A} (f : A -> bool) l k : List.find f (l ++ k) = match List.find f l with Some x => Some x | None => List.find f k end.
Proof. induction l as [|y l IH]; cbn; [done|]. by destruct (f y). Qed.
Lemma find_none' {A} (f : A -> bool) l : (forall x, x ∈ l -> f x = false) -> List.find f l = None.
Proof. induction l as [|y l IH]; cbn; intros H; [done|]. rewrite (H y) by (by left). apply IH. intros x Hx. apply H. by right. Qed.
Lemma find_ext_in {A} (f g : A -> bool) l : (forall x, x ∈ l -> f x = g x) -> List.find f l = List.find g l.
Proof. induction l as [|y l IH]; cbn; intros H; [done|]. rewrite (H y) by (by left). destruct (g y); [done|]. apply IH. intros x Hx. apply H. by right. Qed.
Lemma first_some s p n : n ∈ pipe s -> holds s p n = true -> exists m, first s p = Some m.
Proof.
  intros H1 H2. unfold first. destruct (List.find _ _) eqn:E; [eauto|]. eapply find_none in E; [|apply elem_of_list_In, H1]. congruence.
Qed.
Lemma first_deck c s p n : Str c s -> fp s <> FPop -> n ∈ pipe s -> holds s p n = true -> first s p = Some (onDeck s) -> n = onDeck s.
Proof.
  intros I Hf H1 H2 H3. unfold first in H3. rewrite deck_pipe in * by done. rewrite find_app' in H3.
  pose proof (Str_nodup_pipe _ _ I) as ND. rewrite deck_pipe in ND by done. apply NoDup_app in ND as (_ & ND & _).
  destruct (List.find _ (kn s ++ queue s)) as [m|] eqn:E.
  - injection H3 as ->. apply find_some in E as [E _]. apply elem_of_list_In in E. destruct (ND _ E). by apply elem_of_list_singleton.
  - rewrite elem_of_app, elem_of_list_singleton in H1. destruct H1 as [H1|H1]; [|done]. eapply find_none in E; [|apply elem_of_list_In, H1]. congruence.
Qed.
Lemma first_head s p n : kn s = [n] -> holds s p n = true -> first s p = Some n.
Proof. intros E H. unfold first, pipe. rewrite E. cbn. by rewrite H. Qed.

(** the owner of a partition, for an event in the hands of a handler *)
Lemma owner_of c s n e : Str c s -> Giv s -> Own s -> n ∈ busy s -> e ∈ n_ecs (nodes s n) -> (forall e', fp s = FAdded e' -> e <> e') ->
  exists m, owners s (e_p e) = Some m /\ first s (e_p e) = Some m.
Proof.
  intros I G O Hn He Hf. assert (holds s (e_p e) n = true) as Hh by (apply holds_spec; eauto).
  apply elem_busy in Hn as [_ Hn]. destruct (first_some _ _ _ Hn Hh) as [m Hm].
  destruct (own_eq _ O (e_p e)) as [E|(E1 & E2 & e' & E3 & E4 & E5)]; [exists m; by rewrite E|].
  assert (n = onDeck s) as ->. { eapply first_deck; eauto. congruence. }
  destruct (Hf _ E3). assert (e ∈ ofPart (e_p e) (n_ecs (nodes s (onDeck s)))) as H. { unfold ofPart. rewrite elem_of_list_filter. done. }
  rewrite E5 in H. by apply elem_of_list_singleton in H.
Qed.
Lemma not_head_deck c s n : Str c s -> kn s = [n] -> fp s <> FPop -> n <> onDeck s.
Proof.
  intros I K Hf ->. pose proof (Str_nodup_pipe _ _ I) as ND. rewrite deck_pipe in ND by done. apply NoDup_app in ND as (_ & ND & _).
  apply (ND (onDeck s)); [rewrite K; by left|by apply elem_of_list_singleton].
Qed.
Lemma owner_head c s n e : Str c s -> Own s -> kn s = [n] -> e ∈ n_ecs (nodes s n) -> owners s (e_p e) = Some n.
Proof.
  intros I O K He. assert (first s (e_p e) = Some n) as Hf. { eapply first_head; [done|]. apply holds_spec. eauto. }
  destruct (own_eq _ O (e_p e)) as [E|(E1 & E2 & e' & E3 & E4 & E5)]; [by rewrite E|].
  exfalso. eapply not_head_deck; [exact I|exact K|congruence|congruence].
Qed.
Lemma pend_head c s n : Str c s -> Own s -> kn s = [n] -> n_pend (nodes s n) = [].
Proof.
  intros I O K. apply elem_of_nil_inv. intros [e r] H. destruct (busy_head _ _ _ I K) as (l & El & _).
  destruct (own_pend _ O n e r) as (He & m & Hm & Hne); [rewrite El; by left|done|]. rewrite (owner_head _ _ _ _ I O K He) in Hm. congruence.
Qed.

(** a transaction that may produce for a partition comes after all un-ended ones that have events of it *)
Lemma first_order c s p n t' e' : Str c s -> first s p = Some n -> t' < txn s n -> (t', e') ∈ added (trace s) -> e_p e' = p -> t' ∈ map fst (ends (trace s)).
Proof.
  intros I Hf Ht Ha Hp. destruct (str_txn _ _ I) as (k & T1 & T2 & T3). rewrite T3, elem_of_seq.
  destruct (decide (t' < k + over s)) as [?|Hlt]; [lia|exfalso].
  unfold first in Hf. destruct (find_split _ _ _ Hf) as (l1 & l2 & El & Hx & Hl). apply holds_spec in Hx as (x & Hx & _).
  assert (evs s n <> 0) as Hn. { intros E. destruct (str_idle _ _ I _ E) as (E' & _). rewrite E' in Hx. by apply elem_of_nil in Hx. }
  assert (busy s = filter (fun n => evs s n <> 0) l1 ++ n :: filter (fun n => evs s n <> 0) l2) as Eb.
  { unfold busy. rewrite El, filter_app, (filter_cons_True _ n) by done. done. }
  set (b1 := filter _ l1) in *. set (b2 := filter _ l2) in *.
  rewrite Eb in T1. rewrite map_app, app_length, seq_app in T1. apply app_inj_1 in T1 as [T1 T1']; [|by rewrite map_length, seq_length].
  cbn in T1'. injection T1' as T1' _.
  assert (t' ∈ map (txn s) b1) as Hb. { rewrite T1. apply elem_of_seq. lia. }
  apply elem_of_list_fmap in Hb as (n' & -> & Hb).
  assert (n' ∈ busy s) as Hb' by (rewrite Eb, elem_of_app; by left).
  assert (e' ∈ n_ecs (nodes s n')) as He.
  { rewrite (str_adds _ _ I _ Hb'). assert (e' ∈ adds (txn s n') (trace s)) as Hin by (by apply elem_of_txn). unfold cut. destruct (kp s) as [| | |m todo|] eqn:Ek; try done.
    case_decide; [|done]. subst m. exfalso. assert (kn s = [n']) as K by (unfold kn; by rewrite Ek). destruct (busy_head _ _ _ I K) as (l & E & _).
    destruct (str_txn _ _ I) as (k' & T1'' & T2' & T3'). rewrite E in T1''. cbn in T1''. injection T1'' as T1'' _.
    rewrite T3 in T3'. apply (f_equal length) in T3'. rewrite !seq_length in T3'. unfold over in *. rewrite Ek in *. lia. }
  apply elem_of_list_filter in Hb as [_ Hb]. pose proof (Hl _ Hb) as Hh. assert (holds s p n' = true) by (apply holds_spec; eauto). congruence.
Qed.

Lemma txn_busy_lt c s n : Str c s -> n ∈ busy s -> txn s n < ntxn s.
Proof.
  intros I H. destruct (str_txn _ _ I) as (k & T1 & T2 & _). assert (txn s n ∈ map (txn s) (busy s)) as Hin by (apply elem_of_list_fmap; eauto). rewrite T1, elem_of_seq in Hin. lia.
Qed.
Lemma txn_inj c s n m : Str c s -> n ∈ busy s -> m ∈ busy s -> txn s n = txn s m -> n = m.
Proof.
  intros I H1 H2 E. destruct (str_txn _ _ I) as (k & T1 & _). assert (NoDup (map (txn s) (busy s))) as ND by (rewrite T1; apply NoDup_seq).
  apply elem_of_list_lookup in H1 as [i Hi]. apply elem_of_list_lookup in H2 as [j Hj].
  assert (i = j) as ->. { eapply NoDup_lookup; [exact ND|rewrite list_lookup_fmap, Hi; reflexivity|rewrite list_lookup_fmap, Hj; by rewrite E]. }
  congruence.
Qed.

Lemma ordered_other tr w : ordered tr -> sent w = [] -> added w = [] -> ordered (tr ++ w).
Proof.
  intros O Hs Ha u v t e r E t' e' Hlt Hin Hp. rewrite added_app, Ha, app_nil_r in Hin.
  apply snoc_split in E as [(v' & E & ->)|(w1 & -> & ->)]; [eapply O; eauto|]. rewrite sent_app in Hs. by destruct (sent w1).
Qed.
Lemma ordered_sends tr w : ordered tr -> added w = [] -> (forall u v t e r, w = u ++ EvSend t e r :: v -> forall t' e', t' < t -> (t', e') ∈ added tr -> e_p e' = e_p e -> t' ∈ map fst (ends tr)) -> ordered (tr ++ w).
Proof.
  intros O Ha Hw u v t e r E t' e' Hlt Hin Hp. rewrite added_app, Ha, app_nil_r in Hin.
  apply snoc_split in E as [(v' & E & ->)|(w1 & E & ->)]; [eapply O; eauto|]. rewrite ends_app, map_app, elem_of_app. left. eapply Hw; eauto.
Qed.
Lemma ordered_add tr t e : ordered tr -> (forall t' x, (t', x) ∈ sent tr -> t' <= t) -> ordered (tr ++ [EvAdd t e]).
Proof.
  intros O Hs u v t1 e1 r E t' e' Hlt Hin Hp. apply snoc_split1 in E as [(v' & E & ->)|(-> & E & ->)]; [|done].
  rewrite added_app, elem_of_app in Hin. destruct Hin as [Hin|Hin]; [eapply O; eauto|]. apply elem_of_list_singleton in Hin. injection Hin as -> ->.
  assert (t1 <= t); [|lia]. apply (Hs t1 (e1, r)). rewrite elem_sent, E. apply elem_of_app. right. by left.
Qed.
Lemma callsOf_app t p u v : callsOf t p (u ++ v) = callsOf t p u ++ callsOf t p v.
Proof. unfold callsOf. by rewrite called_app, of_txn_app, filter_app. Qed.
Lemma sendsOf_app t p u v : sendsOf t p (u ++ v) = sendsOf t p u ++ sendsOf t p v.
Proof. unfold sendsOf. by rewrite sent_app, of_txn_app, filter_app. Qed.
Lemma callsOf_nil t p w : called w = [] -> callsOf t p w = []. Proof. unfold callsOf. by intros ->. Qed.
Lemma sendsOf_nil t p w : sent w = [] -> sendsOf t p w = []. Proof. unfold sendsOf. by intros ->. Qed.

(** steps that do not concern the owners *)
Lemma Own_frame s s' : Own s -> (forall p, owners s' p = owners s p) -> (forall p, first s' p = first s p) -> onDeck s' = onDeck s ->
  (forall e, fp s = FAdded e -> fp s' = FAdded e \/ owners s (e_p e) <> None) ->
  (forall n, n_ecs (nodes s' n) = n_ecs (nodes s n) /\ n_pend (nodes s' n) = n_pend (nodes s n) /\ n_prod (nodes s' n) = n_prod (nodes s n) /\ txn s' n = txn s n) ->
  busy s' = busy s ->
  (exists w, trace s' = trace s ++ w /\ called w = [] /\ sent w = [] /\ added w = []) -> Own s'.
Proof.
  intros O E1 E2 E3 Hf Hn Hb (w & Ew & W1 & W2 & W3). constructor.
  - intros p. rewrite E1, E2, E3. destruct (Hn (onDeck s)) as (-> & _). destruct (own_eq _ O p) as [E|(? & ? & e & F & <- & ?)]; [by left|].
    destruct (Hf e F); [|done]. right. eauto 10.
  - intros n e r H1 H2. rewrite E1. destruct (Hn n) as (-> & E & _). rewrite E in H2. rewrite Hb in H1. by apply (own_pend _ O n e r).
  - intros n p H. rewrite Hb in H. destruct (Hn n) as (_ & -> & _ & ->). rewrite Ew, callsOf_app, sendsOf_app, (callsOf_nil _ _ w), (sendsOf_nil _ _ w), !app_nil_r by done. by apply (own_calls _ O).
  - intros t p H. rewrite Hb in H. rewrite Ew, callsOf_app, sendsOf_app, (callsOf_nil _ _ w), (sendsOf_nil _ _ w), !app_nil_r by done. apply (own_calls' _ O).
    replace (map (txn s) (busy s)) with (map (txn s') (busy s)); [done|]. apply map_ext. intros n. apply (Hn n).
  - intros t e r. rewrite Ew, called_app, added_app, W1, W3, !app_nil_r. apply O.
  - intros n H. rewrite Hb in H. destruct (Hn n) as (_ & _ & -> & ->). rewrite Ew, called_app, W1, app_nil_r. by apply (own_prod _ O).
  - rewrite Ew. apply ordered_other; [apply O|done|done].
Qed.
Lemma first_ext s s' p : pipe s' = pipe s -> (forall n, n_ecs (nodes s' n) = n_ecs (nodes s n)) -> first s' p = first s p.
Proof. intros E H. unfold first. rewrite E. apply find_ext_in. intros n _. unfold holds. by rewrite H. Qed.
