(** C20: a partition moves from a running process A to a running process B. Both are pools as in Model.v. They meet in the commit log only. The code:
    source_consumer.go: revokePartitions (228-247; does not wait for open transactions), assignPartitions (191-226); partition_worker.go: work (206-251,
    lastProcessed at 217), scheduleTxnAndExecution (163-182, the filter at 170); commit_log.go: lastProcessed (121-124), syncCommitLogPartition (126-135),
    ReceiveChange (84-95). Producers of A and B have different transactional ids (eos_producer.go:276), so B does not fence A. Consumers read committed
    (topics.go:117): the marker of B is delivered when each transaction that has a record before it in the commit log partition has ended; seen here for
    the commit records of p only, which allows B to start earlier than other records would. Left out: further consumers, the transfer back. *)
From stdpp Require Import prelude list sorting.
From Coq Require Import ZArith.
From Verif.Eos Require Import Model Base Struct Struct2 Step1 Own Own2 Fin Own3 Fin2 Fin3 Rev Spec Ends Main Main2 Wait Stop.
Open Scope nat_scope.

Record jst := mkJ { ja : st; jb : st; jmark : option nat; jwm : option nat }.
Inductive jact :=
| JA (a : action)       (* A does something *)
| JMark                 (* B sends its marker: after revokePartitions has returned in A *)
| JSync (m : nat)       (* B has read the commit log up to position m, the marker included, and starts *)
| JB (a : action).      (* B does something *)

Section Joint.
Context (cA cB : cfg) (p wA wm0 : nat).
Definition jstart : jst := mkJ (start cA) (start cB) None None.
(** commit records of p among the first m entries of A's history *)
Definition marksIn (m : nat) (tr : list ev) : list (nat * nat) :=
  flat_map (fun x => match x with EvSend t e (Mark w) => if decide (e_p e = p) then [(t, w)] else [] | _ => [] end) (take m tr).
(** the last committed one *)
Definition wmOf (m : nat) (tr : list ev) : nat := match last (filter (fun tw => EvEnd (fst tw) true ∈ tr) (marksIn m tr)) with Some tw => snd tw | None => wm0 end.
Definition resolved (m : nat) (tr : list ev) : Prop := Forall (fun tw => EvEnd (fst tw) true ∈ tr \/ EvEnd (fst tw) false ∈ tr) (marksIn m tr).
(** what the filter of B's worker lets through *)
Definition letIn (wm : option nat) (a : action) : Prop :=
  match a with AArrive _ q o => q = p -> match wm with None => False | Some w => match o with Some k => w <= k | None => True end end | _ => True end.
Global Instance letIn_dec wm a : Decision (letIn wm a).
Proof. unfold letIn. destruct a; try apply _. destruct wm; [destruct o|]; apply _. Defined.
Definition jstep (j : jst) (x : jact) : option jst :=
  match x with
  | JA a => match step cA (ja j) a with Some s => Some (mkJ s (jb j) (jmark j) (jwm j)) | None => None end
  | JMark => if decide (wA ∈ revoked (ja j) /\ jmark j = None) then Some (mkJ (ja j) (jb j) (Some (length (trace (ja j)))) (jwm j)) else None
  | JSync m =>
    match jmark j, jwm j with
    | Some n, None => if decide (n <= m <= length (trace (ja j)) /\ resolved m (trace (ja j))) then Some (mkJ (ja j) (jb j) (Some n) (Some (wmOf m (trace (ja j))))) else None
    | _, _ => None
    end
  | JB a => if decide (letIn (jwm j) a) then match step cB (jb j) a with Some s => Some (mkJ (ja j) s (jmark j) (jwm j)) | None => None end else None
  end.
Fixpoint jrun (j : jst) (xs : list jact) : option jst := match xs with [] => Some j | x :: xs' => match jstep j x with Some j' => jrun j' xs' | None => None end end.
End Joint.

(** *** proofs *)
Definition jok (x : jact) : Prop := x <> JA KSkip /\ x <> JB KSkip.
Lemma step_grows c s a s' : step c s a = Some s' -> exists w, trace s' = trace s ++ w.
Proof. intros H. destruct (step_rv c s a s' H) as [(w & E & _)|[(y & E & _)|(w & _ & _ & E & _)]]; [eauto|eauto|]. exists []. by rewrite app_nil_r. Qed.

Section Proofs.
Context (cA cB : cfg) (p wA wm0 : nat) (VA : valid cA) (VB : valid cB).
Notation jrun := (jrun cA cB p wA wm0). Notation jstep := (jstep cA cB p wA wm0). Notation jstart := (jstart cA cB).

Record JI (j : jst) : Prop := {
  ji_a : exists acts, noSkip acts /\ run cA (start cA) acts = Some (ja j);
  ji_b : exists acts, noSkip acts /\ run cB (start cB) acts = Some (jb j);
  ji_wm : forall wm, jwm j = Some wm -> exists n m tr0 v, jmark j = Some n /\ n <= m /\ trace (ja j) = tr0 ++ v /\ m <= length tr0 /\ resolved p m tr0 /\ wm = wmOf p wm0 m tr0;
  ji_arr : forall o, o ∈ offs (arrived p (trace (jb j))) -> exists wm, jwm j = Some wm /\ wm <= o;
}.
Lemma narr_step c s a s' : step c s a = Some s' -> (exists w q o, a = AArrive w q o /\ trace s' = trace s ++ [EvArr (mkEc (narr s) w q o)]) \/ narr s' = narr s.
Proof.
  intros H. destruct a; cbn [step] in H.
  - case_decide; [done|]. injection H as <-. left. eauto 6.
  - case_decide; [done|]. injection H as <-. by right.
  - case_decide; [|done]. injection H as <-. by right.
  - case_decide; [|done]. injection H as <-. by right.
  - case_decide; [|done]. injection H as <-. right. by rewrite produceRecord_eq.
  - case_decide; [|done]. injection H as <-. by right.
  - right. destruct (fp s); try done. destruct (buffer s); [done|]. injection H as <-. by case_decide.
  - right. destruct (fp s); try done. unfold addEc in H. destruct (kp s); try done; injection H as <-; by case_decide.
  - right. destruct (fp s); try done. injection H as <-. unfold claim. by destruct (owners s (e_p e)).
  - right. destruct (fp s); try done. by injection H as <-.
  - right. destruct (fp s); try done. by injection H as <-.
  - right. destruct (fp s); try done. by injection H as <-.
  - right. destruct (fp s); try done. injection H as <-. by repeat case_match.
  - right. destruct (fp s); try done. destruct (length (queue s) <? pendingTxn c); [|done]. by injection H as <-.
  - right. destruct (fp s); try done. destruct (freeq s); [done|]. by injection H as <-.
  - right. destruct (kp s); try done. destruct (queue s); [done|]. by injection H as <-.
  - right. destruct (kp s) as [|n [|] ? ?| | | ]; try done. case_decide; [|done]. by injection H as <-.
  - right. destruct (kp s) as [|n [|e cur] marked todo| | | ]; try done. case_decide; [|done]. destruct marked, (e_off e); injection H as <-; rewrite ?produceRecord_eq; done.
  - right. destruct (kp s) as [|n [|] ? [|]| | | ]; try done. injection H as <-. by destruct (releaseRoots_frame (n_ecs (nodes s n)) (parts (n_ecs (nodes s n))) s) as [w ->].
  - right. destruct (kp s); try done. by injection H as <-.
  - right. destruct (kp s) as [| | |n todo|]; try done. case_decide; [|done]. injection H as <-. unfold relinquish. by destruct (List.find (holds s p0) (ring (poolSize c) n)).
  - right. destruct (kp s) as [| | |n [|]|]; try done. by injection H as <-.
  - right. destruct (kp s) as [|n cur m todo| | | ]; try done. destruct (ok && _); [done|]. by injection H as <-.
  - right. destruct (kp s) as [|n cur m todo| | | ]; try done. by injection H as <-.
Qed.
Lemma arr_step c s a s' o : Inv c s -> Inv c s' -> step c s a = Some s' -> o ∈ offs (arrived p (trace s')) -> o ∈ offs (arrived p (trace s)) \/ exists w, a = AArrive w p (Some o).
Proof.
  intros I I' H Ho. apply offs_in in Ho as (e & He & Eo). apply elem_arrived in He as [He Hp].
  destruct (narr_step c s a s' H) as [(w & q & k & -> & E)|E].
  - rewrite E, elem_of_app in He. destruct He as [He|He]; [left; apply offs_in; exists e; split; [by apply elem_arrived|done]|]. right. exists w. apply elem_of_list_singleton in He. injection He as ->. cbn in *. by subst.
  - left. apply offs_in. exists e. split; [|done]. apply elem_arrived. split; [|done]. destruct (step_grows c s a s' H) as [w Ew].
    pose proof (str_ids _ _ (i_str _ _ I)) as N1. pose proof (str_ids _ _ (i_str _ _ I')) as N2. rewrite E, Ew, arrs_app, map_app, N1 in N2. rewrite <- (app_nil_r (seq 0 (narr s))) in N2 at 2. apply app_inv_head in N2.
    rewrite Ew, elem_of_app in He. destruct He as [He|He]; [done|]. apply elem_arrs in He. destruct (arrs w); [by apply elem_of_nil in He|done].
Qed.
Lemma run_snoc c acts s a s' : noSkip acts -> run c (start c) acts = Some s -> step c s a = Some s' -> a <> KSkip -> noSkip (acts ++ [a]) /\ run c (start c) (acts ++ [a]) = Some s'.
Proof. intros N R H Ha. split; [apply Forall_app; split; [done|by repeat constructor]|]. rewrite run_app, R. cbn. by rewrite H. Qed.
Lemma JI_step j x j' : JI j -> jok x -> jstep j x = Some j' -> JI j'.
Proof.
  intros [A B W Ar] [K1 K2] H. destruct x as [a| |m|a]; cbn in H.
  - destruct (step cA (ja j) a) as [s|] eqn:E; [|done]. injection H as <-. destruct A as (acts & N & R). constructor; cbn; [|done| |done].
    + exists (acts ++ [a]). apply (run_snoc cA acts (ja j)); try done. congruence.
    + intros wm Hw. destruct (W wm Hw) as (n & m & tr0 & v & H1 & H2 & H3 & H4). destruct (step_grows _ _ _ _ E) as [w Ew]. exists n, m, tr0, (v ++ w). rewrite Ew, H3, app_assoc. done.
  - case_decide; [|done]. injection H as <-. constructor; cbn; [done|done| |done]. intros wm Hw. destruct (W wm Hw) as (n & m & tr0 & v & H1 & _). destruct H0; congruence.
  - destruct (jmark j) as [n|] eqn:En; [|done]. destruct (jwm j) as [wm'|] eqn:Ew; [done|]. case_decide as D; [|done]. injection H as <-. constructor; cbn; [done|done| |].
    + intros wm Hw. injection Hw as <-. destruct D as [D1 D2]. exists n, m, (trace (ja j)), []. rewrite app_nil_r. split; [done|]. split; [lia|]. split; [done|]. split; [lia|]. done.
    + intros o Ho. destruct (Ar o Ho) as (wm & Hw & _). congruence.
  - case_decide as D; [|done]. destruct (step cB (jb j) a) as [s|] eqn:E; [|done]. injection H as <-. destruct B as (acts & N & R). destruct (run_snoc cB acts (jb j) a s N R E) as [N' R']; [congruence|]. constructor; cbn; [done| |done|].
    + eauto.
    + intros o Ho. destruct (arr_step cB (jb j) a s o (Inv_run _ _ _ VB N R) (Inv_run _ _ _ VB N' R') E Ho) as [Hin|(w & ->)]; [auto|]. cbn in D. specialize (D eq_refl). destruct (jwm j) as [wm|]; [|done]. eauto.
Qed.
Lemma JI_run xs j : Forall jok xs -> jrun jstart xs = Some j -> JI j.
Proof.
  assert (JI jstart) as H0. { constructor; cbn; [exists []; split; [constructor|done]|exists []; split; [constructor|done]|done|]. intros o Ho. by apply elem_of_nil in Ho. }
  revert H0. generalize jstart. induction xs as [|x xs IH]; intros j0 H0 F H; cbn in H; [by injection H as <-|]. destruct (jstep j0 x) as [j1|] eqn:E; [|done].
  apply (IH j1); [|by inversion F|done]. apply (JI_step j0 x j1); [done|by inversion F|done].
Qed.

Lemma marksIn_sent m tr t w : (t, w) ∈ marksIn p m tr <-> exists e, EvSend t e (Mark w) ∈ take m tr /\ e_p e = p.
Proof.
  unfold marksIn. rewrite elem_of_flat_map'. split.
  - intros (y & Hy & Hin). destruct y as [| | | | |t' e [|w']| | | |]; try (by apply elem_of_nil in Hin). case_decide; [|by apply elem_of_nil in Hin]. apply elem_of_list_singleton in Hin. injection Hin as -> ->. eauto.
  - intros (e & He & Hp). eexists. split; [exact He|]. cbn. rewrite decide_True by done. by left.
Qed.
Section One.
Context {acts : list action} {s : st} (N : noSkip acts) (R : run cA (start cA) acts = Some s) (HS : StronglySorted lt (offs (accepted p (trace s)))).
Let J : Inv cA s := Inv_run cA acts s VA N R.
Lemma mark_lt t1 t2 w1 w2 : EvEnd t1 true ∈ trace s -> EvEnd t2 true ∈ trace s -> w1 ∈ resume t1 p (trace s) -> w2 ∈ resume t2 p (trace s) -> t1 < t2 -> w1 < w2.
Proof.
  intros H1 H2 M1 M2 Hlt. pose proof (marks_increase VA N R p HS) as SM. unfold committedMarks in SM. apply elem_committed in H1, H2.
  pose proof (committed_in_order J) as SC. apply elem_of_list_split in H1 as (c1 & c2 & E). rewrite E in SC, SM, H2.
  assert (t2 ∈ c2) as H3.
  { rewrite elem_of_app, elem_of_cons in H2. destruct H2 as [H2|[H2|H2]]; [|lia|done]. exfalso. apply sorted_app in SC as (_ & _ & SC). assert (t2 < t1); [|lia]. apply SC; [done|by left]. }
  rewrite flat_map_app in SM. apply sorted_app in SM as (_ & SM & _). cbn in SM. apply sorted_app in SM as (_ & _ & SM). apply SM; [done|]. apply elem_of_flat_map'. eauto.
Qed.
Lemma mark_le_sent u v t1 e1 w1 t2 e2 w2 : trace s = u ++ EvSend t1 e1 (Mark w1) :: v -> EvSend t2 e2 (Mark w2) ∈ v -> e_p e1 = p -> e_p e2 = p -> EvEnd t1 true ∈ trace s -> EvEnd t2 true ∈ trace s -> w1 <= w2.
Proof.
  intros E H2 P1 P2 E1 E2. assert (EvSend t1 e1 (Mark w1) ∈ trace s) as S1 by (rewrite E, elem_of_app; right; by left). assert (EvSend t2 e2 (Mark w2) ∈ trace s) as S2 by (rewrite E, elem_of_app; right; by right).
  assert (w1 ∈ resume t1 p (trace s)) as M1 by (apply resume_sent; eauto). assert (w2 ∈ resume t2 p (trace s)) as M2 by (apply resume_sent; eauto).
  destruct (lt_eq_lt_dec t1 t2) as [[Hlt|<-]|Hgt].
  - pose proof (mark_lt t1 t2 w1 w2 E1 E2 M1 M2 Hlt). lia.
  - destruct (mark_is_highest VA N R p t1 HS E1) as [[_ Er]|(o & _ & _ & Er)]; rewrite Er in M1, M2; [by apply elem_of_nil in M1|]. apply elem_of_list_singleton in M1, M2. lia.
  - exfalso. assert (EvCall t2 e2 (Mark w2) ∈ trace s) as C2 by (by apply (send_called VA N R)). apply (called_added VA N R) in C2.
    assert (t2 ∈ map fst (ends u)) as Hin. { apply (own_order _ (i_own _ _ J) u _ t1 e1 _ E t2 e2); [done|by apply elem_added|congruence]. }
    apply elem_of_list_fmap in Hin as ([t' ok] & Ht & Hin). cbn in Ht. subst t'. apply elem_ends in Hin.
    assert (ok = true) as ->. { destruct ok; [done|]. exfalso. destruct (ended_split J t2 true E2) as (u1 & v1 & Eu & N1 & N2). assert (EvEnd t2 false ∈ trace s) as Hf by (rewrite E, elem_of_app; by left).
      rewrite Eu, elem_of_app, elem_of_cons in Hf. destruct Hf as [Hf|[Hf|Hf]]; [apply N1|done|apply N2]; (apply elem_of_list_fmap; exists (t2, false); split; [done|by apply elem_ends]). }
    apply elem_of_list_split in Hin as (u1 & u2 & ->). rewrite <- app_assoc in E. cbn in E. destruct (fin_ended _ (i_fin _ _ J) _ _ _ E) as (_ & _ & _ & _ & Hs & _).
    assert ((e2, Mark w2) ∈ of_txn t2 (sent (u2 ++ EvSend t1 e1 (Mark w1) :: v))) as Hin; [|rewrite Hs in Hin; by apply elem_of_nil in Hin].
    apply elem_of_txn, elem_sent, elem_of_app. right. by right.
Qed.
Lemma last_sent m tr0 v t e w : trace s = tr0 ++ v -> m <= length tr0 -> resolved p m tr0 -> EvSend t e (Mark w) ∈ take m tr0 -> e_p e = p -> EvEnd t true ∈ trace s -> w <= wmOf p wm0 m tr0.
Proof.
  intros E Hm Hr Hs Hp He. assert ((t, w) ∈ marksIn p m tr0) as Hin by (apply marksIn_sent; eauto).
  assert (forall t', EvEnd t' true ∈ tr0 -> EvEnd t' true ∈ trace s) as Hmono by (intros t' H; rewrite E, elem_of_app; by left).
  assert (EvEnd t true ∈ tr0) as He0.
  { unfold resolved in Hr. rewrite Forall_forall in Hr. destruct (Hr _ Hin) as [H|H]; cbn in H; [done|]. exfalso. destruct (ended_split J t true He) as (u1 & v1 & Eu & N1 & N2). assert (EvEnd t false ∈ trace s) as Hf by (rewrite E, elem_of_app; by left).
    rewrite Eu, elem_of_app, elem_of_cons in Hf. destruct Hf as [Hf|[Hf|Hf]]; [apply N1|done|apply N2]; (apply elem_of_list_fmap; exists (t, false); split; [done|by apply elem_ends]). }
  unfold wmOf. destruct (last _) as [[t2 w2]|] eqn:El.
  2: { apply last_None in El. assert ((t, w) ∈ filter (fun tw => EvEnd (fst tw) true ∈ tr0) (marksIn p m tr0)) as H by (by apply elem_of_list_filter). rewrite El in H. by apply elem_of_nil in H. }
  cbn. (* by the order of sending *)
  assert (exists v', trace s = take m tr0 ++ v') as [v' Ev]. { exists (drop m tr0 ++ v). by rewrite app_assoc, take_drop. }
  assert (forall tr r, trace s = tr ++ r -> forall L, L = filter (fun tw => EvEnd (fst tw) true ∈ tr0) (flat_map (fun x => match x with EvSend t e (Mark w) => if decide (e_p e = p) then [(t, w)] else [] | _ => [] end) tr) ->
    forall t w t2 w2, (t, w) ∈ L -> last L = Some (t2, w2) -> w <= w2) as G.
  2: { apply (G _ _ Ev _ eq_refl t w t2 w2); [|exact El]. apply elem_of_list_filter. done. }
  clear t e w Hs Hp He Hin He0 t2 w2 El. intros tr. induction tr as [|x tr IH] using rev_ind; intros r Er L -> t w t2 w2 Ht Hl; [by apply elem_of_nil in Ht|].
  rewrite <- app_assoc in Er. cbn in Er. specialize (IH _ Er _ eq_refl). rewrite flat_map_app, filter_app in Ht, Hl. cbn [flat_map] in Ht, Hl. rewrite app_nil_r in Ht, Hl.
  destruct x as [| | | | |t3 e3 [|w3]| | | |]; try (rewrite app_nil_r in Ht, Hl; by apply (IH t w t2 w2)).
  case_decide as Hp3; [|rewrite app_nil_r in Ht, Hl; by apply (IH t w t2 w2)].
  destruct (decide (EvEnd t3 true ∈ tr0)) as [H3|H3]; [rewrite (filter_cons_True _ (t3, w3)) in Ht, Hl by done|rewrite (filter_cons_False _ (t3, w3)) in Ht, Hl by done; rewrite app_nil_r in Ht, Hl; by apply (IH t w t2 w2)].
  rewrite filter_nil in Ht, Hl. rewrite last_snoc in Hl. injection Hl as <- <-. apply elem_of_app in Ht as [Ht|Ht]; [|apply elem_of_list_singleton in Ht; injection Ht as -> ->; done].
  apply elem_of_list_filter in Ht as [Ht1 Ht2]. apply elem_of_flat_map' in Ht2 as (y & Hy & Hin). destruct y as [| | | | |t4 e4 [|w4]| | | |]; try (by apply elem_of_nil in Hin).
  case_decide as Hp4; [|by apply elem_of_nil in Hin]. apply elem_of_list_singleton in Hin. injection Hin as -> ->. apply elem_of_list_split in Hy as (u1 & u2 & ->). rewrite <- app_assoc in Er. cbn in Er.
  apply (mark_le_sent u1 _ t4 e4 w4 t3 e3 w3 Er); [|done|done|by apply Hmono|by apply Hmono]. apply elem_of_app. right. by left.
Qed.
End One.

(** if each commit record of A for p in a committed transaction was sent before B's marker, nothing is committed twice *)
Theorem no_double xs j : Forall jok xs -> jrun jstart xs = Some j -> StronglySorted lt (offs (accepted p (trace (ja j)))) ->
  (forall n t e w, jmark j = Some n -> EvEnd t true ∈ trace (ja j) -> EvSend t e (Mark w) ∈ trace (ja j) -> e_p e = p -> EvSend t e (Mark w) ∈ take n (trace (ja j))) ->
  forall o, o ∈ committedOffs p (trace (ja j)) -> o ∉ committedOffs p (trace (jb j)).
Proof.
  intros F R HS Hb o HA HB. destruct (JI_run xs j F R) as [(a1 & N1 & R1) (a2 & N2 & R2) W Ar].
  assert (o ∈ offs (arrived p (trace (jb j)))) as Ho.
  { destruct (committed_prefix (Inv_run _ _ _ VB N2 R2) p) as [k Ek]. assert (o ∈ offs (accepted p (trace (jb j)))) as Ho by (rewrite Ek, elem_of_app; by left).
    apply offs_in in Ho as (e & He & Eo). apply offs_in. exists e. split; [|done]. apply elem_accepted in He as [He Hp]. apply elem_arrived. split; [|done]. apply elem_arrs. apply elem_takes in He.
    apply (elem_of_submseteq (takes (trace (jb j)))); [done|]. apply sublist_submseteq, (takes_sub VB N2 R2). }
  destruct (Ar o Ho) as (wm & Ew & Hle). destruct (W wm Ew) as (n & m & tr0 & v & Hn & Hnm & E & Hm & Hr & ->).
  unfold committedOffs in HA. apply elem_of_flat_map' in HA as (t & Ht & HA). apply elem_committed in Ht.
  destruct (mark_is_highest VA N1 R1 p t HS Ht) as [[Eo _]|(o' & _ & Hmax & Er)]; [rewrite Eo in HA; by apply elem_of_nil in HA|].
  assert (S o' ∈ resume t p (trace (ja j))) as Hin by (rewrite Er; by left). apply resume_sent in Hin as (x & Hx & Hp).
  assert (S o' <= wmOf p wm0 m tr0); [|pose proof (Hmax o HA); lia].
  apply (last_sent N1 R1 HS m tr0 v t x (S o') E Hm Hr); [|done|done].
  pose proof (Hb n t x (S o') Hn Ht Hx Hp) as Hin. rewrite E in Hin. rewrite take_app_le in Hin by lia. assert (take n tr0 = take n (take m tr0)) as Et by (by rewrite take_take, Nat.min_l).
  rewrite <- (take_drop n (take m tr0)), elem_of_app, <- Et. by left.
Qed.
(** so it is when the marker is sent after A's worker has stopped *)
Theorem stopped_no_double xs j : Forall jok xs -> jrun jstart xs = Some j -> StronglySorted lt (offs (accepted p (trace (ja j)))) -> (forall q, oneWorker q (trace (ja j))) ->
  (forall e, e ∈ arrived p (trace (ja j)) -> e_w e = wA) -> (forall n, jmark j = Some n -> EvStop wA ∈ take n (trace (ja j))) ->
  forall o, o ∈ committedOffs p (trace (ja j)) -> o ∉ committedOffs p (trace (jb j)).
Proof.
  intros F R HS W1 Hw Hstop. apply (no_double xs j F R HS). intros n t e w Hn Ht Hs Hp. destruct (JI_run xs j F R) as [(a1 & N1 & R1) _ _ _]. set (tr := trace (ja j)) in *.
  specialize (Hstop n Hn). apply elem_of_list_split in Hstop as (u & v & Etk). assert (tr = u ++ EvStop wA :: (v ++ drop n tr)) as E. { rewrite <- (take_drop n tr) at 1. rewrite Etk, <- app_assoc. done. }
  pose proof (Inv_run _ _ _ VA N1 R1) as J. assert (EvAdd t e ∈ tr) as Ha by (by apply (called_added VA N1 R1 t e (Mark w)), (send_called VA N1 R1)).
  assert (EvArr e ∈ tr) as Harr.
  { apply (added_take VA N1 R1), elem_takes in Ha. apply elem_arrs. apply (elem_of_submseteq (takes tr)); [done|]. apply sublist_submseteq, (takes_sub VA N1 R1). }
  assert (e_w e = wA) as Hwe by (apply Hw, elem_arrived; done). assert (forall q, oneWorker q u) as Wu; [|destruct (stop_resolved cA a1 (ja j) wA u _ VA N1 R1 Wu E e Harr Hwe) as [Hrej|(t' & ok & Ha' & He')]].
  - intros q x y Hx Hy. apply (W1 q); apply elem_arrived; [apply elem_arrived in Hx as [Hx ?]|apply elem_arrived in Hy as [Hy ?]]; (split; [|done]); fold tr; rewrite E, elem_of_app; by left.
  - exfalso. assert (EvRej e ∈ tr) as Hr2 by (rewrite E, elem_of_app; by left). apply (added_take VA N1 R1) in Ha. fold tr in Ha. pose proof (str_arr _ _ (i_str _ _ J)) as Earr. fold tr in Earr.
    apply elem_of_list_split in Hr2 as (r1 & r2 & Er). pose proof (str_ids _ _ (i_str _ _ J)) as Eid. fold tr in Eid. rewrite Earr, Er, taken_app in Eid. change (taken (EvRej e :: r2)) with (e :: taken r2) in Eid.
    rewrite Er, elem_of_app, elem_of_cons in Ha. rewrite !map_app in Eid. cbn [map] in Eid.
    assert (NoDup (map e_id (taken r1) ++ e_id e :: map e_id (taken r2))) as ND. { pose proof (NoDup_seq 0 (narr (ja j))) as ND. rewrite <- Eid in ND. by apply NoDup_app in ND as (ND & _). }
    assert (forall l, EvTake e ∈ l -> e_id e ∈ map e_id (taken l)) as Htk. { intros l Hl. apply elem_of_list_fmap. exists e. split; [done|]. unfold taken. apply elem_of_flat_map'. eexists. split; [exact Hl|]. by left. }
    apply NoDup_app in ND as (_ & ND1 & ND2). apply NoDup_cons in ND2 as [ND2 _]. destruct Ha as [Ha|[Ha|Ha]]; [|done|by apply ND2, Htk]. apply (ND1 (e_id e)); [by apply Htk|by left].
  - assert (t' = t) as -> by (apply (added_once J t' t e); [fold tr; rewrite E, elem_of_app; by left|done]).
    assert (ok = true) as ->. { destruct ok; [done|]. exfalso. destruct (ended_split J t true Ht) as (u1 & v1 & Eu & X1 & X2). assert (EvEnd t false ∈ trace (ja j)) as Hf by (fold tr; rewrite E, elem_of_app; by left).
      rewrite Eu, elem_of_app, elem_of_cons in Hf. destruct Hf as [Hf|[Hf|Hf]]; [apply X1|done|apply X2]; (apply elem_of_list_fmap; exists (t, false); split; [done|by apply elem_ends]). }
    apply elem_of_list_split in He' as (u1 & u2 & Eu). rewrite Eu, <- app_assoc in E. cbn in E. destruct (fin_ended _ (i_fin _ _ J) _ _ _ E) as (_ & _ & _ & _ & Hsn & _).
    rewrite E, elem_of_app, elem_of_cons in Hs. destruct Hs as [Hs|[Hs|Hs]]; [|done|].
    + rewrite Etk, elem_of_app. left. rewrite Eu, elem_of_app. by left.
    + exfalso. assert ((e, Mark w) ∈ of_txn t (sent (u2 ++ EvStop wA :: v ++ drop n tr))) as Hin by (apply elem_of_txn, elem_sent; done). rewrite Hsn in Hin. by apply elem_of_nil in Hin.
Qed.
End Proofs.
