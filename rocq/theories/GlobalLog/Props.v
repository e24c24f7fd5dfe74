(** Properties C99, C100 and C101. *)
From stdpp Require Import prelude list.
From Coq Require Import Lia.
From Verif.GlobalLog Require Import Model Proofs.
Open Scope nat_scope.
#[local] Arguments Nat.ltb : simpl never.

Lemma wit n acts s (P : st -> Prop) : match run n s acts with Some s' => P s' | None => False end -> exists s', run n s acts = Some s' /\ P s'.
Proof. destruct (run n s acts) as [s'|]; [intros H; exists s'; auto|intros []]. Qed.
Lemma wit2 n acts s acts' (P : st -> st -> Prop) :
  match run n s acts with Some s1 => match run n s1 acts' with Some s' => P s1 s' | None => False end | None => False end ->
  exists s1 s', run n s acts = Some s1 /\ run n s1 acts' = Some s' /\ P s1 s'.
Proof. destruct (run n s acts) as [s1|]; [|intros []]. destruct (run n s1 acts') as [s'|] eqn:E; [intros H; exists s1, s'; auto|intros []]. Qed.

(** C99, if Start is called once: the receiver has got the records of each partition from the beginning, in order, each once *)
Theorem c99_in_order_partial n acts s p : run n init acts = Some s -> starts acts <= 1 -> (forall o, ResumeAt p o ∉ acts) ->
  of_part p (out s) = seq 0 (length (of_part p (out s))) /\ length (of_part p (out s)) <= appends p acts.
Proof.
  intros R O N. destruct (counts n acts init s R) as (Cg & Cl & _). specialize (Cl p). cbn in Cg, Cl. rewrite <- Cg in O. rewrite <- Cl. clear Cg Cl. destruct (flow n acts p init s O N R) as (_ & _ & F). cbn in F. rewrite Nat.sub_0_r in F. change (of_part p []) with (@nil nat) in F. cbn in F.
  assert (L : length (of_part p (out s)) <= pos s p). { apply (f_equal (@length nat)) in F. rewrite app_length, seq_length in F. lia. }
  assert (Lp : pos s p <= len s p) by (apply (position_run n p acts init s); [cbn; lia|exact N|exact R]). split; [|lia].
  replace (pos s p) with (length (of_part p (out s)) + (pos s p - length (of_part p (out s)))) in F by lia. rewrite seq_app in F. apply app_inj_1 in F as [F _]; [exact F|]. rewrite seq_length. reflexivity.
Qed.
Print Assumptions c99_in_order_partial.

(** C99, everything: as long as Stop has not been called and the partition is not paused, the goroutine can always go on by itself until the
    receiver has all records of the partition *)
Theorem c99_everything_partial n acts s p : run n init acts = Some s -> starts acts = 1 -> (forall o, ResumeAt p o ∉ acts) -> Stop ∉ acts -> Pause p ∉ acts -> PauseAll ∉ acts -> p < n ->
  exists more s', Forall own more /\ run n s more = Some s' /\ of_part p (out s') = seq 0 (appends p acts).
Proof.
  intros R S1 N NS NP NA Lp. destruct (counts n acts init s R) as (Cg & Cl & Cr). specialize (Cl p). cbn in Cg, Cl, Cr. rewrite S1 in Cg.
  assert (Ru : running s = true) by tauto. assert (P : paused s p = false) by (refine (unpaused_run n p acts init s _ NP NA R); reflexivity).
  destruct (gs s) as [|g [|]] eqn:G; [discriminate Cg| |discriminate Cg]. rewrite <- Cl. assert (O : one s) by (unfold one; rewrite G; cbn; lia). destruct (flow n acts p init s O N R) as (_ & _ & F). cbn in F. rewrite Nat.sub_0_r in F.
  change (of_part p []) with (@nil nat) in F. cbn in F.
  assert (C : closed s = false). { assert (Op : open_ok s) by (refine (open_run n acts init s _ R); intros _; reflexivity). exact (Op Ru). }
  assert (Ne : g <> Ended). { intros ->. assert (K : closing s) by (refine (closing_run n acts init s _ R); intros ? X; discriminate X). specialize (K 0). rewrite G in K. specialize (K eq_refl). congruence. }
  assert (L : pos s p <= len s p) by (apply (position_run n p acts init s); [cbn; lia|exact N|exact R]).
  destruct (all_forwarded n s g p G Ne Ru C Lp P L) as (more & s' & Fo & R' & El & Eo). exists more, s'. split; [exact Fo|]. split; [exact R'|].
  rewrite Eo, app_assoc, F, <- seq_app. f_equal. lia.
Qed.
Print Assumptions c99_everything_partial.

(** C99 is false if Start is called twice: the records of one partition reach the receiver out of order *)
Theorem c99_two_starts_refuted : exists acts s, run 1 init acts = Some s /\ (forall p o, ResumeAt p o ∉ acts) /\ of_part 0 (out s) = [1; 0].
Proof.
  set (acts := [Append 0; Append 0; Start; Start; Check 0; Check 1; Return 0 [(0, 1)]; Return 1 [(0, 1)]; Forward 1; Forward 0]). exists acts.
  destruct (wit 1 acts init (fun s => of_part 0 (out s) = [1; 0])) as (s & R & H); [vm_compute; reflexivity|]. exists s. split; [exact R|]. split; [|exact H].
  unfold acts. intros p o X. repeat (apply elem_of_cons in X as [X|X]; [discriminate X|]). inversion X.
Qed.
Print Assumptions c99_two_starts_refuted.

(** C99 is false for a topic with more partitions than numPartitions says: nothing of the others is ever forwarded *)
Theorem c99_more_partitions_refuted n acts s p : n <= p -> run n init acts = Some s -> of_part p (out s) = [].
Proof. intros Lp R. exact (beyond n p acts init s Lp (fun _ _ X => match (ltac:(discriminate X) : False) with end) eq_refl R). Qed.
Print Assumptions c99_more_partitions_refuted.

(** C100, pausing: after Pause only what had been fetched before is forwarded *)
Theorem c100_pause_partial n acts s p acts' s' s1 : run n init acts = Some s -> (step n s (Pause p) = Some s1 \/ (p < n /\ step n s PauseAll = Some s1)) ->
  run n s1 acts' = Some s' -> starts (acts ++ acts') <= 1 -> (forall o, ResumeAt p o ∉ acts') ->
  exists rest, of_part p (out s') ++ rest = of_part p (out s) ++ of_part p (inflight s).
Proof.
  intros R S R' O N. rewrite starts_app in O. assert (G1 : length (gs s1) = length (gs s)) by (destruct S as [S|[_ S]]; cbn in S; injection S as <-; reflexivity).
  destruct (counts n acts init s R) as (Cg & _ & _). destruct (counts n acts' s1 s' R') as (Cg' & _ & _). cbn in Cg. assert (O' : one s') by (unfold one; lia). clear O. rename O' into O.
  assert (P : paused s1 p = true /\ out s1 = out s /\ inflight s1 = inflight s).
  { destruct S as [S|[Lp S]]; cbn in S; injection S as <-; cbn; [unfold set; rewrite Nat.eqb_refl; auto|]. destruct (Nat.ltb_spec p n); [auto|lia]. }
  destruct P as (P & Eo & Ei). destruct (paused_run n p acts' s1 s' P N R') as [_ E]. destruct (flow n acts' p s1 s' O N R') as (_ & _ & F). rewrite E, Nat.sub_diag, app_nil_r, Eo, Ei in F.
  exists (of_part p (inflight s')). exact F.
Qed.
Print Assumptions c100_pause_partial.

(** C100, resuming: after ResumePartitionAt the receiver gets what had been fetched before, and then the records from that offset on, in order *)
Theorem c100_resume_partial n acts s p o acts' s' s1 : run n init acts = Some s -> p < n -> step n s (ResumeAt p o) = Some s1 ->
  run n s1 acts' = Some s' -> starts (acts ++ acts') <= 1 -> (forall o, ResumeAt p o ∉ acts') ->
  exists rest k, of_part p (out s') ++ rest = of_part p (out s) ++ of_part p (inflight s) ++ seq o k.
Proof.
  intros R Lp S R' O N. cbn in S. destruct (Nat.ltb_spec p n); [|lia]. injection S as <-. rewrite starts_app in O.
  destruct (counts n acts init s R) as (Cg & _ & _). destruct (counts n acts' _ s' R') as (Cg' & _ & _). cbn in Cg, Cg'. assert (O' : one s') by (unfold one; lia).
  destruct (flow n acts' p _ s' O' N R') as (_ & _ & F). cbn in F. unfold set in F. rewrite Nat.eqb_refl in F.
  eexists _, _. exact F.
Qed.
Print Assumptions c100_resume_partial.
(** and it gets all of them: the goroutine can always go on by itself until the receiver has the records from that offset up to the last one written *)
Theorem c100_resume_everything_partial n acts s p o acts' s' s1 : run n init acts = Some s -> p < n -> o <= appends p acts -> step n s (ResumeAt p o) = Some s1 ->
  run n s1 acts' = Some s' -> starts (acts ++ acts') = 1 -> (forall o, ResumeAt p o ∉ acts') -> Stop ∉ acts ++ acts' -> Pause p ∉ acts' -> PauseAll ∉ acts' ->
  exists more s2, Forall own more /\ run n s' more = Some s2 /\ of_part p (out s2) = of_part p (out s) ++ of_part p (inflight s) ++ seq o (appends p (acts ++ acts') - o).
Proof.
  intros R Lp Lo S R' O N NS NP NA. cbn in S. destruct (Nat.ltb_spec p n); [|lia]. injection S as <-. rewrite starts_app in O. rewrite not_elem_of_app in NS. destruct NS as [NS NS'].
  destruct (counts n acts init s R) as (Cg & Cl & Cr). specialize (Cl p). cbn in Cg, Cl, Cr. match type of R' with run n ?x _ = _ => set (s1 := x) in R' end.
  destruct (counts n acts' s1 s' R') as (Cg' & Cl' & Cr'). specialize (Cl' p). cbn in Cg', Cl', Cr'. assert (Ru : running s' = true) by tauto.
  assert (P : paused s' p = false) by (refine (unpaused_run n p acts' s1 s' _ NP NA R'); cbn; unfold set; rewrite Nat.eqb_refl; reflexivity).
  destruct (gs s') as [|g [|]] eqn:G; cbn in Cg'; [lia| |lia]. assert (O' : one s') by (unfold one; rewrite G; cbn; lia).
  assert (Op : open_ok s1). { assert (X : open_ok s) by (refine (open_run n acts init s _ R); intros _; reflexivity). exact X. }
  assert (C : closed s' = false). { exact (open_run n acts' s1 s' Op R' Ru). }
  assert (K0 : closing s1). { assert (K : closing s) by (refine (closing_run n acts init s _ R); intros ? X; discriminate X). exact K. }
  assert (Ne : g <> Ended). { intros ->. pose proof (closing_run n acts' s1 s' K0 R' 0) as K. rewrite G in K. specialize (K eq_refl). congruence. }
  assert (L : pos s' p <= len s' p). { apply (position_run n p acts' s1 s'); [|exact N|exact R']. cbn. unfold set. rewrite Nat.eqb_refl. lia. }
  destruct (flow n acts' p s1 s' O' N R') as (_ & Lps & F). cbn in F, Lps. unfold set in F, Lps. rewrite Nat.eqb_refl in F, Lps.
  destruct (all_forwarded n s' g p G Ne Ru C Lp P L) as (more & s2 & Fo & R2 & El & Eo). exists more, s2. split; [exact Fo|]. split; [exact R2|].
  rewrite Eo, app_assoc, F, <- !app_assoc. do 2 f_equal. replace (appends p (acts ++ acts') - o) with ((pos s' p - o) + (len s' p - pos s' p)) by (rewrite appends_app; lia).
  rewrite seq_app. f_equal. f_equal. lia.
Qed.
Print Assumptions c100_resume_everything_partial.

(** C100 is false as stated: a record fetched before is forwarded after Pause has returned, and after ResumePartitionAt the next record is not the one asked for *)
Theorem c100_pause_refuted : exists acts acts' s s', run 1 init (acts ++ [Pause 0]) = Some s /\ run 1 s acts' = Some s' /\ length (gs s') = 1 /\ (forall p o, ResumeAt p o ∉ acts') /\
  of_part 0 (out s) = [] /\ of_part 0 (out s') = [0].
Proof.
  set (acts := [Append 0; Start; Check 0; Return 0 [(0, 1)]]). set (acts' := [Forward 0]). exists acts, acts'.
  destruct (wit2 1 (acts ++ [Pause 0]) init acts' (fun s s' => length (gs s') = 1 /\ of_part 0 (out s) = [] /\ of_part 0 (out s') = [0])) as (s & s' & R & R' & H1 & H2 & H3); [vm_compute; auto|].
  exists s, s'. repeat (split; [assumption|]). split; [|split; assumption]. unfold acts'. intros p o X. repeat (apply elem_of_cons in X as [X|X]; [discriminate X|]). inversion X.
Qed.
Print Assumptions c100_pause_refuted.
Theorem c100_resume_refuted : exists acts acts' s s', run 1 init (acts ++ [ResumeAt 0 0]) = Some s /\ run 1 s acts' = Some s' /\ length (gs s') = 1 /\ (forall p o, ResumeAt p o ∉ acts') /\
  of_part 0 (out s) = [0] /\ of_part 0 (out s') = [0; 1; 0; 1].
Proof.
  set (acts := [Append 0; Append 0; Start; Check 0; Return 0 [(0, 2)]; Forward 0; Pause 0]). set (acts' := [Forward 0; Forward 0; Check 0; Return 0 [(0, 2)]; Forward 0; Forward 0]). exists acts, acts'.
  destruct (wit2 1 (acts ++ [ResumeAt 0 0]) init acts' (fun s s' => length (gs s') = 1 /\ of_part 0 (out s) = [0] /\ of_part 0 (out s') = [0; 1; 0; 1])) as (s & s' & R & R' & H1 & H2 & H3); [vm_compute; auto|].
  exists s, s'. repeat (split; [assumption|]). split; [|split; assumption]. unfold acts'. intros p o X. repeat (apply elem_of_cons in X as [X|X]; [discriminate X|]). inversion X.
Qed.
Print Assumptions c100_resume_refuted.

Lemma stopped n acts s : run n init acts = Some s -> Stop ∈ acts -> running s = false.
Proof. intros R St. destruct (counts n acts init s R) as (_ & _ & C). destruct (running s); [|reflexivity]. destruct (proj1 C eq_refl) as [_ X]. contradiction. Qed.
(** C101: after Stop each goroutine gets the result of at most one more poll, the one it is in; it can always go on until it has ended, and when one
    has ended the client is closed *)
Theorem c101_no_more_polls n acts s acts' s' g : run n init acts = Some s -> Stop ∈ acts -> run n s acts' = Some s' ->
  returns g acts' <= 1 /\ (gs s !! g <> Some Polling -> returns g acts' = 0).
Proof.
  intros R St R'. pose proof (stopped n acts s R St) as Ru. pose proof (returns_run n g acts' s s' Ru R') as H. unfold mayPoll in H. destruct (gs s !! g) as [[]|]; split; try lia; congruence.
Qed.
Print Assumptions c101_no_more_polls.
Theorem c101_ends_and_closes n acts s g : run n init acts = Some s -> g < starts acts -> exists x, gs s !! g = Some x /\
  ((x = Ended /\ closed s = true) \/ (exists a s', (a = Check g \/ a = Return g [] \/ a = Forward g) /\ step n s a = Some s')).
Proof.
  intros R Lg. destruct (counts n acts init s R) as (Cg & _ & _). cbn in Cg. destruct (gs s !! g) as [x|] eqn:G; [|apply lookup_ge_None in G; lia]. exists x. split; [reflexivity|]. destruct (ended_or_enabled n s g x G) as [->|[(s' & E)|[(s' & E)|(s' & E)]]]; [left; split; [reflexivity|]|right..].
  - assert (K : closing s) by (refine (closing_run n acts init s _ R); intros ? X; discriminate X). exact (K g G).
  - exists (Check g), s'. auto.
  - exists (Return g []), s'. auto.
  - exists (Forward g), s'. auto.
Qed.
Print Assumptions c101_ends_and_closes.
(** C101: and a goroutine that is not in a poll then ends after the records it has: there are only so many steps it can take *)
Theorem c101_ends_soon n acts s acts' s' g x : run n init acts = Some s -> Stop ∈ acts -> gs s !! g = Some x -> x <> Polling -> run n s acts' = Some s' ->
  exists y, gs s' !! g = Some y /\ y <> Polling /\ steps g acts' + due y <= due x.
Proof. intros R St G N R'. exact (due_run n g acts' s s' x (stopped n acts s R St) G N R'). Qed.
Print Assumptions c101_ends_soon.
(** C101 is false for a log that was never started: Stop leaves its client open *)
Theorem c101_never_started_refuted n acts s : run n init acts = Some s -> Start ∉ acts -> closed s = false.
Proof. intros R N. exact (proj2 (never_started n acts init s eq_refl eq_refl N R)). Qed.
Print Assumptions c101_never_started_refuted.

Example c99_example :
  match run 2 init [Append 0; Append 1; Append 0; Start; Check 0; Return 0 [(0, 2); (1, 1)]; Forward 0; Append 0; Forward 0; Forward 0; Forward 0; Check 0; Return 0 [(0, 1)]; Forward 0] with
  | Some s => out s = [(0, 0); (0, 1); (1, 0); (0, 2)] /\ len s 0 = 3 /\ length (gs s) = 1 /\ running s = true | None => False end.
Proof. vm_compute. repeat split. Qed.
Example c100_example :
  match run 1 init [Append 0; Append 0; Append 0; Start; Check 0; Return 0 [(0, 2)]; Forward 0] with
  | Some s => match run 1 s [Pause 0; Forward 0; Forward 0; Check 0; Return 0 []] with Some s' => out s' = [(0, 0); (0, 1)] | None => False end /\
              match run 1 s [ResumeAt 0 1; Forward 0; Forward 0; Check 0; Return 0 [(0, 2)]; Forward 0] with Some s' => out s' = [(0, 0); (0, 1); (0, 1)] | None => False end
  | None => False end.
Proof. vm_compute. repeat split. Qed.
Example c101_example :
  match run 1 init [Append 0; Append 0; Start; Check 0; Stop; Return 0 [(0, 2)]; Forward 0; Forward 0; Forward 0; Check 0] with
  | Some s => out s = [(0, 0); (0, 1)] /\ gs s = [Ended] /\ closed s = true | None => False end.
Proof. vm_compute. repeat split. Qed.
