From stdpp Require Import prelude list sorting.
From Verif.Fetch Require Import Model.
Open Scope nat_scope.

Lemma last_app l1 l2 d : lastCommit (l1 ++ l2) d = lastCommit l2 (lastCommit l1 d).
Proof. revert d. induction l1 as [|[] l1 IH]; intros d; cbn; auto. Qed.
Lemma last_in l d w : lastCommit l d = Some w -> d = Some w \/ Commit w ∈ l.
Proof.
  revert d. induction l as [|[x|] l IH]; intros d; cbn; [auto| |]; intros H; apply IH in H as [H|H].
  - injection H as ->. right. left.
  - right. by right.
  - auto.
  - right. by right.
Qed.
Definition offsets (l : list item) : list nat := flat_map (fun x => match x with Commit w => [w] | Marker => [] end) l.
Lemma offsets_in l w : w ∈ offsets l <-> Commit w ∈ l.
Proof.
  unfold offsets. rewrite elem_of_list_In, in_flat_map. split.
  - intros ([x|] & H & HI); cbn in HI; [destruct HI as [->|[]]; by apply elem_of_list_In|done].
  - intros H. exists (Commit w). split; [by apply elem_of_list_In|by left].
Qed.
Lemma last_max l d : StronglySorted le (offsets l) -> (forall w, d = Some w -> forall x, Commit x ∈ l -> w <= x) -> forall w, d = Some w \/ Commit w ∈ l -> exists m, lastCommit l d = Some m /\ w <= m.
Proof.
  revert d. induction l as [|[x|] l IH]; cbn; intros d S D w W.
  - destruct W as [->|W]; [eauto|by apply elem_of_nil in W].
  - apply StronglySorted_inv in S as [S F]. assert (X : forall y, Commit y ∈ l -> x <= y) by (intros y Hy; eapply Forall_forall in F; [exact F|by apply offsets_in]).
    destruct W as [->|W].
    + destruct (IH (Some x) S) with (w := x) as (m & M & L); [intros ? [= <-]; exact X|auto|]. exists m. split; [exact M|]. specialize (D w eq_refl x ltac:(left)). lia.
    + apply IH; [exact S|intros ? [= <-]; exact X|]. apply elem_of_cons in W as [[= ->]|W]; auto.
  - apply IH; [exact S|intros ? -> y Hy; eapply D; [reflexivity|by right]|]. destruct W as [W|W]; [auto|]. apply elem_of_cons in W as [[=]|W]; auto.
Qed.

(** the offset from which is read is covered by the commits in l *)
Definition covered (a : nat) (l : list item) : Prop := a = 0 \/ exists w, Commit w ∈ l /\ a <= w.
Lemma covered_app a l l' : covered a l -> covered a (l ++ l').
Proof. intros [H|(w & I & L)]; [by left|]. right. exists w. rewrite elem_of_app. auto. Qed.
Lemma adjust_covered s : covered (group s) (log s) -> covered (adjust (watermark s) (group s)) (log s).
Proof.
  intros H. unfold adjust. destruct (watermark s) as [[|w]|] eqn:W; try exact H. right. exists (S w). split; [|lia].
  apply last_in in W as [[=]|W]. apply elem_of_take in W as (i & W & _). by apply elem_of_list_lookup_2 in W.
Qed.
Record inv (s : st) : Prop := {
  v_group : covered (group s) (log s);
  v_start : marked s = false -> Marker ∉ log s /\ forall a, start s = Some a -> covered a (log s);
  v_mark : marked s = true -> exists l1 l2 a, log s = l1 ++ Marker :: l2 /\ Marker ∉ l1 /\ start s = Some a /\ covered a l1;
  v_high : forall h, high s = Some h -> marked s = true /\ exists n, h = lastCommit (take n (log s)) None /\ Marker ∈ take n (log s)
}.
Lemma inv_init : inv init.
Proof. split; cbn; [by left|intros _; split; [intros X; by apply elem_of_nil in X|done]|done|done]. Qed.
Lemma inv_log s x : inv s -> x <> Marker -> inv (mkSt (log s ++ [x]) (seen s) (group s) (start s) (marked s) (high s) (fetched s) (taken s) (handed s)).
Proof.
  intros [A B C D] N. split; cbn.
  - by apply covered_app.
  - intros M. destruct (B M) as [B1 B2]. split; [rewrite elem_of_app, elem_of_list_singleton; intuition congruence|]. intros a Ha. apply covered_app. auto.
  - intros M. destruct (C M) as (l1 & l2 & a & E & C'). exists l1, (l2 ++ [x]), a. rewrite E, <- app_assoc. auto.
  - intros h Hh. destruct (D h Hh) as (M & n & E & I). split; [exact M|]. exists (min n (length (log s))).
    rewrite take_app_le by lia. rewrite <- firstn_firstn, firstn_all in *. auto.
Qed.
Lemma inv_step input s a s' : (forall b, a <> GLegacy b) -> inv s -> step input s a = Some s' -> inv s'.
Proof.
  intros NL H E. destruct a as [w| |b|b| | | | |]; cbn [step] in E.
  - injection E as <-. by apply inv_log.
  - destruct (_ <? _); [|discriminate]. injection E as <-. destruct H as [A B C D]. by split.
  - destruct (existsb _ _) eqn:X; [|discriminate]. injection E as <-. destruct H as [A B C D]. split; cbn; try assumption.
    apply existsb_exists in X as ([w|] & I & L); [|discriminate]. right. exists w. apply Nat.leb_le in L. split; [by apply elem_of_list_In|exact L].
  - by destruct (NL b).
  - destruct (start s) eqn:S; [discriminate|]. injection E as <-. pose proof (adjust_covered s (v_group _ H)) as Ad. destruct H as [A B C D]. split; cbn; try assumption.
    + intros M. destruct (B M) as [B1 _]. split; [exact B1|]. intros a [= <-]. exact Ad.
    + intros M. destruct (C M) as (l1 & l2 & a & _ & _ & X & _). congruence.
  - destruct (start s) as [a|] eqn:S; [|discriminate]. destruct (marked s) eqn:M; [discriminate|]. injection E as <-. destruct H as [A B C D]. split; cbn.
    + by apply covered_app.
    + done.
    + intros _. destruct (B M) as [B1 B2]. exists (log s), [], a. auto.
    + intros h Hh. destruct (D h Hh). congruence.
  - destruct (high s) eqn:Hi; [discriminate|]. case_bool_decide as Mk; [|discriminate]. injection E as <-. destruct H as [A B C D]. split; cbn; try assumption.
    intros h [= <-]. split; [|exists (seen s); auto]. destruct (marked s) eqn:M; [done|]. destruct (B eq_refl) as [B1 _]. destruct B1. apply elem_of_take in Mk as (i & Mk & _). by apply elem_of_list_lookup_2 in Mk.
  - destruct (start s) as [a|] eqn:S; [|discriminate]. destruct (_ !! _); [|discriminate]. injection E as <-. destruct H as [A B C D]. rewrite <- S. split; cbn; try assumption; rewrite ?S in *; assumption.
  - destruct (high s) as [h|] eqn:S; [|discriminate]. destruct (_ !! _); [|discriminate]. injection E as <-. destruct H as [A B C D]. split; cbn; rewrite ?S in *; assumption.
Qed.

(** what is fetched and handed over *)
Record flow (input : list nat) (s : st) : Prop := {
  f_none : start s = None -> fetched s = [];
  f_fetched : forall a, start s = Some a -> fetched s = take (length (fetched s)) (filter (fun o => a <= o) input);
  f_taken : taken s <= length (fetched s);
  f_new : high s = None -> taken s = 0 /\ handed s = [];
  f_handed : forall h, high s = Some h -> handed s = List.filter (passes h) (take (taken s) (fetched s))
}.
Lemma flow_init input : flow input init.
Proof. by split. Qed.
Lemma flow_step input s a s' : flow input s -> step input s a = Some s' -> flow input s'.
Proof.
  intros [A B C D F] E. destruct a as [w| |b|b| | | | |]; cbn [step] in E.
  - injection E as <-. by split.
  - destruct (_ <? _); [|discriminate]. injection E as <-. by split.
  - destruct (existsb _ _) eqn:X; [|discriminate]. injection E as <-. by split.
  - injection E as <-. by split.
  - destruct (start s) eqn:S; [discriminate|]. injection E as <-. rewrite (A eq_refl) in *. split; cbn; try done.
  - destruct (start s) as [a|] eqn:S; [|discriminate]. destruct (marked s) eqn:M; [discriminate|]. injection E as <-. split; cbn; rewrite ?S in *; done.
  - destruct (high s) eqn:Hi; [discriminate|]. destruct (bool_decide _); [|discriminate]. injection E as <-. destruct (D eq_refl) as [D1 D2]. split; cbn; try done. intros h _. by rewrite D1, D2.
  - destruct (start s) as [a|] eqn:S; [|discriminate]. destruct (_ !! _) as [o|] eqn:L; [|discriminate]. injection E as <-. split; cbn; try done.
    + intros a' [= <-]. rewrite app_length. cbn. rewrite Nat.add_1_r. erewrite take_S_r by exact L. f_equal. by apply B.
    + rewrite app_length. lia.
    + intros h Hh. rewrite take_app_le by exact C. by apply F.
  - destruct (high s) as [h|] eqn:S; [|discriminate]. destruct (_ !! _) as [o|] eqn:L; [|discriminate]. injection E as <-. split; cbn; try done.
    + apply lookup_lt_Some in L. lia.
    + intros h' [= <-]. erewrite take_S_r by exact L. rewrite List.filter_app, <- (F h eq_refl). cbn. destruct (passes h o); [done|by rewrite app_nil_r].
Qed.
Lemma run_inv (P : st -> Prop) input s acts s' : P s -> (forall s a s', a ∈ acts -> P s -> step input s a = Some s' -> P s') -> run input s acts = Some s' -> P s'.
Proof.
  intros H0 H. revert s H0. induction acts as [|a l IH]; intros s H0 R; cbn in R; [by injection R as <-|].
  destruct (step input s a) as [s1|] eqn:E; [|discriminate]. eapply (IH ltac:(intros x y z Hy; apply H; by right) s1); [|exact R]. eapply H; [left|eassumption|exact E].
Qed.
Lemma inv_run input acts s : run input init acts = Some s -> (forall b, GLegacy b ∉ acts) -> inv s.
Proof. intros R N. revert R. apply run_inv; [apply inv_init|]. intros x a y I Hx E. eapply inv_step; [|exact Hx|exact E]. intros b ->. exact (N b I). Qed.
Lemma flow_run input acts s : run input init acts = Some s -> flow input s.
Proof. apply run_inv; [apply flow_init|]. intros x a y _. apply flow_step. Qed.

Lemma sorted_app_l {A} (R : A -> A -> Prop) l l' : StronglySorted R (l ++ l') -> StronglySorted R l.
Proof. induction l as [|x l IH]; cbn; [constructor|]. intros H. apply StronglySorted_inv in H as [H1 H2]. apply Forall_app in H2 as [H2 _]. constructor; auto. Qed.
Lemma resume_ge s h : inv s -> StronglySorted le (offsets (log s)) -> high s = Some h ->
  exists l1 l2 a, log s = l1 ++ Marker :: l2 /\ Marker ∉ l1 /\ start s = Some a /\ (forall w, Commit w ∈ l1 -> exists m, h = Some m /\ w <= m) /\ (a = 0 \/ exists m, h = Some m /\ a <= m).
Proof.
  intros I S Hh. destruct (v_high _ I h Hh) as (M & n & E & K). destruct (v_mark _ I M) as (l1 & l2 & a & L & N & St & C).
  assert (P : exists l3, take n (log s) = l1 ++ l3).
  { rewrite L in K |- *. destruct (decide (n <= length l1)) as [Le|Gt].
    - exfalso. rewrite take_app_le in K by exact Le. apply elem_of_take in K as (i & K & _). apply N. by apply elem_of_list_lookup_2 in K.
    - rewrite take_app_ge by lia. eauto. }
  destruct P as [l3 P]. assert (Q : forall w, Commit w ∈ l1 -> exists m, h = Some m /\ w <= m).
  { intros w W. rewrite E. apply last_max; [|done|right; rewrite P, elem_of_app; auto].
    rewrite <- (take_drop n (log s)) in S. unfold offsets in S. rewrite flat_map_app in S. by apply sorted_app_l in S. }
  exists l1, l2, a. split; [exact L|]. split; [exact N|]. split; [exact St|]. split; [exact Q|].
  destruct C as [->|(w & W & Le)]; [by left|]. right. destruct (Q w W) as (m & -> & Hm). exists m. split; [done|lia].
Qed.
Definition from (h : option nat) (a : nat) : nat := match h with Some w => w | None => a end.
Lemma filter_prefix (P : nat -> bool) n l : exists m, List.filter P (take n l) = take m (List.filter P l).
Proof.
  revert n. induction l as [|x l IH]; intros [|n]; cbn; try (exists 0; reflexivity). destruct (IH n) as [m M].
  destruct (P x); [exists (S m); cbn; by rewrite M|by exists m].
Qed.
Lemma filter_std (P : nat -> Prop) `{forall x, Decision (P x)} l : filter P l = List.filter (fun x => bool_decide (P x)) l.
Proof. induction l as [|x l IH]; [done|]. rewrite filter_cons. cbn [List.filter]. case_bool_decide; destruct (decide (P x)); try done. by rewrite IH. Qed.
Lemma filter_twice (P Q : nat -> bool) l : (forall x, P x = true -> Q x = true) -> List.filter P (List.filter Q l) = List.filter P l.
Proof. intros H. induction l as [|x l IH]; [done|]. cbn. destruct (Q x) eqn:E; cbn; [by rewrite IH|]. destruct (P x) eqn:F; [|exact IH]. rewrite (H x F) in E. discriminate. Qed.
Lemma handed_from input acts s h a : run input init acts = Some s -> high s = Some h -> start s = Some a -> (a = 0 \/ exists m, h = Some m /\ a <= m) ->
  exists n, handed s = take n (filter (fun o => from h 0 <= o) input).
Proof.
  intros R Hh St C. pose proof (flow_run _ _ _ R) as F. rewrite (f_handed _ _ F h Hh), (f_fetched _ _ F a St), take_take.
  destruct (filter_prefix (passes h) (taken s `min` length (fetched s)) (filter (fun o => a <= o) input)) as [n ->]. exists n. f_equal.
  rewrite !filter_std. rewrite filter_twice.
  - apply List.filter_ext. intros x. destruct h as [w|]; cbn; [|case_bool_decide; [done|lia]]. case_bool_decide; [apply Nat.leb_le|apply Nat.leb_gt]; lia.
  - intros x Hx. case_bool_decide as Q; [done|]. destruct C as [->|(m & -> & L)]; [lia|]. cbn in Hx. apply Nat.leb_le in Hx. lia.
Qed.

(** once lastProcessed has returned, the whole rest of the input can be fetched and handed over *)
Lemma passes_from input h a : (a = 0 \/ exists m, h = Some m /\ a <= m) ->
  List.filter (passes h) (filter (fun o => a <= o) input) = filter (fun o => from h 0 <= o) input.
Proof.
  intros C. rewrite !filter_std. rewrite filter_twice.
  - apply List.filter_ext. intros x. destruct h as [w|]; cbn; [|case_bool_decide; [done|lia]]. case_bool_decide; [apply Nat.leb_le|apply Nat.leb_gt]; lia.
  - intros x Hx. case_bool_decide as Q; [done|]. destruct C as [->|(m & -> & L)]; [lia|]. cbn in Hx. apply Nat.leb_le in Hx. lia.
Qed.
Lemma run_app input l1 : forall s l2, run input s (l1 ++ l2) = match run input s l1 with Some y => run input y l2 | None => None end.
Proof. induction l1 as [|a l1 IH]; intros s l2; cbn; [done|]. destruct (step input s a); [apply IH|done]. Qed.
Lemma high_stays input s a s' h : step input s a = Some s' -> high s = Some h -> high s' = Some h.
Proof. intros E H. destruct a; cbn in E; repeat case_match; simplify_eq; cbn; congruence. Qed.
Lemma synced input acts s : run input init acts = Some s -> ASync ∈ acts -> exists h, high s = Some h.
Proof.
  intros R I. apply elem_of_list_split in I as (l1 & l2 & ->). rewrite run_app in R. destruct (run input init l1) as [s1|]; [|discriminate]. cbn [run] in R.
  destruct (step input s1 ASync) as [s2|] eqn:E; [|discriminate]. cbn in E. destruct (high s1); [discriminate|]. destruct (bool_decide _); [|discriminate]. injection E as <-.
  exists (watermark s1). revert R. apply (run_inv (fun x => high x = Some (watermark s1))); [done|]. intros x a y _ Hx E. eapply high_stays; eauto.
Qed.
Definition reading (a : action) : Prop := a = FFetch \/ a = FHand.
Lemma fetch_all input a h : forall k s, flow input s -> start s = Some a -> high s = Some h -> length (filter (fun o => a <= o) input) - length (fetched s) <= k ->
  exists acts s', Forall reading acts /\ run input s acts = Some s' /\ start s' = Some a /\ high s' = Some h /\ flow input s' /\ fetched s' = filter (fun o => a <= o) input.
Proof.
  induction k as [|k IH]; intros s F St Hi K.
  - exists [], s. split; [constructor|]. split; [done|]. split; [done|]. split; [done|]. split; [done|]. rewrite (f_fetched _ _ F a St). apply take_ge. lia.
  - destruct (filter (fun o => a <= o) input !! length (fetched s)) as [o|] eqn:E.
    + destruct (step input s FFetch) as [s1|] eqn:S; [|cbn in S; rewrite St, E in S; discriminate].
      pose proof (flow_step _ _ _ _ F S) as F1. cbn in S. rewrite St, E in S. injection S as <-.
      destruct (IH _ F1) as (acts & s' & A & B & C); [done|done|cbn; rewrite app_length; cbn; lia|].
      exists (FFetch :: acts), s'. split; [constructor; [by left|done]|]. split; [|done]. cbn [run step]. rewrite St, E. exact B.
    + exists [], s. split; [constructor|]. split; [done|]. split; [done|]. split; [done|]. split; [done|]. rewrite (f_fetched _ _ F a St). apply take_ge. apply lookup_ge_None in E. lia.
Qed.
Lemma hand_all input h L : forall k s, flow input s -> high s = Some h -> fetched s = L -> length L - taken s <= k ->
  exists acts s', Forall reading acts /\ run input s acts = Some s' /\ handed s' = List.filter (passes h) L.
Proof.
  induction k as [|k IH]; intros s F Hi E K.
  - exists [], s. split; [constructor|]. split; [done|]. rewrite (f_handed _ _ F h Hi), E, take_ge; [done|lia].
  - destruct (L !! taken s) as [o|] eqn:Eo.
    + destruct (step input s FHand) as [s1|] eqn:S; [|cbn in S; rewrite Hi, E, Eo in S; discriminate].
      pose proof (flow_step _ _ _ _ F S) as F1. cbn in S. rewrite Hi, E, Eo in S. injection S as <-.
      destruct (IH _ F1) as (acts & s' & A & B & C); [done|done|cbn; lia|].
      exists (FHand :: acts), s'. split; [constructor; [by right|done]|]. split; [|done]. cbn [run step]. rewrite Hi, E, Eo. exact B.
    + exists [], s. split; [constructor|]. split; [done|]. rewrite (f_handed _ _ F h Hi), E, take_ge; [done|]. by apply lookup_ge_None in Eo.
Qed.
Lemma no_gap input acts s : run input init acts = Some s -> (forall b, GLegacy b ∉ acts) -> StronglySorted le (offsets (log s)) -> ASync ∈ acts ->
  exists r l1 l2, log s = l1 ++ Marker :: l2 /\ Marker ∉ l1 /\ (forall w, w ∈ offsets l1 -> w <= r) /\ (r = 0 \/ r ∈ offsets (log s)) /\
    (exists n, handed s = take n (filter (fun o => r <= o) input)) /\
    exists acts' s', Forall reading acts' /\ run input s acts' = Some s' /\ handed s' = filter (fun o => r <= o) input.
Proof.
  intros R N S Sy. destruct (synced _ _ _ R Sy) as [h Hh]. pose proof (inv_run _ _ _ R N) as I.
  destruct (resume_ge s h I S Hh) as (l1 & l2 & a & L & NM & St & W & C). pose proof (flow_run _ _ _ R) as F.
  exists (from h 0), l1, l2. split; [exact L|]. split; [exact NM|]. split.
  { intros w Hw. apply offsets_in in Hw. destruct (W w Hw) as (m & -> & Lm). exact Lm. }
  split.
  { destruct (v_high _ I h Hh) as (_ & k & -> & _). destruct (lastCommit _ None) as [m|] eqn:E2; [|by left]. right. cbn.
    apply last_in in E2 as [E2|E2]; [discriminate|]. apply elem_of_take in E2 as (i & E2 & _). apply elem_of_list_lookup_2 in E2. by apply offsets_in. }
  split; [exact (handed_from _ _ _ _ _ R Hh St C)|].
  destruct (fetch_all input a h _ s F St Hh (le_n _)) as (A1 & s1 & Q1 & R1 & St1 & Hh1 & F1 & E1).
  destruct (hand_all input h _ _ s1 F1 Hh1 E1 (le_n _)) as (A2 & s2 & Q2 & R2 & E2).
  exists (A1 ++ A2), s2. split; [by apply Forall_app|]. split; [rewrite run_app, R1; exact R2|]. rewrite E2. by apply passes_from.
Qed.
Lemma nothing_before input acts s : run input init acts = Some s -> ASync ∉ acts -> handed s = [].
Proof.
  intros R N. assert (H : high s = None); [|by destruct (f_new _ _ (flow_run _ _ _ R) H)].
  revert R. apply (run_inv (fun x => high x = None)); [done|]. intros x a y I Hx E.
  destruct a; cbn in E; repeat case_match; simplify_eq; cbn; try done.
Qed.
