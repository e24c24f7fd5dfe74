From stdpp Require Import prelude list.
From Coq Require Import Lia.
From Verif.Callbacks Require Import Model Proofs.
Open Scope nat_scope.

(** What must have happened before an event *)
Definition grantedInTime (t : list ev) (w c : nat) : Prop := exists t1 t2, t = t1 ++ EvGrant w c :: t2 /\ EvHalt w ∉ t1.
Definition before (t : list ev) (e : ev) : Prop :=
  match e with
  | EvActivated p w => EvBooted w ∈ t
  | EvBegin w c => (exists p, EvActivated p w ∈ t) /\ grantedInTime t w c /\ EvOver w ∉ t
  | EvEnd w | EvOver w => EvOver w ∉ t
  | _ => True
  end.
Definition allBefore (t : list ev) : Prop := forall t1 e t2, t = t1 ++ e :: t2 -> before t1 e.
Lemma allBefore_snoc t e : allBefore t -> before t e -> allBefore (t ++ [e]).
Proof.
  intros A B t1 e' t2 E. destruct t2 as [|x t2 _] using rev_ind.
  - apply app_inj_tail in E as [-> ->]. exact B.
  - rewrite app_comm_cons, app_assoc in E. apply app_inj_tail in E as [-> ->]. exact (A _ _ _ eq_refl).
Qed.
Lemma allBefore_opt t es : allBefore t -> (es = [] \/ exists e, es = [e] /\ before t e) -> allBefore (t ++ es).
Proof. intros A [->|(e & -> & B)]; [rewrite app_nil_r; exact A|apply allBefore_snoc; auto]. Qed.
Lemma granted_mono t es w c : grantedInTime t w c -> grantedInTime (t ++ es) w c.
Proof. intros (t1 & t2 & -> & N). exists t1, (t2 ++ es). rewrite <- app_assoc. auto. Qed.

(** worker [w] in state [x], seen in the trace *)
Record wok (t : list ev) (w : nat) (x : worker) : Prop := mkWok {
  w_boot : stg x <> Boot -> EvBooted w ∈ t;
  w_act : stg x = Active \/ stg x = Over -> exists p, EvActivated p w ∈ t;
  w_over : EvOver w ∈ t -> stg x = Over;
  w_idle : stg x = Over -> q x = [] /\ busy x = false /\ batch x = 0;
  w_halt : halted x = false -> EvHalt w ∉ t;
  w_q : forall c, (c, Some true) ∈ q x -> grantedInTime t w c
}.
Definition touches (e : ev) (w : nat) : bool :=
  match e with EvHalt v => Nat.eqb v w | EvOver v => Nat.eqb v w | _ => false end.
Lemma wok_mono t es w x : wok t w x -> (forall e, e ∈ es -> touches e w = false) -> wok (t ++ es) w x.
Proof.
  intros [B A O I H Q] N. split.
  - intros X. apply elem_of_app. left. auto.
  - intros X. destruct (A X) as (p & P). exists p. apply elem_of_app. auto.
  - intros [X|X]%elem_of_app; [auto|]. specialize (N _ X). cbn in N. rewrite Nat.eqb_refl in N. discriminate.
  - exact I.
  - intros X [Y|Y]%elem_of_app; [exact (H X Y)|]. specialize (N _ Y). cbn in N. rewrite Nat.eqb_refl in N. discriminate.
  - intros c C. apply granted_mono. auto.
Qed.
Record inv (s : st) : Prop := mkInv {
  i_ws : forall w x, ws s !! w = Some x -> wok (trace s) w x;
  i_new : forall w, length (ws s) <= w -> EvHalt w ∉ trace s /\ EvOver w ∉ trace s;
  i_all : allBefore (trace s)
}.
Lemma inv_init : inv init.
Proof. split; cbn; [intros; discriminate|intros; split; apply not_elem_of_nil|]. intros t1 e t2 E. destruct t1; discriminate. Qed.
Lemma look_in b l c l' : look b l = Some (c, l') -> forall d, (d, Some true) ∈ l' -> (d, Some true) ∈ l \/ (d = c /\ b = true).
Proof.
  revert c l'. induction l as [|[a o] l IH]; intros c l' E d D; [discriminate|]. cbn in E. destruct o as [o|].
  - destruct (look b l) as [[c' l'']|] eqn:L; [|discriminate]. injection E as <- <-. apply elem_of_cons in D as [D|D]; [left; rewrite D; left|].
    destruct (IH _ _ eq_refl d D); [left; right; auto|auto].
  - injection E as <- <-. apply elem_of_cons in D as [D|D]; [injection D as -> <-; auto|left; right; auto].
Qed.
(** one worker moves *)
Lemma upd_inv s w x x' es : inv s -> ws s !! w = Some x -> (forall e v, e ∈ es -> v <> w -> touches e v = false) ->
  (es = [] \/ exists e, es = [e] /\ before (trace s) e) -> wok (trace s ++ es) w x' -> inv (upd w x' es s).
Proof.
  intros I X N B W. pose proof (lookup_lt_Some _ _ _ X) as Lt. split; cbn [ws trace upd].
  - intros v y Y. destruct (decide (v = w)) as [->|Ne]; [rewrite list_lookup_insert in Y by exact Lt; injection Y as <-; exact W|].
    rewrite list_lookup_insert_ne in Y by auto. apply wok_mono; [exact (i_ws _ I _ _ Y)|]. intros e E. apply N; auto.
  - intros v V. rewrite insert_length in V. destruct (i_new _ I v V) as [N1 N2]. split; intros [Z|Z]%elem_of_app; auto; specialize (N _ v Z ltac:(lia)); cbn in N; rewrite Nat.eqb_refl in N; discriminate.
  - apply allBefore_opt; [exact (i_all _ I)|exact B].
Qed.
Lemma inv_step s a s' : inv s -> step s a = Some s' -> inv s'.
Proof.
  intros I E. destruct a as [ps|ps| |w|w|w n|w|w|w|w|w|w]; cbn [step] in E.
  4-12: destruct (ws s !! w) as [x|] eqn:X; [|discriminate]; pose proof (i_ws _ I _ _ X) as [B A O D H Q].
  - destruct (cur s); [|discriminate]. case_decide; [|discriminate]. injection E as <-. destruct I as [I1 I2 I3]. split; assumption.
  - destruct (cur s); [|discriminate]. case_decide; [|discriminate]. injection E as <-. destruct I as [I1 I2 I3]. split; assumption.
  - destruct (cur s) as [|m l]; [discriminate|]. injection E as <-. destruct m as [p|p|p|p|p|p]; cbn [micro_step].
    2,3,5,6: destruct I as [I1 I2 I3]; (split; cbn [ws trace]; [intros w x X; apply wok_mono; [exact (I1 _ _ X)|]; intros e ->%elem_of_list_singleton; reflexivity|
      intros w W; destruct (I2 w W) as [N1 N2]; split; intros [Z|Z]%elem_of_app; auto; apply elem_of_list_singleton in Z; discriminate|
      apply allBefore_snoc; [exact I3|exact Logic.I]]).
    + destruct I as [I1 I2 I3]. split; cbn [ws trace]; [|intros w W; rewrite app_length in W; apply I2; lia|exact I3].
      intros w x X. apply lookup_app_Some in X as [X|[L X]]; [exact (I1 _ _ X)|]. apply list_lookup_singleton_Some in X as [L' <-]. destruct (I2 w L) as [N1 N2].
      split; cbn; try congruence; try tauto.
      * intros [|]; discriminate.
      * intros c C. apply elem_of_nil in C. contradiction.
    + destruct (find p (live s)) as [w|]; [destruct (ws s !! w) as [x|] eqn:X|]; try (destruct I as [I1 I2 I3]; split; assumption).
      pose proof (i_ws _ I _ _ X) as [B A O D H Q].
      assert (U : inv (upd w (mkW (part x) (stg x) true (batch x) (q x) (next x) (busy x)) [EvHalt w] s)); [|destruct U as [U1 U2 U3]; split; assumption].
      apply (upd_inv s w x); auto.
      * intros e v ->%elem_of_list_singleton Ne. cbn. apply Nat.eqb_neq. auto.
      * right. exists (EvHalt w). split; [reflexivity|exact Logic.I].
      * split; cbn; [intros Z; apply elem_of_app; auto|intros Z; destruct (A Z) as (p' & P); exists p'; apply elem_of_app; auto| |exact D|discriminate|intros c C; apply granted_mono; auto].
        intros [Z|Z]%elem_of_app; [auto|]. apply elem_of_list_singleton in Z. discriminate.
  - destruct (decide (stg x = Boot)) as [S|]; [|discriminate]. injection E as <-. apply (upd_inv s w x); auto.
    + intros e v ->%elem_of_list_singleton _. reflexivity.
    + right. exists (EvBooted w). split; [reflexivity|exact Logic.I].
    + split; cbn [stg q busy halted batch].
      * intros _. apply elem_of_app. right. left.
      * intros [|]; discriminate.
      * intros [Z|Z]%elem_of_app; [specialize (O Z); congruence|]. apply elem_of_list_singleton in Z. discriminate.
      * discriminate.
      * intros Z [Y|Y]%elem_of_app; [exact (H Z Y)|]. apply elem_of_list_singleton in Y. discriminate.
      * intros c C. apply granted_mono. auto.
  - destruct (decide (stg x = Booted)) as [S|]; [|discriminate]. injection E as <-. apply (upd_inv s w x); auto.
    + intros e v ->%elem_of_list_singleton _. reflexivity.
    + right. exists (EvActivated (part x) w). split; [reflexivity|]. apply B. rewrite S. discriminate.
    + split; cbn [stg q busy halted batch].
      * intros _. apply elem_of_app. left. apply B. rewrite S. discriminate.
      * intros _. exists (part x). apply elem_of_app. right. left.
      * intros [Z|Z]%elem_of_app; [specialize (O Z); congruence|]. apply elem_of_list_singleton in Z. discriminate.
      * discriminate.
      * intros Z [Y|Y]%elem_of_app; [exact (H Z Y)|]. apply elem_of_list_singleton in Y. discriminate.
      * intros c C. apply granted_mono. auto.
  - case_decide as S; [|discriminate]. injection E as <-. apply (upd_inv s w x); auto; [intros e v []%elem_of_nil|]. rewrite app_nil_r. split; cbn [stg q busy halted batch]; auto.
    intros Z. destruct S as ([S|S] & _); congruence.
  - destruct (batch x) eqn:Bx; [discriminate|]. injection E as <-. apply (upd_inv s w x); auto; [intros e v []%elem_of_nil|]. rewrite app_nil_r. split; cbn [stg q busy halted batch]; auto.
    + intros Z. destruct (D Z) as (_ & _ & Z0). congruence.
    + intros c [C|C]%elem_of_app; [auto|]. apply elem_of_list_singleton in C. discriminate.
  - destruct (batch x) eqn:Bx; [discriminate|]. injection E as <-. apply (upd_inv s w x); auto; [intros e v []%elem_of_nil|]. rewrite app_nil_r. split; cbn [stg q busy halted batch]; auto.
    intros Z. destruct (D Z) as (_ & _ & Z0). congruence.
  - destruct (look _ _) as [[c l]|] eqn:L; [|discriminate]. injection E as <-. apply (upd_inv s w x); auto.
    + intros e v. destruct (halted x); [intros []%elem_of_nil|]. intros ->%elem_of_list_singleton _. reflexivity.
    + destruct (halted x); [left; reflexivity|right]. eexists. split; [reflexivity|exact Logic.I].
    + split; cbn [stg q busy halted batch].
      * intros Z. apply elem_of_app. auto.
      * intros Z. destruct (A Z) as (p' & P). exists p'. apply elem_of_app. auto.
      * intros [Z|Z]%elem_of_app; [auto|]. destruct (halted x); [apply elem_of_nil in Z; contradiction|]. apply elem_of_list_singleton in Z. discriminate.
      * intros Z. destruct (D Z) as [Eq _]. rewrite Eq in L. discriminate.
      * intros Z. rewrite Z. intros [Y|Y]%elem_of_app; [exact (H Z Y)|]. apply elem_of_list_singleton in Y. discriminate.
      * intros d F. destruct (look_in _ _ _ _ L d F) as [G|[-> G]]; [apply granted_mono; auto|]. apply negb_true_iff in G. rewrite G. exists (trace s), []. split; [reflexivity|]. exact (H G).
  - destruct (q x) as [|[c [b|]] l] eqn:Eq; try discriminate. destruct (busy x); [discriminate|]. case_decide as S; [|discriminate]. injection E as <-. apply (upd_inv s w x); auto.
    + intros e v. destruct b; [|intros []%elem_of_nil]. intros ->%elem_of_list_singleton _. reflexivity.
    + destruct b; [right|left; reflexivity]. eexists. split; [reflexivity|]. cbn. split; [apply A; auto|]. split; [apply Q; left|]. intros Z. specialize (O Z). congruence.
    + split; cbn [stg q busy halted batch].
      * intros Z. apply elem_of_app. auto.
      * intros Z. destruct (A Z) as (p' & P). exists p'. apply elem_of_app. auto.
      * intros [Z|Z]%elem_of_app; [auto|]. destruct b; [|apply elem_of_nil in Z; contradiction]. apply elem_of_list_singleton in Z. discriminate.
      * intros Z. congruence.
      * intros Z [Y|Y]%elem_of_app; [exact (H Z Y)|]. destruct b; [|apply elem_of_nil in Y; contradiction]. apply elem_of_list_singleton in Y. discriminate.
      * intros d F. apply granted_mono. apply Q. right. exact F.
  - destruct (busy x) eqn:Bx; [|discriminate]. injection E as <-.
    assert (NO : EvOver w ∉ trace s) by (intros Z; destruct (D (O Z)) as (? & ? & ?); congruence). apply (upd_inv s w x); auto.
    + intros e v ->%elem_of_list_singleton _. reflexivity.
    + right. eexists. split; [reflexivity|exact NO].
    + split; cbn [stg q busy halted batch].
      * intros Z. apply elem_of_app. auto.
      * intros Z. destruct (A Z) as (p' & P). exists p'. apply elem_of_app. auto.
      * intros [Z|Z]%elem_of_app; [auto|]. apply elem_of_list_singleton in Z. discriminate.
      * intros Z. destruct (D Z) as (? & ? & ?). auto.
      * intros Z [Y|Y]%elem_of_app; [exact (H Z Y)|]. apply elem_of_list_singleton in Y. discriminate.
      * intros d F. apply granted_mono. auto.
  - case_decide as S; [|discriminate]. injection E as <-. destruct S as (S1 & S2 & S3 & S4 & S5).
    assert (NO : EvOver w ∉ trace s) by (intros Z; specialize (O Z); congruence). apply (upd_inv s w x); auto.
    + intros e v ->%elem_of_list_singleton Ne. cbn. apply Nat.eqb_neq. auto.
    + right. eexists. split; [reflexivity|exact NO].
    + split; cbn [stg q busy halted batch].
      * intros _. apply elem_of_app. left. apply B. congruence.
      * intros _. destruct (A (or_introl S1)) as (p' & P). exists p'. apply elem_of_app. auto.
      * reflexivity.
      * auto.
      * congruence.
      * intros c []%elem_of_nil.
Qed.
Lemma inv_run acts : forall s s', inv s -> run s acts = Some s' -> inv s'.
Proof. induction acts as [|a l IH]; intros s s' I R; cbn in R; [injection R as <-; exact I|]. destruct (step s a) eqn:E; [|discriminate]. exact (IH _ _ (inv_step _ _ _ I E) R). Qed.
