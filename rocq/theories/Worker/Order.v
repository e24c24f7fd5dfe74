(** What comes before what in the trace, and the offsets. *)
From Verif.Worker Require Export Inv.

(** what must hold of the trace before an event *)
Definition before (c : cfg) (u : list ev) (y : ev) : Prop :=
  match y with
  | EvKeep o => wm c <= o
  | EvSkip o => o < wm c \/ exists e o', EvHand e ∈ u /\ c_off e = Some o' /\ o <= o'
  | EvAcq e => e ∉ acqs u
  | EvRej e => e ∈ acqs u /\ e ∉ answered u /\ EvRevoke ∈ u
  | EvHand e => e ∈ acqs u /\ e ∉ answered u
  | EvDone e => e ∈ hands u /\ e ∉ ends u
  | EvRel e => e ∈ ends u /\ e ∉ rels u
  | _ => True
  end.
Definition Good (c : cfg) (tr : list ev) : Prop := forall u y v, tr = u ++ y :: v -> before c u y.
Lemma Good_snoc c tr x : Good c tr -> before c tr x -> Good c (tr ++ [x]).
Proof.
  intros G B u y v E. destruct v as [|z v _] using rev_ind.
  - apply app_inj_tail in E as (-> & ->). done.
  - apply (G u y v). rewrite app_comm_cons, app_assoc in E. apply app_inj_tail in E as (-> & _). done.
Qed.

Record Ord (c : cfg) (s : st) : Prop := {
  o_good : Good c (trace s);
  o_wm : wm c <= hw s;
  o_hw : hw s = wm c \/ exists e o, EvHand e ∈ trace s /\ c_off e = Some o /\ hw s = S o;
  o_hands : forall e, e ∈ hands (trace s) -> wp s = WHandle e \/ e ∈ async s \/ e ∈ ends (trace s);
  o_running : forall e, wp s = WHandle e \/ e ∈ async s -> e ∈ hands (trace s);
  o_rev : revoked s = true -> EvRevoke ∈ trace s;
  o_ans : forall e, (e, false) ∈ answers s -> revoked s = true }.

Lemma Ord_start c : Ord c (start c).
Proof.
  split; cbn; try done; try (by intros ? ?%elem_of_nil); try (by left).
  - intros u y v E. by destruct u.
  - intros e [?|?%elem_of_nil]; done.
Qed.

(** steps that leave the worker's own part alone *)
Lemma Ord_same c s s' x : Ord c s -> (trace s' = trace s \/ trace s' = trace s ++ [x] /\ before c (trace s) x /\ hands [x] = [] /\ ends [x] = []) ->
  hw s' = hw s -> (forall e, wp s' = WHandle e <-> wp s = WHandle e) -> async s' = async s -> (revoked s' = true -> revoked s = true \/ x = EvRevoke /\ trace s' = trace s ++ [x]) ->
  (forall e, (e, false) ∈ answers s' -> (e, false) ∈ answers s \/ revoked s' = true) -> (revoked s = true -> revoked s' = true) -> Ord c s'.
Proof.
  intros I T H W A R N M. destruct I as [Og Ow Oh Oa Or Ov On].
  assert (S1 : forall y, y ∈ trace s -> y ∈ trace s') by (intros y Hy; destruct T as [->|(-> & _)]; [done|apply elem_of_app; by left]).
  assert (Hh : hands (trace s') = hands (trace s)) by (destruct T as [->|(-> & _ & HH & _)]; [done|by rewrite hands_app, HH, app_nil_r]).
  assert (He : ends (trace s') = ends (trace s)) by (destruct T as [->|(-> & _ & _ & HH)]; [done|by rewrite ends_app, HH, app_nil_r]).
  split.
  - destruct T as [->|(-> & B & _)]; [done|by apply Good_snoc].
  - by rewrite H.
  - rewrite H. destruct Oh as [?|(e & o & ? & ? & ?)]; [by left|]. right. exists e, o. auto.
  - intros e. rewrite Hh, He, A, W. apply Oa.
  - intros e. rewrite Hh, A, W. apply Or.
  - intros Hr. destruct (R Hr) as [?|(-> & ->)]; [auto|]. apply elem_of_app. right. by left.
  - intros e Hx. destruct (N e Hx) as [?|?]; [|done]. apply M. by eapply On.
Qed.
Ltac same2 I x := apply (Ord_same _ _ _ x I); fields; rw; [..|try done|try done|try (by left)|try (by left)|try done]; auto.

Lemma held_fresh c s e : Inv c s -> e ∈ held s -> e ∈ acqs (trace s) /\ e ∉ rels (trace s).
Proof.
  intros I H. split.
  - rewrite (acq _ _ I). apply elem_of_app. by left.
  - intros Hr. pose proof (nodup _ _ I) as N. rewrite !NoDup_app in N. destruct N as (_ & _ & _ & N & _). by apply (N e).
Qed.
Lemma wheld_held s e : e ∈ wheld (wp s) -> e ∈ held s.
Proof. intros H. unfold held. rewrite !elem_of_app. tauto. Qed.
Lemma async_held s e : e ∈ async s -> e ∈ held s.
Proof. intros H. unfold held. rewrite !elem_of_app. tauto. Qed.
Lemma wheld_async c s e : Inv c s -> e ∈ wheld (wp s) -> e ∉ async s.
Proof. intros I. pose proof (nodup _ _ I) as N. unfold held in N. rewrite !NoDup_app in N. destruct N as (_ & _ & ((_ & _ & _ & _ & _ & _ & _ & N & _) & _)). apply N. Qed.
(** a context in a queue or being assigned has been neither ended nor handed over *)
Lemma cur_fresh c s e : Inv c s -> Ord c s -> wp s = WAssign e -> e ∉ ends (trace s) /\ e ∉ hands (trace s) /\ e ∉ answered (trace s).
Proof.
  intros I O W.
  assert (Hh : e ∈ held s) by (apply wheld_held; rewrite W; by left).
  assert (He : e ∉ ends (trace s)). { rewrite (end_ _ _ I), W. cbn. by apply (held_fresh c s e). }
  assert (Ha : e ∉ hands (trace s)).
  { intros H. destruct (o_hands _ _ O e H) as [?|[Ha|?]]; [congruence| |done].
    revert Ha. apply (wheld_async c s e I). rewrite W. by left. }
  split; [done|]. split; [done|]. rewrite elem_of_list_In. rewrite <- elem_of_list_In, elem_answered. rewrite elem_hands in Ha. rewrite elem_ends in He. tauto.
Qed.

Theorem Ord_step c s a s' : Inv c s -> Ord c s -> step c s a = Some s' -> Ord c s'.
Proof.
  intros I O E. destruct a; cbn [step] in E.
  - split_step E; try done. same2 O EvPanic.
  - split_step E; same2 O EvPanic. right. repeat split.
  - split_step E. same2 O EvRevoke. right. repeat split.
  - split_step E; same2 O EvPanic.
  - split_step E; try done; same2 O EvPanic.
  - split_step E; [same2 O EvPanic|same2 O (EvKeep n)|same2 O (EvSkip n)]; right; (split; [reflexivity|split; [|split; reflexivity]]).
    + cbn. apply Nat.leb_le in Heqb. pose proof (o_wm _ _ O). lia.
    + cbn. apply Nat.leb_gt in Heqb. destruct (o_hw _ _ O) as [Hw|(e & o & ? & ? & Hw)]; [left; lia|]. right. exists e, o. repeat split; auto. lia.
  - split_step E. same2 O (EvAcq e). right. split; [reflexivity|split; [|split; reflexivity]]. cbn. rewrite (acq _ _ I).
    pose proof (nodup _ _ I) as N. rewrite Heqp in N. cbn in N. by apply NoDup_cons in N as (? & _).
  - split_step E. same2 O EvPanic.
  - split_step E; same2 O EvPanic.
  - split_step E. same2 O EvPanic.
  - split_step E. same2 O EvPanic.
  - split_step E. same2 O EvClose. right. repeat split.
  - split_step E; same2 O EvPanic.
    intros x [?|[= ->]%elem_of_list_singleton]%elem_of_app; auto.
  - split_step E; same2 O EvPanic.
  - split_step E. same2 O EvPanic. all: split; congruence.
  - split_step E. same2 O EvPanic. all: split; congruence.
  - (* WGet *) split_step E; destruct (cur_fresh _ _ _ I O Heqw) as (F1 & F2 & F3).
    all: assert (Hac : e ∈ acqs (trace s)) by (apply (held_fresh c s e I); apply wheld_held; rewrite Heqw; by left).
    all: destruct O as [Og Ow Oh Oa Or Ov On].
    + set (s1 := match c_off e with Some o => set_hw (S o) s | None => s end).
      assert (Q : trace s1 = trace s /\ async s1 = async s /\ revoked s1 = revoked s /\ answers s1 = answers s) by (subst s1; by destruct (c_off e)).
      destruct Q as (Q1 & Q2 & Q3 & Q4).
      split; fields; rewrite ?Q1, ?Q2, ?Q3, ?Q4; autorewrite with views; ones.
      * apply Good_snoc; [done|]. done.
      * assert (Hk : forall o, c_off e = Some o -> wm c <= o).
        { intros o Ho. assert (Hko : o ∈ keeps (trace s)). { rewrite (kept _ _ I), Heqw. cbn [wcur]. rewrite offs_one, Ho. set_solver. }
          unfold keeps in Hko. apply elem_flat in Hko as (y & Hy & Hyo). destruct y; try (by apply elem_of_nil in Hyo). apply elem_of_list_singleton in Hyo. subst.
          apply elem_of_list_split in Hy as (u & v & Hs). apply (Og u _ v Hs). }
        subst s1. destruct (c_off e) eqn:Ho; cbn; [|done]. specialize (Hk n eq_refl). lia.
      * subst s1. destruct (c_off e) as [o|] eqn:Ho; cbn.
        { right. exists e, o. split; [|done]. apply elem_of_app. right. by left. }
        destruct Oh as [?|(x & o & ? & ? & ?)]; [by left|]. right. exists x, o. split; [|done]. apply elem_of_app. by left.
      * intros x [Hx| ->%elem_of_list_singleton]%elem_of_app; [|by left]. destruct (Oa x Hx) as [?|[?|?]]; [congruence|by right; left|right; right; set_solver].
      * intros x Hx. apply elem_of_app. destruct Hx as [[= ->]|Hx]; [right; by left|left]. apply Or. by right.
      * intros Hr. apply elem_of_app. left. auto.
      * done.
    + split; fields; autorewrite with views; ones.
      * apply Good_snoc; [done|]. split; [done|]. split; [done|]. apply Ov. by eapply On.
      * done.
      * destruct Oh as [?|(x & o & ? & ? & ?)]; [by left|]. right. exists x, o. split; [|done]. apply elem_of_app. by left.
      * rewrite app_nil_r. intros x Hx. destruct (Oa x Hx) as [?|[?|?]]; [congruence|by right; left|right; right; set_solver].
      * rewrite app_nil_r. intros x [Hx|Hx]; [done|]. apply Or. by right.
      * intros Hr. apply elem_of_app. left. auto.
      * done.
  - (* WJob *) split_step E; try (same2 O EvPanic; fail).
    1,3: same2 O (EvTwice c0); try (right; by repeat split); try (split; congruence).
    all: assert (Ha : c0 ∈ async s) by (destruct (hnd _ _ I c0) as [?|[?|?]]; [apply (job_at _ _ I); rewrite Heql; by left|congruence|done|done]).
    all: assert (He : c0 ∉ ends (trace s)) by (rewrite (end_ _ _ I), Heqw; cbn; apply (held_fresh c s c0 I); by apply async_held).
    all: pose proof (o_running _ _ O c0 (or_intror Ha)) as Hh.
    all: destruct O as [Og Ow Oh Oa Or Ov On]; split; fields; autorewrite with views; ones; rewrite ?app_nil_r; try done.
    all: try (by apply Good_snoc).
    all: try (destruct Oh as [?|(x & o & ? & ? & ?)]; [by left|]; right; exists x, o; split; [|done]; apply elem_of_app; by left).
    all: try (intros Hr; apply elem_of_app; left; by auto).
    all: try (intros x Hx; destruct (Oa x Hx) as [?|[?|?]]; [congruence| |right; right; set_solver]; destruct (decide (x = c0)) as [->|]; [right; right; set_solver|right; left; by apply elem_of_list_filter]).
    all: intros x [Hx|Hx]; [done|]; apply elem_of_list_filter in Hx as (_ & Hx); apply Or; by right.
  - (* WReturn *) split_step E.
    all: pose proof (o_running _ _ O e (or_introl Heqw)) as Hh.
    all: assert (He : e ∉ ends (trace s)) by (rewrite (end_ _ _ I), Heqw; cbn; apply (held_fresh c s e I); apply wheld_held; rewrite Heqw; by left).
    all: destruct O as [Og Ow Oh Oa Or Ov On]; split; fields; autorewrite with views; ones; rewrite ?app_nil_r; try done.
    all: try (by apply Good_snoc).
    all: try (destruct Oh as [?|(x & o & ? & ? & ?)]; [by left|]; right; exists x, o; split; [|done]; apply elem_of_app; by left).
    all: try (intros Hr; apply elem_of_app; left; by auto).
    + intros x Hx. destruct (Oa x Hx) as [Hw|[?|?]]; [|by right; left|right; right; set_solver]. rewrite Heqw in Hw. injection Hw as ->. right; right. set_solver.
    + intros x [Hx|Hx]; [done|]. apply Or. by right.
    + intros x Hx. destruct (Oa x Hx) as [Hw|[?|?]]; [|right; left; by right|by right; right]. rewrite Heqw in Hw. injection Hw as ->. right; left. by left.
    + intros x [Hx|Hx]; [done|]. apply elem_of_cons in Hx as [->|Hx]; [done|]. apply Or. by right.
  - (* WRelease *) split_step E. same2 O (EvRel e); [|destruct back; split; congruence]. right. split; [reflexivity|]. split; [|split; reflexivity]. split.
    + rewrite (end_ _ _ I), Heqw. by left.
    + apply (held_fresh c s e I). apply wheld_held. rewrite Heqw. destruct back; by left.
  - split_step E. same2 O EvPanic. all: split; congruence.
  - split_step E; same2 O EvPanic. right. repeat split.
Qed.

Theorem Ord_run c acts : forall s s', Inv c s -> Ord c s -> run c s acts = Some s' -> Inv c s' /\ Ord c s'.
Proof.
  induction acts as [|a acts IH]; cbn; intros s s' I O R; [injection R as <-; by split|].
  destruct (step c s a) as [s1|] eqn:E; [|done]. eapply IH; [by eapply Inv_step|by eapply Ord_step|exact R].
Qed.
