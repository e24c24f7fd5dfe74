(** The invariant holds in every reachable state. *)
From Verif.Worker Require Export Base.

Ltac one f x := let r := eval cbv in (f [x]) in change (f [x]) with r in *.
Ltac ones := repeat match goal with
  | |- context [keeps [?x]] => one keeps x | |- context [sees [?x]] => one sees x | |- context [acqs [?x]] => one acqs x | |- context [rels [?x]] => one rels x
  | |- context [ends [?x]] => one ends x | |- context [hands [?x]] => one hands x | |- context [answered [?x]] => one answered x
  | H : context [keeps [?x]] |- _ => one keeps x | H : context [sees [?x]] |- _ => one sees x | H : context [acqs [?x]] |- _ => one acqs x | H : context [rels [?x]] |- _ => one rels x
  | H : context [ends [?x]] |- _ => one ends x | H : context [hands [?x]] |- _ => one hands x | H : context [answered [?x]] |- _ => one answered x end.
Ltac fields := cbn [hw tokens rcv input pp pool answers evq ijq wp async jobs revoked stopping waits settled nctx trace
  set_hw set_tokens set_rcv set_input set_pp set_pool set_answers set_evq set_ijq set_wp set_async set_jobs set_revoked set_stopping set_waits set_settled set_nctx emit
  ptok pheld prest wheld wcur wrel app length] in *.
Ltac norm := unfold held in *; fields; autorewrite with views in *; ones; fields; rewrite ?app_nil_r in *.

Lemma Inv_start c : Inv c (start c).
Proof. split; unfold held; cbn; try done; try (by intros ? ?%elem_of_nil); try constructor; lia. Qed.

(** what is decided by a step: the program counters and the queues *)
Ltac split_step E := repeat match type of E with
  | None = Some _ => discriminate E
  | Some _ = Some _ => injection E as <-
  | (match ?x with _ => _ end) = _ => destruct x eqn:?
  | (if ?x then _ else _) = _ => destruct x eqn:? end.
Ltac rw := repeat match goal with
  | H : pp ?s = _ |- _ => is_var s; rewrite H in *; clear H
  | H : wp ?s = _ |- _ => is_var s; rewrite H in *; clear H
  | H : evq ?s = _ |- _ => is_var s; rewrite H in *; clear H
  | H : ijq ?s = _ |- _ => is_var s; rewrite H in *; clear H
  | H : jobs ?s = _ |- _ => is_var s; rewrite H in *; clear H end.

Lemma nodup_perm {A} (l k : list A) : l ≡ₚ k -> NoDup k -> NoDup l.
Proof. intros H. by rewrite H. Qed.
Lemma Inv_same c s s' : Inv c s -> tokens s' = tokens s -> pp s' = pp s \/ (ptok (pp s') = ptok (pp s) /\ pheld (pp s') = pheld (pp s)) -> evq s' = evq s -> ijq s' = ijq s -> wp s' = wp s \/ (wheld (wp s') = wheld (wp s) /\ wcur (wp s') = wcur (wp s) /\ wrel (wp s') = wrel (wp s) /\ forall e, wp s <> WHandle e) ->
  async s' = async s -> jobs s' = jobs s -> nctx s' = nctx s ->
  (trace s' = trace s \/ exists x, trace s' = trace s ++ [x] /\ match x with EvSkip _ | EvRevoke | EvClose | EvPanic | EvTwice _ => True | _ => False end) -> Inv c s'.
Proof.
  intros I T P EQ IQ W AS J N TR.
  assert (P' : ptok (pp s') = ptok (pp s) /\ pheld (pp s') = pheld (pp s)) by (destruct P as [->|P]; auto).
  assert (W' : wheld (wp s') = wheld (wp s) /\ wcur (wp s') = wcur (wp s) /\ wrel (wp s') = wrel (wp s)) by (destruct W as [->|(?&?&?&?)]; auto).
  assert (R : rels (trace s') = rels (trace s) /\ acqs (trace s') = acqs (trace s) /\ ends (trace s') = ends (trace s) /\ keeps (trace s') = keeps (trace s) /\ answered (trace s') = answered (trace s) /\ hands (trace s') = hands (trace s)).
  { destruct TR as [->|(x & -> & Hx)]; [done|]. autorewrite with views. destruct x; try done; ones; rewrite !app_nil_r; done. }
  destruct P' as (P1 & P2), W' as (W1 & W2 & W3), R as (R1 & R2 & R3 & R4 & R5 & R6).
  assert (HH : held s' = held s) by (unfold held; by rewrite P2, EQ, IQ, W1, AS).
  destruct I as [Iid Ind Iac Itk Icp Ien Ija Ihn Ievs Iij Ikp]. split; rewrite ?HH, ?R1, ?R2, ?R3, ?R4, ?R5, ?R6, ?P1, ?P2, ?T, ?EQ, ?IQ, ?W2, ?W3, ?AS, ?J, ?N; try done.
  intros e He. destruct (Ihn e He) as [?|[?|?]]; [|by right; left|right; right; destruct TR as [->|(x & -> & _)]; [done|apply elem_of_app; by left]].
  destruct W as [->|(_ & _ & _ & W)]; [by left|]. by destruct (W e).
Qed.


Lemma offs_one e : offs [e] = match c_off e with Some o => [o] | None => [] end.
Proof. unfold offs. cbn. by destruct (c_off e). Qed.
Lemma offs_cons e l : offs (e :: l) = offs [e] ++ offs l.
Proof. apply (offs_app [e] l). Qed.
Ltac same I := eapply Inv_same; [exact I|fields; rw; try reflexivity; try (by left)..].
Ltac perm H := eapply Permutation_trans; [|exact H]; solve_Permutation.
Ltac kp H := rewrite ?H; change (offs []) with (@nil nat); rewrite ?(offs_cons _ (_ :: _)), ?offs_one; cbn [c_off app]; rewrite ?app_nil_r, <- ?(assoc_L (++)); try reflexivity.
Ltac len H := rewrite ?H; repeat (rewrite ?app_length; cbn [length app wheld]); lia.
Ltac hn H := let x := fresh in let Hx := fresh in let K := fresh in intros x Hx; destruct (H x Hx) as [K|[K|K]];
  [solve [congruence | by left]|right; left; exact K|right; right; first [exact K | (apply elem_of_app; left; exact K)]].
Ltac auto_fields := match goal with
  | H : NoDup ?l |- NoDup ?k => solve [exact H | (eapply nodup_perm; [|exact H]; solve_Permutation)]
  | H : forall e, e ∈ ?l -> c_id e < _ |- forall e, e ∈ ?k -> c_id e < _ => let e := fresh in let He := fresh in intros e He; apply H; revert He; set_solver -H
  end.

Theorem Inv_step c s a s' : Inv c s -> step c s a = Some s' -> Inv c s'.
Proof.
  intros I E. destruct a; cbn [step] in E.
  - split_step E; try done. same I.
  - split_step E; same I; right; eexists; split; reflexivity || exact Logic.I.
  - split_step E. same I. right; eexists; split; reflexivity || exact Logic.I.
  - split_step E; same I. right; done.
  - split_step E; try done; destruct I as [Iid Ind Iac Itk Icp Ien Ija Ihn Ievs Iij Ikp]; unfold held in *; rw.
    all: assert (F : forall o x, x = mkCtx (nctx s) o -> x ∉ (evq s ++ ijq s ++ wheld (wp s) ++ async s) ++ rels (trace s)) by (intros o x -> Hx; pose proof (Iid _ Hx) as Hi; cbn in Hi; lia).
    all: split; unfold held in *; fields; try done.
    all: try (by intros e [->|He]%elem_of_cons; [cbn; lia|]; specialize (Iid e He); lia).
    all: try (by apply NoDup_cons; split; [eapply F; reflexivity|]).
    all: rewrite offs_one; exact Ikp.
  - split_step E; try (same I; [right; done|done..]); try (same I; [right; done|right; eexists; split; [reflexivity|exact Logic.I]]).
    destruct I as [Iid Ind Iac Itk Icp Ien Ija Ihn Ievs Iij Ikp]; unfold held in *; rw.
    assert (F : mkCtx (nctx s) (Some n) ∉ (evq s ++ ijq s ++ wheld (wp s) ++ async s) ++ rels (trace s)) by (intros Hx; pose proof (Iid _ Hx) as Hi; cbn in Hi; lia).
    split; norm; try done.
    + intros e [->|He]%elem_of_cons; [cbn; lia|]. specialize (Iid e He); lia.
    + by apply NoDup_cons.
    + hn Ihn.
    + kp Ikp.
  - (* PAcq *) split_step E. apply Nat.ltb_lt in Heqb. destruct I as [Iid Ind Iac Itk Icp Ien Ija Ihn Ievs Iij Ikp]; unfold held in *; rw. split; norm; try done; try auto_fields; try lia.
    + rewrite Iac. solve_Permutation.
    + hn Ihn.
  - split_step E. same I. right; done.
  - (* PPut *) split_step E; destruct I as [Iid Ind Iac Itk Icp Ien Ija Ihn Ievs Iij Ikp]; unfold held in *; rw; split; norm; try done; try auto_fields.
    1,4: rewrite Iac; solve_Permutation. 1,3: rewrite Itk; rewrite !app_length; cbn; lia.
    + intros x [Hx|Hx%elem_of_list_singleton]%elem_of_app; [by apply Ievs|]. subst. by eexists.
    + intros x [Hx|Hx%elem_of_list_singleton]%elem_of_app; [by apply Iij|]. by subst.
    + kp Ikp. by rewrite Heqo, app_nil_r.
  - split_step E. same I. right; done.
  - split_step E. same I. right; done.
  - split_step E. same I; right; [done|]. eexists; split; [reflexivity|exact Logic.I].
  - split_step E; same I.
  - split_step E; same I.
  - (* WTake *) split_step E; destruct I as [Iid Ind Iac Itk Icp Ien Ija Ihn Ievs Iij Ikp]; unfold held in *; rw; split; norm; try done; try auto_fields.
    + rewrite Iac; solve_Permutation.
    + len Itk.
    + hn Ihn.
    + intros x Hx. apply Ievs. by right.
    + rewrite (offs_cons c0 l) in Ikp. kp Ikp.
  - split_step E; destruct I as [Iid Ind Iac Itk Icp Ien Ija Ihn Ievs Iij Ikp]; unfold held in *; rw; split; norm; try done; try auto_fields.
    + rewrite Iac; solve_Permutation.
    + len Itk.
    + hn Ihn.
    + intros x Hx. apply Iij. by right.
    + kp Ikp. rewrite (Iij c0) by by left. done.
  - (* WGet *) split_step E; destruct I as [Iid Ind Iac Itk Icp Ien Ija Ihn Ievs Iij Ikp]; unfold held in *; rw; try (destruct (c_off e) eqn:Ho); split; norm; try done; try auto_fields.
    all: try (intros x Hx; apply elem_of_app; left; by apply Ija).
    all: try (hn Ihn).
    all: try (intros x [Hx|Hx%elem_of_list_singleton]%elem_of_app; [destruct (Ihn x Hx) as [?|[?|?]]; [done|by right; left|right; right; apply elem_of_app; by left]|left; by subst]).
    all: try (kp Ikp; done).
    all: try (rewrite Ien; solve_Permutation).
  - (* WJob *)
    assert (NJ : forall q x, jobs s = x :: q -> Inv c (set_jobs q s)).
    { intros q x Hq. destruct I as [Iid Ind Iac Itk Icp Ien Ija Ihn Ievs Iij Ikp]. split; unfold held in *; fields; try done. intros y Hy. apply Ija. rewrite Hq. by right. }
    split_step E.
    3,6: by eapply NJ.
    1,3: eapply Inv_same; [by eapply NJ|fields; try rewrite Heqw; try reflexivity; try (by left)..]; [right; done|right; eexists; split; [reflexivity|exact Logic.I]].
    all: destruct I as [Iid Ind Iac Itk Icp Ien Ija Ihn Ievs Iij Ikp]; rewrite Heqw, Heql in *.
    all: assert (Ha : c0 ∈ async s) by (destruct (Ihn c0) as [?|[?|?]]; [apply Ija; by left|done..]).
    all: assert (Na : NoDup (async s)) by (unfold held in Ind; rewrite !NoDup_app in Ind; tauto).
    all: pose proof (remove_perm _ _ Na Ha) as P; set (f := filter (fun x => x <> c0) (async s)) in *.
    all: assert (Pl : length (async s) = S (length f)) by (by rewrite P).
    all: assert (Pi : forall x, x ∈ f -> x ∈ async s) by (intros x Hx; rewrite P; by right).
    all: unfold held in *; split; norm; rewrite ?Heqw in *; try done.
    all: try (intros x Hx; apply Ija; by right).
    all: try (intros x Hx; destruct (Ihn x Hx) as [?|[Hj|?]]; [done| |right; right; apply elem_of_app; by left]; rewrite P in Hj; apply elem_of_cons in Hj as [->|Hj]; [right; right; apply elem_of_app; right; by left|by right; left]).
    all: try (intros x Hx; apply Iid; revert Hx; clear -Pi Ha; set_solver).
    all: try (rewrite P in Ind; eapply nodup_perm; [|exact Ind]; solve_Permutation).
    all: try (rewrite Iac, P; solve_Permutation).
    all: try (rewrite Ien; solve_Permutation).
    all: try (len Itk).
    all: try (kp Ikp).
  - (* WReturn *) split_step E; destruct I as [Iid Ind Iac Itk Icp Ien Ija Ihn Ievs Iij Ikp]; unfold held in *; rw; split; norm; try done; try auto_fields.
    all: try (rewrite Ien; solve_Permutation).
    all: try (rewrite Iac; solve_Permutation).
    all: try (len Itk).
    + intros x Hx. destruct (Ihn x Hx) as [[= ->]|[?|?]]; [right; right; apply elem_of_app; right; by left|by right; left|right; right; apply elem_of_app; by left].
    + intros x Hx. destruct (Ihn x Hx) as [[= ->]|[?|?]]; [right; left; by left|right; left; by right|by right; right].
  - (* WRelease *) split_step E; destruct I as [Iid Ind Iac Itk Icp Ien Ija Ihn Ievs Iij Ikp]; unfold held in *; rw; destruct back as [e'|]; split; norm; try done; try auto_fields.
    all: try (rewrite Ien; solve_Permutation).
    all: try (rewrite Iac; solve_Permutation).
    all: try (revert Itk; len Itk).
    all: try (hn Ihn).
  - split_step E. same I. right. done.
  - split_step E; try (same I; right; eexists; split; [reflexivity|exact Logic.I]).
    all: destruct I as [Iid Ind Iac Itk Icp Ien Ija Ihn Ievs Iij Ikp]; unfold held in *; split; norm; try done; rewrite ?Heqp in *; fields; try done.
    all: intros x [Hx|Hx%elem_of_list_singleton]%elem_of_app; [by apply Ija|subst; by apply elem_hands].
Qed.

Theorem Inv_run c acts : forall s s', Inv c s -> run c s acts = Some s' -> Inv c s'.
Proof.
  induction acts as [|a acts IH]; cbn; intros s s' I R; [by injection R as <-|].
  destruct (step c s a) as [s1|] eqn:E; [|done]. eapply IH; [|exact R]. by eapply Inv_step.
Qed.
