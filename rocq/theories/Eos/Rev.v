(** Revocation: which events are taken and which are rejected. These facts need no other invariant and hold with the answer Continue, too. *)
From stdpp Require Import prelude list sorting.
From Coq Require Import ZArith.
From Verif.Eos Require Import Model Base Struct Struct2 Step1.
Open Scope nat_scope.

Definition quiet_ev (x : ev) : bool := match x with EvArr _ | EvRej _ | EvTake _ | EvRevoke _ | EvStop _ => false | _ => true end.
Record Rv (s : st) : Prop := {
  rv_in : forall w, w ∈ revoked s <-> EvRevoke w ∈ trace s;
  rv_closed : forall w, w ∈ closed s -> w ∈ revoked s;
  rv_rej : forall u e v, trace s = u ++ EvRej e :: v -> EvRevoke (e_w e) ∈ u;
  rv_take : forall u e v, trace s = u ++ EvTake e :: v -> EvRevoke (e_w e) ∉ u;
  rv_stop : forall u w v, trace s = u ++ EvStop w :: v -> w ∈ closed s /\ EvRevoke w ∈ u /\ forall e, EvArr e ∈ v -> e_w e <> w;
}.
Lemma sendAll_quiet t l : Forall quiet_ev (sendAll t l).
Proof. unfold sendAll. apply Forall_fmap, Forall_true. done. Qed.
Lemma prod_quiet n e r s : Forall quiet_ev (prod_w n e r s).
Proof. unfold prod_w. case_decide; repeat constructor. Qed.

Lemma step_rv c s a s' : step c s a = Some s' ->
  (exists w, trace s' = trace s ++ w /\ Forall quiet_ev w /\ revoked s' = revoked s /\ closed s' = closed s) \/
  (exists x, trace s' = trace s ++ [x] /\ closed s' = closed s /\ revoked s' = match x with EvRevoke w => w :: revoked s | _ => revoked s end /\
    match x with EvArr e => e_w e ∉ closed s | EvRej e => e_w e ∈ revoked s | EvTake e => e_w e ∉ revoked s | EvStop w => w ∈ closed s /\ EvStop w ∉ trace s /\ waits s w = 0%Z | EvRevoke _ => True | _ => False end) \/
  (exists w, a = AClose w /\ w ∈ revoked s /\ trace s' = trace s /\ closed s' = w :: closed s /\ revoked s' = revoked s).
Proof.
  intros H.
  assert (forall s2, s2 = s' -> (exists w, trace s2 = trace s ++ w /\ Forall quiet_ev w) -> revoked s2 = revoked s -> closed s2 = closed s ->
    (exists w, trace s2 = trace s ++ w /\ Forall quiet_ev w /\ revoked s2 = revoked s /\ closed s2 = closed s)) as FR.
  { intros s2 -> (w & ? & ?) ? ?. eauto. }
  destruct a; cbn [step] in H.
  - case_decide as D; [done|]. injection H as <-. right; left. eexists. split; [reflexivity|]. done.
  - case_decide as D; [done|]. injection H as <-. right; left. eexists. split; [reflexivity|]. done.
  - case_decide as D; [|done]. injection H as <-. right; right. exists w. destruct D as [D1 D2]. done.
  - case_decide as D; [|done]. injection H as <-. right; left. eexists. split; [reflexivity|]. cbn. tauto.
  - case_decide; [|done]. injection H as <-. left. rewrite produceRecord_eq. apply FR; try done; [by rewrite produceRecord_eq|]. eexists. split; [reflexivity|]. apply prod_quiet.
  - case_decide; [|done]. injection H as <-. left. apply FR; try done. eexists. split; [reflexivity|]. by repeat constructor.
  - destruct (fp s) eqn:Ef; try done. destruct (buffer s) as [|e b] eqn:Eb; [done|]. injection H as <-. right; left. case_decide; (eexists; split; [reflexivity|]; done).
  - assert (exists e, fp s = FChecked e /\ s' = set_fp (FAdded e) (addEc e s)) as (e & Ef & ->).
    { destruct (fp s); try done. destruct (kp s); try done; injection H as <-; eauto 10. }
    left. unfold addEc. case_decide; (eexists; split; [cbn; reflexivity|]; split; [by repeat constructor|done]).
  - destruct (fp s) eqn:Ef; try done. injection H as <-. left. exists []. rewrite app_nil_r. unfold claim. destruct (owners s (e_p e)); repeat constructor.
  - destruct (fp s) eqn:Ef; try done. injection H as <-. left. exists []. rewrite app_nil_r. repeat constructor.
  - destruct (fp s) eqn:Ef; try done. injection H as <-. left. exists []. rewrite app_nil_r. repeat constructor.
  - destruct (fp s) eqn:Ef; try done. injection H as <-. left. exists []. rewrite app_nil_r. repeat constructor.
  - destruct (fp s) eqn:Ef; try done. injection H as <-. left. exists []. rewrite app_nil_r. repeat case_match; repeat constructor.
  - destruct (fp s) eqn:Ef; try done. destruct (length (queue s) <? pendingTxn c); [|done]. injection H as <-. left. exists []. rewrite app_nil_r. repeat constructor.
  - destruct (fp s) eqn:Ef; try done. destruct (freeq s) as [|m q] eqn:Eq; [done|]. injection H as <-. left. exists []. rewrite app_nil_r. repeat constructor.
  - destruct (kp s) eqn:Ek; try done. destruct (queue s) as [|n q] eqn:Eq; [done|]. injection H as <-. left. eexists. split; [reflexivity|]. split; [apply sendAll_quiet|done].
  - destruct (kp s) as [|n [|] ? ?| | | ] eqn:Ek; try done. case_decide; [|done]. injection H as <-. left. exists []. rewrite app_nil_r. repeat constructor.
  - destruct (kp s) as [|n [|e cur] marked todo| | | ] eqn:Ek; try done. case_decide as D; [|done].
    destruct marked, (e_off e) as [o|]; injection H as <-; left; try (exists []; rewrite app_nil_r; repeat constructor; done).
    rewrite produceRecord_eq. eexists. split; [reflexivity|]. split; [apply prod_quiet|done].
  - destruct (kp s) as [|n [|] ? [|]| | | ] eqn:Ek; try done. injection H as <-. destruct (releaseRoots_frame (n_ecs (nodes s n)) (parts (n_ecs (nodes s n))) s) as [w ->].
    left. eexists. split; [reflexivity|]. split; [by repeat constructor|done].
  - destruct (kp s) eqn:Ek; try done. injection H as <-. left. exists []. rewrite app_nil_r. repeat constructor.
  - destruct (kp s) as [| | |n todo|] eqn:Ek; try done. case_decide as D; [|done]. injection H as <-. left. unfold relinquish.
    destruct (List.find (holds s p) (ring (poolSize c) n)) as [m|] eqn:Em.
    + eexists. split; [cbn; reflexivity|]. split; [apply sendAll_quiet|done].
    + exists []. rewrite app_nil_r. repeat constructor.
  - destruct (kp s) as [| | |n [|]|] eqn:Ek; try done. injection H as <-. left. exists []. rewrite app_nil_r. repeat constructor.
  - destruct (kp s) as [|n cur m todo| | | ] eqn:Ek; try done. destruct (ok && _); [done|]. injection H as <-. left. eexists. split; [reflexivity|]. split; [by repeat constructor|done].
  - destruct (kp s) as [|n cur m todo| | | ] eqn:Ek; try done. injection H as <-. left. eexists. split; [reflexivity|]. split; [by repeat constructor|done].
Qed.
Lemma quiet_in w x : Forall quiet_ev w -> x ∈ w -> quiet_ev x.
Proof. intros F H. rewrite Forall_forall in F. auto. Qed.
Lemma quiet_split tr w u x v : Forall quiet_ev w -> tr ++ w = u ++ x :: v -> ~ quiet_ev x -> exists v', tr = u ++ x :: v' /\ v = v' ++ w.
Proof.
  intros F E Hx. destruct (snoc_split _ _ _ _ _ E) as [?|(w1 & -> & _)]; [done|]. destruct Hx. apply (quiet_in _ _ F). apply elem_of_app. right. by left.
Qed.
Lemma Rv_step c s a s' : Rv s -> step c s a = Some s' -> Rv s'.
Proof.
  intros R H. destruct (step_rv c s a s' H) as [(w & E & F & E1 & E2)|[(x & E & E2 & E1 & X)|(w & Ea & Hw & E & E2 & E1)]].
  - constructor; rewrite ?E, ?E1, ?E2.
    + intros k. rewrite (rv_in _ R), elem_of_app. split; [by left|]. intros [?|Hk]; [done|]. by apply (quiet_in _ _ F) in Hk.
    + apply R.
    + intros u e v Eu. destruct (quiet_split _ _ _ _ _ F Eu) as (v' & Ev & _); [by intros []|]. by apply (rv_rej _ R u e v').
    + intros u e v Eu. destruct (quiet_split _ _ _ _ _ F Eu) as (v' & Ev & _); [by intros []|]. by apply (rv_take _ R u e v').
    + intros u k v Eu. destruct (quiet_split _ _ _ _ _ F Eu) as (v' & Ev & ->); [by intros []|]. destruct (rv_stop _ R u k v' Ev) as (A & B & C). split; [done|]. split; [done|].
      intros e He. apply elem_of_app in He as [He|He]; [auto|]. by apply (quiet_in _ _ F) in He.
  - assert (forall k, k ∈ revoked s -> k ∈ revoked s') as Hmono by (intros k Hk; rewrite E1; destruct x; try done; by right).
    constructor; rewrite ?E, ?E2.
    + intros k. rewrite E1, elem_of_app, elem_of_list_singleton, <- (rv_in _ R). destruct x; split; try tauto; try (intros [?|?]; done); rewrite ?elem_of_cons; try (intros [->|?]; auto); try (intros [?|Hk]; [auto|injection Hk as ->; auto]).
    + intros k Hk. apply Hmono. by apply (rv_closed _ R).
    + intros u e v Eu. destruct (snoc_split1 _ _ _ _ _ Eu) as [(v' & Ev & _)|(_ & <- & ->)]; [by apply (rv_rej _ R u e v')|]. by apply (rv_in _ R).
    + intros u e v Eu. destruct (snoc_split1 _ _ _ _ _ Eu) as [(v' & Ev & _)|(_ & <- & ->)]; [by apply (rv_take _ R u e v')|]. by rewrite <- (rv_in _ R).
    + intros u k v Eu. destruct (snoc_split1 _ _ _ _ _ Eu) as [(v' & Ev & ->)|(-> & <- & ->)].
      * destruct (rv_stop _ R u k v' Ev) as (A & B & C). split; [done|]. split; [done|]. intros e He. apply elem_of_app in He as [He|He]; [auto|].
        apply elem_of_list_singleton in He as <-. intros E3. apply X. by rewrite E3.
      * destruct X as (X1 & X2 & X3). split; [done|]. split; [by apply (rv_in _ R), (rv_closed _ R)|]. intros e He. by apply elem_of_nil in He.
  - constructor; rewrite ?E, ?E1, ?E2; try apply R.
    + intros k. rewrite elem_of_cons. intros [->|Hk]; [done|by apply (rv_closed _ R)].
    + intros u k v Eu. destruct (rv_stop _ R u k v Eu) as (A & B & C). split; [by right|done].
Qed.
Lemma Rv_start c : Rv (start c).
Proof.
  constructor; cbn; try done.
  - intros w. split; intros H; by apply elem_of_nil in H.
  - intros u e v E; destruct u; done.
  - intros u e v E; destruct u; done.
  - intros u e v E; destruct u; done.
Qed.
Lemma Rv_run c acts s : run c (start c) acts = Some s -> Rv s.
Proof. apply (run_ind c Rv (fun _ => True)); [apply Rv_start|intros; by apply (Rv_step c s0 a)|by apply Forall_true]. Qed.
