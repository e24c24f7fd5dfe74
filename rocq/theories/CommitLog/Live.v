(** When the wait for a marker ends, and when it never does. *)
From Coq Require Import Strings.Byte ZArith List Bool Lia.
From stdpp Require Import gmap.
From Verif.Base Require Import GoInt Bytes BytesMap.
From Verif.Codec Require Import Model.
From Verif.Record Require Import Model.
From Verif.CommitLog Require Import Model Spec Proofs.
Import ListNotations.
Open Scope Z_scope.

Definition waiting (w : world) (id : nat) : Prop :=
  exists tp mark, w_syncs w !! id = Some (mkSync tp mark Waiting).
Definition hasReturned (w : world) (id : nat) : Prop :=
  exists tp mark r, w_syncs w !! id = Some (mkSync tp mark (Returned r)).

(** how often the consumer receives a record of commit-log partition [cp] *)
Definition consumed (cp : Z) (acts : list action) : nat :=
  length (List.filter (fun a => match a with AConsume c => c =? cp | _ => false end) acts).

(** ** a sync that has not returned is pending or released *)
Definition pend (w : world) : Prop :=
  forall id tp mark st, w_syncs w !! id = Some (mkSync tp mark st) -> (forall r, st <> Returned r) ->
  mark ∈ pendingSyncs (w_cl w) \/ mark ∈ released (w_cl w).

Lemma receive_pend r s s' m :
  ReceiveChange r s = Ok s' ->
  m ∈ pendingSyncs s \/ m ∈ released s -> m ∈ pendingSyncs s' \/ m ∈ released s'.
Proof.
  unfold ReceiveChange, closeSyncRequest. intros H Hm.
  destruct (isMarkerRecord (i_kRecord r)).
  - injection H as <-. destruct (decide (Value r ∈ pendingSyncs s)) as [D|D]; [|auto].
    cbn. destruct (decide (m = Value r)) as [->|N]; set_solver.
  - destruct (topicPartitionFromBytes (Key r)); try discriminate.
    destruct (readIntegerFromByteArray s64 (Value r)); try discriminate.
    injection H as <-. exact Hm.
Qed.

Lemma receive_released r s s' : ReceiveChange r s = Ok s' -> released s ⊆ released s'.
Proof.
  unfold ReceiveChange, closeSyncRequest. intros H.
  destruct (isMarkerRecord (i_kRecord r)).
  - injection H as <-. destruct (decide (Value r ∈ pendingSyncs s)) as [D|D]; cbn; set_solver.
  - destruct (topicPartitionFromBytes (Key r)); try discriminate.
    destruct (readIntegerFromByteArray s64 (Value r)); try discriminate.
    injection H as <-. reflexivity.
Qed.

Lemma pend_step cl w a w' : pend w -> step cl w a = Some w' -> pend w'.
Proof.
  intros P Hs. destruct a as [tp o|id tp mark|id|cp mark|id|cp|cp|id]; cbn [step] in Hs.
  - injection Hs as <-. exact P.
  - case_decide as D; [|discriminate]. injection Hs as <-. intros i tp' m st. cbn [w_syncs w_cl].
    destruct (decide (id = i)) as [<-|N].
    + rewrite lookup_insert. intros [= <- <- <-] _. cbn. set_solver.
    + rewrite lookup_insert_ne by auto. intros H1 H2. cbn. destruct (P _ _ _ _ H1 H2); set_solver.
  - destruct (w_syncs w !! id) as [[tp mark st]|] eqn:Hid; [|discriminate].
    destruct st; try discriminate. injection Hs as <-. intros i tp' m st. cbn [w_syncs w_cl append].
    destruct (decide (id = i)) as [<-|N].
    + rewrite lookup_insert. intros [= <- <- <-] _. eapply P; [exact Hid|discriminate].
    + rewrite lookup_insert_ne by auto. apply P.
  - case_decide as D; [|discriminate]. injection Hs as <-. exact P.
  - destruct (w_syncs w !! id) as [[tp mark st]|] eqn:Hid; [|discriminate].
    destruct st; try discriminate. injection Hs as <-. intros i tp' m st. cbn [w_syncs w_cl].
    destruct (decide (id = i)) as [<-|N].
    + rewrite lookup_insert. intros [= <- <- <-] _. eapply P; [exact Hid|discriminate].
    + rewrite lookup_insert_ne by auto. apply P.
  - destruct (w_log w cp !! w_position w cp) as [k|]; [|discriminate].
    destruct (ReceiveChange (newIncomingRecord k) (w_cl w)) as [s'| |] eqn:HR; try discriminate.
    injection Hs as <-. intros i tp' m st. cbn [w_syncs w_cl]. intros H1 H2.
    eapply receive_pend; [exact HR|]. eapply P; eauto.
  - destruct (w_log w cp !! w_position w cp) as [k|]; [|discriminate].
    case_decide; [|discriminate]. injection Hs as <-. exact P.
  - destruct (w_syncs w !! id) as [[tp mark st]|] eqn:Hid; [|discriminate].
    destruct st; try discriminate. case_decide; [|discriminate]. injection Hs as <-.
    intros i tp' m st. cbn [w_syncs w_cl]. destruct (decide (id = i)) as [<-|N].
    + rewrite lookup_insert. intros [= <- <- <-] H2. exfalso. eapply H2; reflexivity.
    + rewrite lookup_insert_ne by auto. apply P.
Qed.

Lemma pend_run cl acts w w' : pend w -> run cl w acts = Some w' -> pend w'.
Proof.
  revert w. induction acts as [|a acts IH]; intros w P R; cbn [run] in R.
  - now injection R as <-.
  - destruct (step cl w a) as [w1|] eqn:S; [|discriminate]. eapply IH; [|exact R]. eapply pend_step; eauto.
Qed.

Lemma pend_init : pend worldInit.
Proof. intros id tp mark st H. cbn in H. rewrite lookup_empty in H. discriminate. Qed.

(** ** the marker is at index [idx] of [cp], the consumer at most there, the sync pending; or it is
    released; or it has returned *)
Definition coming (cl : clConfig) (id : nat) (tp : TopicPartition) (mark : bytes) (cp : Z) (idx : nat) (w : world) : Prop :=
  hasReturned w id \/
  (w_syncs w !! id = Some (mkSync tp mark Waiting) /\
   (mark ∈ released (w_cl w) \/
    (mark ∈ pendingSyncs (w_cl w) /\ w_log w cp !! idx = Some (markerRecord (cl_topic cl) cp mark) /\
     (w_position w cp <= idx)%nat))).

Lemma returned_step cl w a w' id : hasReturned w id -> step cl w a = Some w' -> hasReturned w' id.
Proof.
  intros (tp & mark & r & H) Hs. exists tp, mark, r.
  destruct a as [tp' o|i tp' m|i|c m|i|c|c|i]; cbn [step] in Hs.
  - injection Hs as <-. exact H.
  - case_decide as D; [|discriminate]. destruct D as [D _]. injection Hs as <-. cbn [w_syncs].
    rewrite lookup_insert_ne by congruence. exact H.
  - destruct (w_syncs w !! i) as [[tp1 m1 st]|] eqn:Hi; [|discriminate]. destruct st; try discriminate.
    injection Hs as <-. cbn [w_syncs append]. rewrite lookup_insert_ne by congruence. exact H.
  - case_decide; [|discriminate]. injection Hs as <-. exact H.
  - destruct (w_syncs w !! i) as [[tp1 m1 st]|] eqn:Hi; [|discriminate]. destruct st; try discriminate.
    injection Hs as <-. cbn [w_syncs]. rewrite lookup_insert_ne by congruence. exact H.
  - destruct (w_log w c !! w_position w c) as [k|]; [|discriminate].
    destruct (ReceiveChange (newIncomingRecord k) (w_cl w)); try discriminate. injection Hs as <-. exact H.
  - destruct (w_log w c !! w_position w c) as [k|]; [|discriminate]. case_decide; [|discriminate].
    injection Hs as <-. exact H.
  - destruct (w_syncs w !! i) as [[tp1 m1 st]|] eqn:Hi; [|discriminate]. destruct st; try discriminate.
    case_decide; [|discriminate]. injection Hs as <-. cbn [w_syncs]. rewrite lookup_insert_ne by congruence. exact H.
Qed.

Lemma pos_insert w cp n W sy mk c :
  w_position (mkWorld (w_logs w) (<[cp:=n]> (w_pos w)) W sy mk) c = if decide (cp = c) then n else w_position w c.
Proof.
  unfold w_position at 1. cbn [w_pos]. destruct (decide (cp = c)) as [->|N].
  - rewrite lookup_insert. reflexivity.
  - rewrite lookup_insert_ne by auto. reflexivity.
Qed.

(** one step: still coming; and a received record of [cp] moves the consumer on *)
Lemma coming_step cl id tp mark cp idx w a w' :
  a <> ASkip cp -> coming cl id tp mark cp idx w -> step cl w a = Some w' ->
  coming cl id tp mark cp idx w' /\
  w_position w' cp = (w_position w cp + consumed cp [a])%nat.
Proof.
  intros NS C Hs. split.
  - destruct C as [C|(Hw & C)]; [left; eapply returned_step; eauto|].
    destruct a as [tp' o|i tp' m|i|c m|i|c|c|i]; cbn [step] in Hs.
    + injection Hs as <-. right. split; [exact Hw|]. destruct C as [C|(C1 & C2 & C3)]; [auto|right].
      split; [exact C1|]. split; [|exact C3]. rewrite w_log_append. destruct (decide _) as [E|E]; [|exact C2].
      rewrite E. apply lookup_app_l_Some. exact C2.
    + case_decide as D; [|discriminate]. destruct D as [D _]. injection Hs as <-. right. cbn [w_syncs w_cl].
      rewrite lookup_insert_ne by congruence. split; [exact Hw|]. cbn.
      destruct C as [C|(C1 & C2 & C3)]; [auto|right]. split; [set_solver|]. split; [exact C2|exact C3].
    + destruct (w_syncs w !! i) as [[tp1 m1 st]|] eqn:Hi; [|discriminate]. destruct st; try discriminate.
      injection Hs as <-. right. cbn [w_syncs w_cl]. rewrite lookup_insert_ne by congruence. split; [exact Hw|].
      destruct C as [C|(C1 & C2 & C3)]; [auto|right]. split; [exact C1|]. split; [|exact C3].
      match goal with |- w_log ?W _ !! _ = _ =>
        change (w_log W cp) with (w_log (append (commitRecordPartition cl tp1)
          (markerRecord (cl_topic cl) (commitRecordPartition cl tp1) m1) w) cp) end.
      rewrite w_log_append. destruct (decide _) as [E|E]; [|exact C2].
      rewrite E. apply lookup_app_l_Some. exact C2.
    + case_decide; [|discriminate]. injection Hs as <-. right. split; [exact Hw|].
      destruct C as [C|(C1 & C2 & C3)]; [auto|right]. split; [exact C1|]. split; [|exact C3].
      match goal with |- w_log ?W _ !! _ = _ =>
        change (w_log W cp) with (w_log (append c (markerRecord (cl_topic cl) c m) w) cp) end.
      rewrite w_log_append. destruct (decide _) as [E|E]; [|exact C2].
      rewrite E. apply lookup_app_l_Some. exact C2.
    + destruct (w_syncs w !! i) as [[tp1 m1 st]|] eqn:Hi; [|discriminate]. destruct st; try discriminate.
      injection Hs as <-. right. cbn [w_syncs w_cl]. rewrite lookup_insert_ne by congruence. split; [exact Hw|exact C].
    + destruct (w_log w c !! w_position w c) as [k|] eqn:Hk; [|discriminate].
      destruct (ReceiveChange (newIncomingRecord k) (w_cl w)) as [s'| |] eqn:HR; try discriminate.
      injection Hs as <-. right. cbn [w_syncs w_cl]. split; [exact Hw|].
      destruct C as [C|(C1 & C2 & C3)].
      { left. eapply receive_released; [exact HR|exact C]. }
      destruct (receive_pend _ _ _ mark HR (or_introl C1)) as [P|P]; [|auto].
      rewrite pos_insert. destruct (decide (c = cp)) as [->|N].
      * destruct (decide (w_position w cp = idx)) as [Heq|Hne].
        -- left. rewrite Heq in Hk. rewrite C2 in Hk. injection Hk as <-.
           change (markerRecord (cl_topic cl) cp mark) with (enc cl cp (Mark mark)) in HR.
           rewrite receive_mark in HR. injection HR as <-. unfold closeSyncRequest.
           rewrite decide_True by exact C1. cbn. set_solver.
        -- right. split; [exact P|]. split; [exact C2|lia].
      * right. split; [exact P|]. split; [exact C2|lia].
    + destruct (w_log w c !! w_position w c) as [k|]; [|discriminate]. case_decide; [|discriminate].
      injection Hs as <-. right. split; [exact Hw|]. destruct C as [C|(C1 & C2 & C3)]; [auto|right].
      split; [exact C1|]. split; [exact C2|]. rewrite pos_insert. rewrite decide_False by congruence. exact C3.
    + destruct (w_syncs w !! i) as [[tp1 m1 st]|] eqn:Hi; [|discriminate]. destruct st; try discriminate.
      case_decide; [|discriminate]. injection Hs as <-. destruct (decide (i = id)) as [->|N].
      * left. eexists _, _, _. cbn [w_syncs]. rewrite lookup_insert. reflexivity.
      * right. cbn [w_syncs w_cl]. rewrite lookup_insert_ne by auto. split; [exact Hw|exact C].
  - clear C. destruct a as [tp' o|i tp' m|i|c m|i|c|c|i]; cbn [step] in Hs; unfold consumed; cbn [List.filter].
    + injection Hs as <-. exact (eq_sym (Nat.add_0_r _)).
    + case_decide; [|discriminate]. injection Hs as <-. exact (eq_sym (Nat.add_0_r _)).
    + destruct (w_syncs w !! i) as [[tp1 m1 st]|]; [|discriminate]. destruct st; try discriminate.
      injection Hs as <-. exact (eq_sym (Nat.add_0_r _)).
    + case_decide; [|discriminate]. injection Hs as <-. exact (eq_sym (Nat.add_0_r _)).
    + destruct (w_syncs w !! i) as [[tp1 m1 st]|]; [|discriminate]. destruct st; try discriminate.
      injection Hs as <-. exact (eq_sym (Nat.add_0_r _)).
    + destruct (w_log w c !! w_position w c) as [k|]; [|discriminate].
      destruct (ReceiveChange (newIncomingRecord k) (w_cl w)) as [s'| |]; try discriminate.
      injection Hs as <-. rewrite pos_insert. destruct (decide (c = cp)) as [->|N].
      * rewrite Z.eqb_refl. cbn. lia.
      * destruct (c =? cp) eqn:Q; [apply Z.eqb_eq in Q; congruence|]. cbn. lia.
    + destruct (w_log w c !! w_position w c) as [k|]; [|discriminate]. case_decide; [|discriminate].
      injection Hs as <-. rewrite pos_insert. rewrite decide_False by congruence. cbn. lia.
    + destruct (w_syncs w !! i) as [[tp1 m1 st]|]; [|discriminate]. destruct st; try discriminate.
      case_decide; [|discriminate]. injection Hs as <-. exact (eq_sym (Nat.add_0_r _)).
Qed.

Lemma consumed_cons cp a acts : consumed cp (a :: acts) = (consumed cp [a] + consumed cp acts)%nat.
Proof. unfold consumed. cbn [List.filter]. destruct (match a with AConsume c => c =? cp | _ => false end); reflexivity. Qed.

Lemma coming_run cl id tp mark cp idx acts w w' :
  ASkip cp ∉ acts -> coming cl id tp mark cp idx w -> run cl w acts = Some w' ->
  coming cl id tp mark cp idx w' /\ w_position w' cp = (w_position w cp + consumed cp acts)%nat.
Proof.
  revert w. induction acts as [|a acts IH]; intros w NS C R; cbn [run] in R.
  - injection R as <-. split; [exact C|]. exact (eq_sym (Nat.add_0_r _)).
  - destruct (step cl w a) as [w1|] eqn:S; [|discriminate].
    destruct (coming_step cl id tp mark cp idx w a w1) as [C1 P1]; auto; [set_solver|].
    destruct (IH w1) as [C2 P2]; auto; [set_solver|]. split; [exact C2|].
    rewrite P2, P1, (consumed_cons cp a acts). lia.
Qed.

(** ** C95: the wait ends *)
Lemma sync_returns cl a1 w1 id tp mark a2 w2 :
  run cl worldInit a1 = Some w1 ->
  w_syncs w1 !! id = Some (mkSync tp mark Registered) ->
  let cp := commitRecordPartition cl tp in
  run cl w1 (ASendMarker id :: a2) = Some w2 ->
  ASkip cp ∉ a2 ->
  (length (w_log w1 cp) < w_position w1 cp + consumed cp a2)%nat ->
  hasReturned w2 id \/ (exists w3, step cl w2 (AReadWatermark id) = Some w3 /\ hasReturned w3 id).
Proof.
  intros R1 H1 cp R2 NS HC.
  pose proof (pend_run _ _ _ _ pend_init R1) as P.
  cbn [run step] in R2. rewrite H1 in R2.
  match type of R2 with run cl ?W a2 = _ => set (w1' := W) in * end.
  assert (Hpos : w_position w1' cp = w_position w1 cp) by reflexivity.
  assert (Hlog : w_log w1' cp = w_log w1 cp ++ [markerRecord (cl_topic cl) cp mark]).
  { change (w_log w1' cp) with (w_log (append cp (markerRecord (cl_topic cl) cp mark) w1) cp).
    rewrite w_log_append, decide_True by auto. reflexivity. }
  destruct (Nat.le_gt_cases (w_position w1 cp) (length (w_log w1 cp))) as [Hle|Hgt].
  - assert (C : coming cl id tp mark cp (length (w_log w1 cp)) w1').
    { right. split; [cbn [w1' w_syncs]; apply lookup_insert|].
      destruct (P _ _ _ _ H1 ltac:(discriminate)) as [Hp|Hr]; [right|left; exact Hr].
      split; [exact Hp|]. split; [|rewrite Hpos; exact Hle].
      rewrite Hlog. rewrite lookup_app_r, Nat.sub_diag by lia. reflexivity. }
    destruct (coming_run _ _ _ _ _ _ _ _ _ NS C R2) as [[C2|(C2 & [C3|(_ & _ & C3)])] Hp2]; [auto| |].
    + right. cbn [step]. rewrite C2, decide_True by exact C3. eexists. split; [reflexivity|].
      eexists _, _, _. cbn [w_syncs]. apply lookup_insert.
    + exfalso. rewrite Hp2, Hpos in C3. lia.
  - exfalso.
    assert (X : forall acts w w' c, run cl w acts = Some w' ->
      (w_position w c <= length (w_log w c))%nat -> (w_position w' c <= length (w_log w' c))%nat).
    { clear. intros acts. induction acts as [|a acts IH]; intros w w' c R H; cbn [run] in R.
      - now injection R as <-.
      - destruct (step cl w a) as [w1|] eqn:S; [|discriminate]. eapply IH; [exact R|]. clear IH R.
        assert (AP : forall c' k, (w_position w c <= length (w_log (append c' k w) c))%nat).
        { intros c' k. rewrite w_log_append. destruct (decide _) as [->|]; [rewrite app_length; lia|exact H]. }
        destruct a as [tp' o|i tp' m|i|c1 m|i|c1|c1|i]; cbn [step] in S.
        + injection S as <-. apply AP.
        + case_decide; [|discriminate]. injection S as <-. exact H.
        + destruct (w_syncs w !! i) as [[tp1 m1 st]|]; [|discriminate]. destruct st; try discriminate.
          injection S as <-. apply AP.
        + case_decide; [|discriminate]. injection S as <-. apply AP.
        + destruct (w_syncs w !! i) as [[tp1 m1 st]|]; [|discriminate]. destruct st; try discriminate.
          injection S as <-. exact H.
        + destruct (w_log w c1 !! w_position w c1) as [k|] eqn:K; [|discriminate]. apply lookup_lt_Some in K.
          destruct (ReceiveChange (newIncomingRecord k) (w_cl w)) as [s'| |]; try discriminate.
          injection S as <-. rewrite pos_insert. destruct (decide (c1 = c)) as [<-|]; [|exact H].
          change (S (w_position w c1) <= length (w_log w c1))%nat. lia.
        + destruct (w_log w c1 !! w_position w c1) as [k|] eqn:K; [|discriminate]. apply lookup_lt_Some in K.
          case_decide; [|discriminate]. injection S as <-. rewrite pos_insert.
          destruct (decide (c1 = c)) as [<-|]; [|exact H].
          change (S (w_position w c1) <= length (w_log w c1))%nat. lia.
        + destruct (w_syncs w !! i) as [[tp1 m1 st]|]; [|discriminate]. destruct st; try discriminate.
          case_decide; [|discriminate]. injection S as <-. exact H. }
    assert (H0 : w_position worldInit cp = 0%nat) by (unfold w_position; cbn; now rewrite lookup_empty).
    pose proof (X _ _ _ cp R1 ltac:(rewrite H0; lia)). lia.
Qed.

(** the consumer is never stuck: there is a record to receive, and receiving it does not panic *)
(** ** a call keeps its partition and its mark, and stays at its stage until it takes a step *)
Lemma sync_step cl w a w' id tp mark st : w_syncs w !! id = Some (mkSync tp mark st) -> step cl w a = Some w' ->
  exists st', w_syncs w' !! id = Some (mkSync tp mark st') /\ (a <> ASendMarker id -> a <> AMarkerLost id -> st = Registered -> st' = Registered).
Proof.
  intros H Hs. destruct a as [tp' o|i tp' m|i|c m|i|c|c|i]; cbn [step] in Hs.
  - injection Hs as <-. exists st. split; [exact H|auto].
  - case_decide as D; [|discriminate]. destruct D as [D _]. injection Hs as <-. exists st. cbn [w_syncs]. rewrite lookup_insert_ne by congruence. split; [exact H|auto].
  - destruct (w_syncs w !! i) as [[tp' m []]|] eqn:Ei; try discriminate. injection Hs as <-. cbn [w_syncs]. destruct (decide (i = id)) as [->|N].
    + rewrite lookup_insert. rewrite H in Ei. injection Ei as -> -> ->. eexists. split; [reflexivity|]. intros X. destruct X. reflexivity.
    + exists st. rewrite lookup_insert_ne by congruence. split; [exact H|auto].
  - case_decide; [|discriminate]. injection Hs as <-. exists st. split; [exact H|auto].
  - destruct (w_syncs w !! i) as [[tp' m []]|] eqn:Ei; try discriminate. injection Hs as <-. cbn [w_syncs]. destruct (decide (i = id)) as [->|N].
    + rewrite lookup_insert. rewrite H in Ei. injection Ei as -> -> ->. eexists. split; [reflexivity|]. intros _ X. destruct X. reflexivity.
    + exists st. rewrite lookup_insert_ne by congruence. split; [exact H|auto].
  - destruct (w_log w c !! w_position w c); [|discriminate]. destruct (ReceiveChange _ _); try discriminate. injection Hs as <-. exists st. split; [exact H|auto].
  - destruct (w_log w c !! w_position w c); [|discriminate]. case_decide; [|discriminate]. injection Hs as <-. exists st. split; [exact H|auto].
  - destruct (w_syncs w !! i) as [[tp' m []]|] eqn:Ei; try discriminate. case_decide; [|discriminate]. injection Hs as <-. cbn [w_syncs]. destruct (decide (i = id)) as [->|N].
    + rewrite lookup_insert. rewrite H in Ei. injection Ei as -> -> ->. eexists. split; [reflexivity|]. intros _ _ X. discriminate X.
    + exists st. rewrite lookup_insert_ne by congruence. split; [exact H|auto].
Qed.
Lemma sync_run cl acts : forall w w' id tp mark st, w_syncs w !! id = Some (mkSync tp mark st) -> run cl w acts = Some w' ->
  exists st', w_syncs w' !! id = Some (mkSync tp mark st') /\ (ASendMarker id ∉ acts -> AMarkerLost id ∉ acts -> st = Registered -> st' = Registered).
Proof.
  induction acts as [|a acts IH]; intros w w' id tp mark st H R; cbn [run] in R. { injection R as <-. exists st. split; [exact H|auto]. }
  destruct (step cl w a) as [w1|] eqn:S; [|discriminate]. destruct (sync_step _ _ _ _ _ _ _ _ H S) as (st1 & H1 & K1). destruct (IH _ _ _ _ _ _ H1 R) as (st' & H' & K').
  exists st'. split; [exact H'|]. rewrite !not_elem_of_cons. intros [N1 N1'] [N2 N2'] E. apply K'; [exact N1'|exact N2'|]. apply K1; congruence.
Qed.
Lemma run_app_some cl l1 : forall w l2 w', run cl w (l1 ++ l2) = Some w' -> exists w1, run cl w l1 = Some w1 /\ run cl w1 l2 = Some w'.
Proof.
  induction l1 as [|a l IH]; intros w l2 w' R; [exists w; split; [reflexivity|exact R]|]. cbn [app run] in *. destruct (step cl w a); [|discriminate]. apply IH. exact R.
Qed.
Lemma started cl a0 id tp mark a1 w1 : run cl worldInit (a0 ++ AStartSync id tp mark :: a1) = Some w1 ->
  exists st, w_syncs w1 !! id = Some (mkSync tp mark st) /\ (ASendMarker id ∉ a1 -> AMarkerLost id ∉ a1 -> st = Registered).
Proof.
  intros R. destruct (run_app_some _ _ _ _ _ R) as (w0 & _ & R0). cbn [run] in R0. destruct (step cl w0 (AStartSync id tp mark)) as [w'|] eqn:S; [|discriminate].
  assert (H : w_syncs w' !! id = Some (mkSync tp mark Registered)).
  { cbn [step] in S. case_decide; [|discriminate]. injection S as <-. cbn [w_syncs]. apply lookup_insert. }
  destruct (sync_run _ _ _ _ _ _ _ _ H R0) as (st & H' & K). exists st. split; [exact H'|]. intros N1 N2. apply K; auto.
Qed.
Lemma call_returns cl a0 id tp mark a1 w1 a2 w2 : run cl worldInit (a0 ++ AStartSync id tp mark :: a1) = Some w1 ->
  let cp := commitRecordPartition cl tp in
  run cl w1 (ASendMarker id :: a2) = Some w2 -> ASkip cp ∉ a2 -> (length (w_log w1 cp) < w_position w1 cp + consumed cp a2)%nat ->
  hasReturned w2 id \/ (exists w3, step cl w2 (AReadWatermark id) = Some w3 /\ hasReturned w3 id).
Proof.
  intros R cp R2 NS L. destruct (started _ _ _ _ _ _ _ R) as (st & H & _). apply (sync_returns cl _ w1 id tp mark a2 w2 R); [|exact R2|exact NS|exact L].
  cbn [run step] in R2. rewrite H in R2. destruct st; [exact H|discriminate R2|discriminate R2].
Qed.
Lemma marker_is_sent cl a0 id tp mark a1 w1 : run cl worldInit (a0 ++ AStartSync id tp mark :: a1) = Some w1 -> ASendMarker id ∉ a1 -> AMarkerLost id ∉ a1 ->
  exists w', step cl w1 (ASendMarker id) = Some w'.
Proof. intros R N1 N2. destruct (started _ _ _ _ _ _ _ R) as (st & H & K). rewrite (K N1 N2) in H. cbn [step]. rewrite H. eexists. reflexivity. Qed.

Lemma consumer_live cl t0 acts w cp :
  Forall (act_ok t0) acts -> run cl worldInit acts = Some w ->
  (w_position w cp < length (w_log w cp))%nat ->
  exists w', step cl w (AConsume cp) = Some w' /\ w_position w' cp = S (w_position w cp).
Proof.
  intros F R H. destruct (inv_run cl t0 _ [] _ _ _ (inv_init cl t0) F R) as (E & I). cbn [app] in I.
  rewrite (iA _ _ _ _ _ I) in H. rewrite map_length in H.
  destruct (lookup_lt_is_Some_2 (E cp) (w_position w cp) H) as (e & He).
  cbn [step]. rewrite (iA _ _ _ _ _ I). rewrite list_lookup_fmap, He. cbn [fmap option_fmap option_map].
  pose proof (iB _ _ _ _ _ I cp e ltac:(eapply elem_of_list_lookup_2; eauto)) as Hb.
  destruct e as [t p o|m].
  - destruct Hb as (-> & Hp & Hp0 & Ho & _). rewrite receive_commit by auto.
    eexists. split; [reflexivity|]. rewrite pos_insert, decide_True by auto. reflexivity.
  - rewrite receive_mark. eexists. split; [reflexivity|]. rewrite pos_insert, decide_True by auto. reflexivity.
Qed.

(** ** C95 refuted: a marker that could not be written *)
Lemma lost_waits_forever cl t0 a1 a2 id w :
  Forall (act_ok t0) (a1 ++ AMarkerLost id :: a2) ->
  run cl worldInit (a1 ++ AMarkerLost id :: a2) = Some w -> waiting w id.
Proof.
  intros F R. destruct (inv_run cl t0 _ [] _ _ _ (inv_init cl t0) F R) as (E & I). cbn [app] in I.
  assert (Hin : AMarkerLost id ∈ a1 ++ AMarkerLost id :: a2) by set_solver.
  destruct (w_syncs w !! id) as [[tp mark st]|] eqn:Hid.
  - destruct (iH _ _ _ _ _ I _ _ Hid) as (_ & _ & H). unfold sync_ok in H. cbn [sy_stage] in H.
    destruct st as [| |r].
    + exfalso. tauto.
    + eexists _, _. exact Hid.
    + destruct H as (h1 & h2 & k & _ & _ & H & _). exfalso. tauto.
  - exfalso. apply (iK _ _ _ _ _ I) in Hid. tauto.
Qed.

(** ** C95 refuted: a marker that was compacted away before the consumer reached it *)
Lemma passed_step cl t0 hist w E id tp mark idx a w' :
  Inv cl t0 hist w E -> act_ok t0 a ->
  w_syncs w !! id = Some (mkSync tp mark Waiting) ->
  (forall cp' i, E cp' !! i = Some (Mark mark) -> cp' = commitRecordPartition cl tp /\ i = idx) ->
  (idx < w_position w (commitRecordPartition cl tp))%nat ->
  mark ∉ released (w_cl w) ->
  step cl w a = Some w' ->
  w_syncs w' !! id = Some (mkSync tp mark Waiting) /\
  mark ∉ released (w_cl w') /\
  (w_position w (commitRecordPartition cl tp) <= w_position w' (commitRecordPartition cl tp))%nat.
Proof.
  intros I Hok Hw U Hlt NR Hs.
  destruct a as [tp' o|i tp' m|i|c m|i|c|c|i]; cbn [step] in Hs.
  - injection Hs as <-. auto.
  - case_decide as D; [|discriminate]. destruct D as [D _]. injection Hs as <-. cbn [w_syncs w_cl released].
    rewrite lookup_insert_ne by congruence. auto.
  - destruct (w_syncs w !! i) as [[tp1 m1 st]|] eqn:Hi; [|discriminate]. destruct st; try discriminate.
    injection Hs as <-. cbn [w_syncs w_cl append]. rewrite lookup_insert_ne by congruence. auto.
  - case_decide; [|discriminate]. injection Hs as <-. auto.
  - destruct (w_syncs w !! i) as [[tp1 m1 st]|] eqn:Hi; [|discriminate]. destruct st; try discriminate.
    injection Hs as <-. cbn [w_syncs w_cl]. rewrite lookup_insert_ne by congruence. auto.
  - destruct (w_log w c !! w_position w c) as [k|] eqn:Hk; [|discriminate].
    destruct (ReceiveChange (newIncomingRecord k) (w_cl w)) as [s'| |] eqn:HR; try discriminate.
    injection Hs as <-. rewrite pos_insert. cbn [w_syncs w_cl]. split; [exact Hw|]. split.
    + rewrite (iA _ _ _ _ _ I) in Hk. apply list_lookup_fmap_inv in Hk as (e & -> & He).
      pose proof (iB _ _ _ _ _ I c e ltac:(eapply elem_of_list_lookup_2; eauto)) as Hb.
      destruct e as [t p o|m].
      * destruct Hb as (-> & Hp & Hp0 & Ho & _). rewrite receive_commit in HR by auto.
        injection HR as <-. exact NR.
      * rewrite receive_mark in HR. injection HR as <-. unfold closeSyncRequest.
        destruct (decide (m ∈ pendingSyncs (w_cl w))); [|exact NR]. cbn.
        intros [Hr|Hr%elem_of_singleton]%elem_of_union; [contradiction|]. subst m.
        destruct (U _ _ He) as [Hc Hi]. rewrite <- Hc in Hlt. lia.
    + destruct (decide _) as [->|]; lia.
  - destruct (w_log w c !! w_position w c) as [k|]; [|discriminate]. case_decide; [|discriminate].
    injection Hs as <-. rewrite pos_insert. split; [exact Hw|]. split; [exact NR|].
    destruct (decide _) as [->|]; lia.
  - destruct (w_syncs w !! i) as [[tp1 m1 st]|] eqn:Hi; [|discriminate]. destruct st; try discriminate.
    case_decide; [|discriminate]. injection Hs as <-. cbn [w_syncs w_cl].
    rewrite lookup_insert_ne; [auto|]. intros ->. rewrite Hw in Hi. injection Hi as -> ->. contradiction.
Qed.

Lemma enc_mark_inj cl cp e m : enc cl cp e = markerRecord (cl_topic cl) cp m -> e = Mark m.
Proof.
  destruct e as [t p o|m']; intros H.
  - exfalso. apply (f_equal isMarkerRecord) in H. cbn [enc] in H. rewrite commit_not_marker in H. discriminate.
  - apply (f_equal (fun k => Value (newIncomingRecord k))) in H. cbn in H. congruence.
Qed.

Lemma log_grows cl w a w' c i k : step cl w a = Some w' -> w_log w c !! i = Some k -> w_log w' c !! i = Some k.
Proof.
  intros Hs H.
  assert (AP : forall c' k', w_log (append c' k' w) c !! i = Some k).
  { intros c' k'. rewrite w_log_append. destruct (decide _) as [->|]; [|exact H]. apply lookup_app_l_Some. exact H. }
  destruct a as [tp' o|id tp' m|id|c1 m|id|c1|c1|id]; cbn [step] in Hs.
  - injection Hs as <-. apply AP.
  - case_decide; [|discriminate]. injection Hs as <-. exact H.
  - destruct (w_syncs w !! id) as [[tp1 m1 st]|]; [|discriminate]. destruct st; try discriminate.
    injection Hs as <-. apply AP.
  - case_decide; [|discriminate]. injection Hs as <-. apply AP.
  - destruct (w_syncs w !! id) as [[tp1 m1 st]|]; [|discriminate]. destruct st; try discriminate.
    injection Hs as <-. exact H.
  - destruct (w_log w c1 !! w_position w c1) as [k1|]; [|discriminate].
    destruct (ReceiveChange (newIncomingRecord k1) (w_cl w)); try discriminate. injection Hs as <-. exact H.
  - destruct (w_log w c1 !! w_position w c1) as [k1|]; [|discriminate]. case_decide; [|discriminate].
    injection Hs as <-. exact H.
  - destruct (w_syncs w !! id) as [[tp1 m1 st]|]; [|discriminate]. destruct st; try discriminate.
    case_decide; [|discriminate]. injection Hs as <-. exact H.
Qed.

(** the mark of a waiting sync stands at one place of the log only *)
Lemma mark_once cl t0 hist w E id tp mark idx :
  Inv cl t0 hist w E -> w_syncs w !! id = Some (mkSync tp mark Waiting) ->
  w_log w (commitRecordPartition cl tp) !! idx = Some (markerRecord (cl_topic cl) (commitRecordPartition cl tp) mark) ->
  forall cp' i, E cp' !! i = Some (Mark mark) -> cp' = commitRecordPartition cl tp /\ i = idx.
Proof.
  intros I Hw L. rewrite (iA _ _ _ _ _ I) in L. apply list_lookup_fmap_inv in L as (e & He & L).
  symmetry in He. apply enc_mark_inj in He. subst e.
  destruct (iH _ _ _ _ _ I _ _ Hw) as (_ & _ & H). unfold sync_ok in H. cbn [sy_stage sy_tp sy_mark] in H.
  destruct H as [(h1 & h2 & idx' & _ & _ & _ & U & _)|(_ & _ & N)].
  - destruct (U _ _ L) as [_ ->]. exact U.
  - exfalso. eapply N. eapply elem_of_list_lookup_2. exact L.
Qed.

Lemma passed_run cl t0 acts : forall hist w E id tp mark idx w',
  Inv cl t0 hist w E -> Forall (act_ok t0) acts ->
  w_syncs w !! id = Some (mkSync tp mark Waiting) ->
  w_log w (commitRecordPartition cl tp) !! idx = Some (markerRecord (cl_topic cl) (commitRecordPartition cl tp) mark) ->
  (idx < w_position w (commitRecordPartition cl tp))%nat ->
  mark ∉ released (w_cl w) ->
  run cl w acts = Some w' ->
  w_syncs w' !! id = Some (mkSync tp mark Waiting).
Proof.
  induction acts as [|a acts IH]; intros hist w E id tp mark idx w' I F Hw L Hlt NR R; cbn [run] in R.
  - now injection R as <-.
  - inversion F as [|? ? Fa Facts]; subst.
    destruct (step cl w a) as [w1|] eqn:S; [|discriminate].
    pose proof (mark_once _ _ _ _ _ _ _ _ _ I Hw L) as U.
    destruct (passed_step _ _ _ _ _ _ _ _ _ _ _ I Fa Hw U Hlt NR S) as (Hw1 & NR1 & Hp1).
    destruct (inv_step _ _ _ _ _ _ _ I Fa S) as (E1 & I1).
    eapply IH; [exact I1|exact Facts|exact Hw1|eapply log_grows; eauto|lia|exact NR1|exact R].
Qed.

Lemma compacted_waits_forever cl t0 a1 w1 id tp mark a2 w :
  Forall (act_ok t0) (a1 ++ a2) ->
  run cl worldInit a1 = Some w1 ->
  w_syncs w1 !! id = Some (mkSync tp mark Waiting) ->
  let cp := commitRecordPartition cl tp in
  w_log w1 cp !! w_position w1 cp = Some (markerRecord (cl_topic cl) cp mark) ->
  run cl w1 (ASkip cp :: a2) = Some w ->
  waiting w id.
Proof.
  intros F R1 Hw cp L R. apply Forall_app in F as [F1 F2].
  destruct (inv_run cl t0 _ [] _ _ _ (inv_init cl t0) F1 R1) as (E & I). cbn [app] in I.
  pose proof (mark_once _ _ _ _ _ _ _ _ _ I Hw L) as U.
  assert (NR : mark ∉ released (w_cl w1)).
  { intros H. destruct (iG _ _ _ _ _ I _ H) as (c & i & Li & Hi). destruct (U _ _ Li) as [Hc Hi0]. rewrite Hc, Hi0 in Hi. unfold cp in Hi. lia. }
  cbn [run] in R. destruct (step cl w1 (ASkip cp)) as [w2|] eqn:S; [|discriminate].
  destruct (inv_step _ _ _ _ _ (ASkip cp) _ I Logic.I S) as (E2 & I2).
  pose proof (log_grows _ _ _ _ _ _ _ S L) as L2.
  cbn [step] in S. rewrite L in S. case_decide; [|discriminate]. injection S as <-.
  eexists _, _. eapply passed_run; [exact I2|exact F2|exact Hw|exact L2| |exact NR|exact R].
  rewrite pos_insert, decide_True by reflexivity. unfold cp. lia.
Qed.
