From Coq Require Import Strings.Byte ZArith List Bool Lia.
From Verif.Base Require Import Bytes.
From Verif.Record Require Import Model.
From Verif.Routing Require Import Model Spec.
Import ListNotations.
Open Scope nat_scope.

(** one RegisterEventType call *)
Definition registration := (bytes * (IncomingRecord -> bool) * (IncomingRecord -> ExecutionState))%type.
Definition reg_type (g : registration) : bytes := fst (fst g).
Definition reg_decode (g : registration) : IncomingRecord -> bool := snd (fst g).
Definition reg_proc (g : registration) : IncomingRecord -> ExecutionState := snd g.

(** NewEventSource followed by any sequence of registrations *)
Definition register (es : EventSource) (g : registration) : EventSource :=
  RegisterEventType (reg_type g) (reg_decode g) (reg_proc g) es.
Definition setup (c : handlerConfig) (d : option (IncomingRecord -> ExecutionState)) (gs : list registration) : EventSource :=
  fold_left register gs (mkES [] d c).

Definition wrap (c : handlerConfig) (g : registration) : wrapper :=
  mkWrapper (reg_type g) (reg_decode g) (reg_proc g) (deserializationErrorHandler c).

Lemma setup_gen gs es :
  fold_left register gs es = mkES (chain es ++ map (wrap (handlers es)) gs) (defaultProcessor es) (handlers es).
Proof.
  revert es. induction gs as [|g gs IH]; intros es; cbn.
  - rewrite app_nil_r. destruct es; reflexivity.
  - rewrite IH. cbn. rewrite <- app_assoc. reflexivity.
Qed.

Lemma setup_eq c d gs : setup c d gs = mkES (map (wrap c) gs) d c.
Proof. unfold setup. rewrite setup_gen. reflexivity. Qed.

Lemma process_none H l r : forall k,
  (forall w, In w l -> eventType w <> i_recordType r) -> process H k l r = ([], Returns unknownType).
Proof.
  induction l as [|w l IH]; intros k N; cbn; auto.
  destruct (bytes_eqb (i_recordType r) (eventType w)) eqn:E.
  - apply bytes_eqb_spec in E. exfalso. apply (N w); cbn; auto.
  - apply IH. intros w' Hin. apply N. cbn; auto.
Qed.

Lemma process_first H l r : forall k i w,
  nth_error l i = Some w -> eventType w = i_recordType r ->
  (forall j w', j < i -> nth_error l j = Some w' -> eventType w' <> i_recordType r) ->
  process H k l r = Exec H (k + i) w r.
Proof.
  induction l as [|v l IH]; intros k i w Hn He Hf; [destruct i; discriminate|].
  destruct i as [|i]; cbn in Hn.
  - injection Hn as ->. cbn. rewrite He, bytes_eqb_refl, Nat.add_0_r. reflexivity.
  - cbn. destruct (bytes_eqb (i_recordType r) (eventType v)) eqn:E.
    + apply bytes_eqb_spec in E. exfalso. apply (Hf 0 v); [lia|reflexivity|auto].
    + rewrite (IH (S k) i w Hn He); [f_equal; lia|].
      intros j w' Hj Hn'. apply (Hf (S j) w'); auto. lia.
Qed.

Lemma first_match_nth c gs t i :
  first_match (map reg_type gs) t i ->
  exists g, nth_error gs i = Some g /\ reg_type g = t /\
    nth_error (map (wrap c) gs) i = Some (wrap c g) /\
    forall j w', j < i -> nth_error (map (wrap c) gs) j = Some w' -> eventType w' <> t.
Proof.
  intros [Hn Hf]. rewrite nth_error_map in Hn. destruct (nth_error gs i) as [g|] eqn:E; [|discriminate].
  cbn in Hn. injection Hn as Ht. exists g. repeat split; auto.
  - rewrite nth_error_map, E. reflexivity.
  - intros j w' Hj Hw. rewrite nth_error_map in Hw. destruct (nth_error gs j) as [g'|] eqn:E'; [|discriminate].
    cbn in Hw. injection Hw as <-. cbn. intros Heq. apply (Hf j Hj).
    rewrite nth_error_map, E'. cbn. congruence.
Qed.

Lemma route_first H c d gs r i :
  first_match (map reg_type gs) (i_recordType r) i ->
  exists g, nth_error gs i = Some g /\
  (reg_decode g r = true -> reg_proc g r <> unknownType ->
     handleEvent H (setup c d gs) r = ([Processed i], Returns (reg_proc g r))).
Proof.
  intros F. destruct (first_match_nth c _ _ _ F) as (g & Hg & Ht & Hw & Hf).
  exists g. split; auto. intros Hd Hp. rewrite setup_eq. unfold handleEvent. cbn [chain].
  rewrite (process_first H _ r 0 i _ Hw); auto. cbn [Nat.add]. unfold Exec. cbn. rewrite Hd.
  destruct (reg_proc g r); try reflexivity. congruence.
Qed.

Lemma route_default H c p gs r :
  (forall i, ~ first_match (map reg_type gs) (i_recordType r) i) ->
  handleEvent H (setup c (Some p) gs) r = ([DefaultProcessed], Returns (p r)).
Proof.
  intros N.
  assert (Hno : forall w, In w (map (wrap c) gs) -> eventType w <> i_recordType r).
  { intros w Hin Heq. apply in_map_iff in Hin as (g & <- & Hg). cbn in Heq.
    (* a least index exists *)
    assert (L : forall n, (forall i, i < n -> nth_error (map reg_type gs) i <> Some (i_recordType r)) \/
                          exists i, i < n /\ first_match (map reg_type gs) (i_recordType r) i).
    { induction n as [|n IH]; [left; lia|]. destruct IH as [IH|(i & Hi & Hm)].
      - destruct (nth_error (map reg_type gs) n) as [t|] eqn:E.
        + destruct (bytes_eq_dec t (i_recordType r)) as [->|Nt].
          * right. exists n. split; [lia|]. split; auto.
          * left. intros i Hi. destruct (Nat.eq_dec i n) as [->|]; [congruence|]. apply IH. lia.
        + left. intros i Hi. destruct (Nat.eq_dec i n) as [->|]; [congruence|]. apply IH. lia.
      - right. exists i. split; auto. }
    apply In_nth_error in Hg as (i & Hi).
    destruct (L (S i)) as [X|(j & _ & Hm)].
    - apply (X i); [lia|]. rewrite nth_error_map, Hi. cbn. congruence.
    - exact (N j Hm). }
  rewrite setup_eq. unfold handleEvent. cbn [chain]. rewrite process_none; auto.
Qed.

Lemma route_decode_error H c d gs r i h :
  first_match (map reg_type gs) (i_recordType r) i ->
  deserializationErrorHandler c = Some h ->
  exists g, nth_error gs i = Some g /\
  (reg_decode g r = false ->
     handleEvent H (setup c d gs) r =
       ([ErrorHandled h], Returns (match answer H h r with Continue => Complete | _ => Incomplete end))).
Proof.
  intros F Hh. destruct (first_match_nth c _ _ _ F) as (g & Hg & Ht & Hw & Hf).
  exists g. split; auto. intros Hd. rewrite setup_eq. unfold handleEvent. cbn [chain].
  rewrite (process_first H _ r 0 i _ Hw); auto. cbn [Nat.add]. unfold Exec. cbn. rewrite Hd, Hh.
  destruct (answer H h r); reflexivity.
Qed.

(** the handler that ought to be consulted *)
Definition intended (c : handlerConfig) : errHandler :=
  match DeserializationErrorHandler c with Some n => AppHandler n | None => DefaultDeserializationErrorHandler end.

Lemma intended_iff c :
  deserializationErrorHandler c = Some (intended c) <->
  (TxnErrorHandler_set c = true <-> DeserializationErrorHandler c <> None).
Proof.
  unfold deserializationErrorHandler, intended. destruct c as [[] [n|]]; cbn; split; intros X; auto;
    try discriminate; try (split; congruence).
  all: exfalso; destruct X as [X1 X2]; try (apply X1; reflexivity).
  - specialize (X2 ltac:(discriminate)). discriminate.
Qed.

Lemma no_nil_call H c p gs r :
  deserializationErrorHandler c <> None ->
  snd (handleEvent H (setup c (Some p) gs) r) <> NilCall.
Proof.
  intros Hh. rewrite setup_eq. unfold handleEvent. cbn [chain defaultProcessor].
  assert (X : forall l k, (forall w, In w l -> handleDeserializationError w <> None) ->
     snd (process H k l r) <> NilCall).
  { induction l as [|w l IH]; intros k Hl; cbn; [discriminate|].
    destruct (bytes_eqb _ _).
    - unfold Exec. destruct (decode w r); cbn; [discriminate|].
      specialize (Hl w (or_introl eq_refl)). destruct (handleDeserializationError w); [discriminate|congruence].
    - apply IH. intros w' Hin. apply Hl. cbn; auto. }
  specialize (X (map (wrap c) gs) 0).
  destruct (process H 0 (map (wrap c) gs) r) as [calls res]. cbn in X.
  destruct res as [[]|]; cbn; try discriminate.
  apply X. intros w Hin. apply in_map_iff in Hin as (g & <- & _). exact Hh.
Qed.
