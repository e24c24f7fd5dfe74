(** Property C117: HeaderValue. *)
From Coq Require Import Strings.String Strings.Byte ZArith List Bool Lia.
From Verif.Base Require Import Bytes.
From Verif.Record Require Import Model Spec Proofs.
Import ListNotations.

Definition same (a b : list byte) : bool := if list_eq_dec Byte.byte_eq_dec a b then true else false.
Lemma same_eqb a b : same a b = bytes_eqb a b.
Proof. unfold same. destruct (list_eq_dec Byte.byte_eq_dec a b) as [E|N]; symmetry; [now apply bytes_eqb_spec|now apply bytes_eqb_neq]. Qed.
#[local] Arguments same : simpl never.
(** the values with that name, in the order in which they were set *)
Definition valuesOf (name : list byte) (hs : list (list byte * list byte)) : list (list byte) :=
  map snd (filter (fun kv => same (fst kv) name) hs).
Definition asPairs (hs : list Header) : list (list byte * list byte) := map (fun h => (h_key h, h_value h)) hs.

Lemma headerValue_hd hs name : headerValue hs name = hd_error (valuesOf name (asPairs hs)).
Proof. induction hs as [|h hs IH]; cbn; [reflexivity|]. unfold valuesOf in *. cbn. rewrite same_eqb. destruct (bytes_eqb (h_key h) name); [reflexivity|exact IH]. Qed.
Lemma valuesOf_app name a b : valuesOf name (a ++ b) = valuesOf name a ++ valuesOf name b.
Proof. unfold valuesOf. rewrite filter_app, map_app. reflexivity. Qed.
Lemma build_headers ops : asPairs (k_headers (kRecord (build ops))) = written_headers ops.
Proof. exact (proj1 (proj2 (proj2 (build_spec ops)))). Qed.
Lemma sent_values ops name : name <> RecordTypeHeaderKey -> valuesOf name (asPairs (k_headers (toKafkaRecord (build ops)))) = valuesOf name (written_headers ops).
Proof.
  intros N. unfold toKafkaRecord, addRecordTypeHeader. destruct (_ =? 0)%nat; [cbn [k_headers]; now rewrite build_headers|]. cbn [k_headers]. destruct (existsb _ _); cbn [k_headers]; [now rewrite build_headers|].
  unfold asPairs. rewrite map_app. fold (asPairs (k_headers (kRecord (build ops)))). rewrite build_headers, valuesOf_app. cbn [map h_key h_value]. unfold valuesOf at 2. cbn [filter fst].
  rewrite same_eqb, (proj2 (bytes_eqb_neq _ _)) by congruence. cbn. now rewrite app_nil_r.
Qed.
Lemma type_last hs : fold_left (fun rt h => if bytes_eqb (h_key h) RecordTypeHeaderKey then h_value h else rt) hs [] = last (valuesOf RecordTypeHeaderKey (asPairs hs)) [].
Proof.
  rewrite last_type_header. f_equal. unfold valuesOf, asPairs. generalize RecordTypeHeaderKey. intros K. induction hs as [|h hs IH]; cbn; [reflexivity|]. rewrite same_eqb. destruct (bytes_eqb (h_key h) K); cbn; now rewrite IH.
Qed.

(** the value that was set first *)
Theorem c117_first_value : forall ops name, name <> RecordTypeHeaderKey ->
  HeaderValue (newIncomingRecord (toKafkaRecord (build ops))) name = hd_error (valuesOf name (written_headers ops)).
Proof. intros ops name N. unfold HeaderValue. cbn [newIncomingRecord i_kRecord]. rewrite headerValue_hd, sent_values by exact N. reflexivity. Qed.
Print Assumptions c117_first_value.
(** Refuted: what is set later has no effect, for every name and all values *)
Theorem c117_last_value_refuted : forall ops name v1 v2 more, name <> RecordTypeHeaderKey -> v1 <> v2 ->
  HeaderValue (newIncomingRecord (toKafkaRecord (build (OpHeader name v1 :: ops ++ OpHeader name v2 :: more)))) name <> Some v2.
Proof.
  intros ops name v1 v2 more N D. rewrite c117_first_value by exact N. unfold valuesOf, written_headers. cbn [map concat app filter fst].
  rewrite same_eqb, bytes_eqb_refl. cbn. congruence.
Qed.
Print Assumptions c117_last_value_refuted.
(** What holds: a name that is set once has its value, one that is never set has none.  Missing: names that are set more than once. *)
Theorem c117_last_value_partial : forall ops name, name <> RecordTypeHeaderKey -> (length (valuesOf name (written_headers ops)) <= 1)%nat ->
  HeaderValue (newIncomingRecord (toKafkaRecord (build ops))) name = hd_error (rev (valuesOf name (written_headers ops))).
Proof. intros ops name N L. rewrite c117_first_value by exact N. destruct (valuesOf _ _) as [|a [|b l]]; cbn in *; [reflexivity|reflexivity|lia]. Qed.
Print Assumptions c117_last_value_partial.

(** the type of the record and the header that holds it; [k] is any record of the topic *)
Theorem c117_type_partial : forall k, (length (valuesOf RecordTypeHeaderKey (asPairs (k_headers k))) <= 1)%nat ->
  i_recordType (newIncomingRecord k) = match HeaderValue (newIncomingRecord k) RecordTypeHeaderKey with Some v => v | None => [] end.
Proof.
  intros k L. unfold HeaderValue. cbn [newIncomingRecord i_kRecord i_recordType]. rewrite headerValue_hd, type_last. destruct (valuesOf _ _) as [|a [|b l]]; cbn in *; [reflexivity|reflexivity|lia].
Qed.
Print Assumptions c117_type_partial.
(** Refuted: SetRecordType on a record that has another type already *)
Theorem c117_type_refuted : forall k t1 t2, t1 <> t2 -> valuesOf RecordTypeHeaderKey (asPairs (k_headers k)) = [] ->
  let r := newIncomingRecord (SetRecordType (SetRecordType k t1) t2) in i_recordType r = t2 /\ HeaderValue r RecordTypeHeaderKey = Some t1.
Proof.
  intros k t1 t2 D E r. unfold HeaderValue. subst r. cbn [newIncomingRecord i_kRecord i_recordType]. rewrite headerValue_hd, type_last. unfold SetRecordType. cbn [k_headers].
  unfold asPairs in *. rewrite !map_app, !valuesOf_app, E. split; reflexivity.
Qed.
Print Assumptions c117_type_refuted.

Definition ex : list build_op := [OpHeader (str "trace") (str "1"); OpType (str "Order"); OpHeader (str "user") (str "u"); OpHeader (str "trace") (str "2")].
Example c117_example : let r := newIncomingRecord (toKafkaRecord (build ex)) in
  HeaderValue r (str "trace") = Some (str "1") /\ HeaderValue r (str "user") = Some (str "u") /\ HeaderValue r (str "x") = None /\ HeaderValue r RecordTypeHeaderKey = Some (str "Order") /\
  length (valuesOf (str "user") (written_headers ex)) = 1%nat /\ valuesOf RecordTypeHeaderKey (asPairs (k_headers (kRecord (build ex)))) = [] /\ str "trace" <> RecordTypeHeaderKey.
Proof. repeat split; try (vm_compute; reflexivity). discriminate. Qed.
