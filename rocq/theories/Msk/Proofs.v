From Coq Require Import Strings.String Strings.Ascii List Bool.
From Verif.Msk Require Import Model.
Import ListNotations.

(** the broker list that belongs to an authentication type, as a table *)
Definition endpoint : list (authType * (bootstrap -> option string)) :=
  [(NoAuth, bsPlain); (OtherAuth, bsPlain); (MutualTLS, bsTls); (SaslScram, bsScram); (SaslIam, bsIam);
   (PublicMutualTLS, bsPublicTls); (PublicSaslScram, bsPublicScram); (PublicSaslIam, bsPublicIam)].

Fixpoint commaFree (s : string) : Prop :=
  match s with EmptyString => True | String c s' => c <> ","%char /\ commaFree s' end.
Lemma split_ne s : split s <> [].
Proof. destruct s as [|c s]; cbn; [discriminate|]. destruct (Ascii.eqb c ","%char); [discriminate|]. destruct (split s); discriminate. Qed.
Lemma split_join s : String.concat "," (split s) = s.
Proof.
  induction s as [|c s IH]; cbn [split]; auto.
  destruct (Ascii.eqb_spec c ","%char) as [->|N].
  - rewrite <- IH at 2. pose proof (split_ne s). destruct (split s); [congruence|]. reflexivity.
  - pose proof (split_ne s) as Ne. destruct (split s) as [|p [|q ps]]; [congruence| |]; cbn in *; congruence.
Qed.
Lemma split_free s : Forall commaFree (split s).
Proof.
  induction s as [|c s IH]; cbn [split]; [repeat constructor|].
  destruct (Ascii.eqb_spec c ","%char) as [->|N]; [constructor; cbn; auto|].
  inversion IH as [E|p ps A B E]; constructor; cbn; auto.
Qed.

Definition sasl (c : cluster) : list opt :=
  match auth c with
  | SaslIam | PublicSaslIam => [IamAuth]
  | SaslScram | PublicSaslScram => [ScramSha512 (fst (scram c)) (snd (scram c))]
  | _ => []
  end.

Lemma config_ok c list get : builtOptions c = [] ->
  match Config c list get with
  | (Err _, c') => c' = c /\
      ((exists e, list (clusterName c) = Err e) \/ list (clusterName c) = Ok [] \/
       (exists ci cis, list (clusterName c) = Ok (ci :: cis) /\
         (ciArn ci = None \/ exists arn, ciArn ci = Some arn /\
           ((exists e, get arn = Err e) \/ exists res f, get arn = Ok res /\ In (auth c, f) endpoint /\ f res = None))))
  | (Ok opts, c') => builtOptions c' = opts /\
      exists ci cis arn res f s brokers, list (clusterName c) = Ok (ci :: cis) /\ ciArn ci = Some arn /\ get arn = Ok res /\
        In (auth c, f) endpoint /\ f res = Some s /\ String.concat "," brokers = s /\ Forall commaFree brokers /\ brokers <> [] /\
        opts = SeedBrokers brokers :: (match tlsConfig c with None => [] | Some t => [DialTLS t] end) ++ sasl c ++ clientOptions c
  end.
Proof.
  intros E. unfold Config. rewrite E. unfold getBootstrapBrokers, getClusterArn.
  destruct (list (clusterName c)) as [[|ci cis]|e] eqn:L; [split; auto| |split; eauto].
  destruct (ciArn ci) as [arn|] eqn:A; [|split; auto; right; right; eauto].
  destruct (get arn) as [res|e] eqn:G; [|split; auto; right; right; exists ci, cis; split; eauto 6].
  assert (F : exists f, In (auth c, f) endpoint /\
    f res = match auth c with MutualTLS => bsTls res | SaslScram => bsScram res | SaslIam => bsIam res | PublicMutualTLS => bsPublicTls res
            | PublicSaslScram => bsPublicScram res | PublicSaslIam => bsPublicIam res | NoAuth | OtherAuth => bsPlain res end).
  { destruct (auth c); (eexists; split; [unfold endpoint; cbn; eauto 12|reflexivity]). }
  destruct F as (f & F1 & F2). rewrite <- F2. destruct (f res) as [s|] eqn:Fs.
  - split; auto. exists ci, cis, arn, res, f, s, (split s). pose proof (split_ne s) as Ne. repeat split; auto using split_join, split_free.
    destruct (split s); [congruence|]. unfold sasl. rewrite <- !app_assoc. reflexivity.
  - split; auto. right. right. exists ci, cis. split; auto. right. exists arn. split; auto. right. exists res, f. auto.
Qed.

Lemma config_cached c list get list' get' opts c' : builtOptions c = [] -> Config c list get = (Ok opts, c') ->
  Config c' list' get' = (Ok opts, c').
Proof.
  intros E H. pose proof (config_ok c list get E) as Q. rewrite H in Q. destruct Q as (B & ci & cis & arn & res & f & s & br & _ & _ & _ & _ & _ & _ & _ & _ & O).
  unfold Config. rewrite B, O. reflexivity.
Qed.

(** ListClusters as AWS documents it: the clusters whose names start with the filter, in some order *)
Definition prefixAnswer (cls : list clusterInfo) (name : string) : answer (list clusterInfo) :=
  Ok (filter (fun ci => String.prefix name (ciName ci)) cls).
Lemma config_named c cls get opts c' : builtOptions c = [] ->
  (forall ci, In ci cls -> String.prefix (clusterName c) (ciName ci) = true -> ciName ci = clusterName c) ->
  Config c (prefixAnswer cls) get = (Ok opts, c') ->
  exists ci arn res f s brokers rest, In ci cls /\ ciName ci = clusterName c /\ ciArn ci = Some arn /\ get arn = Ok res /\
    In (auth c, f) endpoint /\ f res = Some s /\ String.concat "," brokers = s /\ opts = SeedBrokers brokers :: rest.
Proof.
  intros E U H. pose proof (config_ok c (prefixAnswer cls) get E) as Q. rewrite H in Q.
  destruct Q as (_ & ci & cis & arn & res & f & s & br & L & A & G & I & F & C & _ & _ & O).
  injection L as L. assert (X : In ci (filter (fun ci => String.prefix (clusterName c) (ciName ci)) cls)) by (rewrite L; cbn; auto).
  apply filter_In in X as (X & Y). exists ci, arn, res, f, s, br. eexists. repeat split; eauto.
Qed.
