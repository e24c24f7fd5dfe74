(** C69, C75: configuration of clients of an MSK cluster. *)
From Coq Require Import Strings.String Strings.Ascii List Bool.
From Verif.Msk Require Import Model Proofs.
Import ListNotations.
Open Scope string_scope.

(** C69, brokers (partial: the credentials are refuted below). The first Config either fails, for exactly one of the listed reasons, leaving the
    cluster unconfigured, or gives the broker list of the authentication type, cut at the commas, followed by the TLS
    configuration if there is one, the authentication mechanism and the caller's options *)
Theorem c69_config_partial :
  forall c list get, builtOptions c = [] ->
  match Config c list get with
  | (Err _, c') => c' = c /\
      ((exists e, list (clusterName c) = Err e) \/ list (clusterName c) = Ok [] \/
       (exists ci cis, list (clusterName c) = Ok (ci :: cis) /\
         (ciArn ci = None \/ exists arn, ciArn ci = Some arn /\
           ((exists e, get arn = Err e) \/ exists res f, get arn = Ok res /\ In (auth c, f) endpoint /\ f res = None))))
  | (Ok opts, c') => builtOptions c' = opts /\
      exists ci cis arn res f s brokers, list (clusterName c) = Ok (ci :: cis) /\ ciArn ci = Some arn /\ get arn = Ok res /\
        In (auth c, f) endpoint /\ f res = Some s /\ String.concat "," brokers = s /\ Forall commaFree brokers /\ brokers <> nil /\
        opts = (SeedBrokers brokers :: (match tlsConfig c with None => [] | Some t => [DialTLS t] end) ++ sasl c ++ clientOptions c)%list
  end.
Proof. exact config_ok. Qed.
Print Assumptions c69_config_partial.

(** later calls return the same options without asking AWS again *)
Theorem c69_config_cached :
  forall c list get list' get' opts c', builtOptions c = [] -> Config c list get = (Ok opts, c') ->
  Config c' list' get' = (Ok opts, c').
Proof. exact config_cached. Qed.
Print Assumptions c69_config_cached.

Definition ex_cluster (a : authType) : cluster := mkCluster "orders" a (Some 7) ("u", "p") [Custom 1] [].
Definition ex_list (n : string) : answer (list clusterInfo) := Ok [mkCI "orders" (Some "arn1")].
Definition ex_get (n : string) : answer bootstrap := Ok (mkBS None (Some "b1:9094,b2:9094") (Some "b1:9096") (Some "b1:9098,b2:9098") None None None).
Example c69_example :
  fst (Config (ex_cluster SaslIam) ex_list ex_get) = Ok [SeedBrokers ["b1:9098"; "b2:9098"]; DialTLS 7; IamAuth; Custom 1] /\
  fst (Config (ex_cluster SaslScram) ex_list ex_get) = Ok [SeedBrokers ["b1:9096"]; DialTLS 7; ScramSha512 "u" "p"; Custom 1] /\
  fst (Config (ex_cluster PublicSaslIam) ex_list ex_get) = Err "bootstrap brokers is nil".
Proof. repeat split. Qed.

(** C69, credentials: refuted. Whenever the credentials are retrieved successfully the client gets empty ones, with no error *)
Theorem c69_iam_credentials_refuted : forall cr, saslIamAuth (cr, None) = (noCreds, None).
Proof. reflexivity. Qed.
Print Assumptions c69_iam_credentials_refuted.
Example c69_iam_example : saslIamAuth (mkCreds "AK" "SK" "T", None) <> (mkCreds "AK" "SK" "T", None).
Proof. discriminate. Qed.

(** C75 (partial): if no other cluster's name starts with the configured name, the brokers are those of the named cluster *)
Theorem c75_named_cluster_partial :
  forall c cls get opts c', builtOptions c = nil ->
  (forall ci, In ci cls -> String.prefix (clusterName c) (ciName ci) = true -> ciName ci = clusterName c) ->
  Config c (prefixAnswer cls) get = (Ok opts, c') ->
  exists ci arn res f s brokers rest, In ci cls /\ ciName ci = clusterName c /\ ciArn ci = Some arn /\ get arn = Ok res /\
    In (auth c, f) endpoint /\ f res = Some s /\ String.concat "," brokers = s /\ opts = SeedBrokers brokers :: rest.
Proof. exact config_named. Qed.
Print Assumptions c75_named_cluster_partial.
Definition ex_clusters : list clusterInfo := [mkCI "orders-staging" (Some "arn-staging"); mkCI "orders" (Some "arn-orders")].
Definition ex_get2 (arn : string) : answer bootstrap :=
  Ok (mkBS (Some (if String.eqb arn "arn-orders" then "orders1:9092" else "staging1:9092")) None None None None None None).
Example c75_example : fst (Config (mkCluster "orders-" NoAuth None ("", "") nil nil) (prefixAnswer (tl ex_clusters)) ex_get2) = Err "cluster not found" /\
  fst (Config (mkCluster "orders" NoAuth None ("", "") nil nil) (prefixAnswer (tl ex_clusters)) ex_get2) = Ok [SeedBrokers ["orders1:9092"]] /\
  (forall ci, In ci (tl ex_clusters) -> String.prefix "orders" (ciName ci) = true -> ciName ci = "orders").
Proof. repeat split. intros ci [<-|[]] _. reflexivity. Qed.

(** C75 refuted in general: the name filter of ListClusters is a prefix and the first answer is taken without comparing its
    name; a cluster "orders" is configured with the brokers of "orders-staging" *)
Theorem c75_other_cluster_refuted :
  exists c cls get, builtOptions c = nil /\ In (mkCI (clusterName c) (Some "arn-orders")) cls /\
    get "arn-orders" = Ok (mkBS (Some "orders1:9092") None None None None None None) /\
    fst (Config c (prefixAnswer cls) get) = Ok [SeedBrokers ["staging1:9092"]].
Proof.
  exists (mkCluster "orders" NoAuth None ("", "") nil nil), ex_clusters, ex_get2. repeat split. cbn. auto.
Qed.
Print Assumptions c75_other_cluster_refuted.
