(** Model of msk/cluster.go. Answers of the AWS services are arguments; [string] is a Go string. *)
From Coq Require Import Strings.String Strings.Ascii List Bool.
Import ListNotations.

(** msk/cluster.go:51-61; [OtherAuth] stands for any other integer *)
Inductive authType := NoAuth | MutualTLS | SaslScram | SaslIam | PublicMutualTLS | PublicSaslScram | PublicSaslIam | OtherAuth.

(** the fields of the AWS answers that the code reads; nil pointers are None *)
Record clusterInfo := mkCI { ciName : string; ciArn : option string }.
Record bootstrap := mkBS { bsPlain : option string; bsTls : option string; bsScram : option string; bsIam : option string;
                           bsPublicTls : option string; bsPublicScram : option string; bsPublicIam : option string }.
Inductive answer (A : Type) := Ok (a : A) | Err (e : string).
Arguments Ok {A}. Arguments Err {A}.

(** client options; a TLS config and the caller's own options are opaque numbers *)
Inductive opt := SeedBrokers (l : list string) | DialTLS (c : nat) | IamAuth | ScramSha512 (user pass : string) | Custom (n : nat).

(** msk/cluster.go:64-74, without the mutex (Config holds it for its whole body) *)
Record cluster := mkCluster { clusterName : string; auth : authType; tlsConfig : option nat; scram : string * string;
                              clientOptions : list opt; builtOptions : list opt }.

(** Go's strings.Split(s, ",") *)
Fixpoint split (s : string) : list string :=
  match s with
  | EmptyString => [EmptyString]
  | String c s' =>
      if Ascii.eqb c ","%char then EmptyString :: split s'
      else match split s' with [] => [String c EmptyString] | p :: ps => String c p :: ps end
  end.

(** msk/cluster.go:218-236; [list] is what ListClusters answers for a name filter *)
Definition getClusterArn (c : cluster) (list : string -> answer (list clusterInfo)) : answer string :=
  match list (clusterName c) with
  | Err e => Err e
  | Ok [] => Err "cluster not found"
  | Ok (ci :: _) => match ciArn ci with None => Err "cluster not found (nil ClusterInfo)" | Some arn => Ok arn end
  end.

(** msk/cluster.go:182-216 *)
Definition getBootstrapBrokers (c : cluster) (list : string -> answer (list clusterInfo)) (get : string -> answer bootstrap) : answer (List.list string) :=
  match getClusterArn c list with
  | Err e => Err e
  | Ok arn =>
      match get arn with
      | Err e => Err e
      | Ok res =>
          let s := match auth c with
                   | MutualTLS => bsTls res
                   | SaslScram => bsScram res
                   | SaslIam => bsIam res
                   | PublicMutualTLS => bsPublicTls res
                   | PublicSaslScram => bsPublicScram res
                   | PublicSaslIam => bsPublicIam res
                   | NoAuth | OtherAuth => bsPlain res
                   end in
          match s with None => Err "bootstrap brokers is nil" | Some s => Ok (split s) end
      end
  end.

(** msk/cluster.go:141-166 *)
Definition Config (c : cluster) (list : string -> answer (list clusterInfo)) (get : string -> answer bootstrap) : answer (List.list opt) * cluster :=
  match builtOptions c with
  | [] =>
      match getBootstrapBrokers c list get with
      | Err e => (Err e, c)
      | Ok brokers =>
          let opts := match brokers with [] => [] | _ => [SeedBrokers brokers] end in
          let opts := opts ++ match tlsConfig c with None => [] | Some t => [DialTLS t] end in
          let opts := opts ++ match auth c with
                              | SaslIam | PublicSaslIam => [IamAuth]
                              | SaslScram | PublicSaslScram => [ScramSha512 (fst (scram c)) (snd (scram c))]
                              | _ => []
                              end in
          let built := opts ++ clientOptions c in
          (Ok built, mkCluster (clusterName c) (auth c) (tlsConfig c) (scram c) (clientOptions c) built)
      end
  | b => (Ok b, c)
  end.

(** msk/cluster.go:169-179; Retrieve answers with credentials and an error, of which either may be empty *)
Record creds := mkCreds { accessKey : string; secretKey : string; sessionToken : string }.
Definition noCreds : creds := mkCreds "" "" "".
Definition saslIamAuth (retrieve : creds * option string) : creds * option string :=
  let '(cr, err) := retrieve in
  (match err with Some _ => cr | None => noCreds end, err).
