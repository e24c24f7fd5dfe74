(** The workers of all partitions together with the producer pool, as far as they wait for each other: streams/partition_worker.go:133-315,
    streams/eos_producer.go:100-252. Not modelled here: revocation (Worker, Eos), what is produced and committed (Eos), failing commits (Eos, Lifecycle).
    The number of records of a transaction, which counts for its size, is arbitrary at each check. Nodes of the pool are interchangeable. *)
From stdpp Require Import prelude list.
Open Scope nat_scope.

(** evCap: capacity of eventInput (partition_worker.go:91, 107); maxPending: eos_producer.go:140-142; bufCap: 1024 (eos_producer.go:102) *)
Record cfg := mkCfg { poolSize : nat; pendingTxn : nat; target : nat; maxBatch : nat; bufCap : nat; evCap : nat; maxPending : nat }.
(** an event or (ij) an interjection of worker w *)
Record ec := mkEc { e_id : nat; e_w : nat; e_ij : bool }.
#[global] Instance ec_dec : EqDecision ec. Proof. solve_decision. Defined.

(** pushRecords, scheduleTxnAndExecution and scheduleInterjection, partition_worker.go:141-209: has e to take a slot for (172, 200), to give to the pool (173, 201),
    to give to the worker's goroutine (174, 202) *)
Inductive pst := PIdle | PTok (e : ec) | PPool (e : ec) | PSend (e : ec).
(** work, 240-255: waits in its select; waits for the producer of e (assignProducer, 290-303); is in the handler of e *)
Inductive cst := CIdle | CWait (e : ec) | CRun (e : ec).
Record worker := mkW { push : pst; evIn : list ec; ijIn : list ec; cur : cst; slots : nat; async : list ec (* handled, the asynchronous job has not reported *) }.
(** forwardExecutionContexts, eos_producer.go:161-206: in its select; has added an event (157); in tryFlush (179); at 183; at 184 or 191 *)
Inductive fst_ := FIdle | FTried | FFlush | FPush | FPop.
Record st := mkSt {
  ws : list worker;
  buffer : list ec;
  fp : fst_;
  deck : list ec;                (* events of the node on deck *)
  queue : list (list ec);        (* commitQueue *)
  kp : option (list ec);         (* the node the commit loop is working on *)
  free : nat;                    (* length of producerNodeQueue *)
  given : list ec;               (* their producerChan has been written *)
  done : list ec;                (* complete has been called *)
  committed : list ec;
  arrived : list ec;
}.
Definition set_w (i : nat) (w : worker) (s : st) : st := mkSt (<[i := w]> (ws s)) (buffer s) (fp s) (deck s) (queue s) (kp s) (free s) (given s) (done s) (committed s) (arrived s).
Definition set_done (e : ec) (s : st) : st := mkSt (ws s) (buffer s) (fp s) (deck s) (queue s) (kp s) (free s) (given s) (e :: done s) (committed s) (arrived s).
Definition set_fp (f : fst_) (s : st) : st := mkSt (ws s) (buffer s) f (deck s) (queue s) (kp s) (free s) (given s) (done s) (committed s) (arrived s).
Definition set_buffer (b : list ec) (s : st) : st := mkSt (ws s) b (fp s) (deck s) (queue s) (kp s) (free s) (given s) (done s) (committed s) (arrived s).

Inductive action :=
| Arrive (i : nat) (ij : bool)   (* a record or an interjection is next, 144-148, 169-171, 184-187 *)
| Tok (i : nat) | Put (i : nat) | Send (i : nat)
| WEv (i : nat) | WIj (i : nat)  (* 242-245: select takes any channel that is ready *)
| WGo (i : nat)                  (* 295: the producer is there *)
| WSync (i : nat)                (* the handler returns Complete, 283-285, 312-315 *)
| WAsync (i : nat)               (* the handler returns Incomplete *)
| WJob (i : nat) (e : ec)        (* an asynchronous job of e reports and is finalized, 246-247, 297-298, 258-263 *)
| FTake | FTry (r : nat) | FTick | FDo (r : nat) | FPushed | FSwap
| KStart | KEnd.

Section Step.
Context (c : cfg).
(** shouldTryFlush and shouldForceFlush, eos_producer.go:173-179, with r records *)
Definition size (r : nat) (d : list ec) : nat := length d `max` r.
Definition step (s : st) (a : action) : option st :=
  match a with
  | Arrive i ij =>
    match ws s !! i with
    | Some (mkW PIdle v j k n y) =>
      let e := mkEc (length (arrived s)) i ij in
      Some (mkSt (<[i := mkW (PTok e) v j k n y]> (ws s)) (buffer s) (fp s) (deck s) (queue s) (kp s) (free s) (given s) (done s) (committed s) (e :: arrived s))
    | _ => None
    end
  | Tok i =>
    match ws s !! i with
    | Some (mkW (PTok e) v j k n y) => if n <? maxPending c then Some (set_w i (mkW (PPool e) v j k (S n) y) s) else None
    | _ => None
    end
  | Put i =>
    match ws s !! i with
    | Some (mkW (PPool e) v j k n y) => if length (buffer s) <? bufCap c then Some (set_w i (mkW (PSend e) v j k n y) (set_buffer (buffer s ++ [e]) s)) else None
    | _ => None
    end
  | Send i => (* interjectionEventInput has room for one, 109 *)
    match ws s !! i with
    | Some (mkW (PSend e) v j k n y) =>
      if e_ij e then match j with [] => Some (set_w i (mkW PIdle v [e] k n y) s) | _ => None end
      else if length v <? evCap c then Some (set_w i (mkW PIdle (v ++ [e]) j k n y) s) else None
    | _ => None
    end
  | WEv i => match ws s !! i with Some (mkW p (e :: v) j CIdle n y) => Some (set_w i (mkW p v j (CWait e) n y) s) | _ => None end
  | WIj i => match ws s !! i with Some (mkW p v (e :: j) CIdle n y) => Some (set_w i (mkW p v j (CWait e) n y) s) | _ => None end
  | WGo i => match ws s !! i with Some (mkW p v j (CWait e) n y) => if decide (e ∈ given s) then Some (set_w i (mkW p v j (CRun e) n y) s) else None | _ => None end
  | WSync i => match ws s !! i with Some (mkW p v j (CRun e) n y) => Some (set_w i (mkW p v j CIdle (pred n) y) (set_done e s)) | _ => None end
  | WAsync i => match ws s !! i with Some (mkW p v j (CRun e) n y) => Some (set_w i (mkW p v j CIdle n (e :: y)) s) | _ => None end
  | WJob i e =>
    match ws s !! i with
    | Some (mkW p v j (CRun _) n y) => None
    | Some (mkW p v j k n y) => if decide (e ∈ y) then Some (set_w i (mkW p v j k (pred n) (filter (fun x => x <> e) y)) (set_done e s)) else None
    | None => None
    end
  | FTake => (* 165, 151-153 *)
    match fp s, buffer s with
    | FIdle, e :: b => Some (mkSt (ws s) b FTried (deck s ++ [e]) (queue s) (kp s) (free s) (e :: given s) (done s) (committed s) (arrived s))
    | _, _ => None
    end
  | FTry r => match fp s with FTried => Some (set_fp (if target c <=? size r (deck s) then FFlush else FIdle) s) | _ => None end
  | FTick => match fp s with FIdle => Some (set_fp FFlush s) | _ => None end
  | FDo r => (* tryFlush, 181-205; a node without events has no records *)
    match fp s with
    | FFlush =>
      match deck s with
      | [] => if r =? 0 then Some (set_fp FIdle s) else None
      | _ => if size r (deck s) =? maxBatch c then Some (set_fp FPush s)
             else if length (queue s) <? pendingTxn c
                  then Some (mkSt (ws s) (buffer s) FPop [] (queue s ++ [deck s]) (kp s) (free s) (given s) (done s) (committed s) (arrived s))
                  else Some (set_fp FIdle s)
      end
    | _ => None
    end
  | FPushed => (* 183 *)
    match fp s with
    | FPush => if length (queue s) <? pendingTxn c
               then Some (mkSt (ws s) (buffer s) FPop [] (queue s ++ [deck s]) (kp s) (free s) (given s) (done s) (committed s) (arrived s)) else None
    | _ => None
    end
  | FSwap => (* 184, 191 *)
    match fp s, free s with
    | FPop, S n => Some (mkSt (ws s) (buffer s) FIdle [] (queue s) (kp s) n (given s) (done s) (committed s) (arrived s))
    | _, _ => None
    end
  | KStart => (* 211 *)
    match kp s, queue s with
    | None, d :: q => Some (mkSt (ws s) (buffer s) (fp s) (deck s) q (Some d) (free s) (given s) (done s) (committed s) (arrived s))
    | _, _ => None
    end
  | KEnd => (* 339-347 waits for each event; 238 *)
    match kp s with
    | Some d => if forallb (fun e => bool_decide (e ∈ done s)) d
                then Some (mkSt (ws s) (buffer s) (fp s) (deck s) (queue s) None (S (free s)) (given s) (done s) (committed s ++ d) (arrived s)) else None
    | None => None
    end
  end.
Fixpoint run (s : st) (l : list action) : option st :=
  match l with [] => Some s | a :: l' => match step s a with Some s' => run s' l' | None => None end end.
End Step.
(** n partitions; one node is on deck *)
Definition start (c : cfg) (n : nat) : st := mkSt (repeat (mkW PIdle [] [] CIdle 0 []) n) [] FIdle [] [] None (poolSize c - 1) [] [] [] [].

(** validateEosConfig, eos_config.go:78-97; the capacities are at least 1 (eos_producer.go:102, 140-142, partition_worker.go:91) *)
Definition valid (c : cfg) : Prop := 1 <= poolSize c /\ 1 <= pendingTxn c /\ 1 <= target c <= maxBatch c /\ 1 <= bufCap c /\ 1 <= evCap c /\ 1 <= maxPending c.
(** not the arrival of an interjection; not an arrival at all *)
Definition noij (a : action) : Prop := forall i, a <> Arrive i true.
Definition noArrive (a : action) : Prop := forall i b, a <> Arrive i b.
(** anything but the flush timer and the attempt to flush *)
Definition useful (a : action) : bool := match a with FTick | FDo _ => false | _ => true end.
