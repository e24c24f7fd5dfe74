(** Facts about one member's side of the incremental balancer. *)
From stdpp Require Export prelude list gmap.
From Verif.Balancer Require Export Member.
From Coq Require Import Lia.
Open Scope nat_scope.

Definition empties (a : assignment) : Prop := forall t l, parsed a !! t = Some l -> l = [].
(** what stays the same *)
Definition same (s s' : member) : Prop := m_stat s' = m_stat s /\ closes s' = closes s /\ m_left s' = m_left s.
Lemma same_fold {A} (f : member -> A -> member) l s : (forall s x, same s (f s x)) -> same s (foldl f s l).
Proof. intros H. revert s. induction l as [|x l IH]; [done|]. intros s. simpl. destruct (IH (f s x)) as (E1 & E2 & E3). destruct (H s x) as (E4 & E5 & E6). split_and!; congruence. Qed.
Lemma prepare1_same s x : same s (prepare1 s x).
Proof. unfold prepare1. by case_decide. Qed.
Lemma forget1_same a s i : same s (forget1 a s i).
Proof. unfold forget1. repeat (case_match || case_decide); done. Qed.
Lemma assign1_same t s p : same s (assign1 t s p).
Proof. done. Qed.
Lemma revoke1_same s p : same s (revoke1 s p).
Proof. done. Qed.
Definition closing (s : member) (e : event) : Prop := m_stat s = Inactive /\ exists a, e = ESync (Some a) /\ empties a.
Lemma step_cases s e : (closing s e /\ m_stat (mstep s e) = Defunct /\ closes (mstep s e) = S (closes s) /\ m_left (mstep s e) = m_left s) \/
  (~ closing s e /\ ((exists now, e = ELeave now /\ m_stat s = Active /\ m_stat (mstep s e) = Inactive /\ closes (mstep s e) = closes s) \/
                     (~ (exists now, e = ELeave now /\ m_stat s = Active) /\ same s (mstep s e)))).
Proof.
  destruct e as [now|[a|]|k|k|x|t ps|ps]; simpl.
  - right. split; [by intros (_ & a & [=] & _)|]. unfold leave. destruct (m_stat s) eqn:E; [left; by exists now|right|right]; (split; [naive_solver|done]).
  - unfold parseSync. case_decide as D.
    + left. split; [|done]. destruct D as [D1 D2]. split; [done|]. exists a. split; [done|]. intros t l L. by apply (D2 t).
    + right. split; [intros (D1 & a' & [= <-] & D2); apply D; split; [done|]; intros t l L; by apply (D2 t)|]. right. split; [naive_solver|].
      destruct (same_fold (forget1 a) (seq 0 (length (a_forget a))) (foldl prepare1 s (a_prepare a)) (forget1_same a)) as (E1 & E2 & E3).
      destruct (same_fold prepare1 (a_prepare a) s prepare1_same) as (E4 & E5 & E6). split_and!; congruence.
  - right. split; [by intros (_ & a & [=] & _)|]. right. split; [naive_solver|done].
  - right. split; [by intros (_ & a & [=] & _)|]. right. split; [naive_solver|]. case_match; [|done]. unfold start. by case_decide.
  - right. split; [by intros (_ & a & [=] & _)|]. right. split; [naive_solver|]. by case_match.
  - right. split; [by intros (_ & a & [=] & _)|]. right. split; [naive_solver|done].
  - right. split; [by intros (_ & a & [=] & _)|]. right. split; [naive_solver|]. apply same_fold, assign1_same.
  - right. split; [by intros (_ & a & [=] & _)|]. right. split; [naive_solver|]. apply same_fold, revoke1_same.
Qed.
Lemma mrun_snoc l e : mrun (l ++ [e]) = mstep (mrun l) e.
Proof. unfold mrun. by rewrite foldl_app. Qed.
(** the state is determined by the history of leave calls and assignments *)
Definition left_in (l : list event) : Prop := exists l1 now l2, l = l1 ++ ELeave now :: l2.
Definition drained_in (l : list event) : Prop := exists l1 now l2 a l3, l = l1 ++ ELeave now :: l2 ++ ESync (Some a) :: l3 /\ empties a.
Lemma left_snoc l e : left_in (l ++ [e]) <-> left_in l \/ exists now, e = ELeave now.
Proof.
  split.
  - intros (l1 & now & l2 & E). destruct l2 as [|y l2 _] using rev_ind.
    + apply app_inj_tail in E as [-> ->]. right. eauto.
    + rewrite app_comm_cons, app_assoc in E. apply app_inj_tail in E as [-> ->]. left. by exists l1, now, l2.
  - intros [(l1 & now & l2 & ->)|[now ->]]; [exists l1, now, (l2 ++ [e]); by rewrite <- app_assoc|by exists l, now, []].
Qed.
Lemma drained_snoc l e : drained_in (l ++ [e]) <-> drained_in l \/ (left_in l /\ exists a, e = ESync (Some a) /\ empties a).
Proof.
  split.
  - intros (l1 & now & l2 & a & l3 & E & H). destruct l3 as [|y l3 _] using rev_ind.
    + rewrite app_comm_cons, app_assoc in E. apply app_inj_tail in E as [-> ->]. right. split; [by exists l1, now, l2|eauto].
    + assert (E' : l ++ [e] = (l1 ++ ELeave now :: l2 ++ ESync (Some a) :: l3) ++ [y]) by (rewrite E, <- !app_assoc; simpl; by rewrite <- !app_assoc). apply app_inj_tail in E' as [-> _]. left. by exists l1, now, l2, a, l3.
  - intros [(l1 & now & l2 & a & l3 & -> & H)|[(l1 & now & l2 & ->) (a & -> & H)]].
    + exists l1, now, l2, a, (l3 ++ [e]). split; [|done]. rewrite <- !app_assoc. simpl. by rewrite <- app_assoc.
    + exists l1, now, l2, a, []. split; [|done]. by rewrite <- app_assoc.
Qed.
Theorem status_is l : (m_stat (mrun l) <> Active <-> left_in l) /\ (m_stat (mrun l) = Defunct <-> drained_in l) /\ closes (mrun l) = (if decide (m_stat (mrun l) = Defunct) then 1 else 0).
Proof.
  induction l as [|e l (I1 & I2 & I3)] using rev_ind.
  - split_and!; [|split; [done|]|done]; [split; [done|intros ([|? ?] & ? & ? & [=])]|intros ([|? ?] & ? & ? & ? & ? & [=] & _)].
  - rewrite mrun_snoc, left_snoc, drained_snoc. destruct (step_cases (mrun l) e) as [((C1 & a & -> & C2) & E1 & E2 & _)|[NC [(now & -> & C1 & E1 & E2)|[NL (E1 & E2 & _)]]]].
    + assert (LL : left_in l) by (apply I1; congruence). rewrite E1, E2, I3, C1. split_and!; [split; [by left|done]|split; [|done]|done]. intros _. right. eauto.
    + rewrite E1, E2, I3, C1. split_and!; [split; [by right; eauto|done]|split; [done|]|done]. intros [D|[_ (a & [=] & _)]]. apply I2 in D. congruence.
    + rewrite E1, E2, I3. split_and!; [|rewrite I2|done].
      * rewrite I1. split; [by left|]. intros [?|[now ->]]; [done|]. apply I1. intros A. apply NL. by exists now.
      * split; [by left|]. intros [?|[LL (a & -> & Ea)]]; [done|]. apply I1 in LL. apply I2. destruct (m_stat (mrun l)) eqn:ST; [done| |done]. exfalso. apply NC. split; [done|]. eauto.
Qed.
Theorem closed_once l : closes (mrun l) <= 1.
Proof. destruct (status_is l) as (_ & _ & ->). case_decide; lia. Qed.
Theorem closed_iff l : closes (mrun l) = 1 <-> drained_in l.
Proof. destruct (status_is l) as (_ & <- & ->). case_decide; [done|]. split; [done|tauto]. Qed.
(** repeated calls do nothing *)
Theorem leave_again l now : left_in l -> mstep (mrun l) (ELeave now) = mrun l.
Proof. intros L. apply status_is in L. simpl. unfold leave. by destruct (m_stat (mrun l)). Qed.

(** ** What a member works on and what it says it prepares *)
Lemma elem_assign t ps s x : let s' := foldl (assign1 t) s ps in
  (x ∈ preping s' <-> x ∈ preping s /\ ~ (x.1 = t /\ x.2 ∈ ps)) /\ (x ∈ rdy s' <-> x ∈ rdy s /\ ~ (x.1 = t /\ x.2 ∈ ps)) /\
  (forall p, p ∈ sprep s' <-> p ∈ sprep s /\ p ∉ ps) /\ (forall p, p ∈ work s' <-> p ∈ work s \/ p ∈ ps) /\ starting s' = starting s /\ syncing s' = syncing s.
Proof.
  revert s. induction ps as [|q ps IH]; intros s; [simpl; split_and!; set_solver|]. destruct (IH (assign1 t s q)) as (H1 & H2 & H3 & H4 & H5 & H6). simpl. simpl in *. split_and!; [| | | |done|done].
  - rewrite H1, elem_of_difference, elem_of_singleton, elem_of_cons. destruct x as [u v]. simpl. split; [intros [[A B] C]; split; [done|]; intros [-> [->|D]]; tauto|intros [A B]; split_and!; [done| |tauto]]. intros [= -> ->]. tauto.
  - rewrite H2, elem_of_difference, elem_of_singleton, elem_of_cons. destruct x as [u v]. simpl. split; [intros [[A B] C]; split; [done|]; intros [-> [->|D]]; tauto|intros [A B]; split_and!; [done| |tauto]]. intros [= -> ->]. tauto.
  - intros p. rewrite H3. set_solver.
  - intros p. rewrite H4. set_solver.
Qed.
Lemma elem_revoke ps s : let s' := foldl revoke1 s ps in preping s' = preping s /\ rdy s' = rdy s /\ sprep s' = sprep s /\ (forall p, p ∈ work s' <-> p ∈ work s /\ p ∉ ps) /\ starting s' = starting s /\ syncing s' = syncing s.
Proof. revert s. induction ps as [|q ps IH]; intros s; [simpl; split_and!; set_solver|]. destruct (IH (revoke1 s q)) as (H1 & H2 & H3 & H4 & H5 & H6). simpl. split_and!; [done..| |done|done]. intros p. rewrite H4. simpl. set_solver. Qed.
Lemma elem_prepare l s : let s' := foldl prepare1 s l in (forall x, x ∈ preping s' <-> x ∈ preping s \/ x ∈ l) /\ rdy s' = rdy s /\ sprep s' = sprep s /\ work s' = work s /\ syncing s' = syncing s /\
  (forall x, x ∈ starting s' <-> x ∈ starting s \/ (x ∈ l /\ x ∉ preping s)).
Proof.
  revert s. induction l as [|y l IH]; intros s; [simpl; split_and!; set_solver|]. destruct (IH (prepare1 s y)) as (H1 & H2 & H3 & H4 & H5 & H6). simpl. unfold prepare1 in *. case_decide as D; simpl in *; (split_and!; [|done..|]).
  - intros x. rewrite H1. set_solver.
  - intros x. rewrite H6. set_solver.
  - intros x. rewrite H1. set_solver.
  - intros x. rewrite H6. destruct (decide (x = y)) as [->|]; set_solver.
Qed.
Lemma elem_forget a m s : m <= length (a_forget a) -> let s' := foldl (forget1 a) s (seq 0 m) in (forall x, x ∈ preping s' <-> x ∈ preping s /\ x ∉ take m (a_forget a)) /\
  (forall x, x ∈ rdy s' <-> x ∈ rdy s /\ x ∉ take m (a_forget a)) /\ work s' = work s /\ starting s' = starting s /\ syncing s' = syncing s /\
  (forall p, p ∈ sprep s' -> p ∈ sprep s) /\
  (forall p, p ∈ sprep s -> p ∈ sprep s' \/ exists i x y, i < m /\ a_forget a !! i = Some x /\ x ∈ preping s ∪ rdy s /\ a_forget a !! sees a i = Some y /\ y.2 = p) /\
  (forall i x y, i < m -> a_forget a !! i = Some x -> x ∈ preping s ∪ rdy s -> x ∉ take i (a_forget a) -> a_forget a !! sees a i = Some y -> y.2 ∉ sprep s').
Proof.
  induction m as [|m IH]; intros L; [simpl; split_and!; set_solver by lia|]. destruct IH as (H1 & H2 & H3 & H4 & H5 & H6 & H7 & H8); [lia|]. cbv zeta in *. rewrite seq_S, foldl_app. set (s1 := foldl (forget1 a) s (seq 0 m)) in *.
  destruct (lookup_lt_is_Some_2 (a_forget a) m) as [x X]; [lia|]. rewrite (take_S_r _ _ x X). change (foldl (forget1 a) s1 [0 + m]) with (forget1 a s1 m). unfold forget1. rewrite X.
  set (s2 := mkMember _ _ _ (preping s1 ∖ {[x]}) _ _ _ _ _). set (s' := if decide _ then _ else s2).
  assert (E : preping s' = preping s1 ∖ {[x]} /\ rdy s' = rdy s1 ∖ {[x]} /\ work s' = work s1 /\ starting s' = starting s1 /\ syncing s' = syncing s1) by (unfold s'; case_decide; [case_match|]; done).
  destruct E as (E1 & E2 & E3 & E4 & E5). rewrite E1, E2, E3, E4, E5. assert (SP : forall p, p ∈ sprep s' <-> p ∈ sprep s1 /\ ~ (x ∈ preping s1 ∪ rdy s1 /\ exists y, a_forget a !! sees a m = Some y /\ y.2 = p)).
  { intros p. unfold s'. case_decide as D; [|simpl; set_solver]. destruct (a_forget a !! sees a m) as [y|] eqn:Y; simpl; set_solver. }
  split_and!; [intros z; rewrite elem_of_difference, H1; set_solver|intros z; rewrite elem_of_difference, H2; set_solver|done|done|done| | |].
  - intros p P. apply SP in P as [P _]. by apply H6.
  - intros p P. destruct (H7 p P) as [Q|(i & z & y & I & Z & W & Y & EQ)]; [|right; exists i, z, y; split_and!; [lia|done..]]. destruct (decide (p ∈ sprep s')) as [?|N]; [by left|right]. rewrite SP in N.
    destruct (decide (x ∈ preping s1 ∪ rdy s1)) as [W|W]; [|tauto]. destruct (a_forget a !! sees a m) as [y|] eqn:Y; [|destruct N; split; [done|]; intros (_ & y & [=] & _)].
    destruct (decide (y.2 = p)) as [EQ|NE]; [|destruct N; split; [done|]; intros (_ & y' & [= <-] & ?); done]. exists m, x, y. split_and!; [lia|done| |done|done]. set_solver.
  - intros i z y I Z W NT Y P. apply SP in P as [P Q]. destruct (decide (i = m)) as [->|NE]; [|apply (H8 i z y); [lia|done..]]. rewrite X in Z. injection Z as <-. apply Q. split; [set_solver|eauto].
Qed.

(** ** No partition is both worked on and announced as preparing or ready, unless a preparation ends late *)
Definition announced (s : member) (x : tp) : Prop := x ∈ preping s \/ x ∈ rdy s.
Definition timely (s : member) (e : event) : Prop :=
  match e with
  | ESync (Some a) => forall x, x ∈ a_prepare a -> x.2 ∉ work s
  | ESynced k => forall x, syncing s !! k = Some x -> x ∈ preping s
  | EAssigned t _ => forall x, announced s x -> x.1 = t
  | _ => True
  end.
(** every event of the history is timely when it happens *)
Definition alltimely (l : list event) : Prop := forall l1 e l2, l = l1 ++ e :: l2 -> timely (mrun l1) e.
Lemma alltimely_snoc l e : alltimely (l ++ [e]) -> alltimely l /\ timely (mrun l) e.
Proof. intros H. split; [|by apply (H l e [])]. intros l1 e' l2 ->. apply (H l1 e' (l2 ++ [e])). by rewrite <- app_assoc. Qed.
Theorem not_both l : alltimely l -> forall x, announced (mrun l) x -> x.2 ∉ work (mrun l).
Proof.
  induction l as [|e l IH] using rev_ind; intros T x; [intros [?|?]; set_solver|]. apply alltimely_snoc in T as [T1 T2]. specialize (IH T1). rewrite mrun_snoc. generalize dependent (mrun l). intros s IH T2.
  destruct e as [now|[a|]|k|k|y|t ps|ps]; simpl.
  - unfold leave. intros A. assert (announced s x) by (destruct (m_stat s); done). destruct (m_stat s); by apply IH.
  - unfold parseSync. case_decide; [by apply IH|]. destruct (elem_forget a (length (a_forget a)) (foldl prepare1 s (a_prepare a))) as (H1 & H2 & H3 & _); [done|]. destruct (elem_prepare (a_prepare a) s) as (P1 & P2 & _ & P4 & _). intros [A|A].
    + apply H1 in A as [A _]. rewrite H3, P4. apply P1 in A as [A|A]; [apply IH; by left|by apply T2].
    + apply H2 in A as [A _]. rewrite H3, P4. rewrite P2 in A. apply IH. by right.
  - apply IH.
  - destruct (starting s !! k); [|apply IH]. unfold start. case_decide; apply IH.
  - destruct (syncing s !! k) as [y|] eqn:Y; [|apply IH]. specialize (T2 y Y). simpl. intros [A|A]; simpl in A; [apply IH; left; set_solver|]. apply elem_of_union in A as [A|A]; [apply elem_of_singleton in A as ->; apply IH; by left|apply IH; by right].
  - intros [A|A]; simpl in A; apply IH; [left|right]; set_solver.
  - destruct (elem_assign t ps s x) as (H1 & H2 & _ & H4 & _). intros A. assert (B : announced s x /\ ~ (x.1 = t /\ x.2 ∈ ps)) by (destruct A as [A|A]; [apply H1 in A as [??]|apply H2 in A as [??]]; split; [by left|done|by right|done]).
    destruct B as [B1 B2]. rewrite H4. specialize (T2 x B1). intros [W|W]; [by apply (IH x B1)|tauto].
  - destruct (elem_revoke ps s) as (E1 & E2 & _ & E4 & _). unfold announced. rewrite E1, E2, E4. intros A [W _]. by apply (IH x A).
Qed.
(** a partition announced as ready stays so until it is assigned (again), forgotten or reported as failed *)
Definition releases (x : tp) (e : event) : Prop :=
  match e with ESync (Some a) => x ∈ a_forget a | EFailed y => y = x | EAssigned t ps => x.1 = t /\ x.2 ∈ ps | _ => False end.
Theorem ready_stays l l' x : x ∈ rdy (mrun l) -> (forall e, e ∈ l' -> ~ releases x e) -> x ∈ rdy (mrun (l ++ l')).
Proof.
  intros R. induction l' as [|e l' IH] using rev_ind; intros N; [by rewrite app_nil_r|]. rewrite app_assoc, mrun_snoc. assert (R' : x ∈ rdy (mrun (l ++ l'))) by (apply IH; intros e' E'; apply N; set_solver). assert (NE : ~ releases x e) by (apply N; set_solver).
  generalize dependent (mrun (l ++ l')). intros s _ R'. destruct e as [now|[a|]|k|k|y|t ps|ps]; simpl.
  - unfold leave. by destruct (m_stat s).
  - unfold parseSync. case_decide; [done|]. destruct (elem_forget a (length (a_forget a)) (foldl prepare1 s (a_prepare a))) as (_ & H2 & _); [done|]. destruct (elem_prepare (a_prepare a) s) as (_ & P2 & _). rewrite H2, P2. split; [done|]. by rewrite firstn_all.
  - done.
  - destruct (starting s !! k); [|done]. unfold start. by case_decide.
  - destruct (syncing s !! k); [|done]. simpl. set_solver.
  - simpl in NE. set_solver.
  - destruct (elem_assign t ps s x) as (_ & H2 & _). by apply H2.
  - destruct (elem_revoke ps s) as (_ & E2 & _). by rewrite E2.
Qed.

(** ** Forgetting *)
Theorem forget_only a s p : p ∈ sprep s -> (forall t, (t, p) ∉ a_forget a) -> p ∈ sprep (parseSync a s).
Proof.
  intros P N. unfold parseSync. case_decide; [done|]. destruct (elem_forget a (length (a_forget a)) (foldl prepare1 s (a_prepare a))) as (_ & _ & _ & _ & _ & _ & H7 & _); [done|]. destruct (elem_prepare (a_prepare a) s) as (_ & _ & P3 & _).
  destruct (H7 p) as [?|(i & x & [t q] & _ & _ & _ & Y & <-)]; [by rewrite P3|done|]. apply elem_of_list_lookup_2 in Y. by destruct (N t).
Qed.
Theorem forget_exact a s x : ~ (m_stat s = Inactive /\ empties a) -> x ∈ a_forget a -> x ∈ preping s ∪ rdy s -> (forall i, i < length (a_forget a) -> sees a i = i) -> x.2 ∉ sprep (parseSync a s).
Proof.
  intros NC F W I. unfold parseSync. case_decide as D; [destruct NC; destruct D as [D1 D2]; split; [done|]; intros t l L; by apply (D2 t)|].
  destruct (elem_forget a (length (a_forget a)) (foldl prepare1 s (a_prepare a))) as (_ & _ & _ & _ & _ & _ & _ & H8); [done|]. destruct (elem_prepare (a_prepare a) s) as (P1 & P2 & _).
  destruct (list_find (fun y => y = x) (a_forget a)) as [[i y]|] eqn:E.
  - apply list_find_Some in E as (L & -> & B). apply (H8 i x x); [by eapply lookup_lt_Some|done| | |].
    + apply elem_of_union. apply elem_of_union in W as [W|W]; [left; apply P1; by left|right; by rewrite P2].
    + intros K. apply elem_of_take in K as (j & J & LT). by apply (B j x).
    + rewrite I; [done|by eapply lookup_lt_Some].
  - apply list_find_None in E. rewrite Forall_forall in E. by destruct (E x).
Qed.

(** ** A partition announced as preparing is being prepared *)
Definition plain (t : nat) (e : event) : Prop :=
  match e with
  | ESync (Some a) => (forall x, x ∈ a_prepare a -> x.1 = t) /\ (forall i, i < length (a_forget a) -> sees a i = i)
  | EFailed _ => False
  | EAssigned t' _ => t' = t
  | _ => True
  end.
Record Busy (t : nat) (s : member) : Prop := mkBusy {
  b_top : forall x, x ∈ starting s \/ x ∈ syncing s \/ x ∈ preping s -> x.1 = t;
  b_run : forall x, x ∈ preping s -> x ∈ starting s \/ x ∈ syncing s \/ x ∈ rdy s;
  b_con : forall p, p ∈ sprep s -> (t, p) ∈ syncing s \/ (t, p) ∈ rdy s }.
Lemma elem_delete (l : list tp) k y x : l !! k = Some y -> x ∈ l -> x = y \/ x ∈ delete k l.
Proof. intros E X. rewrite (delete_take_drop l k). rewrite <- (take_drop_middle l k y E) in X. set_solver. Qed.
Lemma delete_elem (l : list tp) k x : x ∈ delete k l -> x ∈ l.
Proof. intros H. apply elem_of_list_lookup in H as (i & H). destruct (decide (i < k)); [rewrite lookup_delete_lt in H by done|rewrite lookup_delete_ge in H by lia]; by eapply elem_of_list_lookup_2. Qed.
Lemma Busy_step t s e : plain t e -> Busy t s -> Busy t (mstep s e).
Proof.
  intros PL [B1 B2 B3]. destruct e as [now|[a|]|k|k|y|t' ps|ps]; simpl in *.
  - unfold leave. destruct (m_stat s); by split.
  - destruct (decide (m_stat s = Inactive /\ map_Forall (fun _ l => l = []) (parsed a))) as [D|D]; unfold parseSync; [rewrite decide_True by done; by split|rewrite decide_False by done].
    destruct PL as [PL1 PL2]. destruct (elem_forget a (length (a_forget a)) (foldl prepare1 s (a_prepare a))) as (H1 & H2 & _ & H4 & H5 & H6 & _ & H8); [done|]. rewrite firstn_all in *. destruct (elem_prepare (a_prepare a) s) as (P1 & P2 & P3 & _ & P5 & P6).
    split.
    + intros x. rewrite H4, H5, P5, P6, H1, P1. intros [[X|[X _]]|[X|[[X|X] _]]]; [apply B1; tauto|by apply PL1|apply B1; tauto|apply B1; tauto|by apply PL1].
    + intros x. rewrite H4, H5, P5, P6, H1, P1, H2, P2. intros [[X|X] F]; [destruct (B2 x X) as [?|[?|?]]; tauto|]. destruct (decide (x ∈ preping s)) as [Y|Y]; [destruct (B2 x Y) as [?|[?|?]]; tauto|tauto].
    + intros p P. rewrite H5, P5, H2, P2. pose proof (H6 p P) as Q. rewrite P3 in Q. destruct (B3 p Q) as [?|R]; [by left|]. destruct (decide ((t, p) ∈ a_forget a)) as [F|F]; [|by right].
      exfalso. destruct (list_find (fun y => y = (t, p)) (a_forget a)) as [[i y]|] eqn:E.
      * apply list_find_Some in E as (L & -> & B). apply (H8 i (t, p) (t, p)); [by eapply lookup_lt_Some|done| | | |done].
        -- apply elem_of_union. right. by rewrite P2.
        -- intros K. apply elem_of_take in K as (j & J & LT). by apply (B j (t, p)).
        -- rewrite PL2; [done|by eapply lookup_lt_Some].
      * apply list_find_None in E. rewrite Forall_forall in E. by destruct (E (t, p)).
  - by split.
  - destruct (starting s !! k) as [x|] eqn:X; [|by split]. pose proof (elem_of_list_lookup_2 _ _ _ X) as XI. pose proof (B1 x (or_introl XI)) as XT. destruct x as [u p]. simpl in *. subst u. unfold start. simpl. case_decide as D; split; simpl.
    + intros x [H|H]; [apply B1; left; by eapply delete_elem|apply B1; tauto].
    + intros x P. destruct (B2 x P) as [H|H]; [|tauto]. destruct (elem_delete _ _ _ _ X H) as [->|H']; [destruct (B3 p D); tauto|tauto].
    + done.
    + intros x [H|[H|H]]; [apply B1; left; by eapply delete_elem| |apply B1; tauto]. apply elem_of_app in H as [H|H]; [apply B1; tauto|]. by apply elem_of_list_singleton in H as ->.
    + intros x P. destruct (B2 x P) as [H|[H|H]]; [|set_solver|tauto]. destruct (elem_delete _ _ _ _ X H) as [->|H']; set_solver.
    + intros q Q. apply elem_of_union in Q as [Q|Q]; [apply elem_of_singleton in Q as ->; left; set_solver|]. destruct (B3 q Q); [left; set_solver|tauto].
  - destruct (syncing s !! k) as [x|] eqn:X; [|by split]. split; simpl.
    + intros y [H|[H|H]]; [apply B1; tauto|apply B1; right; left; by eapply delete_elem|apply B1; set_solver].
    + intros y Y. apply elem_of_difference in Y as [Y NE]. destruct (B2 y Y) as [H|[H|H]]; [tauto| |set_solver]. destruct (elem_delete _ _ _ _ X H) as [->|?]; [set_solver|tauto].
    + intros p P. destruct (B3 p P) as [H|H]; [|set_solver]. destruct (elem_delete _ _ _ _ X H) as [<-|?]; [set_solver|tauto].
  - done.
  - subst t'. destruct (elem_assign t ps s (t, 0)) as (_ & _ & H3 & _ & H5 & H6). split.
    + intros x. destruct (elem_assign t ps s x) as (H1 & _). rewrite H5, H6, H1. intros [?|[?|[? _]]]; apply B1; tauto.
    + intros x. destruct (elem_assign t ps s x) as (H1 & H2 & _). rewrite H5, H6, H1, H2. intros [X N]. destruct (B2 x X) as [?|[?|?]]; tauto.
    + intros p. destruct (elem_assign t ps s (t, p)) as (_ & H2 & _). rewrite H3, H6, H2. simpl. intros [P N]. destruct (B3 p P); tauto.
  - destruct (elem_revoke ps s) as (E1 & E2 & E3 & _ & E5 & E6). split; rewrite ?E1, ?E2, ?E3, ?E5, ?E6; done.
Qed.
Theorem busy t l : Forall (plain t) l -> Busy t (mrun l).
Proof.
  induction l as [|e l IH] using rev_ind; [intros _; split; set_solver|]. intros H. apply Forall_app in H as [H1 H2]. apply Forall_cons in H2 as [H2 _]. rewrite mrun_snoc. apply Busy_step; auto.
Qed.

