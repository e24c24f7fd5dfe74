(** Invariant of the bootstrap machine while prep has been called at most once. *)
From stdpp Require Import prelude list.
From Verif.StateStore Require Import Model.
Open Scope nat_scope.

Definition marks (l : list record) : list nat := flat_map (fun r => match r with Mark m => [m] | Data _ => [] end) l.
Definition own (s : st) : list nat := omap (fun y => mark_of (sy_stage y)) (syncs s).
Definition ownIn (o l : list nat) : list nat := filter (fun m => m ∈ o) l.
Definition held (c : cons) : list record := match c with CHold b | CAdd b | CSend b _ => b | _ => [] end.

Lemma marks_app a b : marks (a ++ b) = marks a ++ marks b.
Proof. apply flat_map_app. Qed.
Lemma changes_app a b : changes (a ++ b) = changes a ++ changes b.
Proof. apply flat_map_app. Qed.
Lemma released_app a b : released (a ++ b) = released a ++ released b.
Proof. apply flat_map_app. Qed.
Lemma applied_app x a b : applied x (a ++ b) = applied x a ++ applied x b.
Proof. apply flat_map_app. Qed.
Lemma elem_of_marks m l : m ∈ marks l <-> Mark m ∈ l.
Proof.
  unfold marks. rewrite elem_of_list_In, in_flat_map. split.
  - intros ([n|k] & H & Q); cbn in Q; [destruct Q|]. destruct Q as [->|[]]. apply elem_of_list_In, H.
  - intros H. exists (Mark m). split; [apply elem_of_list_In, H|left; reflexivity].
Qed.

(** what holds in all executions *)
Record base (s : st) : Prop := mkBase {
  b_log : forall m, m ∈ marks (log s) -> m < nextMark s;
  b_nodup : NoDup (marks (log s));
  b_own : forall m, m ∈ own s -> m < nextMark s;
  b_ownnd : NoDup (own s);
  b_reg : forall i k x m, syncs s !! i = Some (mkSync k x (SReg m)) -> m ∉ marks (log s) }.

(** before any prep *)
Record none (s : st) : Prop := mkNone {
  n_state : state s = Paused; n_fp : fpaused s = true; n_con : con s = CIdle; n_pops : pops s = []; n_syncs : syncs s = []; n_wait : waiters s = [];
  n_trace : trace s = []; n_prepping : prepping s = false; n_worker : worker s = false; n_preps : preps s = 0; n_chans : exists c, chans s = [c] }.

Definition kinds (s : st) : list kind := map sy_kind (syncs s).
Definition phase (ks : list kind) (n : nat) : option pstate :=
  match ks with
  | KPrep :: _ => match n with 0 => Some Prepping | 1 => Some Ready | _ => None end
  | KWork :: _ => match n with 0 => Some Ready | _ => None end
  | [] => None
  end.

(** after one prep *)
Record one (s : st) (c0 ch : chan) (P : pop) : Prop := mkOne {
  o_preps : preps s = 1;
  o_pops : pops s = [P];
  o_chans : chans s = [c0; ch];
  o_pchan : p_chan P = 1;
  o_kinds : kinds s = [KPrep] \/ kinds s = [KPrep; KWork] \/ kinds s = [KWork];
  o_prepping : prepping s = true -> kinds s = [KPrep] /\ buf s <> None;
  o_notprep : kinds s = [KPrep] -> prepping s = false -> buf s = None;
  o_pos : pos s <= length (log s);
  o_send : forall b c, con s = CSend b (Some c) -> c = 1;
  o_prefix : (p_done P ++ p_rest P ++ concat (c_q ch)) `prefix_of` log s;
  o_open : buf s <> None -> buf s = Some 1 /\ c_closed ch = false /\ fpaused s = false /\ p_live P = true /\
           p_done P ++ p_rest P ++ concat (c_q ch) ++ held (con s) = take (pos s) (log s) /\
           phase (kinds s) (length (released (trace s))) = Some (state s);
  o_shut : buf s = None -> c_closed ch = true /\ fpaused s = true /\ state s = Paused;
  o_shutlive : buf s = None -> p_live P = true -> kinds s = [KPrep];
  o_send2 : forall b, con s = CSend b None -> buf s = None;
  o_panic : con s = CPanic -> buf s = None;
  o_applied : applied (p_store P) (trace s) = changes (p_done P);
  o_only : forall y r, EvApply y r ∈ trace s -> y = p_store P;
  o_rel : released (trace s) = ownIn (own s) (marks (p_done P));
  o_wait : forall m, m ∈ waiters s <-> m ∈ own s /\ m ∉ released (trace s);
  o_split : forall u m v, trace s = u ++ EvRelease m :: v -> exists pre post, p_done P = pre ++ Mark m :: post /\
            applied (p_store P) u = changes pre /\ released u = ownIn (own s) (marks pre) /\
            (kinds s = [KWork] \/ released u <> [] -> p_live P = false /\ forall y, applied y v = []) }.

Definition inv (s : st) : Prop := base s /\ (none s \/ (exists c0 ch P, one s c0 ch P) \/ 2 <= preps s).

Lemma preps_mono s a s' : step s a = Some s' -> preps s <= preps s'.
Proof.
  intros H. destruct a as [n| | | | | |i|i|i|i|n| | | |j|j]; cbn [step] in H;
    repeat match type of H with
    | context [match ?x with _ => _ end] => let E := fresh "E" in destruct x eqn:E; try discriminate
    | Some _ = Some _ => injection H as <-
    end; cbn; try lia.
  all: unfold assignStore in *; repeat match goal with E : match ?x with _ => _ end = _ |- _ => destruct x; injection E as <- <-; cbn in * end; try lia.
  all: unfold cancel, pause, closeCh; cbn; repeat match goal with |- context [match ?x with _ => _ end] => destruct x; cbn end; try lia.
  all: unfold handleRecord, isCompletionMarker, cancel, pause, closeCh in *; cbn in *;
    repeat (match goal with E : context [match ?x with _ => _ end] |- _ => destruct x; cbn in * end); repeat match goal with E : (_, _) = (_, _) |- _ => injection E as <- <- end; cbn in *; try lia.
Qed.
