(** Max followed by Remove of the item it has shown. *)
From Coq Require Import List Bool Arith Lia Permutation.
From Verif.BTree Require Import Proofs.
From Verif.Heap Require Import Model Proofs Ops Fix.
Import ListNotations.

Section P.
  Context {P : Type} (lt : P -> P -> bool).
  Notation heap := (heap P).
  Implicit Types h : heap.

  (** the item in slot n knows its slot and is in no slot below *)
  Definition last_ok (n : nat) h : Prop := (forall k, k < n -> arr h k <> arr h n) /\ idx h (arr h n) = n.
  Lemma last_ok_swap n h i j : last_ok n h -> i < n -> j < n -> last_ok n (swap h i j).
  Proof.
    intros (D & I) Li Lj. unfold last_ok, swap. cbn [arr idx].
    assert (A : forall k, upd (upd (arr h) i (arr h j)) j (arr h i) k = if k =? j then arr h i else if k =? i then arr h j else arr h k) by reflexivity.
    split.
    - intros k K. rewrite !A. destruct (Nat.eqb_spec n j); [lia|]. destruct (Nat.eqb_spec n i); [lia|].
      destruct (Nat.eqb k j); [apply D; auto|]. destruct (Nat.eqb k i); apply D; auto.
    - rewrite !A. destruct (Nat.eqb_spec n j); [lia|]. destruct (Nat.eqb_spec n i); [lia|]. rewrite Nat.eqb_refl.
      unfold upd at 1. pose proof (D i Li). destruct (Nat.eqb_spec (arr h n) (arr h i)); [congruence|].
      unfold upd at 1. destruct (Nat.eqb_spec i j); pose proof (D j Lj); rewrite ?Nat.eqb_refl.
      + subst j. destruct (Nat.eqb_spec (arr h n) (arr h i)); [congruence|auto].
      + destruct (Nat.eqb_spec (arr h n) (arr h j)); [congruence|]. destruct (Nat.eqb_spec (arr h n) (arr h i)); [congruence|auto].
  Qed.
  Lemma nodup_arr h i j : NoDup (items h) -> i < len h -> j < len h -> arr h i = arr h j -> i = j.
  Proof.
    unfold items. intros N Li Lj E. rewrite (NoDup_nth _ (arr h 0)) in N. rewrite map_length, seq_length in N.
    apply N; auto. rewrite !(map_nth (arr h)), !seq_nth; auto.
  Qed.
  Lemma setMax_last h : NoDup (items h) -> 0 < len h -> last_ok (len h - 1) (setMax lt h).
  Proof.
    intros N L. unfold setMax. set (n := len h) in *.
    set (i1 := if (lchild 0 <? n) && negb (less lt h (lchild 0) 0) then lchild 0 else 0).
    set (i := if (rchild 0 <? n) && negb (less lt h (rchild 0) i1) then rchild 0 else i1).
    assert (Li : i < n).
    { unfold i, i1. destruct (Nat.ltb_spec (lchild 0) n), (Nat.ltb_spec (rchild 0) n); cbn [andb]; repeat match goal with |- context [if ?b then _ else _] => destruct b end; lia. }
    clearbody i. clear i1.
    assert (A : last_ok (n - 1) (swap h i (n - 1))).
    { unfold last_ok, swap. cbn [arr idx]. set (a := upd _ _ _).
      assert (An : a (n - 1) = arr h i) by (unfold a, upd; rewrite Nat.eqb_refl; auto).
      split; [|unfold upd at 1; rewrite Nat.eqb_refl; auto]. intros k K. rewrite An. unfold a, upd. destruct (Nat.eqb_spec k (n - 1)); [lia|].
      destruct (Nat.eqb_spec k i) as [->|]; intros E; apply nodup_arr in E; fold n; auto; lia. }
    destruct (Nat.lt_ge_cases i (n - 1)) as [Q|Q].
    - apply (down_inv lt (last_ok (n - 1)) (n - 1)); auto. intros. apply last_ok_swap; auto.
    - unfold down. assert (B : best lt (swap h i (n - 1)) (isMinLevel i) i (n - 1) = None).
      { unfold best, lchild. destruct (Nat.leb_spec (n - 1) (i * 2 + 1)); auto. lia. }
      cbn [downLoop]. rewrite B. exact A.
  Qed.
  Definition shown_ok h : Prop := maxed h = true -> 0 < len h /\ idx h (arr h (len h - 1)) = len h - 1.

  Context (W : weak_order lt).
  Lemma reach_shown zero h : reach lt zero h -> shown_ok h.
  Proof.
    induction 1 as [its|h o R I D|h x h' R I Mx Pl F E|h x v h' R I Mx Pl F E].
    - enough (E : maxed (NewMinMaxHeap lt zero its) = false) by (intros C; congruence).
      unfold NewMinMaxHeap. set (h0 := mkHeap _ _ _ _ _). destruct (initHeap_ok lt W h0) as (Q & _). rewrite (rel_maxed _ _ _ Q). reflexivity.
    - destruct (reach_good lt W zero h R) as (G & N). destruct o as [x p| | | |]; cbn [step snd]; auto.
      + enough (E : maxed (Push lt (setValue h x p) x) = false) by (intros C; congruence). unfold Push, push. rewrite up_maxed. reflexivity.
      + unfold Max. destruct (Nat.eqb_spec (len h) 0) as [|Z]; auto. cbn [snd]. destruct (maxed h) eqn:M; auto. intros _.
        pose proof (setMax_last h N ltac:(lia)) as (_ & J). unfold good in G. rewrite M in G.
        destruct (setMax_ok lt W h ltac:(lia) G) as (Q & _). pose proof (rel_len _ _ _ Q) as EL. cbn [setMaxed len idx arr]. rewrite EL. split; [lia|auto].
      + unfold PopMin. destruct (Nat.eqb_spec (len h) 0); auto. pose proof (popMin_maxed lt (setMaxed h false)) as E. destruct (popMin lt (setMaxed h false)). cbn in *. intros C; congruence.
      + unfold PopMax. destruct (Nat.eqb_spec (len h) 0); auto. cbn. intros C; discriminate.
    - destruct (reach_good lt W zero h R) as (G & N). destruct (Remove_ok lt W h x G Mx Pl F) as (h'' & E' & _ & _ & _ & M). intros C. congruence.
    - destruct (reach_good lt W zero h R) as (G & N). destruct (Update_ok lt W h x v G Mx Pl N F) as (h'' & E' & _ & _ & _ & M). intros C. congruence.
  Qed.

  Lemma max_remove zero h x h1 : reach lt zero h -> Max lt h = (Some x, h1) ->
    exists h', Remove lt h1 x = Some h' /\ Permutation (items h) (x :: items h') /\ value h' = value h /\
      (forall y, In y (items h) -> lt (value h x) (value h y) = false) /\
      forall os, proper (items h') false os (fst (run lt h' os)) -> exists bag, spec_run lt (items h') (value h) os (fst (run lt h' os)) bag /\
        Permutation bag (items (snd (run lt h' os))).
  Proof.
    intros R E. destruct (reach_good lt W zero h R) as (G & N).
    assert (Dm : forall y (p : P), OMax = OPush y p -> ~ In y (items h) /\ maxed h = false) by discriminate.
    assert (Dp : forall y (p : P), OPopMax = OPush y p -> ~ In y (items h) /\ maxed h = false) by discriminate.
    pose proof (reach_step lt zero h OMax R Dm) as R1. cbn [step] in R1. rewrite E in R1. cbn [snd] in R1.
    pose proof (reach_step lt zero h OPopMax R Dp) as R2. cbn [step] in R2.
    pose proof (step_ok lt W h OPopMax G Dp) as Q. cbn [step] in Q.
    pose proof (reach_shown zero h1 R1) as S1.
    assert (Rm : exists h', PopMax lt h = (Some x, h') /\ Remove lt h1 x = Some h' /\ maxed h' = false).
    { unfold Max in E. unfold PopMax. destruct (Nat.eqb_spec (len h) 0) as [|Z]; [discriminate|]. injection E as Ex Eh.
      destruct (maxed h) eqn:M.
      - subst h1. exists (snd (pop_ (setMaxed h false))). split; [cbn [pop_ setMaxed snd arr len]; rewrite Ex; reflexivity|]. split; [|reflexivity]. destruct (S1 M) as (L & J). rewrite Ex in J.
        unfold Remove, remove. cbn [setMaxed len arr idx]. rewrite J. destruct (Nat.leb_spec (len h) (len h - 1)); [lia|]. rewrite Nat.eqb_refl. reflexivity.
      - assert (M1 : maxed h1 = true) by (rewrite <- Eh; reflexivity). destruct (S1 M1) as (L & J). rewrite Eh in Ex. rewrite Ex in J.
        exists (snd (pop_ (setMaxed (setMax lt h) false))). split; [|].
        + cbn [pop_ setMaxed snd arr len]. cbn [setMaxed arr len] in Ex. rewrite <- Ex, <- Eh. reflexivity.
        + split; [|reflexivity]. unfold Remove, remove. rewrite J. change (len (setMaxed h1 false)) with (len h1).
          destruct (Nat.leb_spec (len h1) (len h1 - 1)); [lia|]. rewrite Nat.eqb_refl. rewrite <- Eh. reflexivity. }
    destruct Rm as (h' & Ep & Er & Mf). rewrite Ep in Q, R2. cbn [snd] in R2. destruct Q as (G' & bag' & Pm & V & Pm' & Mx).
    exists h'. split; [exact Er|]. split; [rewrite Pm', Pm; reflexivity|]. split; [exact V|]. split; [exact Mx|].
    intros os D. rewrite <- V. apply run_ok; auto. apply (proper_disciplined lt W os h' (items h')); auto. rewrite Mf. auto.
  Qed.
End P.
