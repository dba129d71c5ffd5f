From Coq Require Import List Arith Bool Lia Permutation.
From Verif.Base Require Import Res Arr Order.
From Verif.Spec Require Import PQ PQFacts.
From Verif.Heap Require Import Model Proofs Debug.
From Verif.Geobucket Require Import Debug.
Import ListNotations.

Section Proofs.
  Context {E : Type}.
  Variable lt eqv : E -> E -> bool.
  Variable supportDedup : bool.
  Variable dedup : E -> E -> E.
  Hypothesis Hsw : strict_weak lt.
  Hypothesis Hdd : supportDedup = true -> forall a b, lt a b = false -> eqv a b = true -> equivalent lt (dedup a b) a.
  Notation valid := (valid lt).
  Notation step := (heap_step E lt eqv supportDedup dedup).
  Notation stepd := (heap_step_d E lt eqv supportDedup dedup).

  Lemma up_d_ok t pos x t' : moveValueUp E lt eqv supportDedup dedup (length t + 1) t pos x = Ok t' -> valid t' ->
    moveValueUp_d E lt eqv supportDedup dedup t pos x = Ok t'.
  Proof. intros H Hv. unfold moveValueUp_d. rewrite H. cbn [bind]. now rewrite (valid_isValid lt eqv supportDedup dedup Hdd t' Hv). Qed.

  Lemma hpush_d_ok t x t' : heap_push E lt eqv supportDedup dedup t x = Ok t' -> valid t' ->
    heap_push_d E lt eqv supportDedup dedup t x = Ok t'.
  Proof.
    intros H Hv. unfold heap_push_d. unfold heap_push in H. rewrite (up_d_ok _ _ _ _ H Hv). cbn [bind]. now rewrite (valid_isValid lt eqv supportDedup dedup Hdd t' Hv).
  Qed.
  Lemma hdec_d_ok t x t' : heap_decreaseTop E lt eqv supportDedup dedup t x = Ok t' -> valid t' ->
    heap_decreaseTop_d E lt eqv supportDedup dedup t x = Ok t'.
  Proof.
    intros H Hv. unfold heap_decreaseTop_d. unfold heap_decreaseTop in H. destruct (moveHoleDown E lt t 1) as [[t1 hole]| | |]; try discriminate.
    cbn [bind] in *. rewrite (up_d_ok _ _ _ _ H Hv). cbn [bind]. now rewrite (valid_isValid lt eqv supportDedup dedup Hdd t' Hv).
  Qed.
  Lemma hpop_d_ok t t' x : heap_pop E lt eqv supportDedup dedup t = Ok (t', x) -> valid t' ->
    heap_pop_d E lt eqv supportDedup dedup t = Ok (t', x).
  Proof.
    unfold heap_pop_d, heap_pop. destruct (tget t 1); try discriminate. cbn [bind]. destruct (tget t (length t)) as [w| | |]; try discriminate.
    cbn [bind]. destruct (removelast t) as [|y r]; auto. destruct (moveHoleDown E lt (y :: r) 1) as [[t1 hole]| | |]; try discriminate. cbn [bind].
    destruct (moveValueUp E lt eqv supportDedup dedup (length t1 + 1) t1 hole w) as [t3| | |] eqn:Hu; cbn [bind]; try discriminate.
    intros H Hv. injection H as <- <-. now rewrite (up_d_ok _ _ _ _ Hu Hv).
  Qed.
  Lemma hpush_range_d_ok xs : forall t, valid t ->
    heap_push_range_d E lt eqv supportDedup dedup t xs = heap_push_range E lt eqv supportDedup dedup t xs.
  Proof.
    induction xs as [|x xs IH]; intros t Hv; cbn [heap_push_range heap_push_range_d]; auto.
    destruct (heap_push_spec lt eqv supportDedup dedup Hsw Hdd t x Hv) as (t1 & H1 & Hv1 & _).
    rewrite (hpush_d_ok _ _ _ H1 Hv1), H1. cbn [bind]. auto.
  Qed.

  Lemma hstep_d_ok t o : valid t -> stepd t o = step t o.
  Proof.
    intros Hv. pose proof (heap_step_correct lt eqv supportDedup dedup Hsw Hdd t o Hv) as H.
    destruct o as [x|xs| | |x| | | |]; cbn [heap_step heap_step_d] in *; auto.
    - destruct (heap_push E lt eqv supportDedup dedup t x) as [t1| | |] eqn:H1; cbn [bind] in H; try tauto.
      + now rewrite (hpush_d_ok _ _ _ H1 (proj1 H)).
      + destruct H; discriminate.
    - now rewrite (hpush_range_d_ok xs t Hv).
    - destruct (heap_pop E lt eqv supportDedup dedup t) as [[t1 x]| | |] eqn:H1; cbn [bind] in H; try tauto.
      + now rewrite (hpop_d_ok _ _ _ H1 (proj1 H)).
      + destruct H as [-> _]. reflexivity.
    - destruct (heap_decreaseTop E lt eqv supportDedup dedup t x) as [t1| | |] eqn:H1; cbn [bind] in H; try tauto.
      + now rewrite (hdec_d_ok _ _ _ H1 (proj1 H)).
      + destruct H as [-> _]. reflexivity.
    - unfold heap_clear_d. rewrite (valid_isValid lt eqv supportDedup dedup Hdd t Hv).
      rewrite (valid_isValid lt eqv supportDedup dedup Hdd (heap_clear E t)); [reflexivity|]. intros i Hi. cbn in Hi. lia.
  Qed.

  Lemma hrun_d_ok ops : forall t, valid t -> run stepd t ops = run step t ops.
  Proof.
    induction ops as [|o ops IH]; intros t Hv; cbn [run]; auto. rewrite (hstep_d_ok t o Hv).
    pose proof (heap_step_correct lt eqv supportDedup dedup Hsw Hdd t o Hv) as H.
    destruct (step t o) as [[t1 r]| | |]; cbn [bind]; auto. now rewrite (IH t1 (proj1 H)).
  Qed.
  Lemma hrun_new ops : run stepd [] ops = run step [] ops.
  Proof. apply hrun_d_ok. intros i Hi. cbn in Hi. lia. Qed.
End Proofs.
