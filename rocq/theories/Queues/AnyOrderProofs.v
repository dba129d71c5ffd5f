(** What follows from the specification of a queue without any law about the order (C73). *)
From Coq Require Import List Arith Bool Permutation.
From Verif.Base Require Import Res.
From Verif.Spec Require Import PQ PQFacts.
From Verif.Heap Require Import Model AnyOrderProofs.
From Verif.TourTree Require Import Model AnyOrderProofs.
From Verif.Geobucket Require Import Model AnyOrderProofs.
Import ListNotations.

Section Keeps.
  Context {E : Type}.
  Variable lt : E -> E -> bool.

  Lemma trace_keeps l ops rs l' : trace lt no_dd l ops rs l' -> forallb keeps ops = true -> Permutation (pushed ops ++ l) (popped ops rs ++ l').
  Proof.
    intros H; induction H as [l|l o r l1 ops rs l2 Hs Ht IH]; intros Hk; [apply Permutation_refl|].
    simpl in Hk; apply andb_true_iff in Hk as [Hk1 Hk2]. specialize (IH Hk2).
    destruct Hs; simpl in *; try discriminate;
      repeat match goal with H : merges no_dd _ _ |- _ => apply merges_no_dd in H end; try rewrite <- IH.
    - rewrite <- H. apply Permutation_middle.
    - rewrite <- H. rewrite <- app_assoc, !app_assoc. apply Permutation_app_tail, Permutation_app_comm.
    - rewrite H, <- H1. symmetry. apply Permutation_middle.
    - now rewrite H.
    - now rewrite H.
    - now rewrite H.
    - now rewrite H.
  Qed.

  Lemma pq_keeps St (step : St -> op E -> res (St * out E)) init abs api : pq_correct lt no_dd step init abs api ->
    forall ops s rs, forallb api ops = true -> forallb keeps ops = true -> run step init ops = Ok (s, rs) ->
    Permutation (pushed ops) (popped ops rs ++ abs s).
  Proof.
    intros H ops s rs Ha Hk Hr. specialize (H ops Ha). rewrite Hr in H. rewrite <- (app_nil_r (pushed ops)). now apply trace_keeps.
  Qed.
End Keeps.

Section Queues.
  Context {E : Type}.
  Variable lt eqv : E -> E -> bool.
  Variable dedup : E -> E -> E.
  Notation never := (fun _ _ : E => false).

  Lemma heap_keeps ops s rs : forallb keeps ops = true -> run (heap_step E lt eqv false dedup) [] ops = Ok (s, rs) ->
    Permutation (pushed ops) (popped ops rs ++ s).
  Proof.
    intros Hk Hr. refine (pq_keeps never _ _ _ (fun t => t) (fun _ => true) _ ops s rs (forallb_true ops) Hk Hr).
    eapply pq_correct_mono; [|apply (heap_any lt eqv false dedup)]. intros a b c [H _]. discriminate.
  Qed.

  Lemma tt_keeps ops s rs : forallb keeps ops = true -> forallb (tt_api E) ops = true -> run (tt_step E lt) (tt_new E) ops = Ok (s, rs) ->
    Permutation (pushed ops) (popped ops rs ++ tt_forAll E s).
  Proof. intros Hk Ha Hr. exact (pq_keeps never _ _ _ (tt_forAll E) (tt_api E) (tt_any lt) ops s rs Ha Hk Hr). Qed.

  Lemma gb_keeps C (api : op E -> bool) ops s rs : 2 <= geoBase C -> 1 <= minBucketSize C -> 1 <= insertFactor C -> supportDeduplication C = false ->
    (forall o, api o = true -> o <> PushRange [] /\ (o = Clear -> trackFront C = false)) ->
    forallb keeps ops = true -> forallb api ops = true -> run (gb_step E lt eqv dedup C) (gb_new E C) ops = Ok (s, rs) ->
    Permutation (pushed ops) (popped ops rs ++ gb_forAll E s).
  Proof.
    intros H1 H2 H3 Hs Hapi Hk Ha Hr. refine (pq_keeps never _ _ _ (gb_forAll E) api _ ops s rs Ha Hk Hr).
    eapply pq_correct_mono; [|apply (gb_any lt eqv dedup C api H1 H2 H3 Hapi)]. intros a b c [H _]. congruence.
  Qed.
End Queues.
