(** TourTree with a comparison that need not be an order: the entries are still kept (C73). *)
From Coq Require Import List Arith Bool.
From Verif.Base Require Import Res Arr Order.
From Verif.Spec Require Import PQ PQFacts.
From Verif.TourTree Require Import Model Proofs.
Import ListNotations.

Section AnyOrder.
  Context {E : Type}.
  Variable lt : E -> E -> bool.
  Notation never := (fun _ _ : E => false).

  Lemma never_sw : strict_weak never.
  Proof. split; auto; discriminate. Qed.

  Lemma tt_any : pq_correct never no_dd (tt_step _ lt) (tt_new E) contents (tt_api E).
  Proof.
    apply (pq_correct_lift never no_dd _ _ contents (inv never) (tt_api E)); auto.
    - apply (tt_step_gen never never_sw lt); auto.
    - exact (tt_new_inv never).
  Qed.
End AnyOrder.
