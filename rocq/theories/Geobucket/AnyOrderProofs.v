(** Geobucket with a comparison that need not be an order: the entries are still kept (C73). *)
From Coq Require Import List Arith Bool.
From Verif.Base Require Import Res Arr Order.
From Verif.Spec Require Import PQ PQFacts.
From Verif.Geobucket Require Import Model FrontProofs CmpListProofs CmpProofs.
Import ListNotations.

Section AnyOrder.
  Context {E : Type}.
  Variable lt eqv : E -> E -> bool.
  Variable dedup : E -> E -> E.
  Variable C : config.
  Notation never := (fun _ _ : E => false).
  Notation dd := (dedup_dd (supportDeduplication C) (fun a b => eqv a b || eqv b a) dedup).

  Lemma never_sw : strict_weak never.
  Proof. split; auto; discriminate. Qed.

  Lemma never_non_increasing (xs : list E) : non_increasing never xs = true.
  Proof. induction xs as [|x [|y xs] IH]; auto. Qed.

  Lemma gb_any (api : op E -> bool) : 2 <= geoBase C -> 1 <= minBucketSize C -> 1 <= insertFactor C ->
    (forall o, api o = true -> o <> PushRange [] /\ (o = Clear -> trackFront C = false)) ->
    pq_correct never dd (gb_step E lt eqv dedup C) (gb_new E C) (gb_forAll E) api.
  Proof.
    intros Hg Hm Hi Hapi. apply pq_correct_lift with (Inv := Inv never C); [|apply gb_new_inv; auto|reflexivity].
    intros g o I Ho. apply (gb_step_ok never lt eqv dedup C never_sw); auto; try (intros; split; reflexivity).
    destruct (Hapi o Ho) as [H1 H2]. destruct o as [|xs| | | | | | |]; auto; simpl.
    - destruct xs as [|x xs]; [congruence|]. apply (never_non_increasing (x :: xs)).
    - now rewrite H2.
  Qed.
End AnyOrder.
