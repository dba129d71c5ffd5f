From Coq Require Import List Arith Bool Lia.
From Verif.Base Require Import Res Arr.
From Verif.Spec Require Import Triangle.
From Verif.BitTriangle Require Import Model Proofs Debug.
From Verif.TourTree Require Import Debug DebugProofs.
Import ListNotations.

Lemma bt_step_same h t o : bt_inv h t -> bt_step_d t o = bt_step t o.
Proof.
  intros Hi. destruct (allowed_dec h o) as [Ha|Hn].
  - assert (Hlen : bt_columnCount t = columns h) by apply Hi.
    destruct o as [|c r v|x y v|c r|x y| |]; auto; cbn [bt_step_d allowed] in *.
    + unfold check_ordered. rewrite Hlen, !check_ok; auto; apply Nat.ltb_lt; lia.
    + unfold check_unordered, check_ordered, ordered. destruct (Nat.ltb_spec x y); rewrite Hlen, !check_ok; auto;
        try (apply Nat.ltb_lt; cbn [fst snd]; lia); apply negb_true_iff, Nat.eqb_neq; lia.
    + unfold check_ordered. rewrite Hlen, !check_ok; auto; apply Nat.ltb_lt; lia.
    + unfold check_unordered, check_ordered, ordered. destruct (Nat.ltb_spec x y); rewrite Hlen, !check_ok; auto;
        try (apply Nat.ltb_lt; cbn [fst snd]; lia); apply negb_true_iff, Nat.eqb_neq; lia.
  - pose proof (bt_step_ub h t o Hi Hn) as Hu.
    assert (Hc : forall b, check b = Ok tt \/ check b = UB) by (intros []; auto).
    destruct o as [|c r v|x y v|c r|x y| |]; auto; cbn [bt_step_d].
    all: unfold check_unordered, check_ordered; repeat match goal with |- context [check ?b] => destruct (Hc b) as [-> | ->]; cbn [bind] end; auto.
Qed.

Lemma bt_run_same ops : forall h t, bt_inv h t -> run bt_step_d t ops = run bt_step t ops.
Proof.
  induction ops as [|o ops IH]; intros h t Hi; auto. cbn [run]. rewrite (bt_step_same h t o Hi).
  destruct (allowed_dec h o) as [Ha|Hn].
  - destruct (bt_step_ok h t o Hi Ha) as (t' & -> & Hi'). cbn [bind]. now rewrite (IH _ _ Hi').
  - now rewrite (bt_step_ub h t o Hi Hn).
Qed.
