(** Proofs about Geobucket: [CmpProofs] with the made comparison being the order itself. *)
From Coq Require Import List Arith Bool Lia Permutation Sorting.Sorted.
From Verif.Base Require Import Res Arr Order.
From Verif.Spec Require Import PQ PQFacts.
From Verif.Geobucket Require Import Model FrontProofs.
From Verif.Geobucket Require Export CmpProofs.
From Verif.Geobucket Require Import ListProofs.
Import ListNotations.

Section Ordered.
  Context {E : Type}.
  Variable lt eqv : E -> E -> bool.
  Variable dedup : E -> E -> E.
  Variable C : config.
  Hypothesis Hsw : strict_weak lt.
  Hypothesis Heq : supportDeduplication C = true -> forall a b, lt a b = false -> eqv a b = true -> equivalent lt a b.
  Hypothesis Hdd : supportDeduplication C = true -> forall a b, (eqv a b || eqv b a) = true -> equivalent lt (dedup a b) a.
  Hypothesis Hg : 2 <= geoBase C.
  Hypothesis Hm : 1 <= minBucketSize C.
  Hypothesis Hif : 1 <= insertFactor C.

  Definition cmp_f (a b : E) (H : lt a b = false) : lt a b = false := H.
  Definition cmp_t (a b : E) (H : lt a b = true) : lt b a = false := sw_asym lt Hsw a b H.

  (** The instance of a lemma, with the hypotheses it needs filled in *)
  Ltac fill h :=
    let T := type of h in
    lazymatch T with
    | (forall a b : E, lt a b = false -> lt a b = false) -> _ => let h' := constr:(h cmp_f) in fill h'
    | (forall a b : E, lt a b = true -> lt b a = false) -> _ => let h' := constr:(h cmp_t) in fill h'
    | _ => first [match goal with H : ?P |- _ => match type of P with Prop => let h' := constr:(h H) in fill h' end end | exact h]
    end.

  Definition ki_front := ltac:(fill (@CmpProofs.ki_front E lt lt C)).
  Definition ins_front := ltac:(fill (@CmpProofs.ins_front E lt lt C)).
  Definition fo_increase := ltac:(fill (@CmpProofs.fo_increase E lt lt C)).
  Definition fo_insert := ltac:(fill (@CmpProofs.fo_insert E lt lt C)).
  Definition assign_ok := ltac:(fill (@CmpProofs.assign_ok E lt lt C)).
  Definition mergeRange_raw := ltac:(fill (@CmpProofs.mergeRange_raw E lt lt eqv dedup C)).
  Definition mergeRange_ok := ltac:(fill (@CmpProofs.mergeRange_ok E lt lt eqv dedup C)).
  Definition mergeToEmpty_ok := ltac:(fill (@CmpProofs.mergeToEmpty_ok E lt lt eqv dedup C)).
  Definition mergeToNonEmpty_ok := ltac:(fill (@CmpProofs.mergeToNonEmpty_ok E lt lt eqv dedup C)).
  Definition carry_ok := ltac:(fill (@CmpProofs.carry_ok E lt lt eqv dedup C)).
  Definition carry_loop_ok := ltac:(fill (@CmpProofs.carry_loop_ok E lt lt eqv dedup C)).
  Definition nopremerge_ok := ltac:(fill (@CmpProofs.nopremerge_ok E lt lt eqv dedup C)).
  Definition premerge_ok := ltac:(fill (@CmpProofs.premerge_ok E lt lt eqv dedup C)).
  Definition insert_ok := ltac:(fill (@CmpProofs.insert_ok E lt lt eqv dedup C)).
  Definition push_ok := ltac:(fill (@CmpProofs.push_ok E lt lt eqv dedup C)).
  Definition pushRange_ok := ltac:(fill (@CmpProofs.pushRange_ok E lt lt eqv dedup C)).
  Definition cm_ok := ltac:(fill (@CmpProofs.cm_ok E lt lt eqv dedup C)).
  Definition getMax_ok := ltac:(fill (@CmpProofs.getMax_ok E lt lt eqv dedup C)).
  Definition kd_ok := ltac:(fill (@CmpProofs.kd_ok E lt lt eqv dedup C)).
  Definition pop_rest := ltac:(fill (@CmpProofs.pop_rest E lt lt eqv dedup C)).
  Definition pop_top := ltac:(fill (@CmpProofs.pop_top E lt lt eqv dedup C)).
  Definition pop_ok := ltac:(fill (@CmpProofs.pop_ok E lt lt eqv dedup C)).
  Definition getMax_again := ltac:(fill (@CmpProofs.getMax_again E lt eqv dedup C)).
  Definition gb_step_ok := ltac:(fill (@CmpProofs.gb_step_ok E lt lt eqv dedup C)).
  Definition gb_pq_correct := ltac:(fill (@CmpProofs.gb_pq_correct E lt lt eqv dedup C)).
  Definition gb_valid := ltac:(fill (@CmpProofs.gb_valid E lt lt eqv dedup C)).
End Ordered.

Lemma gb_pq_correct_nodedup {E} (lt eqv : E -> E -> bool) dedup C : strict_weak lt ->
  (supportDeduplication C = true -> forall a b, lt a b = false -> eqv a b = true -> equivalent lt a b) ->
  (supportDeduplication C = true -> forall a b, (eqv a b || eqv b a) = true -> equivalent lt (dedup a b) a) ->
  2 <= geoBase C -> 1 <= minBucketSize C -> 1 <= insertFactor C -> supportDeduplication C = false ->
  pq_correct lt no_dd (gb_step E lt eqv dedup C) (gb_new E C) (gb_forAll E) (range_calls lt (negb (trackFront C))).
Proof.
  intros H1 H2 H3 H4 H5 H6 Hs. eapply pq_correct_mono; [|apply gb_pq_correct; auto].
  intros a b c [H _]. congruence.
Qed.

Lemma gb_pq_correct_clear {E} (lt eqv : E -> E -> bool) dedup C : strict_weak lt ->
  (supportDeduplication C = true -> forall a b, lt a b = false -> eqv a b = true -> equivalent lt a b) ->
  (supportDeduplication C = true -> forall a b, (eqv a b || eqv b a) = true -> equivalent lt (dedup a b) a) ->
  2 <= geoBase C -> 1 <= minBucketSize C -> 1 <= insertFactor C -> trackFront C = false ->
  pq_correct lt (dedup_dd (supportDeduplication C) (fun a b => eqv a b || eqv b a) dedup)
    (gb_step E lt eqv dedup C) (gb_new E C) (gb_forAll E) (range_calls lt true).
Proof.
  intros H1 H2 H3 H4 H5 H6 Ht. pose proof (gb_pq_correct lt eqv dedup C H1 H2 H3 H4 H5 H6) as H. now rewrite Ht in H.
Qed.
