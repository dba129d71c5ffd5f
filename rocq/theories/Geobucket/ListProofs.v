(** Ascending lists, merging them and finding the place of a new entry: [CmpListProofs] with the made comparison being the order itself. *)
From Coq Require Import List Arith Bool Lia Permutation Sorting.Sorted.
From Verif.Base Require Import Res Arr Order.
From Verif.Spec Require Import PQ PQFacts.
From Verif.Geobucket Require Import Model FrontProofs.
From Verif.Geobucket Require Export CmpListProofs.
Import ListNotations.

Section Ordered.
  Context {E : Type}.
  Variable lt eqv : E -> E -> bool.
  Variable dedup : E -> E -> E.
  Variable C : config.
  Hypothesis Hsw : strict_weak lt.
  Hypothesis Heq : supportDeduplication C = true -> forall a b, lt a b = false -> eqv a b = true -> equivalent lt a b.
  Hypothesis Hdd : supportDeduplication C = true -> forall a b, (eqv a b || eqv b a) = true -> equivalent lt (dedup a b) a.

  Definition cmp_f (a b : E) (H : lt a b = false) : lt a b = false := H.
  Definition cmp_t (a b : E) (H : lt a b = true) : lt b a = false := sw_asym lt Hsw a b H.

  (** The instance of a lemma, with the hypotheses it needs filled in *)
  Ltac fill h :=
    let T := type of h in
    lazymatch T with
    | (forall a b : E, lt a b = false -> lt a b = false) -> _ => let h' := constr:(h cmp_f) in fill h'
    | (forall a b : E, lt a b = true -> lt b a = false) -> _ => let h' := constr:(h cmp_t) in fill h'
    | _ => first [match goal with H : ?P |- _ => match type of P with Prop => let h' := constr:(h H) in fill h' end end | exact h]
    end.

  Definition lt_le := ltac:(fill (@CmpListProofs.lt_le E lt lt)).
  Definition eqv_both := ltac:(fill (@CmpListProofs.eqv_both E lt lt eqv dedup C)).
  Definition gb_merge_nil_l := ltac:(fill (@CmpListProofs.gb_merge_nil_l E lt eqv dedup C)).
  Definition gb_merge_nil_r := ltac:(fill (@CmpListProofs.gb_merge_nil_r E lt eqv dedup C)).
  Definition gb_merge_cons := ltac:(fill (@CmpListProofs.gb_merge_cons E lt eqv dedup C)).
  Definition gb_merge_ok := ltac:(fill (@CmpListProofs.gb_merge_ok E lt lt eqv dedup C)).
  Definition place_ok := ltac:(fill (@CmpListProofs.place_ok E lt lt eqv C)).
  Definition lin_search_ok := ltac:(fill (@CmpListProofs.lin_search_ok E lt lt eqv C)).
  Definition bin_search_ok := ltac:(fill (@CmpListProofs.bin_search_ok E lt lt eqv C)).
  Definition asc_insert_at := ltac:(fill (@CmpListProofs.asc_insert_at E lt lt eqv C)).
End Ordered.
