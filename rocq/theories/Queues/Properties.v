(** Property theorems about all priority queues together (C10). *)
From Coq Require Import List Arith Bool Permutation.
From Verif.Base Require Import Res Order.
From Verif.Spec Require Import PQ PQFacts Agree AgreeFacts.
From Verif.Heap Require Model Proofs.
From Verif.TourTree Require Model Proofs.
From Verif.StlSet Require Model Proofs.
From Verif.Geobucket Require Model Proofs Properties.
Import ListNotations.

(** C10, for all strict weak orders: Heap answers every history as each of the other queues does, up to equivalence of entries, as far
    as the other queue has the calls: TourTree has no size(), StlSet has no clear(), decreaseTop() and size(), Geobucket asks for
    non-increasing non-empty ranges, and its clear() works only if it does not track the front. *)
Theorem C10_queues_agree_up_to_equivalence :
  forall (E : Type) (lt eqv : E -> E -> bool) (dedup : E -> E -> E) (C : Geobucket.Model.config),
  Geobucket.Properties.good_config lt eqv dedup C -> Geobucket.Model.supportDeduplication C = false ->
  let heap := Heap.Model.heap_step E lt eqv false dedup in
  let tree := TourTree.Model.tt_step E lt in
  let set := StlSet.Model.stl_step E lt in
  let geo := Geobucket.Model.gb_step E lt eqv dedup C in
  (forall ops, forallb (TourTree.Model.tt_api E) ops = true -> agree (answers_alike lt) heap [] tree (TourTree.Model.tt_new E) ops) /\
  (forall ops, forallb (StlSet.Model.stl_api E) ops = true -> agree (answers_alike lt) heap [] set [] ops) /\
  (forall ops, forallb (range_calls lt (negb (Geobucket.Model.trackFront C))) ops = true ->
     agree (answers_alike lt) heap [] geo (Geobucket.Model.gb_new E C) ops).
Proof.
  exact (fun E lt eqv dedup C '(conj H1 (conj H2 (conj H3 (conj H4 (conj H5 H6))))) Hs =>
    let Hh := Heap.Proofs.heap_pq_correct_nodedup lt eqv dedup H1 in
    conj (fun ops => correct_queues_agree lt H1 _ _ _ _ _ _ _ _ Hh (TourTree.Proofs.tt_pq_correct lt H1) ops (forallb_true ops)) (conj
         (fun ops => correct_queues_agree lt H1 _ _ _ _ _ _ _ _ Hh (StlSet.Proofs.stl_pq_correct lt H1) ops (forallb_true ops))
         (fun ops => correct_queues_agree lt H1 _ _ _ _ _ _ _ _ Hh
            (Geobucket.Proofs.gb_pq_correct_nodedup lt eqv dedup C H1 H5 H6 H2 H3 H4 Hs) ops (forallb_true ops)))).
Qed.
Print Assumptions C10_queues_agree_up_to_equivalence.

(** C10.  For linear orders the answers are the same; forAll may visit the entries in another order. *)
Theorem C10_queues_agree :
  forall (E : Type) (lt eqv : E -> E -> bool) (dedup : E -> E -> E) (C : Geobucket.Model.config),
  Geobucket.Properties.good_config lt eqv dedup C -> Geobucket.Model.supportDeduplication C = false -> strict_total lt ->
  let heap := Heap.Model.heap_step E lt eqv false dedup in
  let tree := TourTree.Model.tt_step E lt in
  let set := StlSet.Model.stl_step E lt in
  let geo := Geobucket.Model.gb_step E lt eqv dedup C in
  (forall ops, forallb (TourTree.Model.tt_api E) ops = true -> agree answers_same heap [] tree (TourTree.Model.tt_new E) ops) /\
  (forall ops, forallb (StlSet.Model.stl_api E) ops = true -> agree answers_same heap [] set [] ops) /\
  (forall ops, forallb (range_calls lt (negb (Geobucket.Model.trackFront C))) ops = true ->
     agree answers_same heap [] geo (Geobucket.Model.gb_new E C) ops).
Proof.
  exact (fun E lt eqv dedup C Hg Hs Ht =>
    match C10_queues_agree_up_to_equivalence E lt eqv dedup C Hg Hs with
    | conj A1 (conj A2 A3) =>
        let m := alike_same lt (proj1 Ht) (proj2 Ht) in
        conj (fun ops Ho => agree_mono _ _ _ _ _ _ _ m (A1 ops Ho)) (conj
             (fun ops Ho => agree_mono _ _ _ _ _ _ _ m (A2 ops Ho)) (fun ops Ho => agree_mono _ _ _ _ _ _ _ m (A3 ops Ho)))
    end).
Qed.
Print Assumptions C10_queues_agree.

(** Two Geobuckets of any configurations agree. *)
Theorem C10_geobuckets_agree :
  forall (E : Type) (lt eqv : E -> E -> bool) (dedup : E -> E -> E) (C D : Geobucket.Model.config),
  Geobucket.Properties.good_config lt eqv dedup C -> Geobucket.Model.supportDeduplication C = false ->
  Geobucket.Properties.good_config lt eqv dedup D -> Geobucket.Model.supportDeduplication D = false ->
  forall ops, forallb (range_calls lt (negb (Geobucket.Model.trackFront C))) ops = true ->
  forallb (range_calls lt (negb (Geobucket.Model.trackFront D))) ops = true ->
  agree (answers_alike lt) (Geobucket.Model.gb_step E lt eqv dedup C) (Geobucket.Model.gb_new E C)
    (Geobucket.Model.gb_step E lt eqv dedup D) (Geobucket.Model.gb_new E D) ops.
Proof.
  exact (fun E lt eqv dedup C D '(conj H1 (conj H2 (conj H3 (conj H4 (conj H5 H6))))) Hs
             '(conj _ (conj K2 (conj K3 (conj K4 (conj K5 K6))))) Ks ops Ho Ko =>
    correct_queues_agree lt H1 _ _ _ _ _ _ _ _
      (Geobucket.Proofs.gb_pq_correct_nodedup lt eqv dedup C H1 H5 H6 H2 H3 H4 Hs)
      (Geobucket.Proofs.gb_pq_correct_nodedup lt eqv dedup D H1 K5 K6 K2 K3 K4 Ks) ops Ho Ko).
Qed.
Print Assumptions C10_geobuckets_agree.

Definition ex_config : Geobucket.Model.config := Geobucket.Model.mk_config 2 1 1 false true false true false Geobucket.Model.Plain.
Definition ex_history : list (op nat) := [Push 3; PushRange [7; 4; 4; 1]; Top; Pop; DecreaseTop 9; Push 2; Pop; Empty; Clear; Empty; Push 1; Top].
Definition answers {S} (m : res (S * list (out nat))) : option (list (out nat)) := match m with Ok (_, rs) => Some rs | _ => None end.
Example C10_nonvacuous :
  strict_total Nat.ltb /\ Geobucket.Properties.good_config Nat.ltb Nat.eqb (fun a _ => a) ex_config /\
  forallb (range_calls Nat.ltb true) ex_history = true /\ forallb (TourTree.Model.tt_api nat) ex_history = true /\
  answers (run (Heap.Model.heap_step nat Nat.ltb Nat.eqb false (fun a _ => a)) [] ex_history) =
    Some [ONone; ONone; OEntry 7; OEntry 7; ONone; ONone; OEntry 9; OBool false; ONone; OBool true; ONone; OEntry 1].
Proof.
  assert (Ht : strict_weak Nat.ltb).
  { split.
    - intros a. apply Nat.ltb_irrefl.
    - intros a b c H1 H2. apply Nat.ltb_lt in H1, H2. apply Nat.ltb_lt. eapply Nat.lt_trans; eauto.
    - intros a b c H1 H2. apply Nat.ltb_ge in H1, H2. apply Nat.ltb_ge. eapply Nat.le_trans; eauto. }
  split; [|split; [|split; [reflexivity|split; [reflexivity|vm_compute; reflexivity]]]].
  - split; auto. intros a b [H1 H2]. apply Nat.ltb_ge in H1, H2. now apply Nat.le_antisymm.
  - split; auto. simpl. split; [auto|]. split; [auto|]. split; [auto|]. split; intros H; discriminate H.
Qed.

(** Without a linear order the answers may differ: the queues serve equivalent entries in different orders. *)
Theorem C10_linear_order_needed_refuted :
  exists (lt : nat * nat -> nat * nat -> bool) ops,
    strict_weak lt /\
    ~ agree answers_same (Heap.Model.heap_step _ lt (fun _ _ => false) false (fun a _ => a)) [] (StlSet.Model.stl_step _ lt) [] ops.
Proof.
  exists Geobucket.Properties.ex_lt, [Push (1, 0); Push (1, 1); Push (1, 2); Push (1, 3); Pop; Pop; Pop].
  split; [exact Geobucket.Properties.ex_lt_strict_weak|]. vm_compute. intros H. inversion H; subst.
  repeat match goal with H : Forall2 _ (_ :: _) (_ :: _) |- _ => inversion H; subst; clear H end.
  all: try discriminate.
Qed.
Print Assumptions C10_linear_order_needed_refuted.
