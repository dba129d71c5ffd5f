(** Property theorems about the number of comparisons that Geobucket makes (C68). *)
From Coq Require Import List Arith Bool Permutation Lia.
From Verif.Base Require Import Res Order.
From Verif.Spec Require Import PQ PQFacts.
From Verif.Geobucket Require Import Model Proofs Properties Counted CountedProofs CostProofs CostRun.
Import ListNotations.

(** C68.  The copy of the model that counts calls of Configuration::compare computes what the model computes: whatever the numbers on
    the counter, the state, the answers and the failures are those of the model. *)
Theorem C68_counting_changes_nothing :
  forall (E : Type) (lt eqv : E -> E -> bool) (dedup : E -> E -> E) (C : config) (ops : list (op E)) (n : nat),
  (let* (s, rs) := run (gb_step_c E lt eqv dedup C) (gb_new E C, n) ops in Ok (fst s, rs)) =
  run (gb_step E lt eqv dedup C) (gb_new E C) ops.
Proof. exact (fun E lt eqv dedup C ops n => run_forget lt eqv dedup C ops (gb_new E C) n). Qed.
Print Assumptions C68_counting_changes_nothing.

(** The comparisons allowed for one call if there are [L] buckets: at most a constant times [L] for an entry, where the constant only
    depends on the configuration, and the same for each of the entries of a range. *)
Definition allowed {E : Type} (C : config) (L : nat) (o : op E) : nat :=
  match o with
  | Push _ => minBucketSize C + geoBase C + (geoBase C + 3) * L
  | PushRange xs =>
      Nat.max (minBucketSize C) (geoBase C * (length xs * insertFactor C)) + geoBase C * length xs + (geoBase C + 1) * length xs * L + 2 * L
  | Pop | Top => L
  | DecreaseTop _ => L + (minBucketSize C + geoBase C + (geoBase C + 3) * L)
  | _ => 0
  end.

(** C68.  A history of calls with P pushed entries makes no more comparisons than its calls are allowed with 2 + log2 (insertFactor * P)
    buckets, whatever the entries are and in whatever order they come. *)
Theorem C68_history_comparisons :
  forall (E : Type) (lt eqv : E -> E -> bool) (dedup : E -> E -> E) (C : config), good_config lt eqv dedup C ->
  forall ops g n rs, forallb (range_calls lt (negb (trackFront C))) ops = true ->
  run (gb_step_c E lt eqv dedup C) (gb_new E C, 0) ops = Ok (g, n, rs) ->
  n <= list_sum (map (allowed C (2 + Nat.log2 (insertFactor C * length (pushed ops)))) ops).
Proof.
  exact (fun E lt eqv dedup C '(conj H1 (conj H2 (conj H3 (conj H4 (conj H5 H6))))) ops g n rs Ha H =>
    history_cost lt eqv dedup C H1 H5 H6 H2 H3 H4 ops g n rs Ha H).
Qed.
Print Assumptions C68_history_comparisons.

(** C68.  In particular n entries are pushed and popped with O(n log n) comparisons. *)
Theorem C68_sorting_comparisons :
  forall (E : Type) (lt eqv : E -> E -> bool) (dedup : E -> E -> E) (C : config), good_config lt eqv dedup C -> supportDeduplication C = false ->
  forall xs, exists g n rs,
  run (gb_step_c E lt eqv dedup C) (gb_new E C, 0) (map Push xs ++ repeat Pop (length xs)) = Ok (g, n, rs) /\
  n <= length xs * (minBucketSize C + geoBase C + (geoBase C + 4) * (2 + Nat.log2 (insertFactor C * length xs))).
Proof.
  exact (fun E lt eqv dedup C '(conj H1 (conj H2 (conj H3 (conj H4 (conj H5 H6))))) Hs => sorting_cost lt eqv dedup C H1 H5 H6 H2 H3 H4 Hs).
Qed.
Print Assumptions C68_sorting_comparisons.

Definition ex_count (C : config) (ops : list (op (nat * nat))) : option (nat * nat) :=
  match run (gb_step_c _ ex_lt ex_eqv ex_dedup C) (gb_new _ C, 0) ops with
  | Ok (_, n, _) => Some (n, list_sum (map (allowed C (2 + Nat.log2 (insertFactor C * length (pushed ops)))) ops))
  | _ => None
  end.
(** Two histories, with the comparisons made and the comparisons allowed *)
Example C68_nonvacuous :
  (forall bin track pre coll st, good_config ex_lt ex_eqv ex_dedup (mk_config 2 1 1 false bin track pre coll st)) /\
  ex_count (mk_config 2 1 1 false true true true true Plain) ex_ops = Some (30, 393) /\
  ex_count (mk_config 2 1 1 false true true false false Plain) ex_ops = Some (32, 393).
Proof.
  split; [intros; apply ex_good; lia|]. split; vm_compute; reflexivity.
Qed.
