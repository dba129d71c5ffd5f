(** Property theorems about the assertions of Geobucket (C69). *)
From Coq Require Import List Arith Bool Permutation Lia.
From Verif.Base Require Import Res Order.
From Verif.Spec Require Import PQ PQFacts.
From Verif.Geobucket Require Import Model Proofs Properties Debug DebugProofs.
Import ListNotations.

(** C69.  In a build with all assertions no assertion fails, from the constructor on: the answers are those of the release build, which is
    undefined only if top, pop or decreaseTop is called for an empty queue (C06, C07). *)
Theorem C69_no_assertion_fails_partial :
  forall (E : Type) (lt eqv : E -> E -> bool) (dedup : E -> E -> E) (C : config), good_config lt eqv dedup C ->
  forall ops, forallb (allowed_call lt C) ops = true ->
  (let* g := gb_new_d E lt C in run (gb_step_d E lt eqv dedup C) g ops) = run (gb_step E lt eqv dedup C) (gb_new E C) ops.
Proof.
  exact (fun E lt eqv dedup C '(conj H1 (conj H2 (conj H3 (conj H4 (conj H5 H6))))) => debug_run lt eqv dedup C H1 H5 H6 H2 H3 H4).
Qed.
Print Assumptions C69_no_assertion_fails_partial.

(** C69 is false of empty ranges, which are sorted.  Pushing one onto a queue that holds an entry fails an assertion for all configurations,
    although the release build leaves the queue as it is. *)
Theorem C69_empty_range_refuted :
  forall (E : Type) (lt eqv : E -> E -> bool) (dedup : E -> E -> E) (C : config), good_config lt eqv dedup C ->
  forall x,
  (let* g := gb_new_d E lt C in run (gb_step_d E lt eqv dedup C) g [Push x; PushRange []]) = UB /\
  exists g, run (gb_step E lt eqv dedup C) (gb_new E C) [Push x; PushRange []] = Ok (g, [ONone; ONone]) /\ gb_forAll E g = [x].
Proof.
  exact (fun E lt eqv dedup C '(conj H1 (conj H2 (conj H3 (conj H4 (conj H5 H6))))) => empty_range lt eqv dedup C H1 H5 H6 H2 H3 H4).
Qed.
Print Assumptions C69_empty_range_refuted.

(** C69 is false of clear with trackFront: the isValid at its end fails as soon as the queue was not empty. *)
Theorem C69_clear_refuted :
  forall (E : Type) (lt eqv : E -> E -> bool) (dedup : E -> E -> E) (C : config), good_config lt eqv dedup C -> trackFront C = true ->
  forall x, (let* g := gb_new_d E lt C in run (gb_step_d E lt eqv dedup C) g [Push x; Clear]) = UB.
Proof.
  exact (fun E lt eqv dedup C '(conj H1 (conj H2 (conj H3 (conj H4 (conj H5 H6))))) => clear_fails lt eqv dedup C H1 H5 H6 H2 H3 H4).
Qed.
Print Assumptions C69_clear_refuted.

(** The history of C06 passes all assertions; a range that is not sorted fails one, and so do equal entries in a range with de-duplication. *)
Definition ex_debug (C : config) (ops : list (op (nat * nat))) : option (list (out (nat * nat))) :=
  match (let* g := gb_new_d _ ex_lt C in run (gb_step_d _ ex_lt ex_eqv ex_dedup C) g ops) with Ok (_, rs) => Some rs | _ => None end.
Example C69_nonvacuous :
  forallb (allowed_call ex_lt (mk_config 2 1 1 false true true true true Plain)) ex_ops = true /\
  ex_debug (mk_config 2 1 1 false true true true true Plain) ex_ops = Some ex_outs /\
  ex_debug (mk_config 2 1 1 false false true false false DoubleBuffer) ex_ops = Some ex_outs /\
  ex_debug (mk_config 2 1 1 false true true true true Plain) [PushRange [(1, 1); (2, 1)]] = None /\
  ex_debug (mk_config 2 1 1 true true true true true Plain) [PushRange [(2, 1); (2, 2)]] = None /\
  ex_debug (mk_config 2 1 1 false true true true true Plain) [PushRange [(2, 1); (2, 2)]] = Some [ONone].
Proof. repeat split; vm_compute; reflexivity. Qed.
