(** Property theorems about the number of comparisons made by TourTree (C51). *)
From Coq Require Import List Arith Bool.
From Verif.Base Require Import Res Order.
From Verif.Spec Require Import PQ.
From Verif.Heap Require Import Model Properties.
From Verif.TourTree Require Import Model Proofs Counted CountedProofs.
Import ListNotations.

(** The counted tournament tree is the tournament tree. *)
Theorem C51_counting_changes_nothing : forall (E : Type) (lt : E -> E -> bool) ops s n,
  (let* (sn, rs) := run (tt_step_c E lt) (s, n) ops in Ok (fst sn, rs)) = run (tt_step E lt) s ops.
Proof.
  intros. rewrite <- (tt_run_forget lt ops s n). unfold tt_drop. destruct (run _ _ ops) as [[[? ?] ?]| | |]; reflexivity.
Qed.
Print Assumptions C51_counting_changes_nothing.

(** C51.  In a tree of [k] players, push makes at most log2 (2k + 1) comparisons; pop and decreaseTop make at most the depth of the tree
    they leave, log2 (2k' - 1) for [k'] players. *)
Theorem C51_call_comparisons : forall (E : Type) (lt : E -> E -> bool), strict_weak lt ->
  forall ops s0 n0 rs o s n r, run (tt_step_c E lt) (tt_new E, 0) ops = Ok (s0, n0, rs) -> tt_step_c E lt (s0, n0) o = Ok (s, n, r) ->
  let k := length (tt_players s0) in let k' := length (tt_players s) in
  match o with
  | Push _ => n <= n0 + Nat.log2 (2 * k + 1)
  | Pop | DecreaseTop _ => n <= n0 + Nat.log2 (2 * k' - 1)
  | PushRange xs => n <= n0 + length xs * Nat.log2 (2 * k')
  | _ => n = n0
  end.
Proof. exact @tt_call_count. Qed.
Print Assumptions C51_call_comparisons.

(** C51.  A history that pushes [p] entries and pops or decreases the top [q] times makes at most (p + q) log2 (2p) comparisons. *)
Theorem C51_history_comparisons : forall (E : Type) (lt : E -> E -> bool), strict_weak lt ->
  forall ops s n rs, run (tt_step_c E lt) (tt_new E, 0) ops = Ok (s, n, rs) ->
  let p := length (pushed ops) in let q := removals ops in n <= (p + q) * Nat.log2 (2 * p).
Proof.
  intros E lt Hsw ops s n rs H p q.
  exact (tt_history_count lt Hsw _ ops (tt_new E) 0 s n rs (tt_new_inv lt) H (le_n _)).
Qed.
Print Assumptions C51_history_comparisons.

Example C51_nonvacuous :
  strict_weak ex_lt /\
  exists s rs, run (tt_step_c _ ex_lt) (tt_new _, 0) (map Push (map (fun i => (i, 0)) (seq 0 16)) ++ repeat Pop 16) = Ok (s, 83, rs) /\
  length (pushed (map Push (map (fun i => (i, 0)) (seq 0 16)) ++ repeat (@Pop (nat * nat)) 16)) = 16.
Proof. split; [exact ex_lt_strict_weak|]. eexists; eexists; split; vm_compute; reflexivity. Qed.
