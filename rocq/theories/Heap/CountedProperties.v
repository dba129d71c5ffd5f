(** Property theorems about the number of comparisons made by Heap (C50). *)
From Coq Require Import List Arith Bool.
From Verif.Base Require Import Res Order.
From Verif.Spec Require Import PQ.
From Verif.Heap Require Import Model Proofs Properties Counted CountedProofs.
Import ListNotations.

(** The counted heap is the heap: dropping the counter from the run of a history gives the run of that history. *)
Theorem C50_counting_changes_nothing :
  forall (E : Type) (lt eqv : E -> E -> bool) (supportDedup : bool) (dedup : E -> E -> E) ops t n,
  (let* (s, rs) := run (heap_step_c E lt eqv supportDedup dedup) (t, n) ops in Ok (fst s, rs))
    = run (heap_step E lt eqv supportDedup dedup) t ops.
Proof.
  intros. rewrite <- (run_forget lt eqv supportDedup dedup ops t n). unfold drop.
  destruct (run _ _ ops) as [[[? ?] ?]| | |]; reflexivity.
Qed.
Print Assumptions C50_counting_changes_nothing.

(** C50.  push makes at most as many comparisons as the new last leaf has ancestors. *)
Theorem C50_push_comparisons :
  forall (E : Type) (lt eqv : E -> E -> bool) (supportDedup : bool) (dedup : E -> E -> E) t x n t' n' r,
  heap_step_c E lt eqv supportDedup dedup (t, n) (Push x) = Ok (t', n', r) -> n' <= n + Nat.log2 (length t + 1).
Proof.
  intros * H. simpl in H. destruct (heap_push_c _ _ _ _ _ t x n) as [[t1 n1]| | |] eqn:Hp; try discriminate.
  apply push_count in Hp. inversion H; subst. apply Hp.
Qed.
Print Assumptions C50_push_comparisons.

(** C50.  pop goes down once and up once; each de-duplication on the way makes it go up once more. *)
Theorem C50_pop_comparisons :
  forall (E : Type) (lt eqv : E -> E -> bool) (supportDedup : bool) (dedup : E -> E -> E) t n t' n' r,
  heap_step_c E lt eqv supportDedup dedup (t, n) Pop = Ok (t', n', r) ->
  n' <= n + (2 + (length t - 1 - length t')) * Nat.log2 (length t - 1) /\ (supportDedup = false -> n' <= n + 2 * Nat.log2 (length t - 1)).
Proof.
  intros * H. simpl in H. destruct (heap_pop_c _ _ _ _ _ t n) as [[[t1 x1] n1]| | |] eqn:Hp; try discriminate.
  apply pop_count in Hp. inversion H; subst. destruct Hp as (_ & Hd & Hn). split; [exact Hn|]. intros Hsd.
  replace (length t - 1 - length t') with 0 in Hn; [exact Hn|]. rewrite <- (Hd Hsd), Nat.add_sub. symmetry. apply Nat.sub_diag.
Qed.
Print Assumptions C50_pop_comparisons.

(** C50.  A history that pushes [p] entries and pops or decreases the top [q] times makes at most (p + 2q) log2 p comparisons, and at
    most (2p + 2q) log2 p with de-duplication. *)
Theorem C50_history_comparisons :
  forall (E : Type) (lt eqv : E -> E -> bool) (supportDedup : bool) (dedup : E -> E -> E) ops t n rs,
  run (heap_step_c E lt eqv supportDedup dedup) ([], 0) ops = Ok (t, n, rs) ->
  let p := length (pushed ops) in let q := removals ops in
  n <= (2 * p + 2 * q) * Nat.log2 p /\ (supportDedup = false -> n <= (p + 2 * q) * Nat.log2 p).
Proof.
  intros * H p q. destruct (history_count lt eqv supportDedup dedup (Nat.log2 p) ops [] 0 t n rs H (le_n _)) as [HA HB].
  split; [|exact HA]. eapply Nat.le_trans; [apply Nat.le_add_r|exact HB].
Qed.
Print Assumptions C50_history_comparisons.

(** The bounds are met: pushing in ascending order moves every entry to the root, with log2 (length + 1) comparisons each time. *)
Example C50_nonvacuous :
  (exists t rs, run (heap_step_c _ Nat.ltb Nat.eqb false (fun a _ => a)) ([], 0) (map Push (seq 0 31)) = Ok (t, 98, rs)) /\
  fold_right plus 0 (map (fun k => Nat.log2 (k + 1)) (seq 0 31)) = 98 /\
  (exists t rs, run (heap_step_c _ Nat.ltb Nat.eqb false (fun a _ => a)) ([], 0) (map Push (seq 0 31) ++ repeat Pop 31) = Ok (t, 209, rs)) /\
  (exists t rs, run (heap_step_c _ ex_lt ex_eqv true ex_dedup) ([], 0)
     [PushRange [(9, 1); (5, 1); (7, 1); (3, 1)]; Push (9, 1); Top; DecreaseTop (7, 1)] = Ok (t, 8, rs)).
Proof.
  split; [eexists; eexists; vm_compute; reflexivity|]. split; [reflexivity|].
  split; eexists; eexists; vm_compute; reflexivity.
Qed.
