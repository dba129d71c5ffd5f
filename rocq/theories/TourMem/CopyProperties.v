(** Property theorems about copies and moves of the other queues (C78): Heap and StlSet.  Those of TourTree are in TourMem/Properties.v. *)
From Coq Require Import List Bool Arith Lia.
From Verif.Base Require Import Res Order Arr.
From Verif.Spec Require Import PQ.
From Verif.ComTree Require Import Model.
From Verif.Heap Require Import Moves.
From Verif.StlSet Require Import Model Copies CopiesProofs.
Import ListNotations.

(** C78.  "A heap can be moved" is false of every heap: the constructor reads the new object's own tree before that is initialised. *)
Theorem C78_heap_move_refuted : forall (E C : Type) (t : comtree E) (c : C), heap_move (mk_hs (Some t) (Some c)) = UB.
Proof. reflexivity. Qed.
Print Assumptions C78_heap_move_refuted.

(** C78.  What a program with copied, moved and destroyed StlSet objects answers is what it would answer if each were a value with a configuration of its own,
    as far as it is defined at all ... *)
Theorem C78_stlset_values_partial : forall (C E : Type) (lt : C -> E -> E -> bool) ops w rs, run (s_step lt) [] ops = Ok (w, rs) ->
  exists v, run (v_step lt) [] ops = Ok (v, rs).
Proof. exact (fun C E lt ops w rs H => ex_intro _ _ (proj1 (run_values lt ops [] w rs agrees_start H))). Qed.
Print Assumptions C78_stlset_values_partial.
(** C78.  ... and it is defined if it destroys no object that it copies or moves. *)
Theorem C78_stlset_defined_partial : forall (C E : Type) (lt : C -> E -> E -> bool) ops v rs,
  (forall i, In (SDestroy i) ops -> ~ In (SCopy i) ops /\ ~ In (SMove i) ops) ->
  run (v_step lt) [] ops = Ok (v, rs) -> exists w, run (s_step lt) [] ops = Ok (w, rs).
Proof. exact (fun C E lt ops v rs Hk H => run_defined lt ops Hk ops [] v rs (fun o Ho => Ho) agrees_start (traced_start ops) H). Qed.
Print Assumptions C78_stlset_defined_partial.

(** C78.  A copy, or a moved set, that is not empty and outlives its original can be pushed to by nobody: the comparison reads the configuration of the object
    that is gone.  As values the calls are fine. *)
Theorem C78_stlset_outlives_refuted : forall (C E : Type) (lt : C -> E -> E -> bool) (mv : bool) ops w rs, run (s_step lt) [] ops = Ok (w, rs) ->
  forall c x y, let n := length w in
  let more := [SNew c; SCall n (Push x); if mv then SMove n else SCopy n; SDestroy n; SCall (n + 1) (Push y)] in
  run (s_step lt) w more = UB /\ exists v, run (v_step lt) [] (ops ++ more) = Ok (v, rs ++ repeat ONone 5).
Proof.
  intros C E lt mv ops w rs Hr c x y n more. destruct (run_values lt ops [] w rs agrees_start Hr) as [Hv _].
  split; [|exact (outlives_values lt mv ops (vals w) rs c x y n (vals_length w) Hv)]. exact (outlives_ub lt mv w c x y).
Qed.
Print Assumptions C78_stlset_outlives_refuted.

(** A set with 5 and 2 is copied, the copy gets 9 and is moved, and the copy, which nothing points to, is not destroyed before the end. *)
Example C78_stlset_nonvacuous : let ops := [SNew tt; SCall 0 (PushRange [5; 2]); SCopy 0; SCall 1 (Push 9); SCall 0 Top; SMove 1; SCall 2 Pop; SCall 1 Empty; SDestroy 2] in
  (forall i, In (SDestroy i) ops -> ~ In (SCopy i) ops /\ ~ In (SMove i) ops) /\
  exists w, run (s_step (fun _ => Nat.ltb)) [] ops = Ok (w, [ONone; ONone; ONone; ONone; OEntry 5; ONone; OEntry 9; OBool true; ONone]).
Proof. split; [|eexists; vm_compute; reflexivity]. cbn. intros i H. repeat (destruct H as [H|H]; [try discriminate H|]); [|destruct H]. injection H as <-. split; intros H; repeat (destruct H as [H|H]; [discriminate H|]); destruct H. Qed.
