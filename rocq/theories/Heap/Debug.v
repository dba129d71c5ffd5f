(** Heap.h compiled with MATHIC_DEBUG and MATHIC_SLOW_DEBUG: the model with its assertions.

    As in Geobucket/Debug.v a failed assertion counts as [UB].  pop has an assertion behind its return statement (Heap.h:131-132), which
    is never reached. *)
From Coq Require Import List Arith Bool.
From Verif.Base Require Import Res Arr.
From Verif.Spec Require Import PQ.
From Verif.Heap Require Import Model.
From Verif.Geobucket Require Import Debug.
Import ListNotations.

Section Debug.
  Variable E : Type.
  Variable lt eqv : E -> E -> bool.
  Variable supportDedup : bool.
  Variable dedup : E -> E -> E.
  Notation heap := (heap E).

  (** Heap.h:162-192 moveValueUp with 183, 191, which come before its two ways to return *)
  Definition moveValueUp_d (t : heap) (pos : nat) (value : E) : res heap :=
    let* t' := moveValueUp E lt eqv supportDedup dedup (length t + 1) t pos value in
    asserted (heap_isValid E lt t') (Ok t').

  (** Heap.h:98-102 push with 101 *)
  Definition heap_push_d (t : heap) (x : E) : res heap :=
    let t1 := t ++ [x] in
    let* t2 := moveValueUp_d t1 (length t1) x in
    asserted (heap_isValid E lt t2) (Ok t2).

  (** Heap.h:104-109 push(begin, end) *)
  Fixpoint heap_push_range_d (t : heap) (xs : list E) : res heap :=
    match xs with
    | [] => Ok t
    | x :: xs' => let* t1 := heap_push_d t x in heap_push_range_d t1 xs'
    end.

  (** Heap.h:112-115 decreaseTop with 114 *)
  Definition heap_decreaseTop_d (t : heap) (x : E) : res heap :=
    let* (t1, hole) := moveHoleDown E lt t 1 in
    let* t2 := moveValueUp_d t1 hole x in
    asserted (heap_isValid E lt t2) (Ok t2).

  (** Heap.h:125-133 pop *)
  Definition heap_pop_d (t : heap) : res (heap * E) :=
    let* top := tget t 1 in
    let* moved := tget t (length t) in
    let t1 := removelast t in
    match t1 with
    | [] => Ok (t1, top)
    | _ =>
        let* (t2, hole) := moveHoleDown E lt t1 1 in
        let* t3 := moveValueUp_d t2 hole moved in
        Ok (t3, top)
    end.

  (** Heap.h:118-122 clear with 119, 121 *)
  Definition heap_clear_d (t : heap) : res heap :=
    asserted (heap_isValid E lt t) (asserted (heap_isValid E lt (heap_clear E t)) (Ok (heap_clear E t))).

  (** One call: Heap.h:36-68 *)
  Definition heap_step_d (t : heap) (o : op E) : res (heap * out E) :=
    match o with
    | Push x => let* t' := heap_push_d t x in Ok (t', ONone)
    | PushRange xs => let* t' := heap_push_range_d t xs in Ok (t', ONone)
    | Pop => let* (t', x) := heap_pop_d t in Ok (t', OEntry x)
    | Top => let* x := heap_top E t in Ok (t, OEntry x)
    | DecreaseTop x => let* t' := heap_decreaseTop_d t x in Ok (t', ONone)
    | Clear => let* t' := heap_clear_d t in Ok (t', ONone)
    | Size => Ok (t, OSize (heap_size E t))
    | Empty => Ok (t, OBool (heap_empty E t))
    | ForAll => Ok (t, OList (heap_forAll E t))
    end.
End Debug.
