(** The model of src/mathic/Heap.h once more, for a configuration with a state.

    C::deduplicate is a const or static method (Heap.h:19), but it may change mutable members of the configuration, as the one of
    src/pqsim/Model.h:85-88 does.  [dedup p a b] is the result of deduplicate(a, b) in state [p] and the state it leaves.  The functions that
    do not call deduplicate are those of Heap/Model.v. *)
From Coq Require Import List Arith Bool.
From Verif.Base Require Import Res Arr.
From Verif.Spec Require Import PQ.
From Verif.Heap Require Import Model.
Import ListNotations.

Section Stateful.
  Variable E P : Type.
  Variable lt : E -> E -> bool.
  Variable eqv : E -> E -> bool.
  Variable supportDedup : bool.
  Variable dedup : P -> E -> E -> E * P.

  (** Heap.h:162-192 moveValueUp; each [goto again] uses one unit of fuel. *)
  Fixpoint moveValueUp_s (fuel : nat) (t : heap E) (p : P) (origPos : nat) (value : E) : res (heap E * P) :=
    match fuel with
    | 0 => NoFuel
    | S f =>
        let* (t1, pos, dup) := up_loop E lt eqv supportDedup origPos t origPos value in
        if dup then
          let up := pos / 2 in
          let* u := tget t1 up in
          let '(d, p1) := dedup p u value in
          let* t2 := tset t1 up d in
          let* t3 := (if Nat.eqb pos origPos then Ok t2
                      else let* tmp := tget t2 origPos in back_loop E origPos t2 (origPos / 2) pos tmp) in
          let* value' := tget t3 (length t3) in
          let t4 := removelast t3 in
          if Nat.eqb origPos (length t4 + 1) then Ok (t4, p1)
          else moveValueUp_s f t4 p1 origPos value'
        else let* t2 := tset t1 pos value in Ok (t2, p)
    end.

  (** Heap.h:98-102 push *)
  Definition heap_push_s (t : heap E) (p : P) (x : E) : res (heap E * P) :=
    let t1 := t ++ [x] in
    moveValueUp_s (length t1 + 1) t1 p (length t1) x.

  (** Heap.h:104-109 push(begin, end) *)
  Fixpoint heap_push_range_s (t : heap E) (p : P) (xs : list E) : res (heap E * P) :=
    match xs with
    | [] => Ok (t, p)
    | x :: xs' => let* (t1, p1) := heap_push_s t p x in heap_push_range_s t1 p1 xs'
    end.

  (** Heap.h:112-115 decreaseTop *)
  Definition heap_decreaseTop_s (t : heap E) (p : P) (x : E) : res (heap E * P) :=
    let* (t1, hole) := moveHoleDown E lt t 1 in
    moveValueUp_s (length t1 + 1) t1 p hole x.

  (** Heap.h:125-133 pop *)
  Definition heap_pop_s (t : heap E) (p : P) : res (heap E * P * E) :=
    let* top := tget t 1 in
    let* moved := tget t (length t) in
    let t1 := removelast t in
    match t1 with
    | [] => Ok (t1, p, top)
    | _ =>
        let* (t2, hole) := moveHoleDown E lt t1 1 in
        let* (t3, p1) := moveValueUp_s (length t2 + 1) t2 p hole moved in
        Ok (t3, p1, top)
    end.

  (** The public interface as a transition function (Heap.h:36-68) *)
  Definition heap_step_s (tp : heap E * P) (o : op E) : res ((heap E * P) * out E) :=
    let '(t, p) := tp in
    match o with
    | Push x => let* s := heap_push_s t p x in Ok (s, ONone)
    | PushRange xs => let* s := heap_push_range_s t p xs in Ok (s, ONone)
    | Pop => let* (s, x) := heap_pop_s t p in Ok (s, OEntry x)
    | Top => let* x := heap_top E t in Ok (tp, OEntry x)
    | DecreaseTop x => let* s := heap_decreaseTop_s t p x in Ok (s, ONone)
    | Clear => Ok ((heap_clear E t, p), ONone)
    | Size => Ok (tp, OSize (heap_size E t))
    | Empty => Ok (tp, OBool (heap_empty E t))
    | ForAll => Ok (tp, OList (heap_forAll E t))
    end.
End Stateful.
