(** The model of src/mathic/Heap.h once more, with the assignments to entries of the tree counted.  std::swap of a local variable and an entry of the tree counts as one.  What
    growing the tree assigns is not counted here, see ComTree/Moved.v. *)
From Coq Require Import List Arith Bool.
From Verif.Base Require Import Res Arr Count.
From Verif.Spec Require Import PQ.
From Verif.Heap Require Import Model.
Import ListNotations.

Section Assigned.
  Variable E : Type.
  Variable lt : E -> E -> bool.
  Variable eqv : E -> E -> bool.
  Variable supportDedup : bool.
  Variable dedup : E -> E -> E.

  (** An assignment to an entry, as in Heap.h:149, 155, 169, 172, 177, 190 *)
  Definition tset_a (t : heap E) (pos : nat) (v : E) : counted (heap E) :=
    let@ t' := free (tset t pos v) in Ok (t', 1).

  (** Heap.h:143-151, the while loop of moveHoleDown *)
  Fixpoint hole_loop_a (fuel : nat) (t : heap E) (hole fw : nat) : counted (heap E * nat) :=
    if Nat.ltb hole fw then
      match fuel with
      | 0 => NoFuel
      | S f =>
          let child := 2 * hole in
          let sibling := child + 1 in
          let@ a := free (tget t child) in
          let@ b := free (tget t sibling) in
          let child := if lt a b then sibling else child in
          let@ v := free (tget t child) in
          let@ t' := tset_a t hole v in
          hole_loop_a f t' child fw
      end
    else Ok ((t, hole), 0).
  (** Heap.h:141-159 moveHoleDown *)
  Definition moveHoleDown_a (t : heap E) (hole : nat) : counted (heap E * nat) :=
    let fw := (length t + 1) / 2 in
    let@ (t1, hole1) := hole_loop_a (length t) t hole fw in
    if Nat.eqb hole1 fw && Nat.even (length t1) then
      let child := 2 * hole1 in
      let@ v := free (tget t1 child) in
      let@ t2 := tset_a t1 hole1 v in
      Ok ((t2, child), 0)
    else Ok ((t1, hole1), 0).

  (** Heap.h:165-189, the while loop of moveValueUp *)
  Fixpoint up_loop_a (fuel : nat) (t : heap E) (pos : nat) (value : E) : counted (heap E * nat * bool) :=
    if Nat.eqb pos 1 then Ok ((t, pos, false), 0) else
      match fuel with
      | 0 => NoFuel
      | S f =>
          let up := pos / 2 in
          let@ u := free (tget t up) in
          if lt u value then
            let@ t' := tset_a t pos u in
            up_loop_a f t' up value
          else if supportDedup && eqv u value then Ok ((t, pos, true), 0)
          else Ok ((t, pos, false), 0)
      end.
  (** Heap.h:176-177, moving elements back *)
  Fixpoint back_loop_a (fuel : nat) (t : heap E) (p pos : nat) (tmp : E) : counted (heap E) :=
    if Nat.eqb p pos then Ok (t, 0) else
      match fuel with
      | 0 => NoFuel
      | S f =>
          let@ q := free (tget t p) in
          let@ t' := tset_a t p tmp in
          back_loop_a f t' (p / 2) pos q
      end.
  (** Heap.h:162-192 moveValueUp *)
  Fixpoint moveValueUp_a (fuel : nat) (t : heap E) (origPos : nat) (value : E) : counted (heap E) :=
    match fuel with
    | 0 => NoFuel
    | S f =>
        let@ (t1, pos, dup) := up_loop_a origPos t origPos value in
        if dup then
          let up := pos / 2 in
          let@ u := free (tget t1 up) in
          let@ t2 := tset_a t1 up (dedup u value) in
          let@ t3 := (if Nat.eqb pos origPos then Ok (t2, 0)
                      else let@ tmp := free (tget t2 origPos) in back_loop_a origPos t2 (origPos / 2) pos tmp) in
          let@ value' := free (tget t3 (length t3)) in
          let t4 := removelast t3 in
          if Nat.eqb origPos (length t4 + 1) then Ok (t4, 0)
          else moveValueUp_a f t4 origPos value'
        else tset_a t1 pos value
    end.

  (** Heap.h:98-102 push *)
  Definition heap_push_a (t : heap E) (x : E) : counted (heap E) :=
    let@ t1 := Ok (t ++ [x], 1) in
    moveValueUp_a (length t1 + 1) t1 (length t1) x.
  (** Heap.h:104-109 push(begin, end) *)
  Fixpoint heap_push_range_a (t : heap E) (xs : list E) : counted (heap E) :=
    match xs with
    | [] => Ok (t, 0)
    | x :: xs' => let@ t1 := heap_push_a t x in heap_push_range_a t1 xs'
    end.
  (** Heap.h:112-115 decreaseTop *)
  Definition heap_decreaseTop_a (t : heap E) (x : E) : counted (heap E) :=
    let@ (t1, hole) := moveHoleDown_a t 1 in
    moveValueUp_a (length t1 + 1) t1 hole x.
  (** Heap.h:125-133 pop *)
  Definition heap_pop_a (t : heap E) : counted (heap E * E) :=
    let@ top := free (tget t 1) in
    let@ moved := free (tget t (length t)) in
    let t1 := removelast t in
    match t1 with
    | [] => Ok ((t1, top), 0)
    | _ =>
        let@ (t2, hole) := moveHoleDown_a t1 1 in
        let@ t3 := moveValueUp_a (length t2 + 1) t2 hole moved in
        Ok ((t3, top), 0)
    end.
  (** The public interface (Heap.h:36-68) *)
  Definition heap_step_a (t : heap E) (o : op E) : counted (heap E * out E) :=
    match o with
    | Push x => let@ t' := heap_push_a t x in Ok ((t', ONone), 0)
    | PushRange xs => let@ t' := heap_push_range_a t xs in Ok ((t', ONone), 0)
    | Pop => let@ (t', x) := heap_pop_a t in Ok ((t', OEntry x), 0)
    | DecreaseTop x => let@ t' := heap_decreaseTop_a t x in Ok ((t', ONone), 0)
    | _ => free (heap_step E lt eqv supportDedup dedup t o)
    end.
  (** The calls of a history; Heap.h:36-68 *)
  Fixpoint heap_run_a (t : heap E) (ops : list (op E)) : counted (heap E * list (out E)) :=
    match ops with
    | [] => Ok ((t, []), 0)
    | o :: ops' => let@ (t1, r) := heap_step_a t o in let@ (t2, rs) := heap_run_a t1 ops' in Ok ((t2, r :: rs), 0)
    end.
End Assigned.
