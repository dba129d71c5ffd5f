(** The model of src/mathic/Heap.h once more, with the calls of C::compare counted.

    Every call of [compare] goes through [cmp], which adds one to the counter.  [Heap/CountedProofs.v] shows that forgetting the counter
    gives the functions of Heap/Model.v. *)
From Coq Require Import List Arith Bool.
From Verif.Base Require Import Res Arr.
From Verif.Spec Require Import PQ.
From Verif.Heap Require Import Model.
Import ListNotations.

Section Counted.
  Variable E : Type.
  Variable lt : E -> E -> bool.
  Variable eqv : E -> E -> bool.
  Variable supportDedup : bool.
  Variable dedup : E -> E -> E.

  (** One call of _conf.compare (Heap.h:147, 168): cmpLessThan and cmpEqual of its result, and the counter *)
  Definition cmp (a b : E) (n : nat) : bool * bool * nat := (lt a b, eqv a b, S n).

  (** Heap.h:143-151, the while loop of moveHoleDown *)
  Fixpoint hole_loop_c (fuel : nat) (t : heap E) (hole fw n : nat) : res (heap E * nat * nat) :=
    if Nat.ltb hole fw then
      match fuel with
      | 0 => NoFuel
      | S f =>
          let child := 2 * hole in
          let sibling := child + 1 in
          let* a := tget t child in
          let* b := tget t sibling in
          let '(less, _, n') := cmp a b n in
          let child := if less then sibling else child in
          let* v := tget t child in
          let* t' := tset t hole v in
          hole_loop_c f t' child fw n'
      end
    else Ok (t, hole, n).

  (** Heap.h:141-159 moveHoleDown *)
  Definition moveHoleDown_c (t : heap E) (hole n : nat) : res (heap E * nat * nat) :=
    let fw := (length t + 1) / 2 in
    let* (t1, hole1, n') := hole_loop_c (length t) t hole fw n in
    if Nat.eqb hole1 fw && Nat.even (length t1) then
      let child := 2 * hole1 in
      let* v := tget t1 child in
      let* t2 := tset t1 hole1 v in
      Ok (t2, child, n')
    else Ok (t1, hole1, n').

  (** Heap.h:165-189, the while loop of moveValueUp; one comparison decides all three branches *)
  Fixpoint up_loop_c (fuel : nat) (t : heap E) (pos : nat) (value : E) (n : nat) : res (heap E * nat * bool * nat) :=
    if Nat.eqb pos 1 then Ok (t, pos, false, n) else
      match fuel with
      | 0 => NoFuel
      | S f =>
          let up := pos / 2 in
          let* u := tget t up in
          let '(less, equal, n') := cmp u value n in
          if less then
            let* t' := tset t pos u in
            up_loop_c f t' up value n'
          else if supportDedup && equal then Ok (t, pos, true, n')
          else Ok (t, pos, false, n')
      end.

  (** Heap.h:162-192 moveValueUp; moving elements back (172-178) compares nothing *)
  Fixpoint moveValueUp_c (fuel : nat) (t : heap E) (origPos : nat) (value : E) (n : nat) : res (heap E * nat) :=
    match fuel with
    | 0 => NoFuel
    | S f =>
        let* (t1, pos, dup, n') := up_loop_c origPos t origPos value n in
        if dup then
          let up := pos / 2 in
          let* u := tget t1 up in
          let* t2 := tset t1 up (dedup u value) in
          let* t3 := (if Nat.eqb pos origPos then Ok t2
                      else let* tmp := tget t2 origPos in back_loop E origPos t2 (origPos / 2) pos tmp) in
          let* value' := tget t3 (length t3) in
          let t4 := removelast t3 in
          if Nat.eqb origPos (length t4 + 1) then Ok (t4, n')
          else moveValueUp_c f t4 origPos value' n'
        else let* t2 := tset t1 pos value in Ok (t2, n')
    end.

  (** Heap.h:98-102 push *)
  Definition heap_push_c (t : heap E) (x : E) (n : nat) : res (heap E * nat) :=
    let t1 := t ++ [x] in
    moveValueUp_c (length t1 + 1) t1 (length t1) x n.

  (** Heap.h:104-109 push(begin, end) *)
  Fixpoint heap_push_range_c (t : heap E) (xs : list E) (n : nat) : res (heap E * nat) :=
    match xs with
    | [] => Ok (t, n)
    | x :: xs' => let* (t1, n') := heap_push_c t x n in heap_push_range_c t1 xs' n'
    end.

  (** Heap.h:112-115 decreaseTop *)
  Definition heap_decreaseTop_c (t : heap E) (x : E) (n : nat) : res (heap E * nat) :=
    let* (t1, hole, n') := moveHoleDown_c t 1 n in
    moveValueUp_c (length t1 + 1) t1 hole x n'.

  (** Heap.h:125-133 pop *)
  Definition heap_pop_c (t : heap E) (n : nat) : res (heap E * E * nat) :=
    let* top := tget t 1 in
    let* moved := tget t (length t) in
    let t1 := removelast t in
    match t1 with
    | [] => Ok (t1, top, n)
    | _ =>
        let* (t2, hole, n') := moveHoleDown_c t1 1 n in
        let* (t3, n'') := moveValueUp_c (length t2 + 1) t2 hole moved n' in
        Ok (t3, top, n'')
    end.

  (** The public interface (Heap.h:36-68) on a heap with its counter *)
  Definition heap_step_c (s : heap E * nat) (o : op E) : res (heap E * nat * out E) :=
    let (t, n) := s in
    match o with
    | Push x => let* (t', n') := heap_push_c t x n in Ok (t', n', ONone)
    | PushRange xs => let* (t', n') := heap_push_range_c t xs n in Ok (t', n', ONone)
    | Pop => let* (t', x, n') := heap_pop_c t n in Ok (t', n', OEntry x)
    | Top => let* x := heap_top E t in Ok (t, n, OEntry x)
    | DecreaseTop x => let* (t', n') := heap_decreaseTop_c t x n in Ok (t', n', ONone)
    | Clear => Ok (heap_clear E t, n, ONone)
    | Size => Ok (t, n, OSize (heap_size E t))
    | Empty => Ok (t, n, OBool (heap_empty E t))
    | ForAll => Ok (t, n, OList (heap_forAll E t))
    end.
End Counted.
