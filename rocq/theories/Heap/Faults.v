(** The model of src/mathic/Heap.h once more, for a configuration whose compare and deduplicate may throw.

    The functions take the number of client calls that return before one throws (Base/Fault.v).  Copying an entry never throws. *)
From Coq Require Import List Arith Bool.
From Verif.Base Require Import Res Arr Fault.
From Verif.Spec Require Import PQ.
From Verif.Heap Require Import Model.
Import ListNotations.

Section Faults.
  Variable E : Type.
  Variable lt : E -> E -> bool.
  Variable eqv : E -> E -> bool.
  Variable supportDedup : bool.
  Variable dedup : E -> E -> E.
  Notation heap := (heap E).

  (** Heap.h:143-151, the while loop of moveHoleDown *)
  Fixpoint hole_loop_x (fuel b : nat) (t : heap) (hole fw : nat) : res (fout heap (heap * nat)) :=
    if Nat.ltb hole fw then
      match fuel with
      | 0 => NoFuel
      | S f =>
          let child := 2 * hole in
          let sibling := child + 1 in
          let* x := tget t child in
          let* y := tget t sibling in
          client b t (fun b =>
            let child := if lt x y then sibling else child in
            let* v := tget t child in
            let* t' := tset t hole v in
            hole_loop_x f b t' child fw)
      end
    else Ok (Fine b (t, hole)).

  (** Heap.h:141-159 moveHoleDown *)
  Definition moveHoleDown_x (b : nat) (t : heap) (hole : nat) : res (fout heap (heap * nat)) :=
    let fw := (length t + 1) / 2 in
    fbind (hole_loop_x (length t) b t hole fw) (fun b r =>
      let '(t1, hole1) := r in
      if Nat.eqb hole1 fw && Nat.even (length t1) then
        let child := 2 * hole1 in
        let* v := tget t1 child in
        let* t2 := tset t1 hole1 v in
        Ok (Fine b (t2, child))
      else Ok (Fine b (t1, hole1))).

  (** Heap.h:165-189, the while loop of moveValueUp up to its end ([false]) or up to the equality case ([true]) *)
  Fixpoint up_loop_x (fuel b : nat) (t : heap) (pos : nat) (value : E) : res (fout heap (heap * nat * bool)) :=
    if Nat.eqb pos 1 then Ok (Fine b (t, pos, false)) else
      match fuel with
      | 0 => NoFuel
      | S f =>
          let up := pos / 2 in
          let* u := tget t up in
          client b t (fun b =>
            if lt u value then
              let* t' := tset t pos u in
              up_loop_x f b t' up value
            else if supportDedup && eqv u value then Ok (Fine b (t, pos, true))
            else Ok (Fine b (t, pos, false)))
      end.

  (** Heap.h:162-192 moveValueUp *)
  Fixpoint moveValueUp_x (fuel b : nat) (t : heap) (origPos : nat) (value : E) : res (fout heap heap) :=
    match fuel with
    | 0 => NoFuel
    | S f =>
        fbind (up_loop_x origPos b t origPos value) (fun b r =>
          let '(t1, pos, dup) := r in
          if dup : bool then
            let up := pos / 2 in
            let* u := tget t1 up in
            client b t1 (fun b =>
              let* t2 := tset t1 up (dedup u value) in
              let* t3 := (if Nat.eqb pos origPos then Ok t2
                          else let* tmp := tget t2 origPos in back_loop E origPos t2 (origPos / 2) pos tmp) in
              let* value' := tget t3 (length t3) in
              let t4 := removelast t3 in
              if Nat.eqb origPos (length t4 + 1) then Ok (Fine b t4)
              else moveValueUp_x f b t4 origPos value')
          else let* t2 := tset t1 pos value in Ok (Fine b t2))
    end.

  (** Heap.h:98-102 push *)
  Definition heap_push_x (b : nat) (t : heap) (x : E) : res (fout heap heap) :=
    let t1 := t ++ [x] in
    moveValueUp_x (length t1 + 1) b t1 (length t1) x.

  (** Heap.h:104-109 push(begin, end) *)
  Fixpoint heap_push_range_x (b : nat) (t : heap) (xs : list E) : res (fout heap heap) :=
    match xs with
    | [] => Ok (Fine b t)
    | x :: xs' => fbind (heap_push_x b t x) (fun b t1 => heap_push_range_x b t1 xs')
    end.

  (** Heap.h:112-115 decreaseTop *)
  Definition heap_decreaseTop_x (b : nat) (t : heap) (x : E) : res (fout heap heap) :=
    fbind (moveHoleDown_x b t 1) (fun b r =>
      let '(t1, hole) := r in
      moveValueUp_x (length t1 + 1) b t1 hole x).

  (** Heap.h:125-133 pop *)
  Definition heap_pop_x (b : nat) (t : heap) : res (fout heap (heap * E)) :=
    let* top := tget t 1 in
    let* moved := tget t (length t) in
    let t1 := removelast t in
    match t1 with
    | [] => Ok (Fine b (t1, top))
    | _ =>
        fbind (moveHoleDown_x b t1 1) (fun b r =>
          let '(t2, hole) := r in
          fbind (moveValueUp_x (length t2 + 1) b t2 hole moved) (fun b t3 => Ok (Fine b (t3, top))))
    end.

  (** The public interface (Heap.h:36-68); the other functions call no client function. *)
  Definition heap_step_x (b : nat) (t : heap) (o : op E) : res (fout heap (heap * out E)) :=
    match o with
    | Push x => fbind (heap_push_x b t x) (fun b t' => Ok (Fine b (t', ONone)))
    | PushRange xs => fbind (heap_push_range_x b t xs) (fun b t' => Ok (Fine b (t', ONone)))
    | Pop => fbind (heap_pop_x b t) (fun b r => Ok (Fine b (fst r, OEntry (snd r))))
    | DecreaseTop x => fbind (heap_decreaseTop_x b t x) (fun b t' => Ok (Fine b (t', ONone)))
    | _ => let* r := heap_step E lt eqv supportDedup dedup t o in Ok (Fine b r)
    end.
End Faults.
