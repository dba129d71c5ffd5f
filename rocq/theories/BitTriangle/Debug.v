(** BitTriangle.h compiled with MATHIC_DEBUG: the model with its assertions, a failed one being [UB]. *)
From Coq Require Import List Arith Bool.
From Verif.Base Require Import Res Arr.
From Verif.BitTriangle Require Import Model.
From Verif.TourTree Require Import Debug.
Import ListNotations.

(** BitTriangle.h:42-43, 61-62: the column exists and the row is below it *)
Definition check_ordered (t : triangle) (column row : nat) : res unit :=
  let* _ := check (column <? bt_columnCount t) in check (row <? column).
(** BitTriangle.h:50-52, 69-71: both columns exist and are different *)
Definition check_unordered (t : triangle) (x y : nat) : res unit :=
  let* _ := check (x <? bt_columnCount t) in
  let* _ := check (y <? bt_columnCount t) in
  check (negb (x =? y)).
(** The two indexes after BitTriangle.h:53-54, 72-73 *)
Definition ordered (x y : nat) : nat * nat := if Nat.ltb x y then (y, x) else (x, y).

(** One call: BitTriangle.h:25-75 *)
Definition bt_step_d (t : triangle) (o : bt_op) : res (triangle * bt_out) :=
  match o with
  | BSet c r _ | BGet c r => let* _ := check_ordered t c r in bt_step t o
  | BSetU x y _ | BGetU x y =>
      let* _ := check_unordered t x y in
      let* _ := check_ordered t (fst (ordered x y)) (snd (ordered x y)) in
      bt_step t o
  | _ => bt_step t o
  end.
