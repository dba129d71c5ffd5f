(** Model of src/mathic/BitTriangle.h.  getMemoryUse (BitTriangle.cpp:5-14) is in
    Bytes/Model.v. *)
From Coq Require Import List Arith Bool.
From Verif.Base Require Import Res Arr.
Import ListNotations.

(** BitTriangle.h:81 mColumns *)
Definition triangle := list (list bool).

(** BitTriangle.h:25 columnCount, 28 empty *)
Definition bt_columnCount (t : triangle) : nat := length t.
(** BitTriangle.h:28 empty *)
Definition bt_empty (t : triangle) : bool := match t with [] => true | _ => false end.

(** BitTriangle.h:33-37 addColumn: vector<bool>::resize fills with false *)
Definition bt_addColumn (t : triangle) : triangle := t ++ [repeat false (length t)].

(** BitTriangle.h:41-45 bit; an access outside of a vector is undefined *)
Definition bt_bit (t : triangle) (column row : nat) : res bool :=
  let* c := vget t column in vget c row.

(** BitTriangle.h:49-56 bitUnordered *)
Definition bt_bitUnordered (t : triangle) (x y : nat) : res bool :=
  let '(x, y) := if Nat.ltb x y then (y, x) else (x, y) in bt_bit t x y.

(** BitTriangle.h:60-64 setBit *)
Definition bt_setBit (t : triangle) (column row : nat) (value : bool) : res triangle :=
  let* c := vget t column in
  let* c' := vset c row value in
  vset t column c'.

(** BitTriangle.h:68-75 setBitUnordered *)
Definition bt_setBitUnordered (t : triangle) (x y : nat) (value : bool) : res triangle :=
  let '(x, y) := if Nat.ltb x y then (y, x) else (x, y) in bt_setBit t x y value.

(** The calls on a triangle, for histories: BitTriangle.h:25-75 *)
Inductive bt_op : Type :=
| BAddColumn
| BSet (column row : nat) (v : bool)
| BSetU (x y : nat) (v : bool)
| BGet (column row : nat)
| BGetU (x y : nat)
| BCount
| BEmpty.
(** What the calls return: BitTriangle.h:25-75 *)
Inductive bt_out : Type := BNone | BBool (b : bool) | BNat (n : nat).

(** One call: BitTriangle.h:25-75 *)
Definition bt_step (t : triangle) (o : bt_op) : res (triangle * bt_out) :=
  match o with
  | BAddColumn => Ok (bt_addColumn t, BNone)
  | BSet c r v => let* t' := bt_setBit t c r v in Ok (t', BNone)
  | BSetU x y v => let* t' := bt_setBitUnordered t x y v in Ok (t', BNone)
  | BGet c r => let* b := bt_bit t c r in Ok (t, BBool b)
  | BGetU x y => let* b := bt_bitUnordered t x y in Ok (t, BBool b)
  | BCount => Ok (t, BNat (bt_columnCount t))
  | BEmpty => Ok (t, BBool (bt_empty t))
  end.
