(** Specification of BitTriangle by its history: a bit has the value last written to it, and false before that. *)
From Coq Require Import List Arith Bool.
From Verif.BitTriangle Require Import Model.
Import ListNotations.

(** Histories are written latest call first. *)
Fixpoint columns (h : list bt_op) : nat :=
  match h with [] => 0 | BAddColumn :: h' => S (columns h') | _ :: h' => columns h' end.

(** The value last written to the bit of the pair [c > r]. *)
Fixpoint last_written (h : list bt_op) (c r : nat) : bool :=
  match h with
  | [] => false
  | BSet c' r' v :: h' => if Nat.eqb c c' && Nat.eqb r r' then v else last_written h' c r
  | BSetU x y v :: h' => if Nat.eqb c (Nat.max x y) && Nat.eqb r (Nat.min x y) then v else last_written h' c r
  | _ :: h' => last_written h' c r
  end.

(** The documented preconditions. *)
Definition allowed (h : list bt_op) (o : bt_op) : Prop :=
  match o with
  | BSet c r _ | BGet c r => r < c < columns h
  | BSetU x y _ | BGetU x y => x < columns h /\ y < columns h /\ x <> y
  | _ => True
  end.

Definition answer (h : list bt_op) (o : bt_op) : bt_out :=
  match o with
  | BAddColumn | BSet _ _ _ | BSetU _ _ _ => BNone
  | BGet c r => BBool (last_written h c r)
  | BGetU x y => BBool (last_written h (Nat.max x y) (Nat.min x y))
  | BCount => BNat (columns h)
  | BEmpty => BBool (Nat.eqb (columns h) 0)
  end.

(** All calls of [ops] are allowed after the history [h]. *)
Fixpoint all_allowed (h ops : list bt_op) : Prop :=
  match ops with [] => True | o :: ops' => allowed h o /\ all_allowed (o :: h) ops' end.
Fixpoint answers (h ops : list bt_op) : list bt_out :=
  match ops with [] => [] | o :: ops' => answer h o :: answers (o :: h) ops' end.
