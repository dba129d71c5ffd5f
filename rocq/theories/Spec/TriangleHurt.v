(** Specification of BitTriangle when memory runs out, where the client catches the exceptions and goes on.

    Beside the history (Spec/Triangle.v) there are hurt columns: they count as columns and none of their bits may be used. *)
From Coq Require Import List Arith Bool.
From Verif.BitTriangle Require Import Model.
From Verif.Spec Require Import Triangle.
Import ListNotations.

(** The column of the bit that a call reads or writes. *)
Definition touches (o : bt_op) : option nat :=
  match o with BSet c _ _ | BGet c _ => Some c | BSetU x y _ | BGetU x y => Some (Nat.max x y) | _ => None end.
Definition usable (h : list bt_op) (hurt : list nat) (o : bt_op) : Prop :=
  allowed h o /\ forall c, touches o = Some c -> ~ In c hurt.

(** The calls, their answers ([None] is an exception), and the history and hurt columns they lead to. *)
Inductive htrace : list bt_op -> list nat -> list bt_op -> list (option bt_out) -> list bt_op -> list nat -> Prop :=
| ht_nil h u : htrace h u [] [] h u
| ht_ok h u o ops rs h' u' : usable h u o -> htrace (o :: h) u ops rs h' u' -> htrace h u (o :: ops) (Some (answer h o) :: rs) h' u'
(** A refused column leaves the triangle as it was, or with a hurt column more. *)
| ht_same h u ops rs h' u' : htrace h u ops rs h' u' -> htrace h u (BAddColumn :: ops) (None :: rs) h' u'
| ht_hurt h u ops rs h' u' : 0 < columns h -> htrace (BAddColumn :: h) (columns h :: u) ops rs h' u' -> htrace h u (BAddColumn :: ops) (None :: rs) h' u'.
