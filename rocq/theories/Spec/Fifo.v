(** Specification of a maximum priority queue that serves equivalent entries first come first served.  The queue is the list of the
    held entries in the order in which they were pushed, oldest first. *)
From Coq Require Import List Permutation.
From Verif.Spec Require Import PQ.
Import ListNotations.

Section Fifo.
  Context {E : Type}.
  Variable lt : E -> E -> bool.

  (** [x], between [pre] and [post], is the oldest of the greatest entries of [pre ++ x :: post]. *)
  Definition oldest_max (pre : list E) (x : E) (post : list E) : Prop :=
    (forall y, In y pre -> lt y x = true) /\ (forall y, In y post -> lt x y = false).

  (** Any mutually equivalent entries are in the same order in [xs] and in [l]. *)
  Definition same_order_of_equivalents (xs l : list E) : Prop :=
    forall p : E -> bool, (forall a b, p a = true -> p b = true -> lt a b = false) -> filter p xs = filter p l.

  Inductive fifo_step (l : list E) : op E -> out E -> list E -> Prop :=
  | f_push x : fifo_step l (Push x) ONone (l ++ [x])
  | f_range xs : fifo_step l (PushRange xs) ONone (l ++ xs)
  | f_pop pre x post : l = pre ++ x :: post -> oldest_max pre x post -> fifo_step l Pop (OEntry x) (pre ++ post)
  | f_top pre x post : l = pre ++ x :: post -> oldest_max pre x post -> fifo_step l Top (OEntry x) l
  | f_empty : fifo_step l Empty (OBool (match l with [] => true | _ => false end)) l
  | f_forall xs : Permutation xs l -> descending lt xs -> same_order_of_equivalents xs l -> fifo_step l ForAll (OList xs) l.

  Inductive fifo_trace : list E -> list (op E) -> list (out E) -> list E -> Prop :=
  | ft_nil l : fifo_trace l [] [] l
  | ft_cons l o r l1 ops rs l2 : fifo_step l o r l1 -> fifo_trace l1 ops rs l2 -> fifo_trace l (o :: ops) (r :: rs) l2.
End Fifo.
