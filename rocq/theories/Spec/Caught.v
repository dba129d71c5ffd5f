(** Specification of a priority queue whose client's functions may throw, where the client catches the exceptions and goes on.

    Beside its contents the queue has a surplus: how much more than the number of its entries size() answers. *)
From Coq Require Import List Permutation Arith Bool.
From Verif.Spec Require Import PQ.
Import ListNotations.

Section Caught.
  Context {E : Type}.
  Variable lt : E -> E -> bool.
  Variable dd : E -> E -> E -> Prop.

  (** The call answers [Some r], or throws ([None]).  From contents [l] and surplus [p] to contents [l'] and surplus [p']. *)
  Inductive xstep (l : list E) (p : nat) : op E -> option (out E) -> list E -> nat -> Prop :=
  | x_size : xstep l p Size (Some (OSize (length l + p))) l p
  | x_empty : xstep l p Empty (Some (OBool (length l + p =? 0))) l p
  | x_clear : xstep l p Clear (Some ONone) [] 0
  | x_other o r l' : match o with Size | Empty | Clear => False | _ => True end -> sstep lt dd l o r l' -> xstep l p o (Some r) l' p
  (** An exception leaves the contents.  A push that throws adds to the surplus. *)
  | x_push x l' : merges dd l l' -> xstep l p (Push x) None l' (p + 1)
  | x_range xs l' : merges dd l l' -> xstep l p (PushRange xs) None l' (p + length xs)
  | x_pop l' : merges dd l l' -> xstep l p Pop None l' p
  | x_top l' : merges dd l l' -> xstep l p Top None l' p
  | x_dec x l' : merges dd l l' -> xstep l p (DecreaseTop x) None l' p
  (** decreaseTop is a pop and a push, and the second may throw. *)
  | x_lost x t m l' : merges dd l (t :: m) -> is_max lt t (t :: m) -> merges dd m l' -> xstep l p (DecreaseTop x) None l' (p + 1).

  Inductive xtrace : list E -> nat -> list (op E) -> list (option (out E)) -> list E -> nat -> Prop :=
  | xt_nil l p : xtrace l p [] [] l p
  | xt_cons l p o r l1 p1 ops rs l2 p2 : xstep l p o r l1 p1 -> xtrace l1 p1 ops rs l2 p2 -> xtrace l p (o :: ops) (r :: rs) l2 p2.
End Caught.
