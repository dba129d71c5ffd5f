(** How well a list of exponents is split in two halves by the middle of its range. *)
From Coq Require Import List Arith ZArith.
Import ListNotations.

(** The smallest and the largest of [first] and the numbers of [l]. *)
Definition lowest (first : Z) (l : list Z) : Z := fold_right Z.min first l.
Definition highest (first : Z) (l : list Z) : Z := fold_right Z.max first l.
(** The middle of the range, rounded down. *)
Definition middle (first : Z) (l : list Z) : Z := (lowest first l + (highest first l - lowest first l) / 2)%Z.
(** The size of the smaller one of the two parts of [l], below and not below the middle: the larger it is, the better the split. *)
Definition balance (first : Z) (l : list Z) : nat :=
  Nat.min (length (filter (fun e => e <? middle first l)%Z l)) (length (filter (fun e => middle first l <=? e)%Z l)).
(** The width of one of [k] equal pieces of the range, rounded down but at least one. *)
Definition piece (first : Z) (l : list Z) (k : nat) : Z := Z.max 1 ((highest first l - lowest first l) / Z.of_nat k)%Z.
