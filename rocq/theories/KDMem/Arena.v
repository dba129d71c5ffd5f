(** Model of the memory the KD trees allocate their nodes from: memt::Arena of the library memtailor, as used by BinaryKDTree.h:241, 305,
    347, 356, 750, 756 and PackedKDTree.h:37-54, 166.

    A pointer is a number, and no number is handed out twice.  Following a pointer to memory that has been freed, or that was never
    handed out, is undefined.  The null pointer is [None]. *)
From Coq Require Import List Arith Bool.
From Verif.Base Require Import Res Arr.
Import ListNotations.

(** BinaryKDTree.h:241, PackedKDTree.h:166 _arena: the objects allocated since it was last emptied; the pointers below [ar_dead] were freed *)
Record arena (N : Type) := mk_arena { ar_dead : nat; ar_cells : list N }.
Arguments mk_arena {N}. Arguments ar_dead {N}. Arguments ar_cells {N}.

Section Arena.
  Context {N : Type}.
  (** Reading the object at [p], e.g. BinaryKDTree.h:54-61 *)
  Definition ar_get (A : arena N) (p : nat) : res N := if p <? ar_dead A then UB else vget (ar_cells A) (p - ar_dead A).
  (** Changing the object at [p], e.g. BinaryKDTree.h:115 *)
  Definition ar_set (A : arena N) (p : nat) (n : N) : res (arena N) :=
    if p <? ar_dead A then UB else let* l := vset (ar_cells A) (p - ar_dead A) n in Ok (mk_arena (ar_dead A) l).
  (** new (arena.alloc...) N, BinaryKDTree.h:305, 347, 356, 750, 756, PackedKDTree.h:37-54 *)
  Definition ar_new (A : arena N) (n : N) : arena N * nat := (mk_arena (ar_dead A) (ar_cells A ++ [n]), ar_dead A + length (ar_cells A)).
  (** _arena.freeAllAllocs(), BinaryKDTree.h:575, PackedKDTree.h:535 *)
  Definition ar_free (A : arena N) : arena N := mk_arena (ar_dead A + length (ar_cells A)) [].
End Arena.
