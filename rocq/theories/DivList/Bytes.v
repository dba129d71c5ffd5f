(** Model of the memory of src/mathic/DivList.h, as getMemoryUse reports it for a DivList on a std::vector (for a std::list getMemoryUse does not compile).

    How the vector grows is up to the standard library: [grow c] is the capacity after an insertion into a full vector of capacity [c]. *)
From Coq Require Import List Arith Bool ZArith.
From Verif.Base Require Import Res Arr.
From Verif.DivMask Require Import Model.
From Verif.Spec Require Import DivFinder.
From Verif.DivList Require Import Model.
Import ListNotations.

Section Bytes.
  Variable M : Type.
  Variable dstep : dlist M -> dop M -> res (dlist M * dout M). (* [DivList.Model.step] for a configuration with [linked = false] *)
  Variable grow : nat -> nat.

  (** DivList.h:404, 312: one insertion into a vector of [n] entries and capacity [c] *)
  Definition push_cap (c n : nat) : nat := if n <? c then c else grow c.
  (** DivList.h:414-415, 422-423: [k] insertions one after the other *)
  Fixpoint pushes_cap (c n k : nat) : nat := match k with 0 => c | S k' => pushes_cap (push_cap c n) (S n) k' end.
  (** DivList.h:73-125 one call, on a list and its capacity; neither erase (459), resize to a smaller size nor the other calls change the capacity *)
  Definition dm_step (m : dlist M * nat) (o : dop M) : res ((dlist M * nat) * dout M) :=
    let (s, c) := m in
    let* (s', r) := dstep s o in
    let c' :=
      match o with
      | DInsert _ => push_cap c (length (l_list s))
      | DInsertRange es => pushes_cap c (length (l_list s)) (length es)
      | _ => c
      end in
    Ok ((s', c'), r).
  (** DivList.h:610-613 getMemoryUse; [size] is sizeof(ExtEntry) *)
  Definition dm_getMemoryUse (size : nat) (m : dlist M * nat) : nat := snd m * size.
End Bytes.
