(** Model of src/mathic/Heap.h on the array of ComTree.h when memory runs out: Heap.h:97-109 push, with an operator new that throws.

    A function with a budget [b] is what happens when the first [b] allocations succeed and the next one throws (Base/Fault.v).  That copying an entry may throw
    is not modelled. *)
From Coq Require Import List Arith Bool.
From Verif.Base Require Import Res Arr Fault.
From Verif.Spec Require Import PQ.
From Verif.ComTree Require Import Model.
From Verif.HeapMem Require Import Model.
Import ListNotations.

Section HeapAlloc.
  Variable E : Type.
  Variable lt eqv : E -> E -> bool.
  Variable supportDedup : bool.
  Variable dedup : E -> E -> E.
  (** Heap.h:80 _tree *)
  Notation tree := (comtree E).

  (** Heap.h:97-102 push: _tree.pushBack allocates a new array when the old one is full (ComTree.h:203-204), before anything changes (ComTree.h:318) *)
  Definition hm_push_a (b : nat) (t : tree) (x : E) : res (fout tree tree) :=
    let go := fun b => let* t' := hm_push E lt eqv supportDedup dedup t x in Ok (Fine b t') in
    if Nat.eqb (ct_last t) (ct_cap t) then client b t go else go b.
  (** Heap.h:104-109 push(begin, end) *)
  Fixpoint hm_push_range_a (b : nat) (t : tree) (xs : list E) : res (fout tree tree) :=
    match xs with
    | [] => Ok (Fine b t)
    | x :: xs' => fbind (hm_push_a b t x) (fun b t1 => hm_push_range_a b t1 xs')
    end.
  (** One call of the interface of Heap.h:44-66 with a number of allocations that succeed; no call but push allocates.  [None] is an exception, which the client
      catches. *)
  Definition hm_catch (t : tree) (o : op E * nat) : res (tree * option (out E)) :=
    let push := fun (r : res (fout tree tree)) =>
      let* q := r in match q with Fine _ t' => Ok (t', Some ONone) | Left t' => Ok (t', None) end in
    match fst o with
    | Push x => push (hm_push_a (snd o) t x)
    | PushRange xs => push (hm_push_range_a (snd o) t xs)
    | _ => let* (t', r) := hm_step E lt eqv supportDedup dedup t (fst o) in Ok (t', Some r)
    end.
End HeapAlloc.
