(** The move constructor of Heap.h:39.  Heap has no copy constructor, because it declares this one. *)
From Coq Require Import List.
From Verif.Base Require Import Res.
From Verif.ComTree Require Import Model.

Section Moves.
  Variables E C : Type.
  (** A Heap while it is being constructed: the members of Heap.h:80-81 in the order of their initialisation; [None] is a member that was not initialised yet *)
  Record heap_storage := mk_hs { hs_tree : option (comtree E); hs_conf : option C }.
  (** Reading a member; reading one that was not initialised is undefined.  Heap.h:80-81 *)
  Definition read_member {A : Type} (m : option A) : res A := of_option m.
  (** Heap.h:39: the first initialiser moves from [_tree], the member of the object under construction, not from [heap._tree].
      ComTree.h:173-183 reads each of its fields. *)
  Definition heap_move (heap : heap_storage) : res (heap_storage * heap_storage) :=
    let this := mk_hs None None in
    let* source := read_member (hs_tree this) in
    let this := mk_hs (Some (fst (ct_move source))) None in
    let* conf := read_member (hs_conf heap) in
    Ok (mk_hs (hs_tree this) (Some conf), heap).
End Moves.
Arguments mk_hs {E C}. Arguments heap_move {E C}.
