(** Heap on the array of ComTree.

    Heap/Model.v takes the tree of a Heap as the list of its entries.  Here the same functions run on the storage of ComTree/Model.v: an array that may be absent,
    may be longer than the tree and keeps what was written to it, and the index of the last leaf. *)
From Coq Require Import List Arith Bool.
From Verif.Base Require Import Res Arr.
From Verif.Spec Require Import PQ.
From Verif.ComTree Require Import Model.
From Verif.TourTree Require Import Model.
Import ListNotations.

Section HeapMem.
  Variable E : Type.
  (** The configuration C, as in Heap/Model.v: Heap.h:14-30 *)
  Variable lt : E -> E -> bool.
  Variable eqv : E -> E -> bool.
  Variable supportDedup : bool.
  Variable dedup : E -> E -> E.
  Notation tree := (comtree E).

  (** Heap.h:143-151, the while loop of moveHoleDown; [fw] is firstWithout2Children *)
  Fixpoint hm_hole_loop (fuel : nat) (t : tree) (hole fw : nat) : res (tree * nat) :=
    if Nat.ltb hole fw then
      match fuel with
      | 0 => NoFuel
      | S f =>
          let child := 2 * hole in
          let sibling := child + 1 in
          let* a := ct_get t child in
          let* b := ct_get t sibling in
          let child := if lt a b then sibling else child in
          let* v := ct_get t child in
          let* t' := ct_set t hole v in
          hm_hole_loop f t' child fw
      end
    else Ok (t, hole).
  (** Heap.h:141-159 moveHoleDown; isLeft means even *)
  Definition hm_moveHoleDown (t : tree) (hole : nat) : res (tree * nat) :=
    let fw := (ct_last t + 1) / 2 in
    let* (t1, hole1) := hm_hole_loop (ct_last t) t hole fw in
    if Nat.eqb hole1 fw && Nat.even (ct_last t1) then
      let child := 2 * hole1 in
      let* v := ct_get t1 child in
      let* t2 := ct_set t1 hole1 v in
      Ok (t2, child)
    else Ok (t1, hole1).
  (** Heap.h:165-189, the while loop of moveValueUp up to its end ([false]) or up to the equality case ([true]) *)
  Fixpoint hm_up_loop (fuel : nat) (t : tree) (pos : nat) (value : E) : res (tree * nat * bool) :=
    if Nat.eqb pos 1 then Ok (t, pos, false) else
      match fuel with
      | 0 => NoFuel
      | S f =>
          let up := pos / 2 in
          let* u := ct_get t up in
          if lt u value then
            let* t' := ct_set t pos u in
            hm_up_loop f t' up value
          else if supportDedup && eqv u value then Ok (t, pos, true)
          else Ok (t, pos, false)
      end.
  (** Heap.h:176-177, the for loop that moves elements back *)
  Fixpoint hm_back_loop (fuel : nat) (t : tree) (p pos : nat) (tmp : E) : res tree :=
    if Nat.eqb p pos then Ok t else
      match fuel with
      | 0 => NoFuel
      | S f =>
          let* q := ct_get t p in
          let* t' := ct_set t p tmp in
          hm_back_loop f t' (p / 2) pos q
      end.
  (** Heap.h:162-192 moveValueUp; each [goto again] uses one unit of fuel.  [value] is a copy, so writing to the tree does not change it. *)
  Fixpoint hm_moveValueUp (fuel : nat) (t : tree) (origPos : nat) (value : E) : res tree :=
    match fuel with
    | 0 => NoFuel
    | S f =>
        let* (t1, pos, dup) := hm_up_loop origPos t origPos value in
        if dup then
          let up := pos / 2 in
          let* u := ct_get t1 up in
          let* t2 := ct_set t1 up (dedup u value) in
          let* t3 := (if Nat.eqb pos origPos then Ok t2
                      else let* tmp := ct_get t2 origPos in hm_back_loop origPos t2 (origPos / 2) pos tmp) in
          let* value' := ct_get t3 (ct_last t3) in
          let* t4 := ct_popBack t3 in
          if Nat.eqb origPos (ct_last t4 + 1) then Ok t4
          else hm_moveValueUp f t4 origPos value'
        else ct_set t1 pos value
    end.
  (** Heap.h:97-102 push *)
  Definition hm_push (t : tree) (x : E) : res tree :=
    let* t1 := ct_pushBack t x in
    hm_moveValueUp (ct_last t1 + 1) t1 (ct_last t1) x.
  (** Heap.h:104-109 push(begin, end) *)
  Fixpoint hm_push_range (t : tree) (xs : list E) : res tree :=
    match xs with
    | [] => Ok t
    | x :: xs' => let* t1 := hm_push t x in hm_push_range t1 xs'
    end.
  (** Heap.h:111-115 decreaseTop *)
  Definition hm_decreaseTop (t : tree) (x : E) : res tree :=
    let* (t1, hole) := hm_moveHoleDown t 1 in
    hm_moveValueUp (ct_last t1 + 1) t1 hole x.
  (** Heap.h:60 top *)
  Definition hm_top (t : tree) : res E := ct_get t 1.
  (** Heap.h:124-133 pop *)
  Definition hm_pop (t : tree) : res (tree * E) :=
    let* top := ct_get t 1 in
    let* moved := ct_get t (ct_last t) in
    let* t1 := ct_popBack t in
    if ct_empty t1 then Ok (t1, top)
    else
      let* (t2, hole) := hm_moveHoleDown t1 1 in
      let* t3 := hm_moveValueUp (ct_last t2 + 1) t2 hole moved in
      Ok (t3, top).
  (** Heap.h:44-50 forAll with a callback that never stops: the loop from node [it] to the last leaf *)
  Fixpoint hm_forAll_loop (fuel : nat) (t : tree) (it : nat) : res (list E) :=
    if Nat.eqb it (ct_last t + 1) then Ok []
    else
      match fuel with
      | 0 => NoFuel
      | S f =>
          let* x := ct_get t it in
          let* xs := hm_forAll_loop f t (S it) in
          Ok (x :: xs)
      end.
  (** Heap.h:44-50 forAll *)
  Definition hm_forAll (t : tree) : res (list E) := hm_forAll_loop (ct_last t) t 1.

  (** Heap.h:36: a new heap; its tree has the default capacity 0 of ComTree.h:33 *)
  Definition hm_new : tree := ct_new 0.
  (** The public interface as a transition function: Heap.h:44-66 *)
  Definition hm_step (t : tree) (o : op E) : res (tree * out E) :=
    match o with
    | Push x => let* t' := hm_push t x in Ok (t', ONone)
    | PushRange xs => let* t' := hm_push_range t xs in Ok (t', ONone)
    | Pop => let* (t', x) := hm_pop t in Ok (t', OEntry x)
    | Top => let* x := hm_top t in Ok (t, OEntry x)
    | DecreaseTop x => let* t' := hm_decreaseTop t x in Ok (t', ONone)
    | Clear => Ok (ct_clear t, ONone)
    | Size => Ok (t, OSize (ct_size t))
    | Empty => Ok (t, OBool (ct_empty t))
    | ForAll => let* xs := hm_forAll t in Ok (t, OList xs)
    end.

  (** Heap.h:84-87 and ComTree.h:128-131 getMemoryUse; [size] is sizeof(E) *)
  Definition hm_getMemoryUse (size : nat) (t : tree) : nat := ct_cap t * size.
  (** ComTree.h:202-207, 316-326: how many entries a pushBack copies into a new array *)
  Definition push_copies (t : tree) : nat := if Nat.eqb (ct_last t) (ct_cap t) then ct_last t else 0.
End HeapMem.

(** TourTree.h:89-93 getMemoryUse; [pointer] is sizeof(Player* ), the entries of the tree, and [size] is sizeof(Player) *)
Definition tt_getMemoryUse {E : Type} (pointer size : nat) (s : tourtree E) : nat := tt_cap s * pointer + tt_pcap s * size.
