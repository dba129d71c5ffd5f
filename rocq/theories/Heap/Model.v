(** Model of src/mathic/Heap.h.

    The tree is the sequence of its entries: node [n] of the ComTree is the [n]-th entry, counted from 1 (ComTree/Properties.v,
    C12, shows that ComTree is such a sequence).  Reading or writing a node outside the tree is [UB]. *)
From Coq Require Import List Arith Bool.
From Verif.Base Require Import Res Arr.
From Verif.Spec Require Import PQ.
Import ListNotations.

(** ComTree.h:186-199 operator[] on the sequence of entries *)
Definition tget {A : Type} (t : list A) (n : nat) : res A :=
  match n with 0 => UB | S k => vget t k end.
(** Assigning to a node of the tree: ComTree.h:42-43 operator[] *)
Definition tset {A : Type} (t : list A) (n : nat) (v : A) : res (list A) :=
  match n with 0 => UB | S k => vset t k v end.

Section Heap.
  Variable E : Type.
  (** The configuration C: [lt a b] is cmpLessThan(compare(a,b)), [eqv a b] is cmpEqual(compare(a,b)), [supportDedup] is
      C::supportDeduplication, [dedup] is C::deduplicate. *)
  Variable lt : E -> E -> bool.
  Variable eqv : E -> E -> bool.
  Variable supportDedup : bool.
  Variable dedup : E -> E -> E.

  (** Heap.h:80 _tree, by ComTree as the list of its entries *)
  Definition heap := list E.

  (** Heap.h:143-151, the while loop of moveHoleDown; [fw] is firstWithout2Children. *)
  Fixpoint hole_loop (fuel : nat) (t : heap) (hole fw : nat) : res (heap * nat) :=
    if Nat.ltb hole fw then
      match fuel with
      | 0 => NoFuel
      | S f =>
          let child := 2 * hole in
          let sibling := child + 1 in
          let* a := tget t child in
          let* b := tget t sibling in
          let child := if lt a b then sibling else child in
          let* v := tget t child in
          let* t' := tset t hole v in
          hole_loop f t' child fw
      end
    else Ok (t, hole).

  (** Heap.h:141-159 moveHoleDown.  [lastLeaf] is [length t]; isLeft means even. *)
  Definition moveHoleDown (t : heap) (hole : nat) : res (heap * nat) :=
    let fw := (length t + 1) / 2 in
    let* (t1, hole1) := hole_loop (length t) t hole fw in
    if Nat.eqb hole1 fw && Nat.even (length t1) then
      let child := 2 * hole1 in
      let* v := tget t1 child in
      let* t2 := tset t1 hole1 v in
      Ok (t2, child)
    else Ok (t1, hole1).

  (** Heap.h:165-189, the while loop of moveValueUp up to its end ([false]) or up to the equality case ([true]). *)
  Fixpoint up_loop (fuel : nat) (t : heap) (pos : nat) (value : E) : res (heap * nat * bool) :=
    if Nat.eqb pos 1 then Ok (t, pos, false) else
      match fuel with
      | 0 => NoFuel
      | S f =>
          let up := pos / 2 in
          let* u := tget t up in
          if lt u value then
            let* t' := tset t pos u in
            up_loop f t' up value
          else if supportDedup && eqv u value then Ok (t, pos, true)
          else Ok (t, pos, false)
      end.

  (** Heap.h:176-177, the for loop that moves elements back *)
  Fixpoint back_loop (fuel : nat) (t : heap) (p pos : nat) (tmp : E) : res heap :=
    if Nat.eqb p pos then Ok t else
      match fuel with
      | 0 => NoFuel
      | S f =>
          let* q := tget t p in
          let* t' := tset t p tmp in
          back_loop f t' (p / 2) pos q
      end.

  (** Heap.h:162-192 moveValueUp; each [goto again] uses one unit of fuel. *)
  Fixpoint moveValueUp (fuel : nat) (t : heap) (origPos : nat) (value : E) : res heap :=
    match fuel with
    | 0 => NoFuel
    | S f =>
        let* (t1, pos, dup) := up_loop origPos t origPos value in
        if dup then
          let up := pos / 2 in
          let* u := tget t1 up in
          let* t2 := tset t1 up (dedup u value) in
          let* t3 := (if Nat.eqb pos origPos then Ok t2
                      else let* tmp := tget t2 origPos in back_loop origPos t2 (origPos / 2) pos tmp) in
          let* value' := tget t3 (length t3) in
          let t4 := removelast t3 in
          if Nat.eqb origPos (length t4 + 1) then Ok t4
          else moveValueUp f t4 origPos value'
        else tset t1 pos value
    end.

  (** Heap.h:98-102 push *)
  Definition heap_push (t : heap) (x : E) : res heap :=
    let t1 := t ++ [x] in
    moveValueUp (length t1 + 1) t1 (length t1) x.

  (** Heap.h:104-109 push(begin, end) *)
  Fixpoint heap_push_range (t : heap) (xs : list E) : res heap :=
    match xs with
    | [] => Ok t
    | x :: xs' => let* t1 := heap_push t x in heap_push_range t1 xs'
    end.

  (** Heap.h:112-115 decreaseTop *)
  Definition heap_decreaseTop (t : heap) (x : E) : res heap :=
    let* (t1, hole) := moveHoleDown t 1 in
    moveValueUp (length t1 + 1) t1 hole x.

  (** Heap.h:60 top *)
  Definition heap_top (t : heap) : res E := tget t 1.

  (** Heap.h:125-133 pop *)
  Definition heap_pop (t : heap) : res (heap * E) :=
    let* top := tget t 1 in
    let* moved := tget t (length t) in
    let t1 := removelast t in
    match t1 with
    | [] => Ok (t1, top)
    | _ =>
        let* (t2, hole) := moveHoleDown t1 1 in
        let* t3 := moveValueUp (length t2 + 1) t2 hole moved in
        Ok (t3, top)
    end.

  (** Heap.h:118-122 clear, 61 empty, 62 size, 45-50 forAll with a callback that never stops *)
  Definition heap_clear (t : heap) : heap := [].
  (** Heap.h:61 empty *)
  Definition heap_empty (t : heap) : bool := match t with [] => true | _ => false end.
  (** Heap.h:62 size *)
  Definition heap_size (t : heap) : nat := length t.
  (** Heap.h:44-50 forAll *)
  Definition heap_forAll (t : heap) : list E := t.

  (** Heap.h:195-205 isValid as compiled with MATHIC_DEBUG: the loop over all nodes but the root *)
  Definition heap_isValid (t : heap) : bool :=
    forallb (fun i => match tget t (i / 2), tget t i with
                      | Ok u, Ok x => negb (lt u x)
                      | _, _ => false
                      end) (seq 2 (length t - 1)).

  (** The public interface as a transition function (Heap.h:36-68) *)
  Definition heap_step (t : heap) (o : op E) : res (heap * out E) :=
    match o with
    | Push x => let* t' := heap_push t x in Ok (t', ONone)
    | PushRange xs => let* t' := heap_push_range t xs in Ok (t', ONone)
    | Pop => let* (t', x) := heap_pop t in Ok (t', OEntry x)
    | Top => let* x := heap_top t in Ok (t, OEntry x)
    | DecreaseTop x => let* t' := heap_decreaseTop t x in Ok (t', ONone)
    | Clear => Ok (heap_clear t, ONone)
    | Size => Ok (t, OSize (heap_size t))
    | Empty => Ok (t, OBool (heap_empty t))
    | ForAll => Ok (t, OList (heap_forAll t))
    end.
End Heap.
