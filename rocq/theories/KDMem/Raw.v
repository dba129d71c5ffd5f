(** Model of src/mathic/KDEntryArray.h with the memory in which the entries are constructed and destroyed.

    KD/EntryArray.v models the same class with the list of its entries.  Here _beginMemory is an array of LeafSize places, each of which is raw memory
    ([None]) or holds an object ([Some]).  Only an object can be read, assigned to and destroyed, and only raw memory can be constructed in:
    constructing over an object would leak it.  [r_made] and [r_gone] count the objects constructed and destroyed.  The searches only read and
    are not modelled again. *)
From Coq Require Import List Arith Bool ZArith NArith.
From Verif.Base Require Import Res Arr StdAlg.
From Verif.DivMask Require Import Model.
From Verif.KD Require Import EntryArray.
Import ListNotations.

(** KDEntryArray.h:118-121 _beginMemory and _end, and the mask inherited from HasDivMask (14) *)
Record raw (M : Type) := mk_raw { r_slots : list (option (ext M)); r_end : nat; r_mask : N; r_made : nat; r_gone : nat }.
Arguments mk_raw {M}. Arguments r_slots {M}. Arguments r_end {M}. Arguments r_mask {M}. Arguments r_made {M}. Arguments r_gone {M}.

Section Raw.
  Context {M : Type}.
  Variable C : kconf M.
  Notation ext := (ext M).
  Notation raw := (raw M).

  (** Reading the object at a place, KDEntryArray.h:43-53 *)
  Definition r_get (r : raw) (i : nat) : res ext := let* o := vget (r_slots r) i in of_option o.
  (** Assigning to the object at a place, as in KDEntryArray.h:262, 264, 312 and 339 *)
  Definition r_set (r : raw) (i : nat) (e : ext) : res raw :=
    let* _ := r_get r i in
    let* s := vset (r_slots r) i (Some e) in
    Ok (mk_raw s (r_end r) (r_mask r) (r_made r) (r_gone r)).

  (** KDEntryArray.h:186-192 the constructor: raw memory *)
  Definition r_new : raw := mk_raw (repeat None (c_leaf C)) 0 max_mask 0 0.
  (** KDEntryArray.h:238-243 push_back *)
  Definition r_push (r : raw) (e : ext) : res raw :=
    let* o := vget (r_slots r) (r_end r) in
    match o with
    | Some _ => UB
    | None => let* s := vset (r_slots r) (r_end r) (Some e) in
              Ok (mk_raw s (S (r_end r)) (klower C (r_mask r) (x_mask e)) (S (r_made r)) (r_gone r))
    end.
  (** KDEntryArray.h:246-250 pop_back *)
  Definition r_pop (r : raw) : res raw :=
    match r_end r with
    | 0 => UB
    | S n => let* _ := r_get r n in
             let* s := vset (r_slots r) n None in
             Ok (mk_raw s n (r_mask r) (r_made r) (S (r_gone r)))
    end.
  (** KDEntryArray.h:210-211, 231-232: the loop over the range *)
  Fixpoint r_push_all (r : raw) (l : list ext) : res raw :=
    match l with [] => Ok r | e :: l' => let* r' := r_push r e in r_push_all r' l' end.

  (** The objects from begin() to end() (KDEntryArray.h:43-48) *)
  Fixpoint objects (s : list (option ext)) (n : nat) : res (list ext) :=
    match n, s with
    | 0, _ => Ok []
    | S n', Some x :: s' => let* l := objects s' n' in Ok (x :: l)
    | S _, _ => UB
    end.
  (** KDEntryArray.h:43-48 the range from begin() to end() *)
  Definition r_range (r : raw) : res (list ext) := objects (r_slots r) (r_end r).
  (** An algorithm of the standard library that rearranges the range (KDEntryArray.h:179, 213, 234 and PackedKDTree.h:722, BinaryKDTree.h:753-754) *)
  Definition r_rearranged (r : raw) (l : list ext) : raw :=
    mk_raw (map Some l ++ skipn (length l) (r_slots r)) (r_end r) (r_mask r) (r_made r) (r_gone r).
  (** KDEntryArray.h:212-213, 233-234 *)
  Definition r_sort (r : raw) : res raw :=
    if c_sorted C then (let* l := r_range r in Ok (r_rearranged r (c_sort_ext C l))) else Ok r.
  (** KDEntryArray.h:217-235 the constructor from extended entries *)
  Definition r_of (l : list ext) : res raw := let* r := r_push_all r_new l in r_sort r.

  (** KDEntryArray.h:261-262; [k] steps are left *)
  Fixpoint r_move_up (r : raw) (it k : nat) : res raw :=
    match k with
    | 0 => Ok r
    | S k' => let* x := r_get r (it + k') in
              let* r' := r_set r (it + k) x in
              r_move_up r' it k'
    end.
  (** KDEntryArray.h:253-265 insert at a position *)
  Definition r_insert_at (r : raw) (it : nat) (e : ext) : res raw :=
    if it =? r_end r then r_push r e else
    let* b := r_get r (r_end r - 1) in
    let* r1 := r_push r b in
    let* r2 := r_move_up r1 it (r_end r1 - 1 - it) in
    let* r3 := r_set r2 it e in
    Ok (mk_raw (r_slots r3) (r_end r3) (klower C (r_mask r3) (x_mask e)) (r_made r3) (r_gone r3)).
  (** KDEntryArray.h:268-276 insert *)
  Definition r_insert (r : raw) (e : ext) : res raw :=
    if negb (c_sorted C) then r_push r e else
    let* l := r_range r in
    let* it := upper_bound (kcomp C) l e in
    r_insert_at r it e.

  (** pop_back until the size is [n]: KDEntryArray.h:279-282 clear, 320-322, PackedKDTree.h:718-719 and BinaryKDTree.h:751-752; [k] steps are left *)
  Fixpoint r_pop_to (n k : nat) (r : raw) : res raw :=
    if n <? r_end r then
      match k with
      | 0 => NoFuel
      | S k' => let* r' := r_pop r in r_pop_to n k' r'
      end
    else Ok r.
  (** KDEntryArray.h:279-282 clear *)
  Definition r_clear (r : raw) : res raw := r_pop_to 0 (r_end r) r.

  (** KDEntryArray.h:297-304: the first multiple; [k] places are left *)
  Fixpoint r_first_multiple (m : ext) (r : raw) (k : nat) : res nat :=
    match k with
    | 0 => Ok (r_end r)
    | S k' => let* x := r_get r (r_end r - k) in
              if kdiv C m x then Ok (r_end r - k) else r_first_multiple m r k'
    end.
  (** KDEntryArray.h:308-315; [k] places are left *)
  Fixpoint r_compact (m : ext) (r : raw) (k newEnd : nat) (out : list M) : res (raw * nat * list M) :=
    match k with
    | 0 => Ok (r, newEnd, out)
    | S k' => let* x := r_get r (r_end r - k) in
              if negb (kdiv C m x) then (let* r' := r_set r newEnd x in r_compact m r' k' (S newEnd) out)
              else r_compact m r k' newEnd (out ++ [x_t x])
    end.
  (** KDEntryArray.h:286-325 removeMultiples *)
  Definition r_remove (r : raw) (m : ext) : res (raw * list M * nat) :=
    if c_leaf C =? 1 then
      if r_end r =? 0 then Ok (r, [], 0) else
      let* x := r_get r 0 in
      if kdiv C m x then (let* r' := r_pop r in Ok (r', [x_t x], 1)) else Ok (r, [], 0)
    else
      let* it := r_first_multiple m r (r_end r) in
      if it =? r_end r then Ok (r, [], 0) else
      let* x := r_get r it in
      let* (r', newEnd, out) := r_compact m r (r_end r - S it) it [x_t x] in
      let* r'' := r_pop_to newEnd (r_end r') r' in
      Ok (r'', out, r_end r' - newEnd).

  (** KDEntryArray.h:332-336: the search for an equal entry; [k] places are left *)
  Fixpoint r_equal (m : M) (r : raw) (k : nat) : res (option nat) :=
    match k with
    | 0 => Ok None
    | S k' => let* x := r_get r (r_end r - k) in
              if kequal C m x then Ok (Some (r_end r - k)) else r_equal m r k'
    end.
  (** KDEntryArray.h:337-340; [k] steps are left *)
  Fixpoint r_move_down (r : raw) (k : nat) : res raw :=
    match k with
    | 0 => Ok r
    | S k' => let* x := r_get r (r_end r - k) in
              let* r' := r_set r (r_end r - k - 1) x in
              r_move_down r' k'
    end.
  (** KDEntryArray.h:329-346 removeElement *)
  Definition r_remove_element (r : raw) (m : M) : res (raw * bool) :=
    let* o := r_equal m r (r_end r) in
    match o with
    | None => Ok (r, false)
    | Some it => let* r' := r_move_down r (r_end r - 1 - it) in
                 let* r'' := r_pop r' in
                 Ok (r'', true)
    end.

  (** KDEntryArray.h:473-479 recalculateTreeDivMask *)
  Definition r_recalculate (r : raw) : res raw :=
    if negb (c_tree C) then Ok r else
    let* l := r_range r in
    Ok (mk_raw (r_slots r) (r_end r) (fold_left (fun m e => klower C m (x_mask e)) l max_mask) (r_made r) (r_gone r)).

  (** BinaryKDTree.h:748-763: splitInsert of a leaf; the results are the leaf, which keeps the equal-or-less part, and the new leaf *)
  Definition r_split_binary (r : raw) (e : ext) (var : option nat) : res (nat * Z * raw * raw) :=
    let* l := r_range r in
    let* (v, x, le, gt) := split_for C e l var in
    let r1 := r_rearranged r (le ++ gt) in
    let* other := r_of gt in
    let* r2 := r_pop_to (length le) (r_end r1) r1 in
    let* r3 := r_sort r2 in
    let* r4 := r_recalculate r3 in
    Ok (v, x, r4, other).
  (** PackedKDTree.h:716 std::copy(middle, end, begin); [k] entries are left.  Where middle is begin every entry is assigned to itself. *)
  Fixpoint r_copy (r : raw) (middle k : nat) : res raw :=
    match k with
    | 0 => Ok r
    | S k' => let* x := r_get r (r_end r - k) in
              let* r' := r_set r (r_end r - k - middle) x in
              r_copy r' middle k'
    end.
  (** PackedKDTree.h:694-723: splitInsert of a node; the results are the node, which keeps the strictly greater part, and the entries of the new node *)
  Definition r_split_packed (r : raw) (e : ext) (var : option nat) : res (nat * Z * raw * raw) :=
    let* l := r_range r in
    let* (v, x, le, gt) := split_for C e l var in
    let r1 := r_rearranged r (le ++ gt) in
    let* copied := r_of le in
    let* r2 := r_copy r1 (length le) (r_end r1 - length le) in
    let* r3 := r_pop_to (r_end r1 - length le) (r_end r2) r2 in
    let* r4 := r_sort r3 in
    let* r5 := r_recalculate r4 in
    Ok (v, x, r5, copied).

  (** ** Several arrays, as the leaves of a tree: the calls that change them.  A number is the place of an array among those constructed so far. *)
  Inductive call :=
  | CNew                                   (* KDEntryArray.h:186-192 *)
  | CFrom (l : list ext)                   (* KDEntryArray.h:217-235 *)
  | CPush (i : nat) (e : ext)              (* KDEntryArray.h:238-243 *)
  | CPop (i : nat)                         (* KDEntryArray.h:246-250 *)
  | CInsert (i : nat) (e : ext)            (* KDEntryArray.h:268-276 *)
  | CRemove (i : nat) (m : ext)            (* KDEntryArray.h:286-325 *)
  | CElement (i : nat) (m : M)             (* KDEntryArray.h:329-346 *)
  | CClear (i : nat)                       (* KDEntryArray.h:279-283 *)
  | CBinary (i : nat) (e : ext) (var : option nat)  (* BinaryKDTree.h:748-763 *)
  | CPacked (i : nat) (e : ext) (var : option nat). (* PackedKDTree.h:694-723 *)

  (** A call of a member function of one array (KDEntryArray.h:238-346) *)
  Definition on {A : Type} (mem : list A) (i : nat) (f : A -> res A) : res (list A) :=
    let* a := vget mem i in
    let* a' := f a in
    vset mem i a'.
  (** A call that also constructs another array (BinaryKDTree.h:748-763, PackedKDTree.h:694-723) *)
  Definition on_new {A : Type} (mem : list A) (i : nat) (f : A -> res (A * A)) : res (list A) :=
    let* a := vget mem i in
    let* (a', b) := f a in
    let* mem' := vset mem i a' in
    Ok (mem' ++ [b]).
  (** One call with memory (KDEntryArray.h:186-346) *)
  Definition r_call (mem : list raw) (c : call) : res (list raw) :=
    match c with
    | CNew => Ok (mem ++ [r_new])
    | CFrom l => let* r := r_of l in Ok (mem ++ [r])
    | CPush i e => on mem i (fun r => r_push r e)
    | CPop i => on mem i r_pop
    | CInsert i e => on mem i (fun r => r_insert r e)
    | CRemove i m => on mem i (fun r => let* (r', _, _) := r_remove r m in Ok r')
    | CElement i m => on mem i (fun r => let* (r', _) := r_remove_element r m in Ok r')
    | CClear i => on mem i r_clear
    | CBinary i e var => on_new mem i (fun r => let* (_, _, r', other) := r_split_binary r e var in Ok (r', other))
    | CPacked i e var => on_new mem i (fun r => let* (_, _, r', copied) := r_split_packed r e var in Ok (r', copied))
    end.
  (** One call after the other (KDEntryArray.h:186-346) *)
  Fixpoint r_calls (mem : list raw) (cs : list call) : res (list raw) :=
    match cs with [] => Ok mem | c :: cs' => let* mem' := r_call mem c in r_calls mem' cs' end.

  (** The same calls on the arrays of KD/EntryArray.v, which have no memory; the splits are those of KD/Tree.v *)
  Definition a_call (arrs : list (earray M)) (c : call) : res (list (earray M)) :=
    match c with
    | CNew => Ok (arrs ++ [arr_empty])
    | CFrom l => let* a := arr_of C l in Ok (arrs ++ [a])
    | CPush i e => on arrs i (fun a => push_back C a e)
    | CPop i => on arrs i pop_back
    | CInsert i e => on arrs i (fun a => arr_insert C a e)
    | CRemove i m => on arrs i (fun a => let* (a', _, _) := arr_remove C a m in Ok a')
    | CElement i m => on arrs i (fun a => let* (a', _) := arr_remove_element C a m in Ok a')
    | CClear i => on arrs i (fun a => Ok (mk_arr [] (a_mask a)))
    | CBinary i e var => on_new arrs i (fun a =>
        let* (_, _, le, gt) := split_for C e (a_list a) var in
        let* other := arr_of C gt in
        Ok (arr_recalculate C (sort_arr C (mk_arr le (a_mask a))), other))
    | CPacked i e var => on_new arrs i (fun a =>
        let* (_, _, le, gt) := split_for C e (a_list a) var in
        let* copied := arr_of C le in
        Ok (arr_recalculate C (sort_arr C (mk_arr gt (a_mask a))), copied))
    end.
  (** One call after the other (KDEntryArray.h:186-346) *)
  Fixpoint a_calls (arrs : list (earray M)) (cs : list call) : res (list (earray M)) :=
    match cs with [] => Ok arrs | c :: cs' => let* arrs' := a_call arrs c in a_calls arrs' cs' end.
End Raw.
Arguments call : clear implicits.
