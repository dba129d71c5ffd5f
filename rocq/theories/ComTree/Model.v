(** Model of src/mathic/ComTree.h: node arithmetic and the storage of a complete binary tree in a growing array. *)
From Coq Require Import List Arith NArith Bool.
From Verif.Base Require Import Res Arr.
Import ListNotations.

(** * Node arithmetic (ComTree.h:58-96, 236-274)

    [size_t] has 64 bits.  A node is the number [_index]. *)
Definition word : N := (2 ^ 64)%N.
(** Arithmetic on size_t (ComTree.h:95 _index) is modulo the word size *)
Definition wrap (n : N) : N := (n mod word)%N.

Section Node.
  Local Open Scope N_scope.
  (** [fi] is the template argument FastIndex, [S] is sizeof(Entry) (ComTree.h:91-92). *)
  Variable fi : bool.
  Variable S : N.

  (** ComTree.h:60 Node() *)
  Definition n_root : N := if fi then S else 1.
  (** ComTree.h:237-239 parent; the division is undefined if 2*S wraps to 0. *)
  Definition n_parent (i : N) : res N :=
    if fi then (if wrap (2 * S) =? 0 then UB else Ok (wrap (i / wrap (2 * S) * S))) else Ok (i / 2).
  (** ComTree.h:242-244 left *)
  Definition n_left (i : N) : N := wrap (2 * i).
  (** ComTree.h:247-249 right *)
  Definition n_right (i : N) : N := if fi then wrap (2 * i + S) else wrap (2 * i + 1).
  (** ComTree.h:252-254 sibling *)
  Definition n_sibling (i : N) : N := if fi then N.lxor i S else N.lxor i 1.
  (** ComTree.h:257-259 leftSibling; [~S] and [~1] are complements in 64 bits. *)
  Definition n_leftSibling (i : N) : N := if fi then N.land i (word - 1 - S) else N.land i (word - 1 - 1).
  (** ComTree.h:262-264 next *)
  Definition n_next (i : N) : N := if fi then wrap (i + S) else wrap (i + 1).
  (** ComTree.h:267-269 next(count) *)
  Definition n_next_count (i count : N) : N := if fi then wrap (i + wrap (S * count)) else wrap (i + count).
  (** ComTree.h:272-274 prev; subtraction in 64 bits. *)
  Definition n_prev (i : N) : N := if fi then wrap (i + (word - S)) else wrap (i + (word - 1)).
  (** ComTree.h:72 isRoot *)
  Definition n_isRoot (i : N) : bool := i =? n_root.
  (** ComTree.h:76 isLeft *)
  Definition n_isLeft (i : N) : bool := if fi then N.land i S =? 0 else N.land i 1 =? 0.
  (** ComTree.h:80 isRight *)
  Definition n_isRight (i : N) : bool := if fi then negb (N.land i S =? 0) else negb (N.land i 1 =? 0).
  (** ComTree.h:94 getNormalIndex; division by sizeof, which is at least 1. *)
  Definition n_normal (i : N) : N := if fi then i / S else i.
  (** ComTree.h:82-87, the comparisons of nodes *)
  Definition n_lt (i j : N) : bool := i <? j.
  (** ComTree.h:83 operator<= *)
  Definition n_le (i j : N) : bool := i <=? j.
  (** ComTree.h:86 operator== *)
  Definition n_eq (i j : N) : bool := i =? j.
End Node.

(** * Storage (ComTree.h:110-120, 123-234, 309-326)

    [ct_arr = None] is the null array.  A slot [None] of the array has not been assigned since [new E[n]].
    [ct_last] and [ct_cap] are the normal indexes of [_lastLeaf] and [_capacityEnd].  The pointer trick [_array - 1] makes node
    [n] the array element [n-1]. *)
Section Storage.
  Variable E : Type.

  (** ComTree.h:110-120 *)
  Record comtree := mk_ct {
    ct_arr : option (list (option E));
    ct_last : nat;
    ct_cap : nat
  }.

  (** [new E[n]] (ComTree.h:147, 163) *)
  Definition new_array (n : nat) : list (option E) := repeat None n.

  (** ComTree.h:140-151 ComTree(initialCapacity) *)
  Definition ct_new (initialCapacity : nat) : comtree :=
    mk_ct (if Nat.ltb 0 initialCapacity then Some (new_array initialCapacity) else None) 0 initialCapacity.

  (** ComTree.h:45-48 *)
  Definition ct_empty (t : comtree) : bool := Nat.eqb (ct_last t) 0.
  (** ComTree.h:46 size *)
  Definition ct_size (t : comtree) : nat := ct_last t.
  (** ComTree.h:47 capacity *)
  Definition ct_capacity (t : comtree) : nat := ct_cap t.

  (** ComTree.h:186-194 operator[] used for reading: a null array, an index outside the array and a slot that was never assigned are
      undefined. *)
  Definition ct_get (t : comtree) (n : nat) : res E :=
    match ct_arr t, n with
    | Some a, S k => match nth_error a k with Some (Some v) => Ok v | _ => UB end
    | _, _ => UB
    end.

  (** ComTree.h:186-194 operator[] used for writing. *)
  Definition ct_set (t : comtree) (n : nat) (v : E) : res comtree :=
    match ct_arr t, n with
    | Some a, S k => let* a' := vset a k (Some v) in Ok (mk_ct (Some a') (ct_last t) (ct_cap t))
    | _, _ => UB
    end.

  (** ComTree.h:210-214 pushBackWithCapacity (the assertion is off in release builds: the write decides) *)
  Definition ct_pushBackWithCapacity (t : comtree) (v : E) : res comtree :=
    ct_set (mk_ct (ct_arr t) (S (ct_last t)) (ct_cap t)) (S (ct_last t)) v.

  (** ComTree.h:319-320, the loop of increaseCapacity: pushes the entries of [t] at nodes [i], [i+1], ..., [ct_last t].  The pushBack
      there never grows, as the new capacity is at least the size: pushBackWithCapacity is the same then. *)
  Fixpoint ct_copy_loop (fuel : nat) (t new : comtree) (i : nat) : res comtree :=
    if Nat.leb i (ct_last t) then
      match fuel with
      | 0 => NoFuel
      | S f =>
          let* v := ct_get t i in
          if Nat.eqb (ct_last new) (ct_cap new) then UB (* would recurse into increaseCapacity; shown unreachable *)
          else
            let* new' := ct_pushBackWithCapacity new v in
            ct_copy_loop f t new' (S i)
      end
    else Ok new.

  (** ComTree.h:316-326 increaseCapacity; [_lastLeaf] is not swapped. *)
  Definition ct_increaseCapacity (t : comtree) : res comtree :=
    let* new := ct_copy_loop (ct_last t) t (ct_new (if Nat.eqb (ct_cap t) 0 then 16 else ct_cap t * 2)) 1 in
    Ok (mk_ct (ct_arr new) (ct_last t) (ct_cap new)).

  (** ComTree.h:202-207 pushBack, argument outside the tree's own storage *)
  Definition ct_pushBack (t : comtree) (v : E) : res comtree :=
    let* t1 := (if Nat.eqb (ct_last t) (ct_cap t) then ct_increaseCapacity t else Ok t) in
    ct_set (mk_ct (ct_arr t1) (S (ct_last t1)) (ct_cap t1)) (S (ct_last t1)) v.

  (** ComTree.h:202-207 pushBack(tree[n]): the reference argument points into the tree's own storage, which increaseCapacity frees. *)
  Definition ct_pushBack_alias (t : comtree) (n : nat) : res comtree :=
    if Nat.eqb (ct_last t) (ct_cap t) then UB
    else let* v := ct_get t n in ct_pushBack t v.

  (** ComTree.h:217-220 popBack; on an empty tree [_lastLeaf] would wrap around. *)
  Definition ct_popBack (t : comtree) : res comtree :=
    match ct_last t with
    | 0 => UB
    | S k => Ok (mk_ct (ct_arr t) k (ct_cap t))
    end.

  (** ComTree.h:124-126 clear *)
  Definition ct_clear (t : comtree) : comtree := mk_ct (ct_arr t) 0 (ct_cap t).

  (** ComTree.h:165-166, the loop of the copy constructor *)
  Fixpoint ct_assign_loop (fuel : nat) (t new : comtree) (i : nat) : res comtree :=
    if Nat.leb i (ct_last t) then
      match fuel with
      | 0 => NoFuel
      | S f =>
          let* v := ct_get t i in
          let* new' := ct_set new i v in
          ct_assign_loop f t new' (S i)
      end
    else Ok new.

  (** ComTree.h:154-170 ComTree(tree, minCapacity) *)
  Definition ct_copy (t : comtree) (minCapacity : nat) : res comtree :=
    let c := if Nat.ltb minCapacity (ct_size t) then ct_size t else minCapacity in
    if Nat.eqb c 0 then Ok (mk_ct None (ct_last t) 0)
    else ct_assign_loop (ct_last t) t (mk_ct (Some (new_array c)) (ct_last t) c) 1.

  (** ComTree.h:173-183 ComTree(ComTree&&): returns the new tree and what is left of the argument.  Lines 181-182 assign to the
      new tree's own fields. *)
  Definition ct_move (t : comtree) : comtree * comtree :=
    (mk_ct (ct_arr t) 0 0, mk_ct None (ct_last t) (ct_cap t)).

  (** ComTree.h:223-234 swap *)
  Definition ct_swap (t u : comtree) : comtree * comtree :=
    (mk_ct (ct_arr u) (ct_last u) (ct_cap u), mk_ct (ct_arr t) (ct_last t) (ct_cap t)).

  (** ComTree.h:310-313 hasFreeCapacity *)
  Definition ct_hasFreeCapacity (t : comtree) (extra : nat) : bool :=
    Nat.leb extra (ct_cap t - ct_last t).

  (** * Calls on one tree, for histories *)
  (** ComTree.h:33-56 the calls *)
  Inductive ct_op :=
  | CPushBack (v : E)
  | CPopBack
  | CSet (n : nat) (v : E)
  | CGet (n : nat)
  | CClear
  | CGrow
  | CCopy (minCapacity : nat) (* continue with a copy *)
  | CSize.
  (** What the calls return: ComTree.h:33-56 *)
  Inductive ct_out := CNone | CVal (v : E) | CNat (n : nat).

  (** One call: ComTree.h:33-56 *)
  Definition ct_step (t : comtree) (o : ct_op) : res (comtree * ct_out) :=
    match o with
    | CPushBack v => let* t' := ct_pushBack t v in Ok (t', CNone)
    | CPopBack => let* t' := ct_popBack t in Ok (t', CNone)
    | CSet n v => let* t' := ct_set t n v in Ok (t', CNone)
    | CGet n => let* v := ct_get t n in Ok (t, CVal v)
    | CClear => Ok (ct_clear t, CNone)
    | CGrow => let* t' := ct_increaseCapacity t in Ok (t', CNone)
    | CCopy m => let* t' := ct_copy t m in Ok (t', CNone)
    | CSize => Ok (t, CNat (ct_size t))
    end.
End Storage.
Arguments mk_ct {E}. Arguments ct_arr {E}. Arguments ct_last {E}. Arguments ct_cap {E}.
Arguments CPushBack {E}. Arguments CPopBack {E}. Arguments CSet {E}. Arguments CGet {E}. Arguments CClear {E}.
Arguments CGrow {E}. Arguments CCopy {E}. Arguments CSize {E}.
Arguments CNone {E}. Arguments CVal {E}. Arguments CNat {E}.
Arguments ct_new {E}. Arguments ct_get {E}. Arguments ct_set {E}. Arguments ct_pushBack {E}. Arguments ct_popBack {E}.
Arguments ct_clear {E}. Arguments ct_copy {E}. Arguments ct_move {E}. Arguments ct_swap {E}. Arguments ct_increaseCapacity {E}.
Arguments ct_copy_loop {E}. Arguments ct_assign_loop {E}. Arguments ct_pushBackWithCapacity {E}. Arguments ct_step {E}.
Arguments ct_size {E}. Arguments ct_empty {E}. Arguments ct_capacity {E}. Arguments ct_hasFreeCapacity {E}. Arguments ct_pushBack_alias {E}.
Arguments new_array {E}.
