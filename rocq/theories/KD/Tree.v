(** Model of src/mathic/BinaryKDTree.h and src/mathic/PackedKDTree.h.

    Trees are values of the inductive type [tree] instead of nodes linked by pointers.  An interior node of the binary tree is a [Split].  A
    node of the packed tree with children c_0, ..., c_{k-1} and entries a is the chain

      Split c_0 (Split c_1 (... (Split c_{k-1} (Leaf a) n_{k-1}) ...) n_1) n_0

    where n_i is the node of c_i: what follows c_i in its node is on the equal-or-less side, the node of c_i on the strictly-greater side.

    The read-only searches are the loops of the C++ code with their stack _tmp.  The functions that change the tree are recursive instead;
    they visit the nodes in the order of the C++ loops.  Not modelled here: the arena and the pointers (see KDMem/), print (see Report/Print.v), debugIsValid (see Debug.v), and getMemoryUse. *)
From Coq Require Import List Arith Bool ZArith NArith String.
From Verif.Base Require Import Res Arr ResList StdAlg.
From Verif.DivMask Require Import Model.
From Verif.Spec Require Import DivFinder.
From Verif.KD Require Import EntryArray.
Import ListNotations.
Local Notation length := List.length.

(** BinaryKDTree.h:84-187; PackedKDTree.h:35-114 *)
Inductive tree (M : Type) : Type :=
| Leaf (a : earray M)
| Split (var : nat) (exponent : Z) (mask : N) (le gt : tree M).
Arguments Leaf {M}. Arguments Split {M}.

(** Where an entry lies: the way from the root, true for strictly greater, and the index in the leaf.  It stands for the Entry* of
    BinaryKDTree.h:432 and PackedKDTree.h:403. *)
Definition place : Type := (list bool * nat)%type.

Section Tree.
  Context {M : Type}.
  Variable C : kconf M.
  Notation ext := (ext M).
  Notation earray := (earray M).
  Notation tree := (tree M).

  (** All entries, from the equal-or-less side to the strictly-greater side; no C++ counterpart *)
  Fixpoint tree_entries (t : tree) : list ext :=
    match t with Leaf a => a_list a | Split _ _ _ le gt => tree_entries le ++ tree_entries gt end.
  (** The number of nodes, a bound for the loops; no C++ counterpart *)
  Fixpoint nodes (t : tree) : nat :=
    match t with Leaf _ => 1 | Split _ _ _ le gt => S (nodes le + nodes gt) end.

  (** The test getExponent() < conf.getExponent(m, getVar()), e.g. BinaryKDTree.h:126, PackedKDTree.h:77 *)
  Definition above (v : nat) (e : Z) (m : M) : bool := (e <? c_ex C m v)%Z.

  (** The entry a pointer refers to (BinaryKDTree.h:432, PackedKDTree.h:403) *)
  Fixpoint leaf_at (t : tree) (p : list bool) : option earray :=
    match t, p with
    | Leaf a, [] => Some a
    | Split _ _ _ le gt, b :: p' => leaf_at (if b then gt else le) p'
    | _, _ => None
    end.
  (** Following an Entry*, see [place]; BinaryKDTree.h:432, PackedKDTree.h:403 *)
  Definition deref (t : tree) (p : place) : res M :=
    match leaf_at t (fst p) with
    | None => UB
    | Some a => let* x := vget (a_list a) (snd p) in Ok (x_t x)
    end.

  (** ** Searches *)
  (** BinaryKDTree.h:243, PackedKDTree.h:168 the stack _tmp *)
  Definition todo : Type := list (list bool * tree).

  (** BinaryKDTree.h:432-462 and PackedKDTree.h:403-433 findDivisor; in both, one iteration of the inner loop moves on to the equal-or-less side,
      having put the strictly-greater side on the stack if it may hold divisors *)
  Fixpoint find_loop (fuel : nat) (m : ext) (p : list bool) (t : tree) (stack : todo) : res (option place) :=
    match fuel with
    | 0 => NoFuel
    | S f =>
        let next := match stack with [] => Ok None | (p', t') :: stack' => find_loop f m p' t' stack' end in
        match t with
        | Split v e mask le gt =>
            if c_tree C && negb (can_divide mask (x_mask m)) then next else
            find_loop f m (p ++ [false]) le (if above v e (x_t m) then (p ++ [true], gt) :: stack else stack)
        | Leaf a =>
            let* r := arr_find C a m in
            match r with
            | Some i => Ok (Some (p, i))
            | None => next
            end
        end
    end.
  (** BinaryKDTree.h:432-462 and PackedKDTree.h:403-433 findDivisor *)
  Definition tree_find (root : option tree) (m : ext) : res (option place) :=
    match root with None => Ok None | Some t => find_loop (nodes t) m [] t [] end.

  (** BinaryKDTree.h:472-496 and PackedKDTree.h:446-464 findAllDivisors *)
  Fixpoint divisors_loop (fuel : nat) (m : ext) (cb : callback M) (t : tree) (stack : list tree) (seen : list M) : res (list M) :=
    match fuel with
    | 0 => NoFuel
    | S f =>
        let next seen := match stack with [] => Ok seen | t' :: stack' => divisors_loop f m cb t' stack' seen end in
        match t with
        | Split v e mask le gt =>
            if c_tree C && negb (can_divide mask (x_mask m)) then next seen else
            divisors_loop f m cb le (if above v e (x_t m) then gt :: stack else stack) seen
        | Leaf a => let* (seen', go) := arr_divisors C a m cb seen in if go then next seen' else Ok seen'
        end
    end.
  (** BinaryKDTree.h:464-496 and PackedKDTree.h:435-464 findAllDivisors *)
  Definition tree_divisors (root : option tree) (m : ext) (cb : callback M) : res (list M) :=
    match root with None => Ok [] | Some t => divisors_loop (nodes t) m cb t [] [] end.

  (** BinaryKDTree.h:507-528 findAllMultiples *)
  Fixpoint multiples_loop (fuel : nat) (m : ext) (cb : callback M) (t : tree) (stack : list tree) (seen : list M) : res (list M) :=
    match fuel with
    | 0 => NoFuel
    | S f =>
        match t with
        | Split v e _ le gt => multiples_loop f m cb gt (if negb (above v e (x_t m)) then le :: stack else stack) seen
        | Leaf a => let* (seen', go) := arr_multiples C a m cb seen in
                    if go then (match stack with [] => Ok seen' | t' :: stack' => multiples_loop f m cb t' stack' seen' end) else Ok seen'
        end
    end.
  (** PackedKDTree.h:478-494 findAllMultiples *)
  Fixpoint multiples_loop_packed (fuel : nat) (m : ext) (cb : callback M) (t : tree) (stack : list tree) (seen : list M) : res (list M) :=
    match fuel with
    | 0 => NoFuel
    | S f =>
        match t with
        | Split v e _ le gt =>
            if above v e (x_t m) then multiples_loop_packed f m cb gt stack seen
            else multiples_loop_packed f m cb le (gt :: stack) seen
        | Leaf a => let* (seen', go) := arr_multiples C a m cb seen in
                    if go then (match stack with [] => Ok seen' | t' :: stack' => multiples_loop_packed f m cb t' stack' seen' end) else Ok seen'
        end
    end.
  (** BinaryKDTree.h:498-528 and PackedKDTree.h:466-494 findAllMultiples *)
  Definition tree_multiples (packed : bool) (root : option tree) (m : ext) (cb : callback M) : res (list M) :=
    match root with
    | None => Ok []
    | Some t => if packed then multiples_loop_packed (nodes t) m cb t [] [] else multiples_loop (nodes t) m cb t [] []
    end.

  (** BinaryKDTree.h:539-555 forAll *)
  Fixpoint for_all_loop (fuel : nat) (cb : callback M) (t : tree) (stack : list tree) (seen : list M) : res (list M) :=
    match fuel with
    | 0 => NoFuel
    | S f =>
        match t with
        | Split _ _ _ le gt => for_all_loop f cb le (gt :: stack) seen
        | Leaf a => let* (seen', go) := arr_for_all C a cb seen in
                    if go then (match stack with [] => Ok seen' | t' :: stack' => for_all_loop f cb t' stack' seen' end) else Ok seen'
        end
    end.
  (** The entries of a packed node, and its children put on a stack (PackedKDTree.h:505-517) *)
  Fixpoint node_entries (t : tree) : earray := match t with Leaf a => a | Split _ _ _ le _ => node_entries le end.
  (** PackedKDTree.h:505-517: the children of a node are pushed on the stack *)
  Fixpoint push_children (t : tree) (stack : list tree) : list tree :=
    match t with Leaf _ => stack | Split _ _ _ le gt => push_children le (gt :: stack) end.
  (** PackedKDTree.h:505-517 forAll *)
  Fixpoint for_all_loop_packed (fuel : nat) (cb : callback M) (t : tree) (stack : list tree) (seen : list M) : res (list M) :=
    match fuel with
    | 0 => NoFuel
    | S f =>
        let* (seen', go) := arr_for_all C (node_entries t) cb seen in
        if go then (match push_children t stack with [] => Ok seen' | t' :: stack' => for_all_loop_packed f cb t' stack' seen' end) else Ok seen'
    end.
  (** BinaryKDTree.h:530-555 and PackedKDTree.h:496-517 forAll *)
  Definition tree_for_all (packed : bool) (root : option tree) (cb : callback M) : res (list M) :=
    match root with
    | None => Ok []
    | Some t => if packed then for_all_loop_packed (nodes t) cb t [] [] else for_all_loop (nodes t) cb t [] []
    end.

  (** ** Removal *)
  (** BinaryKDTree.h:267-281: the strictly-greater side first *)
  Fixpoint remove_binary (t : tree) (m : ext) : res (tree * list M * nat) :=
    match t with
    | Leaf a => let* (a', out, n) := arr_remove C a m in Ok (Leaf a', out, n)
    | Split v e mask le gt =>
        let* (gt', out1, n1) := remove_binary gt m in
        if negb (above v e (x_t m)) then
          let* (le', out2, n2) := remove_binary le m in Ok (Split v e mask le' gt', out1 ++ out2, n1 + n2)
        else Ok (Split v e mask le gt', out1, n1)
    end.
  (** PackedKDTree.h:226-239: the entries of the node first, then its children from the last one to the first *)
  Fixpoint remove_packed (t : tree) (m : ext) : res (tree * list M * nat) :=
    match t with
    | Leaf a => let* (a', out, n) := arr_remove C a m in Ok (Leaf a', out, n)
    | Split v e mask le gt =>
        if above v e (x_t m) then
          let* (gt', out, n) := remove_packed gt m in Ok (Split v e mask le gt', out, n)
        else
          let* (le', out1, n1) := remove_packed le m in
          let* (gt', out2, n2) := remove_packed gt m in
          Ok (Split v e mask le' gt', out1 ++ out2, n1 + n2)
    end.
  (** BinaryKDTree.h:259-284 and PackedKDTree.h:215-242 removeMultiples *)
  Definition tree_remove (packed : bool) (root : option tree) (m : ext) : res (option tree * list M * nat) :=
    match root with
    | None => Ok (None, [], 0)
    | Some t => let* (t', out, n) := if packed then remove_packed t m else remove_binary t m in Ok (Some t', out, n)
    end.
  (** PackedKDTree.h:246-263 removeElement.  BinaryKDTree::removeElement (288-299) does not compile: it assigns a reference to a pointer, passes
      a monomial for an entry and calls a function that KDTreeLeaf does not have. *)
  Fixpoint remove_element (t : tree) (m : M) : res (tree * bool) :=
    match t with
    | Leaf a => let* (a', b) := arr_remove_element C a m in Ok (Leaf a', b)
    | Split v e mask le gt =>
        if above v e m then let* (gt', b) := remove_element gt m in Ok (Split v e mask le gt', b)
        else let* (le', b) := remove_element le m in Ok (Split v e mask le' gt, b)
    end.
  (** PackedKDTree.h:244-263 removeElement *)
  Definition tree_remove_element (root : option tree) (m : M) : res (option tree * bool) :=
    match root with
    | None => Ok (None, false)
    | Some t => let* (t', b) := remove_element t m in Ok (Some t', b)
    end.

  (** ** Insertion *)
  (** The leaf into which an entry goes after a split (BinaryKDTree.h:772-775, PackedKDTree.h:726-729) *)
  Definition split_node (v : nat) (x : Z) (mask : N) (le gt : earray) (e : ext) : res tree :=
    if above v x (x_t e) then let* gt' := arr_insert C gt e in Ok (Split v x mask (Leaf le) (Leaf gt'))
    else let* le' := arr_insert C le e in Ok (Split v x mask (Leaf le') (Leaf gt)).
  (** BinaryKDTree.h:742-778 splitInsert; 750-754 copies the strictly-greater part to a new leaf and keeps the rest *)
  Definition split_insert_binary (a : earray) (e : ext) (var : option nat) : res tree :=
    let* (v, x, l, g) := split_for C e (a_list a) var in
    let* gt := arr_of C g in
    let le := arr_recalculate C (sort_arr C (mk_arr l (a_mask a))) in
    split_node v x (klower C (klower C (klower C max_mask (a_mask le)) (a_mask gt)) (x_mask e)) le gt e.
  (** PackedKDTree.h:672-735 splitInsert; 699-701 copies the equal-or-less part to a new node and 716-719 keeps the rest.  If all entries are
      strictly greater then std::copy is called with equal source and destination, which the standard does not allow but which is harmless. *)
  Definition split_insert_packed (a : earray) (e : ext) (var : option nat) : res tree :=
    let* (v, x, l, g) := split_for C e (a_list a) var in
    let* le := arr_of C l in
    let gt := arr_recalculate C (sort_arr C (mk_arr g (a_mask a))) in
    split_node v x (klower C (klower C max_mask (a_mask a)) (x_mask e)) le gt e.

  (** BinaryKDTree.h:307-326 and PackedKDTree.h:274-294.  [var] is the variable of the last [Split] on the way: the parent (binary); the last child
      of this node or else the child of the parent that leads here (packed). *)
  Fixpoint insert_tree (packed : bool) (t : tree) (e : ext) (var : option nat) : res tree :=
    match t with
    | Leaf a =>
        if length (a_list a) =? c_leaf C then (if packed then split_insert_packed a e var else split_insert_binary a e var)
        else let* a' := arr_insert C a e in Ok (Leaf a')
    | Split v x mask le gt =>
        let mask' := klower C mask (x_mask e) in
        if above v x (x_t e) then let* gt' := insert_tree packed gt e (Some v) in Ok (Split v x mask' le gt')
        else let* le' := insert_tree packed le e (Some v) in Ok (Split v x mask' le' gt)
    end.
  (** BinaryKDTree.h:301-327 and PackedKDTree.h:265-295 insert *)
  Definition tree_insert (packed : bool) (root : option tree) (e : ext) : res (option tree) :=
    let t := match root with None => Leaf arr_empty | Some t => t end in
    let* t' := insert_tree packed t e None in Ok (Some t').
  (** The tree left behind if splitInsert throws: the masks on the way have been lowered already (BinaryKDTree.h:307-326, PackedKDTree.h:274-294) *)
  Fixpoint lower_masks (t : tree) (e : ext) : tree :=
    match t with
    | Leaf a => Leaf a
    | Split v x mask le gt =>
        let mask' := klower C mask (x_mask e) in
        if above v x (x_t e) then Split v x mask' le (lower_masks gt e) else Split v x mask' (lower_masks le e) gt
    end.
  (** As [lower_masks], of the whole tree: BinaryKDTree.h:301-327 and PackedKDTree.h:265-295 *)
  Definition tree_abandoned (root : option tree) (e : ext) : option tree :=
    Some (lower_masks (match root with None => Leaf arr_empty | Some t => t end) e).

  (** ** Construction *)
  (** The mask of a node: BinaryKDTree.h:136-141; PackedKDTree.h:385-388 *)
  Definition node_mask (t : tree) : N := match t with Leaf a => a_mask a | Split _ _ mask _ _ => mask end.
  (** BinaryKDTree.h:342-395 with 398-419 and PackedKDTree.h:318-354 with 357-392 reset of a non-empty range.  Each part of the range is split
      until it fits into a leaf; the C++ code computes the masks in a second pass from the leaves to the root.  [fuel] bounds the depth. *)
  Fixpoint build (fuel : nat) (bits : list (nat * Z)) (l : list M) (var : option nat) : res tree :=
    match fuel with
    | 0 => NoFuel
    | S f =>
        if length l <=? c_leaf C then (let* a := arr_of C (map (kext C bits) l) in Ok (Leaf a))
        else
          let* (v, x, le, gt) := split_range C l var in
          let* tle := build f bits le (Some v) in
          let* tgt := build f bits gt (Some v) in
          Ok (Split v x (klower C (klower C max_mask (node_mask tle)) (node_mask tgt)) tle tgt)
    end.
  (** BinaryKDTree.h:329-395 and PackedKDTree.h:297-354 reset *)
  Definition tree_reset (l : list M) (bits : list (nat * Z)) : res (option tree) :=
    match l with [] => Ok None | _ :: _ => let* t := build (length l) bits l None in Ok (Some t) end.
End Tree.
