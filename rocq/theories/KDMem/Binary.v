(** Model of src/mathic/BinaryKDTree.h with nodes in memory, linked by pointers.

    KD/Tree.v models the same functions on trees that are values.  Here they are the loops of the C++ code: the nodes lie in the arena, _tmp is
    a stack of pointers, and nodes are changed where they lie.  A range of iterators is the list of what it refers to.  getMemoryUse
    is looked at in Bytes.v.  Not modelled: print, debugIsValid, and removeElement, which does not compile. *)
From Coq Require Import List Arith Bool ZArith NArith String.
From Verif.Base Require Import Res Arr ResList StdAlg.
From Verif.DivMask Require Import Model.
From Verif.Spec Require Import DivFinder.
From Verif.KD Require Import EntryArray Tree.
From Verif.KDMem Require Import Arena.
Import ListNotations.
Local Notation length := List.length.

(** BinaryKDTree.h:51-82, 84-149 and 152-187: a leaf or an interior node, told apart by _isLeaf (81).  [le] and [gt] are _equalOrLess and
    _strictlyGreater (145-146), and may be null (107-108). *)
Inductive bnode (M : Type) := BLeaf (a : earray M) | BInterior (v : nat) (x : Z) (mask : N) (le gt : option nat).
Arguments BLeaf {M}. Arguments BInterior {M}.
(** BinaryKDTree.h:241-244 the members; _tmp is empty between calls *)
Record btree (M : Type) := mk_btree { b_arena : arena (bnode M); b_root : option nat }.
Arguments mk_btree {M}. Arguments b_arena {M}. Arguments b_root {M}.

Section Binary.
  Context {M : Type}.
  Variable C : kconf M.
  Notation ext := (ext M).
  Notation earray := (earray M).
  Notation memory := (arena (bnode M)).
  Notation btree := (btree M).

  (** BinaryKDTree.h:247-252 the constructor *)
  Definition b_empty : btree := mk_btree (mk_arena 0 []) None.
  (** BinaryKDTree.h:54-61 asLeaf *)
  Definition as_leaf (A : memory) (p : nat) : res earray :=
    let* n := ar_get A p in match n with BLeaf a => Ok a | BInterior _ _ _ _ _ => UB end.
  (** BinaryKDTree.h:112 getVar *)
  Definition var_of (A : memory) (p : nat) : res nat :=
    let* n := ar_get A p in match n with BLeaf _ => UB | BInterior v _ _ _ _ => Ok v end.
  (** BinaryKDTree.h:115, 119 a reference to a child *)
  Definition nonnull (p : option nat) : res nat := of_option p.
  (** BinaryKDTree.h:117-123 setEqualOrLess and setStrictlyGreater *)
  Definition set_child (A : memory) (p : nat) (is_le : bool) (q : nat) : res memory :=
    let* n := ar_get A p in
    match n with
    | BLeaf _ => UB
    | BInterior v x mask le gt => ar_set A p (if is_le then BInterior v x mask (Some q) gt else BInterior v x mask le (Some q))
    end.

  (** ** Searches *)
  (** BinaryKDTree.h:432-462 findDivisor; an Entry* is a pointer to a leaf and an index *)
  Fixpoint b_find_loop (fuel : nat) (A : memory) (m : ext) (p : nat) (stack : list nat) : res (option (nat * nat)) :=
    match fuel with
    | 0 => NoFuel
    | S f =>
        let next := match stack with [] => Ok None | q :: stack' => b_find_loop f A m q stack' end in
        let* n := ar_get A p in
        match n with
        | BInterior v x mask le gt =>
            if c_tree C && negb (can_divide mask (x_mask m)) then next else
            let* stack' := if above C v x (x_t m) then (let* g := nonnull gt in Ok (g :: stack)) else Ok stack in
            let* l := nonnull le in
            b_find_loop f A m l stack'
        | BLeaf a =>
            let* r := arr_find C a m in
            match r with Some i => Ok (Some (p, i)) | None => next end
        end
    end.
  (** BinaryKDTree.h:423-463 findDivisor *)
  Definition b_find (T : btree) (m : ext) : res (option (nat * nat)) :=
    match b_root T with None => Ok None | Some p => b_find_loop (2 * length (ar_cells (b_arena T))) (b_arena T) m p [] end.
  (** Following an Entry* that findDivisor returned (BinaryKDTree.h:452) *)
  Definition b_at (T : btree) (q : nat * nat) : res M :=
    let* a := as_leaf (b_arena T) (fst q) in let* x := vget (a_list a) (snd q) in Ok (x_t x).

  (** BinaryKDTree.h:472-496 findAllDivisors *)
  Fixpoint b_divisors_loop (fuel : nat) (A : memory) (m : ext) (cb : callback M) (p : nat) (stack : list nat) (seen : list M) : res (list M) :=
    match fuel with
    | 0 => NoFuel
    | S f =>
        let next seen := match stack with [] => Ok seen | q :: stack' => b_divisors_loop f A m cb q stack' seen end in
        let* n := ar_get A p in
        match n with
        | BInterior v x mask le gt =>
            if c_tree C && negb (can_divide mask (x_mask m)) then next seen else
            let* stack' := if above C v x (x_t m) then (let* g := nonnull gt in Ok (g :: stack)) else Ok stack in
            let* l := nonnull le in
            b_divisors_loop f A m cb l stack' seen
        | BLeaf a => let* (seen', go) := arr_divisors C a m cb seen in if go then next seen' else Ok seen'
        end
    end.
  (** BinaryKDTree.h:467-498 findAllDivisors *)
  Definition b_divisors (T : btree) (m : ext) (cb : callback M) : res (list M) :=
    match b_root T with None => Ok [] | Some p => b_divisors_loop (2 * length (ar_cells (b_arena T))) (b_arena T) m cb p [] [] end.

  (** BinaryKDTree.h:507-528 findAllMultiples *)
  Fixpoint b_multiples_loop (fuel : nat) (A : memory) (m : ext) (cb : callback M) (p : nat) (stack : list nat) (seen : list M) : res (list M) :=
    match fuel with
    | 0 => NoFuel
    | S f =>
        let* n := ar_get A p in
        match n with
        | BInterior v x _ le gt =>
            let* stack' := if negb (above C v x (x_t m)) then (let* l := nonnull le in Ok (l :: stack)) else Ok stack in
            let* g := nonnull gt in
            b_multiples_loop f A m cb g stack' seen
        | BLeaf a =>
            let* (seen', go) := arr_multiples C a m cb seen in
            if go then (match stack with [] => Ok seen' | q :: stack' => b_multiples_loop f A m cb q stack' seen' end) else Ok seen'
        end
    end.
  (** BinaryKDTree.h:502-530 findAllMultiples *)
  Definition b_multiples (T : btree) (m : ext) (cb : callback M) : res (list M) :=
    match b_root T with None => Ok [] | Some p => b_multiples_loop (2 * length (ar_cells (b_arena T))) (b_arena T) m cb p [] [] end.

  (** BinaryKDTree.h:539-555 forAll *)
  Fixpoint b_for_all_loop (fuel : nat) (A : memory) (cb : callback M) (p : nat) (stack : list nat) (seen : list M) : res (list M) :=
    match fuel with
    | 0 => NoFuel
    | S f =>
        let* n := ar_get A p in
        match n with
        | BInterior _ _ _ le gt => let* g := nonnull gt in let* l := nonnull le in b_for_all_loop f A cb l (g :: stack) seen
        | BLeaf a =>
            let* (seen', go) := arr_for_all C a cb seen in
            if go then (match stack with [] => Ok seen' | q :: stack' => b_for_all_loop f A cb q stack' seen' end) else Ok seen'
        end
    end.
  (** BinaryKDTree.h:532-557 forAll *)
  Definition b_for_all (T : btree) (cb : callback M) : res (list M) :=
    match b_root T with None => Ok [] | Some p => b_for_all_loop (2 * length (ar_cells (b_arena T))) (b_arena T) cb p [] [] end.

  (** ** Removal *)
  (** BinaryKDTree.h:267-281 removeMultiples *)
  Fixpoint b_remove_loop (fuel : nat) (A : memory) (m : ext) (p : nat) (stack : list nat) (out : list M) (count : nat) : res (memory * list M * nat) :=
    match fuel with
    | 0 => NoFuel
    | S f =>
        let* n := ar_get A p in
        match n with
        | BInterior v x _ le gt =>
            let* stack' := if negb (above C v x (x_t m)) then (let* l := nonnull le in Ok (l :: stack)) else Ok stack in
            let* g := nonnull gt in
            b_remove_loop f A m g stack' out count
        | BLeaf a =>
            let* (a', o, k) := arr_remove C a m in
            let* A' := ar_set A p (BLeaf a') in
            match stack with
            | [] => Ok (A', out ++ o, count + k)
            | q :: stack' => b_remove_loop f A' m q stack' (out ++ o) (count + k)
            end
        end
    end.
  (** BinaryKDTree.h:259-285 removeMultiples *)
  Definition b_remove (T : btree) (m : ext) : res (btree * list M * nat) :=
    match b_root T with
    | None => Ok (T, [], 0)
    | Some p => let* (A, out, k) := b_remove_loop (2 * length (ar_cells (b_arena T))) (b_arena T) m p [] [] 0 in Ok (mk_btree A (b_root T), out, k)
    end.

  (** ** Insertion *)
  (** BinaryKDTree.h:304-305 *)
  Definition b_start (T : btree) : btree * nat :=
    match b_root T with
    | Some p => (T, p)
    | None => let (A, p) := ar_new (b_arena T) (BLeaf arr_empty) in (mk_btree A (Some p), p)
    end.
  (** BinaryKDTree.h:307-312: the way to the leaf, lowering the masks *)
  Fixpoint b_walk (fuel : nat) (A : memory) (e : ext) (parent : option nat) (p : nat) : res (memory * option nat * nat) :=
    match fuel with
    | 0 => NoFuel
    | S f =>
        let* n := ar_get A p in
        match n with
        | BLeaf _ => Ok (A, parent, p)
        | BInterior v x mask le gt =>
            let* A' := ar_set A p (BInterior v x (klower C mask (x_mask e)) le gt) in
            let* q := nonnull (if above C v x (x_t e) then gt else le) in
            b_walk f A' e (Some p) q
        end
    end.
  (** BinaryKDTree.h:742-778 splitInsert of the leaf at [p] *)
  Definition b_split_insert (A : memory) (p : nat) (e : ext) (parent : option nat) : res (memory * nat) :=
    let* a := as_leaf A p in
    let* var := match parent with None => Ok None | Some q => let* v := var_of A q in Ok (Some v) end in
    let* (v, x, l, g) := split_for C e (a_list a) var in
    let* gt := arr_of C g in
    let (A, other) := ar_new A (BLeaf gt) in
    let le := arr_recalculate C (sort_arr C (mk_arr l (a_mask a))) in
    let* A := ar_set A p (BLeaf le) in
    let (A, i) := ar_new A (BInterior v x (klower C (klower C max_mask (a_mask le)) (a_mask gt)) (Some p) (Some other)) in
    let* A :=
      match parent with
      | None => Ok A
      | Some q =>
          let* n := ar_get A q in
          match n with
          | BLeaf _ => UB
          | BInterior _ _ _ ple pgt => let* l := nonnull ple in set_child A q (l =? p) i
          end
      end in
    let* A := ar_set A i (BInterior v x (klower C (klower C (klower C max_mask (a_mask le)) (a_mask gt)) (x_mask e)) (Some p) (Some other)) in
    let q := if above C v x (x_t e) then other else p in
    let* b := as_leaf A q in
    let* b' := arr_insert C b e in
    let* A := ar_set A q (BLeaf b') in
    Ok (A, i).
  (** BinaryKDTree.h:313-326 *)
  Definition b_put (T : btree) (e : ext) (parent : option nat) (p : nat) : res btree :=
    let* a := as_leaf (b_arena T) p in
    if length (a_list a) =? c_leaf C then
      let* (A, i) := b_split_insert (b_arena T) p e parent in
      Ok (mk_btree A (match parent with None => Some i | Some _ => b_root T end))
    else
      let* a' := arr_insert C a e in
      let* A := ar_set (b_arena T) p (BLeaf a') in
      Ok (mk_btree A (b_root T)).
  (** BinaryKDTree.h:303-312: what insert does before anything can throw *)
  Definition b_approach (T : btree) (e : ext) : res (btree * option nat * nat) :=
    let (T', p) := b_start T in
    let* (A, parent, q) := b_walk (2 * length (ar_cells (b_arena T'))) (b_arena T') e None p in
    Ok (mk_btree A (b_root T'), parent, q).
  (** BinaryKDTree.h:302-327 insert *)
  Definition b_insert (T : btree) (e : ext) : res btree :=
    let* (T', parent, p) := b_approach T e in b_put T' e parent p.
  (** The memory if insert throws: splitInsert has changed nothing when split throws (BinaryKDTree.h:748) *)
  Definition b_abandoned (T : btree) (e : ext) : res btree := let* (T', _, _) := b_approach T e in Ok T'.

  (** ** Construction *)
  (** BinaryKDTree.h:565-574 clear: the entries destroyed, in that order *)
  Fixpoint b_clear_loop (fuel : nat) (A : memory) (p : nat) (stack : list nat) (gone : list ext) : res (memory * list ext) :=
    match fuel with
    | 0 => NoFuel
    | S f =>
        let* n := ar_get A p in
        match n with
        | BInterior _ _ _ le gt => let* g := nonnull gt in let* l := nonnull le in b_clear_loop f A l (g :: stack) gone
        | BLeaf a =>
            let* A' := ar_set A p (BLeaf (mk_arr [] (a_mask a))) in
            match stack with
            | [] => Ok (A', gone ++ rev (a_list a))
            | q :: stack' => b_clear_loop f A' q stack' (gone ++ rev (a_list a))
            end
        end
    end.
  (** BinaryKDTree.h:559-577 clear, also the destructor (254-257) *)
  Definition b_clear (T : btree) : res (btree * list ext) :=
    let* (A, gone) := match b_root T with
                      | None => Ok (b_arena T, [])
                      | Some p => b_clear_loop (2 * length (ar_cells (b_arena T))) (b_arena T) p [] []
                      end in
    Ok (mk_btree (ar_free A) None, gone).

  (** BinaryKDTree.h:371-377: the new node becomes the root or a child *)
  Definition b_link (T : btree) (parent : option nat) (is_le : bool) (p : nat) : res btree :=
    match parent with
    | None => Ok (mk_btree (b_arena T) (Some p))
    | Some q => let* A := set_child (b_arena T) q is_le p in Ok (mk_btree A (b_root T))
    end.
  (** BinaryKDTree.h:342-394: the loop over the parts of the range.  [todo] holds the parts to be put on the strictly-greater side of the given
      interior node.  If split throws, [Some] message, the memory is as shown. *)
  Fixpoint b_reset_loop (fuel : nat) (T : btree) (bits : list (nat * Z)) (l : list M) (parent : option nat) (is_le : bool) (todo : list (list M * nat))
    : res (btree * option string) :=
    match fuel with
    | 0 => NoFuel
    | S f =>
        if length l <=? c_leaf C then
          let* a := arr_of C (map (kext C bits) l) in
          let (A, p) := ar_new (b_arena T) (BLeaf a) in
          let* T' := b_link (mk_btree A (b_root T)) parent is_le p in
          match todo with
          | [] => Ok (T', None)
          | (l', q) :: todo' => b_reset_loop f T' bits l' (Some q) false todo'
          end
        else
          let* var := match parent with None => Ok None | Some q => let* v := var_of (b_arena T) q in Ok (Some v) end in
          match split_range C l var with
          | Ok (v, x, le, gt) =>
              let (A, p) := ar_new (b_arena T) (BInterior v x max_mask None None) in
              let* T' := b_link (mk_btree A (b_root T)) parent is_le p in
              b_reset_loop f T' bits le (Some p) true ((gt, p) :: todo)
          | Throw e => Ok (T, Some e)
          | UB => UB
          | NoFuel => NoFuel
          end
    end.
  (** BinaryKDTree.h:402-410: the interior nodes, breadth first; [i] is the loop index *)
  Fixpoint b_record (fuel : nat) (A : memory) (i : nat) (nodes : list nat) : res (list nat) :=
    if i <? length nodes then
      match fuel with
      | 0 => NoFuel
      | S f =>
          let* p := vget nodes i in
          let* n := ar_get A p in
          match n with
          | BLeaf _ => UB
          | BInterior _ _ _ le gt =>
              let* l := nonnull le in
              let* ln := ar_get A l in
              let* g := nonnull gt in
              let* gn := ar_get A g in
              b_record f A (S i) (nodes ++ (match ln with BLeaf _ => [] | BInterior _ _ _ _ _ => [l] end) ++
                                           (match gn with BLeaf _ => [] | BInterior _ _ _ _ _ => [g] end))
          end
      end
    else Ok nodes.
  (** BinaryKDTree.h:133-142: the mask of a leaf's entries or of an interior node *)
  Definition b_mask (A : memory) (p : nat) : res N :=
    let* n := ar_get A p in match n with BLeaf a => Ok (a_mask a) | BInterior _ _ m _ _ => Ok m end.
  (** BinaryKDTree.h:415-417 *)
  Definition b_fix (A : memory) (p : nat) : res memory :=
    let* n := ar_get A p in
    match n with
    | BLeaf _ => UB
    | BInterior v x mask le gt =>
        let* l := nonnull le in
        let* ml := b_mask A l in
        let* g := nonnull gt in
        let* mg := b_mask A g in
        ar_set A p (BInterior v x (klower C (klower C mask ml) mg) le gt)
    end.
  (** BinaryKDTree.h:412-418 *)
  Fixpoint b_fix_all (A : memory) (nodes : list nat) : res memory :=
    match nodes with [] => Ok A | p :: nodes' => let* A' := b_fix A p in b_fix_all A' nodes' end.
  (** BinaryKDTree.h:398-419: the masks *)
  Definition b_masks (T : btree) : res btree :=
    if negb (c_tree C) then Ok T else
    match b_root T with
    | None => UB
    | Some p =>
        let* n := ar_get (b_arena T) p in
        let* nodes := b_record (length (ar_cells (b_arena T))) (b_arena T) 0 (match n with BLeaf _ => [] | BInterior _ _ _ _ _ => [p] end) in
        let* A := b_fix_all (b_arena T) (rev nodes) in
        Ok (mk_btree A (b_root T))
    end.
  (** BinaryKDTree.h:329-421 reset: what is left behind, and the exception if there is one *)
  Definition b_reset_leaves (T : btree) (l : list M) (bits : list (nat * Z)) : res (btree * option string) :=
    let* (T1, _) := b_clear T in
    match l with
    | [] => Ok (T1, None)
    | _ :: _ =>
        let* (T2, e) := b_reset_loop (2 ^ length l) T1 bits l None false [] in
        match e with
        | Some _ => Ok (T2, e)
        | None => let* T3 := b_masks T2 in Ok (T3, None)
        end
    end.
  (** BinaryKDTree.h:329-421 reset *)
  Definition b_reset (T : btree) (l : list M) (bits : list (nat * Z)) : res btree :=
    let* (T', e) := b_reset_leaves T l bits in match e with None => Ok T' | Some x => Throw x end.
End Binary.
