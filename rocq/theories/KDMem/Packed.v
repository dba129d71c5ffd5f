(** Model of src/mathic/PackedKDTree.h with nodes in memory, linked by pointers.

    KD/Tree.v models the same functions on trees that are values.  Here they are the loops of the C++ code: the nodes lie in the arena, each
    with the array of children that follows it, _tmp is a stack of pointers, and nodes are changed where they lie.  A Child* is a node and
    an index.  A range of iterators is the list of what it refers to.  getMemoryUse is looked at
    in Bytes.v.  Not modelled: print, debugIsValid. *)
From Coq Require Import List Arith Bool ZArith NArith String.
From Verif.Base Require Import Res Arr ResList StdAlg.
From Verif.DivMask Require Import Model.
From Verif.Spec Require Import DivFinder.
From Verif.KD Require Import EntryArray Tree.
From Verif.KDMem Require Import Arena.
Import ListNotations.
Local Notation length := List.length.

(** PackedKDTree.h:62-66 Child.  [None] is memory that has not been written. *)
Record slot := mk_slot { s_var : option nat; s_exp : option Z; s_mask : option N; s_node : option nat }.
(** Memory for a child as the arena returns it.  The constructor of Node (PackedKDTree.h:184-213) constructs the first Child, whose mask is then
    the greatest one; every child gets its mask from 377 or 709 before it is read, so this is left out. *)
Definition raw : slot := mk_slot None None None None.
(** PackedKDTree.h:35-114 Node.  [p_slots] is the memory for children, [p_used] is _childrenEnd - _childrenMemoryBegin. *)
Record pnode (M : Type) := mk_pnode { p_entries : earray M; p_used : nat; p_slots : list slot }.
Arguments mk_pnode {M}. Arguments p_entries {M}. Arguments p_used {M}. Arguments p_slots {M}.
(** PackedKDTree.h:166-169 the members; _tmp is empty between calls *)
Record ptree (M : Type) := mk_ptree { p_arena : arena (pnode M); p_root : option nat }.
Arguments mk_ptree {M}. Arguments p_arena {M}. Arguments p_root {M}.

Section Packed.
  Context {M : Type}.
  Variable C : kconf M.
  Notation ext := (ext M).
  Notation earray := (earray M).
  Notation memory := (arena (pnode M)).
  Notation ptree := (ptree M).

  (** PackedKDTree.h:172-177 the constructor *)
  Definition p_empty : ptree := mk_ptree (mk_arena 0 []) None.
  (** PackedKDTree.h:37-60 makeNode: there is memory for at least one child *)
  Definition p_make (A : memory) (a : earray) (children : nat) : memory * nat := ar_new A (mk_pnode a children (repeat raw (Nat.max 1 children))).
  (** PackedKDTree.h:80-81 changing the entries of a node *)
  Definition set_entries (A : memory) (p : nat) (a : earray) : res memory :=
    let* n := ar_get A p in ar_set A p (mk_pnode a (p_used n) (p_slots n)).
  (** Reading the child at index [i] of a node (PackedKDTree.h:69-72) *)
  Definition get_slot (A : memory) (p i : nat) : res slot := let* n := ar_get A p in vget (p_slots n) i.
  (** Writing to it (PackedKDTree.h:69-72) *)
  Definition set_slot (A : memory) (p i : nat) (s : slot) : res memory :=
    let* n := ar_get A p in let* l := vset (p_slots n) i s in ar_set A p (mk_pnode (p_entries n) (p_used n) l).
  (** PackedKDTree.h:75-78 inChild *)
  Definition in_child (s : slot) (m : M) : res bool :=
    let* v := of_option (s_var s) in let* x := of_option (s_exp s) in Ok (above C v x m).

  (** ** Searches *)
  (** PackedKDTree.h:407-409, 449-451: the mask of the child rules the rest of the node out *)
  Definition child_rules_out (s : slot) (m : ext) : res bool :=
    if c_tree C then let* mask := of_option (s_mask s) in Ok (negb (can_divide mask (x_mask m))) else Ok false.
  (** PackedKDTree.h:403-431 findDivisor; [i] is the index of the child it points to; an Entry* is a pointer to a node and an index *)
  Fixpoint p_find_loop (fuel : nat) (A : memory) (m : ext) (p i : nat) (stack : list nat) : res (option (nat * nat)) :=
    match fuel with
    | 0 => NoFuel
    | S f =>
        let next := match stack with [] => Ok None | q :: stack' => p_find_loop f A m q 0 stack' end in
        let* n := ar_get A p in
        if i =? p_used n then
          let* r := arr_find C (p_entries n) m in
          match r with Some j => Ok (Some (p, j)) | None => next end
        else
          let* s := vget (p_slots n) i in
          let* out := child_rules_out s m in
          if out then next else
          let* b := in_child s (x_t m) in
          let* stack' := if b then (let* q := of_option (s_node s) in Ok (q :: stack)) else Ok stack in
          p_find_loop f A m p (S i) stack'
    end.
  (** PackedKDTree.h:396-434 findDivisor *)
  Definition p_find (T : ptree) (m : ext) : res (option (nat * nat)) :=
    match p_root T with None => Ok None | Some p => p_find_loop (2 * length (ar_cells (p_arena T))) (p_arena T) m p 0 [] end.
  (** Following an Entry* that findDivisor (PackedKDTree.h:396-434) returned *)
  Definition p_at (T : ptree) (q : nat * nat) : res M :=
    let* n := ar_get (p_arena T) (fst q) in let* x := vget (a_list (p_entries n)) (snd q) in Ok (x_t x).

  (** PackedKDTree.h:446-464 findAllDivisors *)
  Fixpoint p_divisors_loop (fuel : nat) (A : memory) (m : ext) (cb : callback M) (p i : nat) (stack : list nat) (seen : list M) : res (list M) :=
    match fuel with
    | 0 => NoFuel
    | S f =>
        let next seen := match stack with [] => Ok seen | q :: stack' => p_divisors_loop f A m cb q 0 stack' seen end in
        let* n := ar_get A p in
        if i =? p_used n then
          let* (seen', go) := arr_divisors C (p_entries n) m cb seen in if go then next seen' else Ok seen'
        else
          let* s := vget (p_slots n) i in
          let* out := child_rules_out s m in
          if out then next seen else
          let* b := in_child s (x_t m) in
          let* stack' := if b then (let* q := of_option (s_node s) in Ok (q :: stack)) else Ok stack in
          p_divisors_loop f A m cb p (S i) stack' seen
    end.
  (** PackedKDTree.h:436-466 findAllDivisors *)
  Definition p_divisors (T : ptree) (m : ext) (cb : callback M) : res (list M) :=
    match p_root T with None => Ok [] | Some p => p_divisors_loop (2 * length (ar_cells (p_arena T))) (p_arena T) m cb p 0 [] [] end.

  (** PackedKDTree.h:478-494 findAllMultiples; the child pushed last is popped at once if the search goes on there *)
  Fixpoint p_multiples_loop (fuel : nat) (A : memory) (m : ext) (cb : callback M) (p i : nat) (stack : list nat) (seen : list M) : res (list M) :=
    match fuel with
    | 0 => NoFuel
    | S f =>
        let* n := ar_get A p in
        if i =? p_used n then
          let* (seen', go) := arr_multiples C (p_entries n) m cb seen in
          if go then (match stack with [] => Ok seen' | q :: stack' => p_multiples_loop f A m cb q 0 stack' seen' end) else Ok seen'
        else
          let* s := vget (p_slots n) i in
          let* q := of_option (s_node s) in
          let* b := in_child s (x_t m) in
          if b then p_multiples_loop f A m cb q 0 stack seen else p_multiples_loop f A m cb p (S i) (q :: stack) seen
    end.
  (** PackedKDTree.h:468-496 findAllMultiples *)
  Definition p_multiples (T : ptree) (m : ext) (cb : callback M) : res (list M) :=
    match p_root T with None => Ok [] | Some p => p_multiples_loop (2 * length (ar_cells (p_arena T))) (p_arena T) m cb p 0 [] [] end.

  (** The nodes of the children (PackedKDTree.h:510-512, 531-533) *)
  Fixpoint child_nodes (l : list slot) : res (list nat) :=
    match l with [] => Ok [] | s :: l' => let* q := of_option (s_node s) in let* qs := child_nodes l' in Ok (q :: qs) end.
  (** The children of a node, from childBegin() to childEnd() (PackedKDTree.h:69-72) *)
  Definition children (n : pnode M) : res (list slot) := if length (p_slots n) <? p_used n then UB else Ok (firstn (p_used n) (p_slots n)).
  (** PackedKDTree.h:505-517 forAll *)
  Fixpoint p_for_all_loop (fuel : nat) (A : memory) (cb : callback M) (p : nat) (stack : list nat) (seen : list M) : res (list M) :=
    match fuel with
    | 0 => NoFuel
    | S f =>
        let* n := ar_get A p in
        let* (seen', go) := arr_for_all C (p_entries n) cb seen in
        if go then
          let* cs := children n in
          let* qs := child_nodes cs in
          match rev qs ++ stack with [] => Ok seen' | q :: stack' => p_for_all_loop f A cb q stack' seen' end
        else Ok seen'
    end.
  (** PackedKDTree.h:498-519 forAll *)
  Definition p_for_all (T : ptree) (cb : callback M) : res (list M) :=
    match p_root T with None => Ok [] | Some p => p_for_all_loop (2 * length (ar_cells (p_arena T))) (p_arena T) cb p [] [] end.

  (** ** Removal *)
  (** PackedKDTree.h:226-239 removeMultiples *)
  Fixpoint p_remove_loop (fuel : nat) (A : memory) (m : ext) (p i : nat) (stack : list nat) (out : list M) (count : nat) : res (memory * list M * nat) :=
    match fuel with
    | 0 => NoFuel
    | S f =>
        let* n := ar_get A p in
        if i =? p_used n then
          let* (a', o, k) := arr_remove C (p_entries n) m in
          let* A' := set_entries A p a' in
          match stack with
          | [] => Ok (A', out ++ o, count + k)
          | q :: stack' => p_remove_loop f A' m q 0 stack' (out ++ o) (count + k)
          end
        else
          let* s := vget (p_slots n) i in
          let* q := of_option (s_node s) in
          let* b := in_child s (x_t m) in
          if b then p_remove_loop f A m q 0 stack out count else p_remove_loop f A m p (S i) (q :: stack) out count
    end.
  (** PackedKDTree.h:215-243 removeMultiples *)
  Definition p_remove (T : ptree) (m : ext) : res (ptree * list M * nat) :=
    match p_root T with
    | None => Ok (T, [], 0)
    | Some p => let* (A, out, k) := p_remove_loop (2 * length (ar_cells (p_arena T))) (p_arena T) m p 0 [] [] 0 in Ok (mk_ptree A (p_root T), out, k)
    end.
  (** PackedKDTree.h:252-259: the way to the node *)
  Fixpoint p_seek (fuel : nat) (A : memory) (m : M) (p i : nat) : res nat :=
    match fuel with
    | 0 => NoFuel
    | S f =>
        let* n := ar_get A p in
        if i =? p_used n then Ok p
        else
          let* s := vget (p_slots n) i in
          let* b := in_child s m in
          if b then (let* q := of_option (s_node s) in p_seek f A m q 0) else p_seek f A m p (S i)
    end.
  (** PackedKDTree.h:245-263 removeElement *)
  Definition p_remove_element (T : ptree) (m : M) : res (ptree * bool) :=
    match p_root T with
    | None => Ok (T, false)
    | Some p =>
        let* q := p_seek (2 * length (ar_cells (p_arena T))) (p_arena T) m p 0 in
        let* n := ar_get (p_arena T) q in
        let* (a, b) := arr_remove_element C (p_entries n) m in
        let* A := set_entries (p_arena T) q a in
        Ok (mk_ptree A (p_root T), b)
    end.

  (** ** Insertion *)
  (** PackedKDTree.h:270-271 *)
  Definition p_start (T : ptree) : ptree * nat :=
    match p_root T with
    | Some p => (T, p)
    | None => let (A, p) := p_make (p_arena T) arr_empty 0 in (mk_ptree A (Some p), p)
    end.
  (** PackedKDTree.h:286-287 *)
  Definition lower_slot (s : slot) (e : ext) : res slot :=
    if c_tree C then let* mask := of_option (s_mask s) in Ok (mk_slot (s_var s) (s_exp s) (Some (klower C mask (x_mask e))) (s_node s)) else Ok s.
  (** PackedKDTree.h:272-294: the way to the node, lowering the masks; [parent] is parentChild *)
  Fixpoint p_walk (fuel : nat) (A : memory) (e : ext) (parent : option (nat * nat)) (p i : nat) : res (memory * option (nat * nat) * nat) :=
    match fuel with
    | 0 => NoFuel
    | S f =>
        let* n := ar_get A p in
        if i =? p_used n then Ok (A, parent, p)
        else
          let* s := vget (p_slots n) i in
          let* s' := lower_slot s e in
          let* A' := set_slot A p i s' in
          let* b := in_child s (x_t e) in
          if b then (let* q := of_option (s_node s) in p_walk f A' e (Some (p, i)) q 0) else p_walk f A' e parent p (S i)
    end.
  (** PackedKDTree.h:672-735 splitInsert of the node at [p]; if all entries are strictly greater then 716 calls std::copy with equal source and
      destination, see KD/Tree.v *)
  Definition p_split_insert (A : memory) (p : nat) (e : ext) (parent : option (nat * nat)) : res (memory * nat) :=
    let* n := ar_get A p in
    let a := p_entries n in
    let* var :=
      if negb (p_used n =? 0) then (let* s := vget (p_slots n) (p_used n - 1) in let* v := of_option (s_var s) in Ok (Some v))
      else match parent with
           | Some (q, i) => let* s := get_slot A q i in let* v := of_option (s_var s) in Ok (Some v)
           | None => Ok None
           end in
    let* (v, x, l, g) := split_for C e (a_list a) var in
    let* le := arr_of C l in
    let* cs := children n in
    let mask := if c_tree C then Some (klower C (klower C max_mask (a_mask a)) (x_mask e)) else None in
    let (A, copied) := ar_new A (mk_pnode le (S (p_used n)) (cs ++ [mk_slot (Some v) (Some x) mask (Some p)])) in
    let* A := match parent with
              | None => Ok A
              | Some (q, i) => let* s := get_slot A q i in set_slot A q i (mk_slot (s_var s) (s_exp s) (s_mask s) (Some copied))
              end in
    let gt := arr_recalculate C (sort_arr C (mk_arr g (a_mask a))) in
    let* A := ar_set A p (mk_pnode gt 0 (p_slots n)) in
    let q := if above C v x (x_t e) then p else copied in
    let* k := ar_get A q in
    let* b := arr_insert C (p_entries k) e in
    let* A := set_entries A q b in
    Ok (A, copied).
  (** PackedKDTree.h:275-285 *)
  Definition p_put (T : ptree) (e : ext) (parent : option (nat * nat)) (p : nat) : res ptree :=
    let* n := ar_get (p_arena T) p in
    if length (a_list (p_entries n)) <? c_leaf C then
      let* a := arr_insert C (p_entries n) e in
      let* A := set_entries (p_arena T) p a in
      Ok (mk_ptree A (p_root T))
    else
      let* (A, c) := p_split_insert (p_arena T) p e parent in
      Ok (mk_ptree A (match parent with None => Some c | Some _ => p_root T end)).
  (** PackedKDTree.h:268-294: what insert does before anything can throw *)
  Definition p_approach (T : ptree) (e : ext) : res (ptree * option (nat * nat) * nat) :=
    let (T', p) := p_start T in
    let* (A, parent, q) := p_walk (2 * length (ar_cells (p_arena T'))) (p_arena T') e None p 0 in
    Ok (mk_ptree A (p_root T'), parent, q).
  (** PackedKDTree.h:265-296 insert *)
  Definition p_insert (T : ptree) (e : ext) : res ptree :=
    let* (T', parent, p) := p_approach T e in p_put T' e parent p.
  (** The memory if insert throws: splitInsert has changed nothing when split throws (PackedKDTree.h:694-696) *)
  Definition p_abandoned (T : ptree) (e : ext) : res ptree := let* (T', _, _) := p_approach T e in Ok T'.

  (** ** Construction *)
  (** PackedKDTree.h:527-534 clear: the entries destroyed, in that order *)
  Fixpoint p_clear_loop (fuel : nat) (A : memory) (stack : list nat) (gone : list ext) : res (memory * list ext) :=
    match stack with
    | [] => Ok (A, gone)
    | p :: stack' =>
        match fuel with
        | 0 => NoFuel
        | S f =>
            let* n := ar_get A p in
            let* A' := set_entries A p (mk_arr [] (a_mask (p_entries n))) in
            let* cs := children n in
            let* qs := child_nodes cs in
            p_clear_loop f A' (rev qs ++ stack') (gone ++ rev (a_list (p_entries n)))
        end
    end.
  (** PackedKDTree.h:521-537 clear, also the destructor (179-182) *)
  Definition p_clear (T : ptree) : res (ptree * list ext) :=
    let* (A, gone) := p_clear_loop (2 * length (ar_cells (p_arena T))) (p_arena T) (match p_root T with None => [] | Some p => [p] end) [] in
    Ok (mk_ptree (ar_free A) None, gone).

  (** PackedKDTree.h:157-164 InsertTodo: the range, the exponent and variable its entries were split by, and the child that leads to them;
      without the child, the variable is size_t(-1) and the exponent uninitialised *)
  Record task := mk_task { t_range : list M; t_from : option (nat * Z * (nat * nat)) }.
  (** PackedKDTree.h:330-342: children are split off until few enough entries are left; [ch] are the children so far.  The range that is left
      and the children, each with its range; [inr] is an exception. *)
  Fixpoint p_split_off (fuel : nat) (l : list M) (var : option nat) (ch : list (list M * nat * Z)) : res (list M * list (list M * nat * Z) + string) :=
    if length l <=? c_leaf C then Ok (inl (l, ch)) else
    match fuel with
    | 0 => NoFuel
    | S f =>
        match split_range C l var with
        | Ok (v, x, le, gt) => p_split_off f le (Some v) (ch ++ [(gt, v, x)])
        | Throw e => Ok (inr e)
        | UB => UB
        | NoFuel => NoFuel
        end
    end.
  (** PackedKDTree.h:349-352: the tasks for the children of the node at [p], the last one on top of the stack *)
  Fixpoint child_tasks (p i : nat) (ch : list (list M * nat * Z)) (todo : list task) : list task :=
    match ch with [] => todo | (gt, v, x) :: ch' => child_tasks p (S i) ch' (mk_task gt (Some (v, x, (p, i))) :: todo) end.
  (** PackedKDTree.h:318-354: the loop over the tasks.  If split throws, [Some] message, the memory is as shown. *)
  Fixpoint p_reset_loop (fuel : nat) (T : ptree) (bits : list (nat * Z)) (todo : list task) : res (ptree * option string) :=
    match todo with
    | [] => Ok (T, None)
    | t :: todo' =>
        match fuel with
        | 0 => NoFuel
        | S f =>
            let* A := match t_from t with
                      | None => Ok (p_arena T)
                      | Some (v, x, (q, i)) => let* s := get_slot (p_arena T) q i in
                                               set_slot (p_arena T) q i (mk_slot (Some v) (Some x) (s_mask s) (s_node s))
                      end in
            let* r := p_split_off f (t_range t) (match t_from t with None => None | Some (v, _, _) => Some v end) [] in
            match r with
            | inr e => Ok (mk_ptree A (p_root T), Some e)
            | inl (l, ch) =>
                let* a := arr_of C (map (kext C bits) l) in
                let (A, p) := p_make A a (length ch) in
                let root := match p_root T with None => Some p | Some _ => p_root T end in
                let* A := match t_from t with
                          | None => Ok A
                          | Some (_, _, (q, i)) => let* s := get_slot A q i in set_slot A q i (mk_slot (s_var s) (s_exp s) (s_mask s) (Some p))
                          end in
                p_reset_loop f (mk_ptree A root) bits (child_tasks p 0 ch todo')
            end
        end
    end.
  (** PackedKDTree.h:361-367: the nodes, breadth first; [i] is the loop index *)
  Fixpoint p_record (fuel : nat) (A : memory) (i : nat) (nodes : list nat) : res (list nat) :=
    if i <? length nodes then
      match fuel with
      | 0 => NoFuel
      | S f =>
          let* p := vget nodes i in
          let* n := ar_get A p in
          let* cs := children n in
          let* qs := child_nodes cs in
          p_record f A (S i) (nodes ++ qs)
      end
    else Ok nodes.
  (** PackedKDTree.h:385-388: what bounds the node of a child *)
  Definition p_mask (A : memory) (p : nat) : res N :=
    let* n := ar_get A p in
    if p_used n =? 0 then Ok (a_mask (p_entries n)) else let* s := vget (p_slots n) 0 in of_option (s_mask s).
  (** PackedKDTree.h:376-389: [k] children are left; the last one comes first *)
  Fixpoint p_fix (k : nat) (A : memory) (p : nat) : res memory :=
    match k with
    | 0 => Ok A
    | S i =>
        let* n := ar_get A p in
        let* s := vget (p_slots n) i in
        let* rest := if k =? p_used n then Ok (a_mask (p_entries n)) else (let* s' := vget (p_slots n) k in of_option (s_mask s')) in
        let* q := of_option (s_node s) in
        let* below := p_mask A q in
        let* A' := set_slot A p i (mk_slot (s_var s) (s_exp s) (Some (klower C (klower C max_mask rest) below)) (s_node s)) in
        p_fix i A' p
    end.
  (** PackedKDTree.h:369-391 *)
  Fixpoint p_fix_all (A : memory) (nodes : list nat) : res memory :=
    match nodes with
    | [] => Ok A
    | p :: nodes' => let* n := ar_get A p in let* A' := p_fix (p_used n) A p in p_fix_all A' nodes'
    end.
  (** PackedKDTree.h:357-392: the masks *)
  Definition p_masks (T : ptree) : res ptree :=
    if negb (c_tree C) then Ok T else
    match p_root T with
    | None => UB
    | Some p =>
        let* nodes := p_record (length (ar_cells (p_arena T))) (p_arena T) 0 [p] in
        let* A := p_fix_all (p_arena T) (rev nodes) in
        Ok (mk_ptree A (p_root T))
    end.
  (** PackedKDTree.h:298-394 reset: what is left behind, and the exception if there is one *)
  Definition p_reset_leaves (T : ptree) (l : list M) (bits : list (nat * Z)) : res (ptree * option string) :=
    let* (T1, _) := p_clear T in
    match l with
    | [] => Ok (T1, None)
    | _ :: _ =>
        let* (T2, e) := p_reset_loop (2 ^ length l) T1 bits [mk_task l None] in
        match e with
        | Some _ => Ok (T2, e)
        | None => let* T3 := p_masks T2 in Ok (T3, None)
        end
    end.
  (** PackedKDTree.h:298-394 reset *)
  Definition p_reset (T : ptree) (l : list M) (bits : list (nat * Z)) : res ptree :=
    let* (T', e) := p_reset_leaves T l bits in match e with None => Ok T' | Some x => Throw x end.
End Packed.
