(** insert and removeElement of src/mathic/KDTree.h once more, for client functions and allocations that throw.

    As in Throws.v, the functions take the number of calls that return before one throws.  Calls of getExponent and isLessThan are counted and, if
    [alloc] is set, allocations of nodes from the arena.  Each function follows the one of the same name in EntryArray.v, Tree.v and Model.v.
    Simplifications: copying an entry does not throw; calls of getExponent between which nothing changes are counted together; an
    automatic rebuild at the end of insert does not throw, for which see C67 and KDMem/. *)
From Coq Require Import List Arith Bool ZArith NArith.
From Verif.Base Require Import Res Arr ResList StdAlg Fault.
From Verif.DivMask Require Import Model.
From Verif.Spec Require Import DivFinder DivCaught.
From Verif.DivList Require Model.
From Verif.KD Require Import EntryArray Tree Model Throws.
Import ListNotations.

Section InsertThrows.
  Context {M : Type}.
  Variable C : kconf M.
  Variable packed : bool.
  Variable alloc : bool.
  Variable ub_calls : list (ext M) -> ext M -> nat.  (* how many comparisons std::upper_bound makes *)
  (** std::sort with Comparer: after some comparisons the range is sorted, or one throws and the range is left in disarray *)
  Variable sort_x : nat -> list (ext M) -> fout (list (ext M)) (list (ext M)).
  (** std::partition: after as many calls as there are entries the range is partitioned, or one throws *)
  Variable part_x : nat -> (ext M -> bool) -> list (ext M) -> fout (list (ext M)) (list (ext M) * list (ext M)).
  Notation ext := (ext M).
  Notation earray := (earray M).
  Notation tree := (tree M).
  Notation kd := (kd M).

  (** An allocation in the arena, e.g. BinaryKDTree.h:305, 750, 756 and PackedKDTree.h:271, 699 *)
  Definition allocation {St A : Type} (b : nat) (st : St) (k : nat -> res (fout St A)) : res (fout St A) := if alloc then client b st k else k b.
  (** KDEntryArray.h:268-276 insert *)
  Definition arr_insert_x {St : Type} (b : nat) (st : St) (a : earray) (e : ext) : res (fout St earray) :=
    if negb (c_sorted C) then (let* a' := push_back C a e in Ok (Fine b a')) else
    let* it := upper_bound (kcomp C) (a_list a) e in
    clients (ub_calls (a_list a) e) b st (fun b => let* a' := insert_at C a it e in Ok (Fine b a')).
  (** KDEntryArray.h:212-213, 233-234, BinaryKDTree.h:753-754, PackedKDTree.h:720-721; [st l] is what is left if the range is left as [l] *)
  Definition sort_arr_x {St : Type} (b : nat) (st : list ext -> St) (a : earray) : res (fout St earray) :=
    if c_sorted C then
      match sort_x b (a_list a) with
      | Fine b l => Ok (Fine b (mk_arr l (a_mask a)))
      | Left l => Ok (Left (st l))
      end
    else Ok (Fine b a).
  (** KDEntryArray.h:158-182; each round makes two calls of getExponent for the first entry and two for each in the range.  The last line throws. *)
  Fixpoint choose_x {St : Type} (b : nat) (st : St) (first : M) (l : list M) (k : nat) (var : option nat) : res (fout St (nat * Z)) :=
    match k with
    | 0 => Ok (Left st)
    | S k' =>
        clients (2 + 2 * length l) b st (fun b =>
          let v := next_var C var in
          let (mn, mx) := bounds C first l v in
          if Z.eqb mn mx then choose_x b st first l k' (Some v) else
          let* d := norm (c_type C) (mx - mn)%Z in
          let* e := norm (c_type C) (mn + Z.quot d 2)%Z in
          Ok (Fine b (v, e)))
    end.

  (** What an exception leaves of a node: the node, and whether it takes the place of the whole root (BinaryKDTree.h:318-321, PackedKDTree.h:280-282
      set _root only after splitInsert has returned) *)
  Notation left := (tree * bool)%type.
  (** KDEntryArray.h:148-183 split, as used by splitInsert on the entries of a leaf *)
  Definition split_for_x (b : nat) (a : earray) (e : ext) (var : option nat) : res (fout left (nat * Z * list ext * list ext)) :=
    fbind (choose_x b (Leaf a, false) (x_t e) (map x_t (a_list a)) (c_nvars C) var) (fun b r =>
      let (v, x) := r in
      match part_x b (fun y => negb (x <? c_ex C (x_t y) v)%Z) (a_list a) with
      | Fine b (l, g) => Ok (Fine b (v, x, l, g))
      | Left l => Ok (Left (Leaf (mk_arr l (a_mask a)), false))
      end).
  (** BinaryKDTree.h:772-775, PackedKDTree.h:726-729 *)
  Definition split_node_x (b : nat) (st : left) (v : nat) (x : Z) (mask : N) (le gt : earray) (e : ext) : res (fout left tree) :=
    client b st (fun b =>
      if above C v x (x_t e) then fbind (arr_insert_x b st gt e) (fun b gt' => Ok (Fine b (Split v x mask (Leaf le) (Leaf gt'))))
      else fbind (arr_insert_x b st le e) (fun b le' => Ok (Fine b (Split v x mask (Leaf le') (Leaf gt))))).
  (** BinaryKDTree.h:742-778 splitInsert.  The strictly-greater part is copied (750) and removed from the leaf (751-752).  If there is a parent then it is
      told about the new node (763-770) before the entry is inserted, else the leaf is still the root. *)
  Definition split_insert_binary_x (b : nat) (root : bool) (a : earray) (e : ext) (var : option nat) : res (fout left tree) :=
    fbind (split_for_x b a e var) (fun b r =>
      let '(v, x, l, g) := r in
      allocation b (Leaf (mk_arr (l ++ g) (a_mask a)), false) (fun b =>
        let* gt0 := push_all C arr_empty g in
        fbind (sort_arr_x b (fun _ => (Leaf (mk_arr (l ++ g) (a_mask a)), false)) gt0) (fun b gt =>
          fbind (sort_arr_x b (fun l' => (Leaf (mk_arr l' (a_mask a)), false)) (mk_arr l (a_mask a))) (fun b le0 =>
            allocation b (Leaf le0, false) (fun b =>
              let le := arr_recalculate C le0 in
              let mask := klower C (klower C (klower C max_mask (a_mask le)) (a_mask gt)) (x_mask e) in
              split_node_x b (if root then (Leaf le, true) else (Split v x mask (Leaf le) (Leaf gt), false)) v x mask le gt e))))).
  (** The children of a packed node put in front of what follows them (PackedKDTree.h:701) *)
  Definition with_children (children : list (nat * Z * N * tree)) (t : tree) : tree :=
    fold_right (fun c t => let '(v, x, mask, gt) := c in Split v x mask t gt) t children.
  (** PackedKDTree.h:672-735 splitInsert.  The equal-or-less part is copied to a new node with the children of this one (699-701), which the parent is
      told about (706-707).  This node keeps the rest (716-719) and, until after the sort, its children (724). *)
  Definition split_insert_packed_x (b : nat) (root : bool) (children : list (nat * Z * N * tree)) (a : earray) (e : ext) (var : option nat)
    : res (fout left tree) :=
    fbind (split_for_x b a e var) (fun b r =>
      let '(v, x, l, g) := r in
      let old := (Leaf (mk_arr (l ++ g) (a_mask a)), false) in
      allocation b old (fun b =>
        let* le0 := push_all C arr_empty l in
        fbind (sort_arr_x b (fun _ => old) le0) (fun b le =>
          let mask := klower C (klower C max_mask (a_mask a)) (x_mask e) in
          fbind (sort_arr_x b (fun g' => if root then (Leaf (mk_arr g' (a_mask a)), false)
                                         else (Split v x mask (Leaf le) (with_children children (Leaf (mk_arr g' (a_mask a)))), false))
                  (mk_arr g (a_mask a))) (fun b gt0 =>
            let gt := arr_recalculate C gt0 in
            split_node_x b (if root then (Leaf gt, true) else (Split v x mask (Leaf le) (Leaf gt), false)) v x mask le gt e)))).

  (** BinaryKDTree.h:307-326 and PackedKDTree.h:274-294.  [root] tells whether this node, or the packed node that it is part of, is the root;
      [children] are those of the packed node met so far.  Masks on the way are lowered before getExponent is called. *)
  Fixpoint insert_tree_x (b : nat) (root : bool) (children : list (nat * Z * N * tree)) (t : tree) (e : ext) (var : option nat) {struct t} : res (fout left tree) :=
    match t with
    | Leaf a =>
        if length (a_list a) =? c_leaf C then (if packed then split_insert_packed_x b root children a e var else split_insert_binary_x b root a e var)
        else fbind (arr_insert_x b (Leaf a, false) a e) (fun b a' => Ok (Fine b (Leaf a')))
    | Split v x mask le gt =>
        let mask' := klower C mask (x_mask e) in
        let kept (f : tree -> tree) (st : left) : left := if snd st then st else (f (fst st), false) in
        client b (Split v x mask' le gt, false) (fun b =>
          if above C v x (x_t e) then
            fbind (fleft (kept (fun gt' => Split v x mask' le gt')) (insert_tree_x b false [] gt e (Some v))) (fun b gt' => Ok (Fine b (Split v x mask' le gt')))
          else
            fbind (fleft (kept (fun le' => Split v x mask' le' gt)) (insert_tree_x b (packed && root) (children ++ [(v, x, mask', gt)]) le e (Some v)))
              (fun b le' => Ok (Fine b (Split v x mask' le' gt))))
    end.
  (** The way to the leaf of an entry: BinaryKDTree.h:306-311, PackedKDTree.h:286-293 *)
  Fixpoint way (t : tree) (e : ext) : list bool :=
    match t with
    | Leaf _ => []
    | Split v x _ le gt => if above C v x (x_t e) then true :: way gt e else false :: way le e
    end.
  (** Whether there is an interior node at the end of a way; no C++ counterpart *)
  Fixpoint splits_at (t : tree) (p : list bool) : bool :=
    match t, p with
    | Split _ _ _ _ _, [] => true
    | Split _ _ _ le gt, b :: p' => splits_at (if b then gt else le) p'
    | Leaf _, _ => false
    end.
  (** The divisor cache points into memory: an entry of a leaf that was split is looked for in the part that stayed where it was, the
      equal-or-less part (BinaryKDTree.h:751-752) or the strictly-greater part (PackedKDTree.h:716-719) *)
  Definition moved (t : tree) (p : list bool) (c : place) : place :=
    if splits_at t p && (if list_eq_dec bool_dec (fst c) p then true else false) then (fst c ++ [packed], snd c) else c.

  (** KDTree.h:140-144 insert *)
  Definition insert_x (b : nat) (s : kd) (entry : M) : res (fout kd kd) :=
    clients (mask_calls C s) b s (fun b =>
      let e := kext C (k_bits s) entry in
      let after t := mk_kd (Some t) (k_bits s) (k_size s) (k_left s) (k_cache s) (k_rebuilds s) in
      let start b t :=
        fbind (fleft (fun st : left => mk_kd (Some (fst st)) (k_bits s) (k_size s) (k_left s) (option_map (moved (fst st) (way t e)) (k_cache s)) (k_rebuilds s))
                (insert_tree_x b true [] t e None)) (fun b t' =>
          let* s' := report_changes C packed (after t') 1 0 in Ok (Fine b s')) in
      match k_tree s with
      | Some t => start b t
      | None => allocation b s (fun b => start b (Leaf arr_empty))
      end).

  (** KDEntryArray.h:333-335: two calls of getExponent for each variable until they differ *)
  Fixpoint equal_calls (vars : list nat) (m : M) (x : ext) : nat :=
    match vars with
    | [] => 0
    | var :: vars' => 2 + if Z.eqb (c_ex C m var) (c_ex C (x_t x) var) then equal_calls vars' m x else 0
    end.
  (** KDEntryArray.h:332-344 *)
  Fixpoint scan_calls (m : M) (l : list ext) : nat :=
    match l with [] => 0 | x :: l' => equal_calls (seq 0 (c_nvars C)) m x + if kequal C m x then 0 else scan_calls m l' end.
  (** PackedKDTree.h:246-263 removeElement: nothing is changed before the last call of getExponent *)
  Fixpoint element_calls (t : tree) (m : M) : nat :=
    match t with
    | Leaf a => scan_calls m (a_list a)
    | Split v x _ le gt => S (if above C v x m then element_calls gt m else element_calls le m)
    end.
  (** KDTree.h:171-176 removeElement *)
  Definition remove_element_x (b : nat) (s : kd) (mono : M) : res (fout kd (kd * bool)) :=
    if negb (c_removals C) then Ok (Left s) else
    clients (match k_tree s with None => 0 | Some t => element_calls t mono end) b s (fun b =>
      let* r := remove_element C s mono in Ok (Fine b r)).

  (** One call: KDTree.h:97-251.  The others do not throw here. *)
  Definition change_x (b : nat) (s : kd) (o : dop M) : res (fout kd (kd * dout M)) :=
    match o with
    | DInsert e => fbind (insert_x b s e) (fun b s' => Ok (Fine b (s', DONone)))
    | DRemoveElement m => if packed then fbind (remove_element_x b s m) (fun b r => Ok (Fine b (fst r, DOBool (snd r)))) else UB
    | o => let* r := step C packed s o in Ok (Fine b r)
    end.
  (** The client makes a call in which so many of its functions return before one throws, and catches the exception: KDTree.h:97-251 *)
  Definition catch_change (s : kd) (c : dop M * nat) : res (kd * outcome M) :=
    let* o := change_x (snd c) s (fst c) in
    match o with
    | Fine _ (s', r) => Ok (s', Answered r)
    | Left s' => Ok (s', Threw [])
    end.

  (** Whether the leaf of an entry is full, and whether it belongs to the root: BinaryKDTree.h:316, 318 and PackedKDTree.h:277, 281 *)
  Fixpoint full_leaf (t : tree) (e : ext) : bool :=
    match t with
    | Leaf a => length (a_list a) =? c_leaf C
    | Split v x _ le gt => if above C v x (x_t e) then full_leaf gt e else full_leaf le e
    end.
  (** See [full_leaf] *)
  Fixpoint in_root (t : tree) (e : ext) : bool :=
    match t with
    | Leaf _ => true
    | Split v x _ le gt => packed && negb (above C v x (x_t e)) && in_root le e
    end.
  (** A call that splits a leaf: KDTree.h:140-144 *)
  Definition splits (s : kd) (o : dop M) : bool :=
    match o, k_tree s with DInsert e, Some t => full_leaf t (kext C (k_bits s) e) | _, _ => false end.
  (** A call that splits the root: KDTree.h:140-144 *)
  Definition splits_root (s : kd) (o : dop M) : bool :=
    match o, k_tree s with DInsert e, Some t => full_leaf t (kext C (k_bits s) e) && in_root t (kext C (k_bits s) e) | _, _ => false end.
End InsertThrows.
