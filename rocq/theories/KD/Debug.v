(** Model of debugIsValid of BinaryKDTree.h, PackedKDTree.h and KDEntryArray.h, and of KDTree in a build with MATHIC_DEBUG, where the trees check
    themselves.

    The checks only read the tree, so the order in which the C++ loops visit the nodes is not modelled.  Left out are the assertions that _tmp
    is empty and the one that the rebuild ratio, a constant of the configuration, is positive. *)
From Coq Require Import List Arith Bool ZArith NArith String.
From Verif.Base Require Import Res Arr ResList StdAlg.
From Verif.DivMask Require Import Model.
From Verif.Spec Require Import DivFinder.
From Verif.KD Require Import EntryArray Tree Model.
Import ListNotations.
Local Notation length := List.length.

Section Debug.
  Context {M : Type}.
  Variable C : kconf M.
  Notation ext := (ext M).
  Notation earray := (earray M).
  Notation tree := (tree M).
  Notation kd := (kd M).

  (** KDEntryArray.h:482-491 debugIsValid *)
  Definition arr_debug (a : earray) : bool :=
    (c_removals C || negb (length (a_list a) =? 0)) && (length (a_list a) <=? c_leaf C) &&
    (negb (c_tree C && (1 <? c_leaf C)) || forallb (fun e => can_divide (a_mask a) (x_mask e)) (a_list a)).
  (** KDEntryArray.h:448-458 allStrictlyGreaterThan *)
  Definition all_above (v : nat) (x : Z) (a : earray) : bool := forallb (fun e => (x <? c_ex C (x_t e) v)%Z) (a_list a).
  (** KDEntryArray.h:460-470 allLessThanOrEqualTo *)
  Definition all_not_above (v : nat) (x : Z) (a : earray) : bool := forallb (fun e => negb (x <? c_ex C (x_t e) v)%Z) (a_list a).
  (** !C::UseTreeDivMask || a.canDivide(b), e.g. PackedKDTree.h:596-597; BinaryKDTree.h:664-669 *)
  Definition mask_below (m m' : N) : bool := negb (c_tree C) || can_divide m m'.

  (** ** The binary tree *)
  (** All nodes of the tree (BinaryKDTree.h:632-644) *)
  Fixpoint all_nodes (t : tree) : list tree :=
    t :: match t with Leaf _ => [] | Split _ _ _ le gt => all_nodes gt ++ all_nodes le end.
  (** BinaryKDTree.h:660-676 and 679-695: the nodes on one side of an interior node with mask [m] *)
  Definition side_binary (m : N) (ok : earray -> bool) (t : tree) : bool :=
    forallb (fun n => mask_below m (node_mask n) && match n with Leaf a => ok a | Split _ _ _ _ _ => true end) (all_nodes t).
  (** BinaryKDTree.h:621-699 debugIsValid of a tree that is not empty; the sum of the sizes (635, 643) is never looked at *)
  Definition debug_binary (t : tree) : bool :=
    forallb (fun n => match n with Leaf _ => true | Split v _ _ _ _ => v <? c_nvars C end) (all_nodes t) &&
    forallb (fun n => match n with
                      | Leaf a => arr_debug a
                      | Split v x m le gt => side_binary m (all_not_above v x) le && side_binary m (all_above v x) gt
                      end) (all_nodes t).

  (** ** The packed tree *)
  (** The children of a node: variable, exponent, mask and node (PackedKDTree.h:62-66) *)
  Fixpoint children (t : tree) : list (nat * Z * N * tree) :=
    match t with Leaf _ => [] | Split v x m le gt => (v, x, m, gt) :: children le end.
  (** The nodes below a node, and if [top] the node itself (PackedKDTree.h:588-600) *)
  Fixpoint packed_nodes (top : bool) (t : tree) : list tree :=
    (if top then [t] else []) ++ match t with Leaf _ => [] | Split _ _ _ le gt => packed_nodes true gt ++ packed_nodes false le end.
  (** PackedKDTree.h:613-626 and 636-648: the nodes in the subtree [t] *)
  Definition side_packed (m : N) (ok : earray -> bool) (t : tree) : bool :=
    forallb (fun n => forallb (fun '(_, _, m', _) => mask_below m m') (children n) && ok (node_entries n) && mask_below m (a_mask (node_entries n)))
      (packed_nodes true t).
  (** PackedKDTree.h:607-649: the loop over the children of an ancestor whose entries are [a] *)
  Fixpoint ancestor_debug (a : earray) (t : tree) : bool :=
    match t with
    | Leaf _ => true
    | Split v x m le gt =>
        side_packed m (all_above v x) gt && all_not_above v x a &&
        forallb (fun '(_, _, m', _) => mask_below m m') (children le) &&
        forallb (fun '(_, _, _, n) => side_packed m (all_not_above v x) n) (children le) &&
        ancestor_debug a le
    end.
  (** PackedKDTree.h:576-653 debugIsValid of a tree that is not empty *)
  Definition debug_packed (t : tree) : bool :=
    forallb (fun n => arr_debug (node_entries n) &&
                      forallb (fun '(v, _, m, _) => (v <? c_nvars C) && mask_below m (a_mask (node_entries n))) (children n)) (packed_nodes true t) &&
    forallb (fun n => ancestor_debug (node_entries n) n) (packed_nodes true t).
  (** PackedKDTree.h:744-755: the mask of each child divides that of the next child, or of the entries, and that of the first child of its node,
      or of the entries there *)
  Fixpoint chain_debug (t : tree) : bool :=
    match t with
    | Leaf _ => true
    | Split _ _ m le gt => mask_below m (node_mask le) && mask_below m (node_mask gt) && chain_debug le
    end.
  (** PackedKDTree.h:737-758 Node::debugIsValid *)
  Definition node_debug (t : tree) : bool := arr_debug (node_entries t) && chain_debug t.

  (** BinaryKDTree.h:621-699, PackedKDTree.h:576-653 debugIsValid *)
  Definition tree_debug (packed : bool) (root : option tree) : bool :=
    match root with None => true | Some t => if packed then debug_packed t else debug_binary t end.
  (** PackedKDTree.h:390, 731-732: debugIsValid of nodes, here asked of all nodes *)
  Definition nodes_debug (packed : bool) (root : option tree) : bool :=
    match root with None => true | Some t => negb packed || forallb node_debug (packed_nodes true t) end.

  (** ** KDTree with assertions *)
  Variable packed : bool.
  (** MATHIC_ASSERT(X) with MATHIC_DEBUG (stdinc.h:84-87); that the program is aborted counts as [UB] *)
  Definition asserted {A} (b : bool) (r : res A) : res A := if b then r else UB.
  (** KDTree.h:244-251 rebuild, with BinaryKDTree.h:420, PackedKDTree.h:390 and 393 *)
  Definition rebuild_debug (s : kd) : res kd :=
    let* l := tree_for_all C packed (k_tree s) recorder in
    let* bits := kcalc C l in
    let* t := tree_reset C l bits in
    asserted (nodes_debug packed t && tree_debug packed t)
      (Ok (reset_changes C (mk_kd t bits (k_size s) (k_left s) (k_cache s) (S (k_rebuilds s))))).
  (** KDTree.h:341-363 reportChanges *)
  Definition report_debug (s : kd) (additions removals : nat) : res kd :=
    let cache := if c_cache C && negb (additions + removals =? 0) then None else k_cache s in
    asserted (removals <=? k_size s + additions) (   (* 353 *)
    let size := k_size s + additions - removals in
    let changes := additions + removals in
    if negb (c_auto C) then Ok (mk_kd (k_tree s) (k_bits s) size (k_left s) cache (k_rebuilds s))
    else if changes <? k_left s then Ok (mk_kd (k_tree s) (k_bits s) size (k_left s - changes) cache (k_rebuilds s))
    else rebuild_debug (mk_kd (k_tree s) (k_bits s) size (k_left s) cache (k_rebuilds s))).
  (** KDTree.h:140-144 insert, with PackedKDTree.h:267, 295 and 731-732, BinaryKDTree.h:325; the binary tree checks itself only if no leaf was
      split, here always *)
  Definition insert_debug (s : kd) (entry : M) : res kd :=
    asserted (negb packed || tree_debug packed (k_tree s)) (
    let* t := tree_insert C packed (k_tree s) (kext C (k_bits s) entry) in
    asserted (nodes_debug packed t && tree_debug packed t) (
    report_debug (mk_kd t (k_bits s) (k_size s) (k_left s) (k_cache s) (k_rebuilds s)) 1 0)).
  (** KDTree.h:109-117 removeMultiples with the assertion of 110, BinaryKDTree.h:283 and PackedKDTree.h:241 *)
  Definition remove_multiples_debug (s : kd) (mono : M) : res (kd * bool * list M) :=
    asserted (c_removals C) (
    let* (t, out, count) := tree_remove C packed (k_tree s) (kext C (k_bits s) mono) in
    asserted (tree_debug packed t) (
    let* s' := report_debug (mk_kd t (k_bits s) (k_size s) (k_left s) (k_cache s) (k_rebuilds s)) 0 count in
    Ok (s', 0 <? count, out))).
  (** KDTree.h:171-176 removeElement with the assertion of 172 and PackedKDTree.h:261 *)
  Definition remove_element_debug (s : kd) (mono : M) : res (kd * bool) :=
    asserted (c_removals C) (
    let* (t, b) := tree_remove_element C (k_tree s) mono in
    asserted (tree_debug packed t) (Ok (mk_kd t (k_bits s) (k_size s) (k_left s) (k_cache s) (k_rebuilds s), b))).
  (** KDTree.h:180-193 findDivisor: the binary tree checks itself (BinaryKDTree.h:427) before a search, which the cache may make superfluous;
      here always.  BinaryKDTree.h:450, PackedKDTree.h:419: what was found divides. *)
  Definition find_divisor_debug (s : kd) (mono : M) : res (kd * option place) :=
    asserted (packed || tree_debug packed (k_tree s)) (
    let* (s', r) := find_divisor C s mono in
    match r with
    | None => Ok (s', r)
    | Some p => let* e := entry_at s' p in asserted (c_divides C e mono) (Ok (s', r))
    end).
  (** One call: KDTree.h:97-251 *)
  Definition step_debug (s : kd) (o : dop M) : res (kd * dout M) :=
    match o with
    | DInsert e => let* s' := insert_debug s e in Ok (s', DONone)
    | DRemoveMultiples m => let* (s', b, out) := remove_multiples_debug s m in Ok (s', DORemoved b out)
    | DRemoveElement m => if packed then (let* (s', b) := remove_element_debug s m in Ok (s', DOBool b)) else UB
    | DFindDivisor m => let* (s', r) := find_divisor_debug s m in
                        match r with
                        | None => Ok (s', DOFound None)
                        | Some p => let* e := entry_at s' p in Ok (s', DOFound (Some e))
                        end
    | DRebuild => let* s' := rebuild_debug s in Ok (s', DONone)
    | _ => step C packed s o
    end.
End Debug.
