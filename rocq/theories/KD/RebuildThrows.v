(** rebuild of src/mathic/KDTree.h once more, for client functions and allocations that throw.

    As in Throws.v, the functions take the number of calls that return before one throws: calls of getExponent and isLessThan, of push_back of the
    recorder and of _tmp, and, if [alloc] is set, other allocations.  rebuild records all entries, rebuilds the calculator, clears the tree
    and builds it again, and nothing is undone if one of these steps throws.  Simplifications: copying an entry into a leaf does not throw, and
    neither do the allocations of clear (BinaryKDTree.h:559-577, PackedKDTree.h:521-536). *)
From Coq Require Import List Arith Bool ZArith NArith.
From Verif.Base Require Import Res Arr ResList StdAlg Fault.
From Verif.DivMask Require Import Model.
From Verif.Spec Require Import DivFinder DivCaught.
From Verif.DivList Require Throws.
From Verif.KD Require Import EntryArray Tree Model Throws InsertThrows.
Import ListNotations.

(** What an exception leaves of a KD tree (KDTree.h:244-251): *)
Inductive remains (M : Type) :=
| Usable (s : kd M) (tmp : @todo M)   (* an object with this tree and this _tmp *)
| Torn.                            (* an object in which a node has no children where it should, or their masks are not initialised (BinaryKDTree.h:103-110, PackedKDTree.h:62-66) *)
Arguments Usable {M}. Arguments Torn {M}.

Section RebuildThrows.
  Context {M : Type}.
  Variable C : kconf M.
  Variable packed : bool.
  Variable alloc : bool.
  Variable sort_x : nat -> list (ext M) -> fout (list (ext M)) (list (ext M)).
  (** std::partition on the range of recorded entries (KDEntryArray.h:179) *)
  Variable prange_x : nat -> (M -> bool) -> list M -> fout (list M) (list M * list M).
  Notation ext := (ext M).
  Notation earray := (earray M).
  Notation tree := (tree M).
  Notation todo := (@todo M).
  Notation kd := (kd M).

  (** Allocations one after the other, as in BinaryKDTree.h:356-365 and PackedKDTree.h:349-352 *)
  Definition allocations {St A : Type} (n b : nat) (st : St) (k : nat -> res (fout St A)) : res (fout St A) := if alloc then clients n b st k else k b.

  (** In the functions below an exception leaves whether _root has been set (BinaryKDTree.h:371-373, PackedKDTree.h:345-346); [set] is whether it has
      been set before. *)
  (** KDEntryArray.h:148-183 split of a range of recorded entries *)
  Definition split_range_x (b : nat) (set : bool) (l : list M) (var : option nat) : res (fout bool (nat * Z * list M * list M)) :=
    match l with
    | [] => if c_nvars C =? 0 then Ok (Left set) else UB
    | first :: _ =>
        fbind (choose_x C b set first l (c_nvars C) var) (fun b r =>
          let (v, x) := r in
          match prange_x b (fun y => negb (x <? c_ex C y v)%Z) l with
          | Fine b (le, gt) => Ok (Fine b (v, x, le, gt))
          | Left _ => Ok (Left set)
          end)
    end.
  (** BinaryKDTree.h:347-348 with KDEntryArray.h:194-215 and PackedKDTree.h:343-344: allocation of the node, the masks of the entries, the sort *)
  Definition leaf_x (b : nat) (set : bool) (bits : list (nat * Z)) (l : list M) : res (fout bool earray) :=
    allocations 1 b set (fun b =>
      clients (length l * DivList.Throws.mask_calls (c_use C) bits) b set (fun b =>
        let* a := push_all C arr_empty (map (kext C bits) l) in
        sort_arr_x C sort_x b (fun _ => set) a)).
  (** BinaryKDTree.h:342-395 and PackedKDTree.h:318-354, depth first with the equal-or-less part first, as [build] has it: the stack todo has the
      strictly-greater parts.  In the binary tree the interior node is allocated and todo grows (BinaryKDTree.h:356-365) and then _root is set, in the packed tree
      children grows (339), and _root is set when the entries of the node are in place; [kids] is the size of children, which are then
      moved to todo (PackedKDTree.h:349-352). *)
  Fixpoint build_x (b fuel : nat) (set : bool) (kids : nat) (bits : list (nat * Z)) (l : list M) (var : option nat) {struct fuel} : res (fout bool tree) :=
    match fuel with
    | 0 => NoFuel
    | S f =>
        if length l <=? c_leaf C then
          fbind (leaf_x b set bits l) (fun b a => allocations (if packed then kids else 0) b true (fun b => Ok (Fine b (Leaf a))))
        else
          fbind (split_range_x b set l var) (fun b r =>
            let '(v, x, le, gt) := r in
            allocations (if packed then 1 else 2) b set (fun b =>
              fbind (build_x b f (if packed then set else true) (S kids) bits le (Some v)) (fun b tle =>
                fbind (build_x b f true 0 bits gt (Some v)) (fun b tgt =>
                  Ok (Fine b (Split v x (klower C (klower C max_mask (node_mask tle)) (node_mask tgt)) tle tgt))))))
    end.
  (** The number of nodes that are recorded for the computation of masks: interior nodes (BinaryKDTree.h:398-409) or all nodes (PackedKDTree.h:357-367) *)
  Fixpoint splits_in (t : tree) : nat := match t with Leaf _ => 0 | Split _ _ _ le gt => S (splits_in le + splits_in gt) end.
  (** See [splits_in] *)
  Definition recorded (t : tree) : nat := if packed then S (splits_in t) else splits_in t.
  (** The masks of interior nodes before they are computed (DivMask.h:360, BinaryKDTree.h:108-110) *)
  Fixpoint bare (t : tree) : tree := match t with Leaf a => Leaf a | Split v x _ le gt => Split v x max_mask (bare le) (bare gt) end.
  (** BinaryKDTree.h:329-421 and PackedKDTree.h:298-392 reset.  [after] is the object with a given tree.  A packed node does not initialise the masks of its
      children (PackedKDTree.h:45-54). *)
  Definition reset_x (b : nat) (after : option tree -> kd) (l : list M) (bits : list (nat * Z)) : res (fout (remains M) (option tree)) :=
    match l with
    | [] => Ok (Fine b None)
    | _ :: _ =>
        let left (set : bool) := if set then Torn else Usable (after None) [] in
        allocations (if packed then 1 else 0) b (left false) (fun b =>
          fbind (fleft left (build_x b (length l) false 0 bits l None)) (fun b t =>
            if c_tree C then
              allocations (recorded t) b (if packed && negb (splits_in t =? 0) then Torn else Usable (after (Some (bare t))) []) (fun b => Ok (Fine b (Some t)))
            else Ok (Fine b (Some t))))
    end.
  (** The divisor cache once the entries have been freed (BinaryKDTree.h:559-577, PackedKDTree.h:521-536): a place at which there is no entry *)
  Definition freed (p : place) : place := (fst p, c_leaf C).
  (** KDTree.h:244-251 rebuild; [tmp] is what an exception in an earlier search has left in _tmp *)
  Definition rebuild_all_x (b : nat) (s : kd) (tmp : todo) : res (fout (remains M) kd) :=
    let after bits t := mk_kd t bits (k_size s) (k_left s) (option_map freed (k_cache s)) (S (k_rebuilds s)) in
    allocations 1 b (Usable s tmp) (fun b =>
      fbind (fleft (fun st => Usable s (fst st)) (tree_for_all_x C packed b (k_tree s) recorder tmp)) (fun b r =>
        let l := fst r in
        fbind (fleft (fun bits => Usable (mk_kd (k_tree s) bits (k_size s) (k_left s) (k_cache s) (k_rebuilds s)) [])
                (DivList.Throws.calc_rebuild_x M (c_ex C) (c_nvars C) (c_type C) (c_sort_data C) (c_use C) b l)) (fun b bits =>
          fbind (reset_x b (after bits) l bits) (fun b t =>
            Ok (Fine b (reset_changes C (mk_kd t bits (k_size s) (k_left s) (k_cache s) (S (k_rebuilds s))))))))).
  (** The client calls rebuild, so many calls return before one throws, and the client catches the exception: KDTree.h:244-251 *)
  Definition catch_rebuild (s : kd) (tmp : todo) (b : nat) : res (remains M * outcome M) :=
    let* o := rebuild_all_x b s tmp in
    match o with
    | Fine _ s' => Ok (Usable s' [], Answered DONone)
    | Left r => Ok (r, Threw [])
    end.
End RebuildThrows.
