(** removeMultiples of src/mathic/KDTree.h once more, for client functions that throw, and with it all calls together.

    As in Throws.v, the functions below take the number of calls that return before one throws: calls of getExponent and divides, of push_back of
    the output, and of push_back of the member _tmp.  The nodes that removeMultiples leaves in _tmp are given by the ways to them, and as it
    changes leaves only, a node that was left there earlier is still a node of the tree.  An exception leaves the tree, _tmp and what has been given
    to the output.  An entry whose push_back throws is not among the latter and is still in the tree. *)
From Coq Require Import List Arith Bool ZArith NArith.
From Verif.Base Require Import Res Arr ResList StdAlg Fault.
From Verif.DivMask Require Import Model.
From Verif.Spec Require Import DivFinder DivCaught.
From Verif.DivList Require Model Throws.
From Verif.KD Require Import EntryArray Tree Model Throws InsertThrows.
Import ListNotations.

Section RemoveThrows.
  Context {M : Type}.
  Variable C : kconf M.
  Variable packed alloc : bool.
  Variable ub_calls : list (ext M) -> ext M -> nat.
  Variable sort_x : nat -> list (ext M) -> fout (list (ext M)) (list (ext M)).
  Variable part_x : nat -> (ext M -> bool) -> list (ext M) -> fout (list (ext M)) (list (ext M) * list (ext M)).
  Notation ext := (ext M).
  Notation earray := (earray M).
  Notation tree := (tree M).
  Notation todo := (@todo M).
  Notation kd := (kd M).
  Notation way := (list bool) (only parsing).

  (** KDEntryArray.h:286-325 removeMultiples; [seen] has been given to the output before.  The loops of 297-319 are those of DivList.h:230-245; if one of
      them is left by an exception then the entries that were to be destructed (KDEntryArray.h:320-322) are still there. *)
  Definition arr_remove_x (b : nat) (a : earray) (m : ext) (seen : list M) : res (fout (earray * list M) (earray * list M * nat)) :=
    if c_leaf C =? 1 then
      match a_list a with
      | [] => Ok (Fine b (a, seen, 0))
      | x :: _ =>
          fbind (kdiv_x C b (a, seen) m x) (fun b c =>
            if c then client b (a, seen) (fun b => let* a' := pop_back a in Ok (Fine b (a', seen ++ [x_t x], 1)))
            else Ok (Fine b (a, seen, 0)))
      end
    else
      fbind (fleft (fun st => (mk_arr (Model.l_list (fst st)) (a_mask a), seen ++ snd st))
              (Throws.remove_multiples_vector_x M (c_use C) (c_divides C) b (Model.mk_dlist (a_list a) [] 0 0) m)) (fun b r =>
        let '(l, out, count) := r in Ok (Fine b (mk_arr l (a_mask a), seen ++ out, count))).

  (** What an exception leaves of a subtree: the subtree, the ways to the nodes in it that are still to be visited, the next one first, and what the output
      has got.  BinaryKDTree.h:259-284, PackedKDTree.h:215-242 *)
  Notation left := (tree * list (list bool) * list M)%type.
  (** BinaryKDTree.h:267-281: getExponent, then push_back of the equal-or-less node *)
  Fixpoint remove_binary_x (b : nat) (p : list bool) (t : tree) (m : ext) (seen : list M) {struct t} : res (fout left (tree * list M * nat)) :=
    match t with
    | Leaf a =>
        fbind (fleft (fun st => (Leaf (fst st), [], snd st)) (arr_remove_x b a m seen)) (fun b r =>
          let '(a', out, n) := r in Ok (Fine b (Leaf a', out, n)))
    | Split v e mask le gt =>
        client b (t, [], seen) (fun b =>
          if negb (above C v e (x_t m)) then
            client b (t, [], seen) (fun b =>
              fbind (fleft (fun st => let '(gt', ps, xs) := st in (Split v e mask le gt', ps ++ [p ++ [false]], xs)) (remove_binary_x b (p ++ [true]) gt m seen)) (fun b r =>
                let '(gt', out1, n1) := r in
                fbind (fleft (fun st => let '(le', ps, xs) := st in (Split v e mask le' gt', ps, xs)) (remove_binary_x b (p ++ [false]) le m out1)) (fun b r =>
                  let '(le', out2, n2) := r in Ok (Fine b (Split v e mask le' gt', out2, n1 + n2)))))
          else
            fbind (fleft (fun st => let '(gt', ps, xs) := st in (Split v e mask le gt', ps, xs)) (remove_binary_x b (p ++ [true]) gt m seen)) (fun b r =>
              let '(gt', out, n) := r in Ok (Fine b (Split v e mask le gt', out, n))))
    end.
  (** PackedKDTree.h:226-239: push_back of a child, then getExponent *)
  Fixpoint remove_packed_x (b : nat) (p : list bool) (t : tree) (m : ext) (seen : list M) {struct t} : res (fout left (tree * list M * nat)) :=
    match t with
    | Leaf a =>
        fbind (fleft (fun st => (Leaf (fst st), [], snd st)) (arr_remove_x b a m seen)) (fun b r =>
          let '(a', out, n) := r in Ok (Fine b (Leaf a', out, n)))
    | Split v e mask le gt =>
        client b (t, [], seen) (fun b =>
          client b (t, [p ++ [true]], seen) (fun b =>
            if above C v e (x_t m) then
              fbind (fleft (fun st => let '(gt', ps, xs) := st in (Split v e mask le gt', ps, xs)) (remove_packed_x b (p ++ [true]) gt m seen)) (fun b r =>
                let '(gt', out, n) := r in Ok (Fine b (Split v e mask le gt', out, n)))
            else
              fbind (fleft (fun st => let '(le', ps, xs) := st in (Split v e mask le' gt, ps ++ [p ++ [true]], xs)) (remove_packed_x b (p ++ [false]) le m seen)) (fun b r =>
                let '(le', out1, n1) := r in
                fbind (fleft (fun st => let '(gt', ps, xs) := st in (Split v e mask le' gt', ps, xs)) (remove_packed_x b (p ++ [true]) gt m out1)) (fun b r =>
                  let '(gt', out2, n2) := r in Ok (Fine b (Split v e mask le' gt', out2, n1 + n2))))))
    end.
  (** See [remove_binary_x] and [remove_packed_x] *)
  Definition remove_x (b : nat) (p : list bool) (t : tree) (m : ext) (seen : list M) : res (fout left (tree * list M * nat)) :=
    if packed then remove_packed_x b p t m seen else remove_binary_x b p t m seen.
  (** The same for the node at the end of the way [q] from the subtree [t]: BinaryKDTree.h:279-280, PackedKDTree.h:237-238 *)
  Fixpoint remove_at_x (b : nat) (p q : list bool) (t : tree) (m : ext) (seen : list M) {struct q} : res (fout left (tree * list M * nat)) :=
    match q, t with
    | [], _ => remove_x b p t m seen
    | true :: q', Split v e mask le gt =>
        fbind (fleft (fun st => let '(gt', ps, xs) := st in (Split v e mask le gt', ps, xs)) (remove_at_x b (p ++ [true]) q' gt m seen)) (fun b r =>
          let '(gt', out, n) := r in Ok (Fine b (Split v e mask le gt', out, n)))
    | false :: q', Split v e mask le gt =>
        fbind (fleft (fun st => let '(le', ps, xs) := st in (Split v e mask le' gt, ps, xs)) (remove_at_x b (p ++ [false]) q' le m seen)) (fun b r =>
          let '(le', out, n) := r in Ok (Fine b (Split v e mask le' gt, out, n)))
    | _ :: _, Leaf _ => UB
    end.
  (** BinaryKDTree.h:266-281 and PackedKDTree.h:225-239: one node after the other *)
  Fixpoint remove_nodes_x (b : nat) (qs : list (list bool)) (t : tree) (m : ext) (seen : list M) (n : nat) {struct qs} : res (fout left (tree * list M * nat)) :=
    match qs with
    | [] => Ok (Fine b (t, seen, n))
    | q :: qs' =>
        fbind (fleft (fun st => let '(t', ps, xs) := st in (t', ps ++ qs', xs)) (remove_at_x b [] q t m seen)) (fun b r =>
          let '(t', out, k) := r in remove_nodes_x b qs' t' m out (n + k))
    end.
  (** The node at the end of a way; no C++ counterpart, as pointers to nodes are ways here *)
  Fixpoint subtree (t : tree) (q : list bool) {struct q} : option tree :=
    match q, t with
    | [], _ => Some t
    | c :: q', Split _ _ _ le gt => subtree (if c then gt else le) q'
    | _ :: _, Leaf _ => None
    end.
  (** Pointers to nodes, as Throws.v has them: BinaryKDTree.h:243, PackedKDTree.h:168 _tmp *)
  Definition pointers (t : tree) (qs : list (list bool)) : todo :=
    flat_map (fun q => match subtree t q with Some t' => [(q, t')] | None => [] end) qs.
  (** BinaryKDTree.h:259-284 and PackedKDTree.h:215-242 removeMultiples: the root and then what was left in _tmp, which is empty when it returns *)
  Definition tree_remove_x (b : nat) (root : option tree) (m : ext) (tmp : todo) : res (fout (option tree * todo * list M) (option tree * list M * nat * todo)) :=
    match root with
    | None => Ok (Fine b (None, [], 0, tmp))
    | Some t =>
        fbind (fleft (fun st => let '(t', ps, xs) := st in (Some t', pointers t' ps, xs)) (remove_nodes_x b ([] :: map fst tmp) t m [] 0)) (fun b r =>
          let '(t', out, n) := r in Ok (Fine b (Some t', out, n, [])))
    end.

  (** KDTree.h:109-117 removeMultiples.  An exception skips reportChanges, so that size() and the divisor cache are not changed.  The automatic rebuild
      is taken not to throw; see AutoThrows.v. *)
  Definition remove_multiples_x (b : nat) (s : kd) (mono : M) (tmp : todo) : res (fout (kd * todo * list M) (kd * bool * list M * todo)) :=
    if negb (c_removals C) then Ok (Left (s, tmp, [])) else
    clients (mask_calls C s) b (s, tmp, []) (fun b =>
      fbind (fleft (fun st => let '(t, tmp', xs) := st in (mk_kd t (k_bits s) (k_size s) (k_left s) (k_cache s) (k_rebuilds s), tmp', xs))
              (tree_remove_x b (k_tree s) (kext C (k_bits s) mono) tmp)) (fun b r =>
        let '(t, out, count, tmp') := r in
        let* s' := report_changes C packed (mk_kd t (k_bits s) (k_size s) (k_left s) (k_cache s) (k_rebuilds s)) 0 count in
        Ok (Fine b (s', 0 <? count, out, tmp')))).

  (** All calls, with _tmp: KDTree.h:97-251.  insert, removeElement and rebuild are modelled for an empty _tmp only, and nothing throws in rebuild. *)
  Definition all_x (b : nat) (s : kd) (tmp : todo) (o : dop M) : res (fout (kd * todo * list M) (kd * todo * dout M)) :=
    match o with
    | DRemoveMultiples m => fbind (remove_multiples_x b s m tmp) (fun b r => let '(s', c, out, tmp') := r in Ok (Fine b (s', tmp', DORemoved c out)))
    | DFindDivisor _ | DAllDivisors _ _ | DAllMultiples _ _ | DForAll _ | DSize => fleft (fun st => (s, fst st, snd st)) (step_x C packed ub_calls b s tmp o)
    | _ => match tmp with
           | [] => fbind (fleft (fun s' => (s', [], [])) (change_x C packed alloc ub_calls sort_x part_x b s o)) (fun b r => Ok (Fine b (fst r, [], snd r)))
           | _ :: _ => UB
           end
    end.
  (** The client makes a call in which so many of its functions return before one throws, and catches the exception: KDTree.h:97-251 *)
  Definition catch_all (st : kd * todo) (c : dop M * nat) : res (kd * todo * outcome M) :=
    let (s, tmp) := st in
    let* o := all_x (snd c) s tmp (fst c) in
    match o with
    | Fine _ (s', tmp', r) => Ok (s', tmp', Answered r)
    | Left (s', tmp', xs) => Ok (s', tmp', Threw xs)
    end.
End RemoveThrows.
