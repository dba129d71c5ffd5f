(** Model of the searches and removals of KDTree.h, BinaryKDTree.h, PackedKDTree.h and KDEntryArray.h in which calls of the configuration are
    counted: a call of divides that involves the entry [x] counts [w x] (see DivList/Counted.v), a look at an exponent of the monomial in order to
    find the way through the tree counts [we].

    The exponents looked at to compute masks and to split leaves, and the comparisons of std::upper_bound, are not counted.  Everything that
    is not counted is as in Model.v. *)
From Coq Require Import List Arith Bool ZArith NArith String.
From Verif.Base Require Import Res Arr ResList StdAlg Count.
From Verif.DivMask Require Import Model.
From Verif.Spec Require Import DivFinder.
From Verif.DivList Require Import Counted.
From Verif.KD Require Import EntryArray Tree Model.
Import ListNotations.
Local Notation length := List.length.

(** The interior nodes of a binary tree (BinaryKDTree.h:84-149); the children of all nodes of a packed one (PackedKDTree.h:35-114) *)
Fixpoint splits {M} (t : tree M) : nat := match t with Leaf _ => 0 | Split _ _ _ le gt => S (splits le + splits gt) end.
(** As [splits], of the whole tree: BinaryKDTree.h:84-149, PackedKDTree.h:35-114 *)
Definition root_splits {M} (root : option (tree M)) : nat := match root with None => 0 | Some t => splits t end.

Section Counted.
  Context {M : Type}.
  Variable C : kconf M.
  Variable packed : bool.
  Variable w : M -> nat.
  Variable we : nat.
  Notation ext := (ext M).
  Notation earray := (earray M).
  Notation tree := (tree M).
  Notation kd := (kd M).
  Notation divisor_test := (divisor_test M (c_use C) (c_divides C) w).
  Notation multiple_test := (multiple_test M (c_use C) (c_divides C) w).

  (** KDEntryArray.h:286-325 removeMultiples *)
  Definition arr_remove_c (a : earray) (m : ext) : counted (earray * list M * nat) :=
    if c_leaf C =? 1 then
      match a_list a with
      | [] => Ok (a, [], 0, 0)
      | x :: _ => let@ b := Ok (multiple_test m x) in
                  if b then (let@ a' := free (pop_back a) in Ok (a', [x_t x], 1, 0)) else Ok (a, [], 0, 0)
      end
    else
      let@ (l, out, count) := remove_multiples_vector_c M (c_use C) (c_divides C) w m (a_list a) in
      Ok (mk_arr l (a_mask a), out, count, 0).
  (** KDEntryArray.h:351-380 findDivisor *)
  Definition arr_find_c (a : earray) (m : ext) : counted (option nat) :=
    if ruled_out C a m then Ok (None, 0)
    else if c_leaf C =? 1 then
      match a_list a with
      | [] => if c_removals C then Ok (None, 0) else UB
      | x :: _ => let@ b := Ok (divisor_test m x) in Ok (if b then Some 0 else None, 0)
      end
    else if negb (c_sorted C) then scan_c M (divisor_test m) (a_list a)
    else let@ i := free (upper_bound (kcomp C) (a_list a) m) in
         scan_c M (divisor_test m) (firstn i (a_list a)).
  (** Report the entries of a leaf that satisfy a test, as [arr_report] (KDEntryArray.h:384-432) *)
  Definition arr_report_c (cb : callback M) (p : test M) (l : list ext) (seen : list M) : counted (list M * bool) :=
    if c_leaf C =? 1 then
      match l with
      | [] => if c_removals C then Ok (seen, true, 0) else UB
      | x :: _ => let@ b := Ok (p x) in
                  Ok (if b then (seen ++ [x_t x], cb (seen ++ [x_t x])) else (seen, true), 0)
      end
    else feed_c M cb p l seen.
  (** KDEntryArray.h:384-412 findAllDivisors *)
  Definition arr_divisors_c (a : earray) (m : ext) (cb : callback M) (seen : list M) : counted (list M * bool) :=
    if ruled_out C a m then Ok (seen, true, 0)
    else if (c_leaf C =? 1) || negb (c_sorted C) then arr_report_c cb (divisor_test m) (a_list a) seen
    else let@ i := free (upper_bound (kcomp C) (a_list a) m) in
         arr_report_c cb (divisor_test m) (firstn i (a_list a)) seen.
  (** KDEntryArray.h:416-432 findAllMultiples *)
  Definition arr_multiples_c (a : earray) (m : ext) (cb : callback M) (seen : list M) : counted (list M * bool) :=
    arr_report_c cb (multiple_test m) (a_list a) seen.

  (** The test getExponent() < conf.getExponent(m, getVar()), e.g. BinaryKDTree.h:126, PackedKDTree.h:77 *)
  Definition above_c (v : nat) (e : Z) (m : M) : counted bool := Ok (above C v e m, we).

  (** BinaryKDTree.h:432-462 and PackedKDTree.h:403-433 findDivisor *)
  Fixpoint find_loop_c (fuel : nat) (m : ext) (p : list bool) (t : tree) (stack : @todo M) : counted (option place) :=
    match fuel with
    | 0 => NoFuel
    | S f =>
        let next := match stack with [] => Ok (None, 0) | (p', t') :: stack' => find_loop_c f m p' t' stack' end in
        match t with
        | Split v e mask le gt =>
            if c_tree C && negb (can_divide mask (x_mask m)) then next else
            let@ b := above_c v e (x_t m) in
            find_loop_c f m (p ++ [false]) le (if b then (p ++ [true], gt) :: stack else stack)
        | Leaf a =>
            let@ r := arr_find_c a m in
            match r with
            | Some i => Ok (Some (p, i), 0)
            | None => next
            end
        end
    end.
  (** BinaryKDTree.h:432-462 and PackedKDTree.h:403-433 findDivisor *)
  Definition tree_find_c (root : option tree) (m : ext) : counted (option place) :=
    match root with None => Ok (None, 0) | Some t => find_loop_c (nodes t) m [] t [] end.
  (** BinaryKDTree.h:472-496 and PackedKDTree.h:446-464 findAllDivisors *)
  Fixpoint divisors_loop_c (fuel : nat) (m : ext) (cb : callback M) (t : tree) (stack : list tree) (seen : list M) : counted (list M) :=
    match fuel with
    | 0 => NoFuel
    | S f =>
        let next seen := match stack with [] => Ok (seen, 0) | t' :: stack' => divisors_loop_c f m cb t' stack' seen end in
        match t with
        | Split v e mask le gt =>
            if c_tree C && negb (can_divide mask (x_mask m)) then next seen else
            let@ b := above_c v e (x_t m) in
            divisors_loop_c f m cb le (if b then gt :: stack else stack) seen
        | Leaf a => let@ (seen', go) := arr_divisors_c a m cb seen in if go then next seen' else Ok (seen', 0)
        end
    end.
  (** BinaryKDTree.h:464-496 and PackedKDTree.h:435-464 findAllDivisors *)
  Definition tree_divisors_c (root : option tree) (m : ext) (cb : callback M) : counted (list M) :=
    match root with None => Ok ([], 0) | Some t => divisors_loop_c (nodes t) m cb t [] [] end.
  (** BinaryKDTree.h:507-528 findAllMultiples *)
  Fixpoint multiples_loop_c (fuel : nat) (m : ext) (cb : callback M) (t : tree) (stack : list tree) (seen : list M) : counted (list M) :=
    match fuel with
    | 0 => NoFuel
    | S f =>
        match t with
        | Split v e _ le gt => let@ b := above_c v e (x_t m) in
                               multiples_loop_c f m cb gt (if negb b then le :: stack else stack) seen
        | Leaf a => let@ (seen', go) := arr_multiples_c a m cb seen in
                    if go then (match stack with [] => Ok (seen', 0) | t' :: stack' => multiples_loop_c f m cb t' stack' seen' end) else Ok (seen', 0)
        end
    end.
  (** PackedKDTree.h:478-494 findAllMultiples *)
  Fixpoint multiples_loop_packed_c (fuel : nat) (m : ext) (cb : callback M) (t : tree) (stack : list tree) (seen : list M) : counted (list M) :=
    match fuel with
    | 0 => NoFuel
    | S f =>
        match t with
        | Split v e _ le gt =>
            let@ b := above_c v e (x_t m) in
            if b then multiples_loop_packed_c f m cb gt stack seen
            else multiples_loop_packed_c f m cb le (gt :: stack) seen
        | Leaf a => let@ (seen', go) := arr_multiples_c a m cb seen in
                    if go then (match stack with [] => Ok (seen', 0) | t' :: stack' => multiples_loop_packed_c f m cb t' stack' seen' end) else Ok (seen', 0)
        end
    end.
  (** BinaryKDTree.h:498-528 and PackedKDTree.h:466-494 findAllMultiples *)
  Definition tree_multiples_c (root : option tree) (m : ext) (cb : callback M) : counted (list M) :=
    match root with
    | None => Ok ([], 0)
    | Some t => if packed then multiples_loop_packed_c (nodes t) m cb t [] [] else multiples_loop_c (nodes t) m cb t [] []
    end.

  (** BinaryKDTree.h:267-281 *)
  Fixpoint remove_binary_c (t : tree) (m : ext) : counted (tree * list M * nat) :=
    match t with
    | Leaf a => let@ (a', out, n) := arr_remove_c a m in Ok (Leaf a', out, n, 0)
    | Split v e mask le gt =>
        let@ (gt', out1, n1) := remove_binary_c gt m in
        let@ b := above_c v e (x_t m) in
        if negb b then
          let@ (le', out2, n2) := remove_binary_c le m in Ok (Split v e mask le' gt', out1 ++ out2, n1 + n2, 0)
        else Ok (Split v e mask le gt', out1, n1, 0)
    end.
  (** PackedKDTree.h:226-239 *)
  Fixpoint remove_packed_c (t : tree) (m : ext) : counted (tree * list M * nat) :=
    match t with
    | Leaf a => let@ (a', out, n) := arr_remove_c a m in Ok (Leaf a', out, n, 0)
    | Split v e mask le gt =>
        let@ b := above_c v e (x_t m) in
        if b then
          let@ (gt', out, n) := remove_packed_c gt m in Ok (Split v e mask le gt', out, n, 0)
        else
          let@ (le', out1, n1) := remove_packed_c le m in
          let@ (gt', out2, n2) := remove_packed_c gt m in
          Ok (Split v e mask le' gt', out1 ++ out2, n1 + n2, 0)
    end.
  (** BinaryKDTree.h:259-284 and PackedKDTree.h:215-242 removeMultiples *)
  Definition tree_remove_c (root : option tree) (m : ext) : counted (option tree * list M * nat) :=
    match root with
    | None => Ok (None, [], 0, 0)
    | Some t => let@ (t', out, n) := if packed then remove_packed_c t m else remove_binary_c t m in Ok (Some t', out, n, 0)
    end.
  (** KDTree.h:109-117 removeMultiples *)
  Definition remove_multiples_c (s : kd) (mono : M) : counted (kd * bool * list M) :=
    if negb (c_removals C) then Throw disabled else
    let@ (t, out, count) := tree_remove_c (k_tree s) (kext C (k_bits s) mono) in
    let@ s' := free (report_changes C packed (mk_kd t (k_bits s) (k_size s) (k_left s) (k_cache s) (k_rebuilds s)) 0 count) in
    Ok (s', 0 <? count, out, 0).
  (** KDTree.h:180-193 findDivisor; the test of the cached divisor does not look at masks *)
  Definition find_divisor_c (s : kd) (mono : M) : counted (kd * option place) :=
    let search :=
      let@ r := tree_find_c (k_tree s) (kext C (k_bits s) mono) in
      Ok (match r with
          | Some _ => if c_cache C then mk_kd (k_tree s) (k_bits s) (k_size s) (k_left s) r (k_rebuilds s) else s
          | None => s
          end, r, 0) in
    if c_cache C then
      match k_cache s with
      | Some p => let@ e := free (entry_at s p) in
                  let@ b := Ok (c_divides C e mono, w e) in
                  if b then Ok (s, Some p, 0) else search
      | None => search
      end
    else search.

  (** One call: KDTree.h:97-251; for the calls not listed nothing is counted *)
  Definition step_c (s : kd) (o : dop M) : counted (kd * dout M) :=
    match o with
    | DRemoveMultiples m => let@ (s', b, out) := remove_multiples_c s m in Ok (s', DORemoved b out, 0)
    | DFindDivisor m => let@ (s', r) := find_divisor_c s m in
                        match r with
                        | None => Ok (s', DOFound None, 0)
                        | Some p => let@ e := free (entry_at s' p) in Ok (s', DOFound (Some e), 0)
                        end
    | DAllDivisors m cb => let@ xs := tree_divisors_c (k_tree s) (kext C (k_bits s) m) cb in Ok (s, DOList xs, 0)
    | DAllMultiples m cb => let@ xs := tree_multiples_c (k_tree s) (kext C (k_bits s) m) cb in Ok (s, DOList xs, 0)
    | _ => free (step C packed s o)
    end.
End Counted.
