(** Model of src/mathic/KDTree.h.

    [packed] is PackedTree, which selects the tree (36-47).  Not modelled: getName, getMemoryUse, and the functions that do not compile when used:
    insert of a range (153-167 calls _tree.insert(begin, end), which no tree has, and _tree.insert of an entry without mask), clear (237-241 calls
    _tree.calc(), which no tree has) and removeElement for the binary tree.  The overloads for const objects do the same as the others. *)
From Coq Require Import List Arith Bool ZArith NArith String.
From Verif.Base Require Import Res Arr ResList StdAlg.
From Verif.DivMask Require Import Model.
From Verif.Spec Require Import DivFinder.
From Verif.KD Require Import EntryArray Tree.
Import ListNotations.
Local Notation length := List.length.

(** KDTree.h:300-307 the members; [k_rebuilds] counts the calls of rebuild and is no part of the C++ state *)
Record kd (M : Type) := mk_kd {
  k_tree : option (tree M); k_bits : list (nat * Z); k_size : nat; k_left : nat; k_cache : option place; k_rebuilds : nat }.
Arguments mk_kd {M}. Arguments k_tree {M}. Arguments k_bits {M}. Arguments k_size {M}. Arguments k_left {M}. Arguments k_cache {M}.
Arguments k_rebuilds {M}.

Section KDTree.
  Context {M : Type}.
  Variable C : kconf M.
  Variable packed : bool.
  Notation kd := (kd M).

  (** DivMask.h:205 for UseDivMask, 346-353 (the empty calculator) otherwise *)
  Definition kcalc (l : list M) : res (list (nat * Z)) :=
    if c_use C then rebuild M (c_ex C) (c_nvars C) (c_type C) (c_sort_data C) l else Ok [].

  (** KDTree.h:329-339 resetNumberOfChangesTillRebuild *)
  Definition reset_changes (s : kd) : kd :=
    let cache := if c_cache C then None else k_cache s in
    if negb (c_auto C) then mk_kd (k_tree s) (k_bits s) (k_size s) (k_left s) cache (k_rebuilds s)
    else mk_kd (k_tree s) (k_bits s) (k_size s) (Nat.max (c_ratio C (k_size s)) (c_min C)) cache (k_rebuilds s).
  (** KDTree.h:62-69 the constructor; without a divisor cache or automatic rebuilds the members are uninitialised and never read *)
  Definition construct : res kd :=
    let* bits := kcalc [] in
    Ok (reset_changes (mk_kd None bits 0 0 None 0)).

  (** KDTree.h:266-279 EntryRecorder *)
  Definition recorder : callback M := fun _ => true.
  (** KDTree.h:244-251 rebuild *)
  Definition rebuild_kd (s : kd) : res kd :=
    let* l := tree_for_all C packed (k_tree s) recorder in
    let* bits := kcalc l in
    let* t := tree_reset C l bits in
    Ok (reset_changes (mk_kd t bits (k_size s) (k_left s) (k_cache s) (S (k_rebuilds s)))).
  (** KDTree.h:341-363 reportChanges and reportChangesRebuild; size_t wraps around if more is removed than there is *)
  Definition report_changes (s : kd) (additions removals : nat) : res kd :=
    let cache := if c_cache C && negb (additions + removals =? 0) then None else k_cache s in
    if k_size s + additions <? removals then UB else
    let size := k_size s + additions - removals in
    let changes := additions + removals in
    if negb (c_auto C) then Ok (mk_kd (k_tree s) (k_bits s) size (k_left s) cache (k_rebuilds s))
    else if changes <? k_left s then Ok (mk_kd (k_tree s) (k_bits s) size (k_left s - changes) cache (k_rebuilds s))
    else rebuild_kd (mk_kd (k_tree s) (k_bits s) size (k_left s) cache (k_rebuilds s)).

  (** KDTree.h:140-144 insert *)
  Definition insert (s : kd) (entry : M) : res kd :=
    let* t := tree_insert C packed (k_tree s) (kext C (k_bits s) entry) in
    report_changes (mk_kd t (k_bits s) (k_size s) (k_left s) (k_cache s) (k_rebuilds s)) 1 0.

  (** KDTree.h:100, 112, 174 *)
  Definition disabled : string := "Removal request while removals disabled.".
  (** KDTree.h:109-117 removeMultiples *)
  Definition remove_multiples (s : kd) (mono : M) : res (kd * bool * list M) :=
    if negb (c_removals C) then Throw disabled else
    let* (t, out, count) := tree_remove C packed (k_tree s) (kext C (k_bits s) mono) in
    let* s' := report_changes (mk_kd t (k_bits s) (k_size s) (k_left s) (k_cache s) (k_rebuilds s)) 0 count in
    Ok (s', 0 <? count, out).
  (** KDTree.h:171-176 removeElement; note that neither the size nor the divisor cache is updated *)
  Definition remove_element (s : kd) (mono : M) : res (kd * bool) :=
    if negb (c_removals C) then Throw disabled else
    let* (t, b) := tree_remove_element C (k_tree s) mono in
    Ok (mk_kd t (k_bits s) (k_size s) (k_left s) (k_cache s) (k_rebuilds s), b).

  (** The entry a pointer to an entry refers to (KDTree.h:180-193) *)
  Definition entry_at (s : kd) (p : place) : res M := match k_tree s with None => UB | Some t => deref t p end.
  (** KDTree.h:180-193 findDivisor *)
  Definition find_divisor (s : kd) (mono : M) : res (kd * option place) :=
    let search :=
      let* r := tree_find C (k_tree s) (kext C (k_bits s) mono) in
      Ok (match r with
          | Some _ => if c_cache C then mk_kd (k_tree s) (k_bits s) (k_size s) (k_left s) r (k_rebuilds s) else s
          | None => s
          end, r) in
    if c_cache C then
      match k_cache s with
      | Some p => let* e := entry_at s p in
                  if c_divides C e mono then Ok (s, Some p) else search
      | None => search
      end
    else search.

  (** One call: KDTree.h:97-251 *)
  Definition step (s : kd) (o : dop M) : res (kd * dout M) :=
    match o with
    | DInsert e => let* s' := insert s e in Ok (s', DONone)
    | DRemoveMultiples m => let* (s', b, out) := remove_multiples s m in Ok (s', DORemoved b out)
    | DRemoveElement m => if packed then (let* (s', b) := remove_element s m in Ok (s', DOBool b)) else UB
    | DFindDivisor m => let* (s', r) := find_divisor s m in
                        match r with
                        | None => Ok (s', DOFound None)
                        | Some p => let* e := entry_at s' p in Ok (s', DOFound (Some e))   (* the caller looks at what it got *)
                        end
    | DAllDivisors m cb => let* xs := tree_divisors C (k_tree s) (kext C (k_bits s) m) cb in Ok (s, DOList xs)   (* 205-208 *)
    | DAllMultiples m cb => let* xs := tree_multiples C packed (k_tree s) (kext C (k_bits s) m) cb in Ok (s, DOList xs)   (* 123-126 *)
    | DForAll cb => let* xs := tree_for_all C packed (k_tree s) cb in Ok (s, DOList xs)   (* 223-225 *)
    | DRebuild => let* s' := rebuild_kd s in Ok (s', DONone)
    | DSize => Ok (s, DOSize (k_size s))   (* 80 *)
    | DInsertRange _ | DToFront _ => UB   (* there is no such program *)
    end.

  (** What insert leaves behind if the tree throws (141): nothing has been reported yet *)
  Definition abandoned (s : kd) (entry : M) : kd :=
    mk_kd (tree_abandoned C (k_tree s) (kext C (k_bits s) entry)) (k_bits s) (k_size s) (k_left s) (k_cache s) (k_rebuilds s).
  (** A caller that catches exceptions and goes on; [None] stands for an exception.  The removals throw before they change anything.  It
      stands for a user of KDTree.h:97-251. *)
  Definition catching (s : kd) (o : dop M) : res (kd * option (dout M)) :=
    match step s o with
    | Ok (s', r) => Ok (s', Some r)
    | Throw _ => Ok (match o with DInsert e => abandoned s e | _ => s end, None)
    | UB => UB
    | NoFuel => NoFuel
    end.

  (** The entries in the order of the tree; no C++ counterpart *)
  Definition kcontents (s : kd) : list M :=
    match k_tree s with None => [] | Some t => map x_t (tree_entries t) end.
End KDTree.
