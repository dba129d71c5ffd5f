(** Model of src/mathic/KDTree.h on a tree whose nodes lie in memory.

    The definitions are those of KD/Model.v with the functions of a tree as parameters; KDTree.h:36-47 selects the tree. *)
From Coq Require Import List Arith Bool ZArith NArith String.
From Verif.Base Require Import Res Arr ResList StdAlg.
From Verif.DivMask Require Import Model.
From Verif.Spec Require Import DivFinder.
From Verif.KD Require Import EntryArray Tree Model.
From Verif.KDMem Require Import Arena Binary Packed.
Import ListNotations.
Local Notation length := List.length.

(** What KDTree.h uses of a tree (BinaryKDTree.h:193-229, PackedKDTree.h:117-151).  [i_place] is an Entry*. *)
Record impl (M : Type) := mk_impl {
  i_state : Type;
  i_empty : i_state;
  i_insert : i_state -> ext M -> res i_state;
  i_remove : i_state -> ext M -> res (i_state * list M * nat);
  i_remove_element : i_state -> M -> res (i_state * bool);
  i_find : i_state -> ext M -> res (option (nat * nat));
  i_at : i_state -> nat * nat -> res M;
  i_divisors : i_state -> ext M -> callback M -> res (list M);
  i_multiples : i_state -> ext M -> callback M -> res (list M);
  i_for_all : i_state -> callback M -> res (list M);
  i_reset : i_state -> list M -> list (nat * Z) -> res i_state;
  i_clear : i_state -> res (i_state * list (ext M));
  i_abandoned : i_state -> ext M -> res i_state }.
Arguments i_state {M}. Arguments i_empty {M}. Arguments i_insert {M}. Arguments i_remove {M}. Arguments i_remove_element {M}. Arguments i_find {M}.
Arguments i_at {M}. Arguments i_divisors {M}. Arguments i_multiples {M}. Arguments i_for_all {M}. Arguments i_reset {M}. Arguments i_clear {M}.
Arguments i_abandoned {M}.

(** BinaryKDTree.h:19-238; removeElement does not compile *)
Definition binary_impl {M} (C : kconf M) : impl M :=
  mk_impl M (btree M) b_empty (b_insert C) (b_remove C) (fun _ _ => UB) (b_find C) b_at (b_divisors C) (b_multiples C) (b_for_all C)
    (b_reset C) b_clear (b_abandoned C).
(** PackedKDTree.h:20-163 *)
Definition packed_impl {M} (C : kconf M) : impl M :=
  mk_impl M (ptree M) p_empty (p_insert C) (p_remove C) (p_remove_element C) (p_find C) p_at (p_divisors C) (p_multiples C) (p_for_all C)
    (p_reset C) p_clear (p_abandoned C).
(** KDTree.h:36-47 *)
Definition kd_impl {M} (C : kconf M) (packed : bool) : impl M := if packed then packed_impl C else binary_impl C.

(** KDTree.h:300-307 the members *)
Record mkd {M} (I : impl M) := mk_mkd {
  m_tree : i_state I; m_bits : list (nat * Z); m_size : nat; m_left : nat; m_cache : option (nat * nat); m_rebuilds : nat }.
Arguments mk_mkd {M I}. Arguments m_tree {M I}. Arguments m_bits {M I}. Arguments m_size {M I}. Arguments m_left {M I}. Arguments m_cache {M I}.
Arguments m_rebuilds {M I}.

Section KDTree.
  Context {M : Type}.
  Variable C : kconf M.
  Variable packed : bool.
  Notation I := (kd_impl C packed).
  Notation mkd := (mkd I).

  (** KDTree.h:329-339 resetNumberOfChangesTillRebuild *)
  Definition m_reset_changes (s : mkd) : mkd :=
    let cache := if c_cache C then None else m_cache s in
    if negb (c_auto C) then mk_mkd (m_tree s) (m_bits s) (m_size s) (m_left s) cache (m_rebuilds s)
    else mk_mkd (m_tree s) (m_bits s) (m_size s) (Nat.max (c_ratio C (m_size s)) (c_min C)) cache (m_rebuilds s).
  (** KDTree.h:62-69 the constructor *)
  Definition m_construct : res mkd :=
    let* bits := kcalc C [] in
    Ok (m_reset_changes (mk_mkd (i_empty I) bits 0 0 None 0)).
  (** KDTree.h:244-251 rebuild *)
  Definition m_rebuild (s : mkd) : res mkd :=
    let* l := i_for_all I (m_tree s) recorder in
    let* bits := kcalc C l in
    let* t := i_reset I (m_tree s) l bits in
    Ok (m_reset_changes (mk_mkd t bits (m_size s) (m_left s) (m_cache s) (S (m_rebuilds s)))).
  (** KDTree.h:341-363 reportChanges and reportChangesRebuild *)
  Definition m_report (s : mkd) (additions removals : nat) : res mkd :=
    let cache := if c_cache C && negb (additions + removals =? 0) then None else m_cache s in
    if m_size s + additions <? removals then UB else
    let size := m_size s + additions - removals in
    let changes := additions + removals in
    if negb (c_auto C) then Ok (mk_mkd (m_tree s) (m_bits s) size (m_left s) cache (m_rebuilds s))
    else if changes <? m_left s then Ok (mk_mkd (m_tree s) (m_bits s) size (m_left s - changes) cache (m_rebuilds s))
    else m_rebuild (mk_mkd (m_tree s) (m_bits s) size (m_left s) cache (m_rebuilds s)).
  (** KDTree.h:140-144 insert *)
  Definition m_insert (s : mkd) (entry : M) : res mkd :=
    let* t := i_insert I (m_tree s) (kext C (m_bits s) entry) in
    m_report (mk_mkd t (m_bits s) (m_size s) (m_left s) (m_cache s) (m_rebuilds s)) 1 0.
  (** KDTree.h:109-117 removeMultiples *)
  Definition m_remove_multiples (s : mkd) (mono : M) : res (mkd * bool * list M) :=
    if negb (c_removals C) then Throw disabled else
    let* (t, out, count) := i_remove I (m_tree s) (kext C (m_bits s) mono) in
    let* s' := m_report (mk_mkd t (m_bits s) (m_size s) (m_left s) (m_cache s) (m_rebuilds s)) 0 count in
    Ok (s', 0 <? count, out).
  (** KDTree.h:171-176 removeElement *)
  Definition m_remove_element (s : mkd) (mono : M) : res (mkd * bool) :=
    if negb (c_removals C) then Throw disabled else
    let* (t, b) := i_remove_element I (m_tree s) mono in
    Ok (mk_mkd t (m_bits s) (m_size s) (m_left s) (m_cache s) (m_rebuilds s), b).
  (** KDTree.h:180-193 findDivisor *)
  Definition m_find_divisor (s : mkd) (mono : M) : res (mkd * option (nat * nat)) :=
    let search :=
      let* r := i_find I (m_tree s) (kext C (m_bits s) mono) in
      Ok (match r with
          | Some _ => if c_cache C then mk_mkd (m_tree s) (m_bits s) (m_size s) (m_left s) r (m_rebuilds s) else s
          | None => s
          end, r) in
    if c_cache C then
      match m_cache s with
      | Some p => let* e := i_at I (m_tree s) p in
                  if c_divides C e mono then Ok (s, Some p) else search
      | None => search
      end
    else search.
  (** One call: KDTree.h:97-251 *)
  Definition m_step (s : mkd) (o : dop M) : res (mkd * dout M) :=
    match o with
    | DInsert e => let* s' := m_insert s e in Ok (s', DONone)
    | DRemoveMultiples m => let* (s', b, out) := m_remove_multiples s m in Ok (s', DORemoved b out)
    | DRemoveElement m => if packed then (let* (s', b) := m_remove_element s m in Ok (s', DOBool b)) else UB
    | DFindDivisor m => let* (s', r) := m_find_divisor s m in
                        match r with
                        | None => Ok (s', DOFound None)
                        | Some p => let* e := i_at I (m_tree s') p in Ok (s', DOFound (Some e))
                        end
    | DAllDivisors m cb => let* xs := i_divisors I (m_tree s) (kext C (m_bits s) m) cb in Ok (s, DOList xs)
    | DAllMultiples m cb => let* xs := i_multiples I (m_tree s) (kext C (m_bits s) m) cb in Ok (s, DOList xs)
    | DForAll cb => let* xs := i_for_all I (m_tree s) cb in Ok (s, DOList xs)
    | DRebuild => let* s' := m_rebuild s in Ok (s', DONone)
    | DSize => Ok (s, DOSize (m_size s))
    | DInsertRange _ | DToFront _ => UB
    end.
  (** What insert leaves behind if the tree throws (KDTree.h:140-144), as KD/Model.v's [abandoned] *)
  Definition m_abandoned (s : mkd) (entry : M) : res mkd :=
    let* t := i_abandoned I (m_tree s) (kext C (m_bits s) entry) in Ok (mk_mkd t (m_bits s) (m_size s) (m_left s) (m_cache s) (m_rebuilds s)).
  (** A caller that catches exceptions and goes on, as KD/Model.v's [catching]: a user of KDTree.h:97-251 *)
  Definition m_catching (s : mkd) (o : dop M) : res (mkd * option (dout M)) :=
    match m_step s o with
    | Ok (s', r) => Ok (s', Some r)
    | Throw _ => match o with DInsert e => let* s' := m_abandoned s e in Ok (s', None) | _ => Ok (s, None) end
    | UB => UB
    | NoFuel => NoFuel
    end.
  (** The destructor: KDTree.h has none of its own, so BinaryKDTree.h:254-257 or PackedKDTree.h:179-182; the entries destroyed *)
  Definition m_destroy (s : mkd) : res (list (ext M)) := let* (_, gone) := i_clear I (m_tree s) in Ok gone.
End KDTree.
