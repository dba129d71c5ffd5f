(** Model of src/mathic/KDEntryArray.h, the entries in a leaf of a KD tree.

    Not modelled: the arena parameters, which are unused, and construction and destruction of entries, which are plain copies here and are modelled in KDMem/Raw.v. *)
From Coq Require Import List Arith Bool ZArith NArith String.
From Verif.Base Require Import Res Arr ResList StdAlg.
From Verif.DivMask Require Import Model.
From Verif.Spec Require Import DivFinder.
From Verif.DivList Require Model.
Import ListNotations.
Local Notation length := List.length.

(** A configuration of KDTree (DivFinder.h:20-58, KDTree.h:20-31), with the choices C++ leaves to the standard library: std::sort and
    std::partition may order equivalent entries in any way. *)
Record kconf (M : Type) := mk_kconf {
  c_ex : M -> nat -> Z;             (* getExponent *)
  c_nvars : nat;                    (* getVarCount *)
  c_type : exptype;                 (* Exponent *)
  c_divides : M -> M -> bool;       (* divides *)
  c_less : M -> M -> bool;          (* isLessThan *)
  c_use : bool;                     (* UseDivMask *)
  c_tree : bool;                    (* UseTreeDivMask *)
  c_leaf : nat;                     (* LeafSize *)
  c_removals : bool;                (* AllowRemovals *)
  c_sorted : bool;                  (* getSortOnInsert *)
  c_cache : bool;                   (* getUseDivisorCache *)
  c_auto : bool;                    (* getDoAutomaticRebuilds *)
  c_ratio : nat -> nat;             (* static_cast<size_t>(size * getRebuildRatio()) *)
  c_min : nat;                      (* getRebuildMin *)
  c_sort_data : list var_data -> list var_data;
  c_sort_ext : list (ext M) -> list (ext M);
  c_part_ext : (ext M -> bool) -> list (ext M) -> list (ext M) * list (ext M);
  c_part : (M -> bool) -> list M -> list M * list M }.
Arguments c_ex {M}. Arguments c_nvars {M}. Arguments c_type {M}. Arguments c_divides {M}. Arguments c_less {M}. Arguments c_use {M}.
Arguments c_tree {M}. Arguments c_leaf {M}. Arguments c_removals {M}. Arguments c_sorted {M}. Arguments c_cache {M}. Arguments c_auto {M}.
Arguments c_ratio {M}. Arguments c_min {M}. Arguments c_sort_data {M}. Arguments c_sort_ext {M}. Arguments c_part_ext {M}. Arguments c_part {M}.

(** KDEntryArray.h:118-121 the entries, and the mask inherited from HasDivMask (14) *)
Record earray (M : Type) := mk_arr { a_list : list (ext M); a_mask : N }.
Arguments mk_arr {M}. Arguments a_list {M}. Arguments a_mask {M}.

Section EntryArray.
  Context {M : Type}.
  Variable C : kconf M.
  Notation ext := (ext M).
  Notation earray := (earray M).

  (** Comparer.h:9-12 *)
  Definition kcomp (a b : ext) : bool := c_less C (x_t a) (x_t b).
  (** DivMask.h:405-422 and 447-450 Extender::divides, as called by KDEntryArray.h *)
  Definition kdiv (a b : ext) : bool := ext_divides M (c_use C) (c_divides C) a b.
  (** DivMask.h:401-403 and 443-445 the constructor of Extender, as called by KDTree.h:141 and KDEntryArray.h:211 *)
  Definition kext (bits : list (nat * Z)) (m : M) : ext := extend M (c_ex C) (c_use C) bits m.
  (** updateToLowerBound of HasDivMask<C::UseTreeDivMask> (DivMask.h:369, 391) *)
  Definition klower (m m' : N) : N := lower_bound (c_tree C) m m'.

  (** KDEntryArray.h:186-192 *)
  Definition arr_empty : earray := mk_arr [] max_mask.
  (** KDEntryArray.h:238-243 push_back; the memory holds LeafSize entries *)
  Definition push_back (a : earray) (e : ext) : res earray :=
    if length (a_list a) <? c_leaf C then Ok (mk_arr (a_list a ++ [e]) (klower (a_mask a) (x_mask e))) else UB.
  (** KDEntryArray.h:246-250 pop_back *)
  Definition pop_back (a : earray) : res earray :=
    match a_list a with [] => UB | _ :: _ => Ok (mk_arr (removelast (a_list a)) (a_mask a)) end.
  (** KDEntryArray.h:210-211, 231-232: the loop over the range *)
  Fixpoint push_all (a : earray) (l : list ext) : res earray :=
    match l with [] => Ok a | e :: l' => let* a' := push_back a e in push_all a' l' end.
  (** KDEntryArray.h:212-213, 233-234 *)
  Definition sort_arr (a : earray) : earray := if c_sorted C then mk_arr (c_sort_ext C (a_list a)) (a_mask a) else a.
  (** KDEntryArray.h:217-235 the constructor from extended entries; 195-214, from entries, extends them first *)
  Definition arr_of (l : list ext) : res earray := let* a := push_all arr_empty l in Ok (sort_arr a).

  (** KDEntryArray.h:261-262; [k] steps are left *)
  Fixpoint move_up (l : list ext) (it k : nat) : res (list ext) :=
    match k with
    | 0 => Ok l
    | S k' => let* x := vget l (it + k') in
              let* l' := vset l (it + k) x in
              move_up l' it k'
    end.
  (** KDEntryArray.h:253-265 insert at a position *)
  Definition insert_at (a : earray) (it : nat) (e : ext) : res earray :=
    if it =? length (a_list a) then push_back a e else
    let* b := vget (a_list a) (length (a_list a) - 1) in
    let* a1 := push_back a b in
    let* l := move_up (a_list a1) it (length (a_list a1) - 1 - it) in
    let* l' := vset l it e in
    Ok (mk_arr l' (klower (a_mask a1) (x_mask e))).
  (** KDEntryArray.h:268-276 insert *)
  Definition arr_insert (a : earray) (e : ext) : res earray :=
    if negb (c_sorted C) then push_back a e else
    let* it := upper_bound kcomp (a_list a) e in
    insert_at a it e.

  (** KDEntryArray.h:286-325 removeMultiples; the loops of 297-319 are those of DivList.h:230-245, and 320-322 destructs what is left over *)
  Definition arr_remove (a : earray) (m : ext) : res (earray * list M * nat) :=
    if c_leaf C =? 1 then
      match a_list a with
      | [] => Ok (a, [], 0)
      | x :: _ => if kdiv m x then (let* a' := pop_back a in Ok (a', [x_t x], 1)) else Ok (a, [], 0)
      end
    else
      let* (l, out, count) := Model.remove_multiples_vector M (c_use C) (c_divides C) m (a_list a) in
      Ok (mk_arr l (a_mask a), out, count).

  (** KDEntryArray.h:333-335 *)
  Definition kequal (m : M) (x : ext) : bool := forallb (fun var => Z.eqb (c_ex C m var) (c_ex C (x_t x) var)) (seq 0 (c_nvars C)).
  (** KDEntryArray.h:337-339; [k] steps are left *)
  Fixpoint move_down (l : list ext) (k : nat) : res (list ext) :=
    match k with
    | 0 => Ok l
    | S k' => let* x := vget l (length l - k) in
              let* l' := vset l (length l - k - 1) x in
              move_down l' k'
    end.
  (** KDEntryArray.h:329-346 removeElement *)
  Definition arr_remove_element (a : earray) (m : M) : res (earray * bool) :=
    match Model.scan M (kequal m) (a_list a) with
    | None => Ok (a, false)
    | Some it => let* l := move_down (a_list a) (length (a_list a) - 1 - it) in
                 let* a' := pop_back (mk_arr l (a_mask a)) in
                 Ok (a', true)
    end.

  (** KDEntryArray.h:352-354, 386-388: the mask rules out all entries *)
  Definition ruled_out (a : earray) (m : ext) : bool := c_tree C && (1 <? c_leaf C) && negb (can_divide (a_mask a) (x_mask m)).
  (** KDEntryArray.h:351-380 findDivisor; [None] is end() *)
  Definition arr_find (a : earray) (m : ext) : res (option nat) :=
    if ruled_out a m then Ok None
    else if c_leaf C =? 1 then
      match a_list a with
      | [] => if c_removals C then Ok None else UB
      | x :: _ => Ok (if kdiv x m then Some 0 else None)
      end
    else if negb (c_sorted C) then Ok (Model.scan M (fun x => kdiv x m) (a_list a))
    else let* i := upper_bound kcomp (a_list a) m in
         Ok (Model.scan M (fun x => kdiv x m) (firstn i (a_list a))).

  (** Report the entries of a leaf that satisfy [p], of which LeafSize == 1 is a special case with at most one entry; the boolean is the value
      returned.  [seen] was reported before. *)
  Definition arr_report (cb : callback M) (p : ext -> bool) (l : list ext) (seen : list M) : res (list M * bool) :=
    if c_leaf C =? 1 then
      match l with
      | [] => if c_removals C then Ok (seen, true) else UB
      | x :: _ => Ok (if p x then (seen ++ [x_t x], cb (seen ++ [x_t x])) else (seen, true))
      end
    else Ok (Model.feed M cb p l seen).
  (** KDEntryArray.h:384-412 findAllDivisors; end(), returned at 389 where a bool is expected, is true *)
  Definition arr_divisors (a : earray) (m : ext) (cb : callback M) (seen : list M) : res (list M * bool) :=
    if ruled_out a m then Ok (seen, true)
    else if (c_leaf C =? 1) || negb (c_sorted C) then arr_report cb (fun x => kdiv x m) (a_list a) seen
    else let* i := upper_bound kcomp (a_list a) m in
         arr_report cb (fun x => kdiv x m) (firstn i (a_list a)) seen.
  (** KDEntryArray.h:416-432 findAllMultiples *)
  Definition arr_multiples (a : earray) (m : ext) (cb : callback M) (seen : list M) : res (list M * bool) :=
    arr_report cb (fun x => kdiv m x) (a_list a) seen.
  (** KDEntryArray.h:436-446 forAll *)
  Definition arr_for_all (a : earray) (cb : callback M) (seen : list M) : res (list M * bool) :=
    arr_report cb (fun _ => true) (a_list a) seen.
  (** KDEntryArray.h:473-479 recalculateTreeDivMask *)
  Definition arr_recalculate (a : earray) : earray :=
    if negb (c_tree C) then a else mk_arr (a_list a) (fold_left (fun m e => klower m (x_mask e)) (a_list a) max_mask).

  (** KDEntryArray.h:159; [None] is size_t(-1), where a search for a variable starts if there is no hint *)
  Definition next_var (var : option nat) : nat := match var with None => 0 | Some v => (v + 1) mod c_nvars C end.
  (** KDEntryArray.h:161-173 the least and greatest exponent; [first] is the entry the search starts with *)
  Definition bounds (first : M) (l : list M) (var : nat) : Z * Z :=
    fold_left (fun mm x => (Z.min (fst mm) (c_ex C x var), Z.max (snd mm) (c_ex C x var))) l (c_ex C first var, c_ex C first var).
  (** KDEntryArray.h:158-182: the choice of a variable and an exponent; [k] rounds are left *)
  Fixpoint choose (first : M) (l : list M) (k : nat) (var : option nat) : res (nat * Z) :=
    match k with
    | 0 => Throw "ERROR: Inserted duplicate entry into a KD tree."
    | S k' =>
        let v := next_var var in
        let (mn, mx) := bounds first l v in
        if Z.eqb mn mx then choose first l k' (Some v) else
        let* d := norm (c_type C) (mx - mn)%Z in
        let* e := norm (c_type C) (mn + Z.quot d 2)%Z in
        Ok (v, e)
    end.
  (** KDEntryArray.h:148-183 split of a range of extended entries (179 is std::partition), as used by splitInsert, with the entry to be inserted *)
  Definition split_for (e : ext) (l : list ext) (var : option nat) : res (nat * Z * list ext * list ext) :=
    let* (v, x) := choose (x_t e) (map x_t l) (c_nvars C) var in
    let (le, gt) := c_part_ext C (fun y => negb (x <? c_ex C (x_t y) v)%Z) l in
    Ok (v, x, le, gt).
  (** KDEntryArray.h:148-183 split of a range of entries, as used by reset; *begin of an empty range is undefined *)
  Definition split_range (l : list M) (var : option nat) : res (nat * Z * list M * list M) :=
    match l with
    | [] => if c_nvars C =? 0 then Throw "ERROR: Inserted duplicate entry into a KD tree." else UB
    | first :: _ =>
        let* (v, x) := choose first l (c_nvars C) var in
        let (le, gt) := c_part C (fun y => negb (x <? c_ex C y v)%Z) l in
        Ok (v, x, le, gt)
    end.
End EntryArray.
