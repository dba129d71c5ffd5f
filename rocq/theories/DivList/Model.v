(** Model of src/mathic/DivList.h.

    A configuration gives the type [M] of entries and monomials, exponents, divisibility and the order [less] (isLessThan); its
    parameters are the Section variables below.  The container is a sequence of entries extended by their divmask.  Not modelled:
    getName, getMemoryUse, the iterators begin() and end() and the debug blocks. *)
From Coq Require Import List Arith Bool ZArith NArith.
From Verif.Base Require Import Res Arr ResList StdAlg.
From Verif.DivMask Require Import Model.
From Verif.Spec Require Import DivFinder.
Import ListNotations.

Section DivList.
  Variable M : Type.
  Variable ex : M -> nat -> Z.
  Variable nvars : nat.
  Variable T : exptype.
  Variable sort_data : list var_data -> list var_data.
  Variable use : bool.                (* UseDivMask *)
  Variable divides : M -> M -> bool.
  Variable less : M -> M -> bool.     (* isLessThan *)
  Variable linked : bool.             (* UseLinkedList: std::list instead of std::vector *)
  Variable sorted : bool.             (* getSortOnInsert *)
  Variable auto : bool.               (* getDoAutomaticRebuilds *)
  Variable ratio : nat -> nat.        (* static_cast<size_t>(size * getRebuildRatio()) *)
  Variable rmin : nat.                (* getRebuildMin *)
  Variable sort_ext : list (ext M) -> list (ext M). (* std::sort or std::list::sort with Comparer *)

  Notation ext := (ext M).
  Notation ediv := (ext_divides M use divides).

  (** DivList.h:155-158 the members; [l_rebuilds] counts the calls of rebuild and is no part of the C++ state *)
  Record dlist := mk_dlist { l_list : list ext; l_bits : list (nat * Z); l_left : nat; l_rebuilds : nat }.

  (** Comparer.h:9-12 *)
  Definition comp (a b : ext) : bool := less (x_t a) (x_t b).
  (** DivMask.h:205 for UseDivMask, 346-353 (the empty calculator) otherwise *)
  Definition calc_rebuild (l : list M) : res (list (nat * Z)) := if use then rebuild M ex nvars T sort_data l else Ok [].

  (** DivList.h:230-237: the loop that looks for the first multiple; [k] entries of [a] are left to scan *)
  Fixpoint first_multiple (m : ext) (a : list ext) (k : nat) : res nat :=
    match k with
    | 0 => Ok (length a)
    | S k' => let it := length a - k in
              let* x := vget a it in
              if ediv m x then Ok it else first_multiple m a k'
    end.
  (** DivList.h:238-245: the loop that moves the others down; returns the array, newEnd and the output *)
  Fixpoint compact (m : ext) (a : list ext) (k newEnd : nat) (out : list M) : res (list ext * nat * list M) :=
    match k with
    | 0 => Ok (a, newEnd, out)
    | S k' => let it := length a - k in
              let* x := vget a it in
              if negb (ediv m x) then (let* a' := vset a newEnd x in compact m a' k' (S newEnd) out)
              else compact m a k' newEnd (out ++ [x_t x])
    end.
  (** DivList.h:224-251 removeMultiples on a vector *)
  Definition remove_multiples_vector (m : ext) (a : list ext) : res (list ext * list M * nat) :=
    let* it := first_multiple m a (length a) in
    if it =? length a then Ok (a, [], 0) else
    let* x := vget a it in
    let* (a', newEnd, out) := compact m a (length a - S it) it [x_t x] in
    Ok (firstn newEnd a', out, length a - newEnd).

  (** DivList.h:253-275 removeMultiples on a list *)
  Fixpoint remove_multiples_list (m : ext) (l : list ext) : list ext * list M * nat :=
    match l with
    | [] => ([], [], 0)
    | x :: l' =>
        let '(kept, out, count) := remove_multiples_list m l' in
        if ediv m x then (kept, x_t x :: out, S count) else (x :: kept, out, count)
    end.

  (** DivList.h:281-285, the loop of moveToFront *)
  Fixpoint shift_up (a : list ext) (pos : nat) : res (list ext) :=
    match pos with
    | 0 => Ok a
    | S p => let* x := vget a p in
             let* a' := vset a pos x in
             shift_up a' p
    end.
  (** DivList.h:277-287 and 289-292 moveToFront *)
  Definition move_to_front (a : list ext) (pos : nat) : res (list ext) :=
    if linked then
      let* x := vget a pos in Ok (x :: firstn pos a ++ skipn (S pos) a)
    else
      let* x := vget a pos in
      let* a' := shift_up a pos in
      vset a' 0 x.

  (** DivList.h:294-304 insertSort on a list *)
  Fixpoint insert_list (l : list ext) (e : ext) : list ext :=
    match l with
    | [] => [e]
    | x :: l' => if less (x_t e) (x_t x) then e :: l else x :: insert_list l' e
    end.
  (** DivList.h:294-313 insertSort *)
  Definition insert_sort (l : list ext) (e : ext) : res (list ext) :=
    if linked then Ok (insert_list l e) else
    let* i := upper_bound comp l e in
    Ok (firstn i l ++ e :: skipn i l).

  (** The position of the first entry satisfying [p], as in DivList.h:473-477, 489-493 and 332-335 *)
  Fixpoint scan (p : ext -> bool) (l : list ext) : option nat :=
    match l with
    | [] => None
    | x :: l' => if p x then Some 0 else option_map S (scan p l')
    end.
  (** DivList.h:338-356 findDivisorSorted on a list; [count] is the value before the increment *)
  Fixpoint scan_list (m : ext) (count : nat) (l : list ext) : option nat :=
    match l with
    | [] => None
    | x :: l' =>
        if S count =? 35 then
          (if less (x_t m) (x_t x) then None
           else if ediv x m then Some 0 else option_map S (scan_list m 0 l'))
        else if ediv x m then Some 0 else option_map S (scan_list m (S count) l')
    end.
  (** DivList.h:325-356 findDivisorSorted *)
  Definition find_sorted (l : list ext) (m : ext) : res (option nat) :=
    if linked then Ok (scan_list m 0 l) else
    let* i := upper_bound comp l m in
    Ok (scan (fun x => ediv x m) (firstn i l)).
  (** DivList.h:468-481 findDivisorIterator; findDivisor (484-498) searches in the same way *)
  Definition find_iterator (s : dlist) (mono : M) : res (option nat) :=
    let m := extend M ex use (l_bits s) mono in
    if negb sorted then Ok (scan (fun x => ediv x m) (l_list s)) else find_sorted (l_list s) m.

  (** The loop of DivList.h:512-515, 526-529, 365-368 and 544-546: report the entries satisfying [p]; [seen] was reported before.  The boolean says
      whether the callback agreed to proceed throughout. *)
  Fixpoint feed (cb : callback M) (p : ext -> bool) (l : list ext) (seen : list M) : list M * bool :=
    match l with
    | [] => (seen, true)
    | x :: l' =>
        if p x then
          (let seen' := seen ++ [x_t x] in
           if cb seen' then feed cb p l' seen' else (seen', false))
        else feed cb p l' seen
    end.
  (** DivList.h:371-389 findAllDivisorsSorted on a list *)
  Fixpoint feed_list (cb : callback M) (m : ext) (count : nat) (l : list ext) (seen : list M) : list M :=
    match l with
    | [] => seen
    | x :: l' =>
        let stop := if S count =? 35 then less (x_t m) (x_t x) else false in
        let count' := if S count =? 35 then 0 else S count in
        if stop then seen else
        if ediv x m then
          (let seen' := seen ++ [x_t x] in
           if cb seen' then feed_list cb m count' l' seen' else seen')
        else feed_list cb m count' l' seen
    end.
  (** DivList.h:506-518 findAllDivisors with 358-389 *)
  Definition all_divisors (s : dlist) (mono : M) (cb : callback M) : res (list M) :=
    let m := extend M ex use (l_bits s) mono in
    if negb sorted then Ok (fst (feed cb (fun x => ediv x m) (l_list s) []))
    else if linked then Ok (feed_list cb m 0 (l_list s) [])
    else let* i := upper_bound comp (l_list s) m in
         Ok (fst (feed cb (fun x => ediv x m) (firstn i (l_list s)) [])).
  (** DivList.h:520-530 findAllMultiples *)
  Definition all_multiples (s : dlist) (mono : M) (cb : callback M) : list M :=
    let m := extend M ex use (l_bits s) mono in
    fst (feed cb (fun x => ediv m x) (l_list s) []).
  (** DivList.h:540-547 forAll *)
  Definition for_all (s : dlist) (cb : callback M) : list M := fst (feed cb (fun _ => true) (l_list s) []).

  (** DivList.h:588-596 resetNumberOfChangesTillRebuild *)
  Definition reset_left (s : dlist) : dlist :=
    if negb auto then s else mk_dlist (l_list s) (l_bits s) (Nat.max (ratio (length (l_list s))) rmin) (l_rebuilds s).
  (** DivList.h:575-586 rebuild *)
  Definition rebuild_list (s : dlist) : res dlist :=
    let* bits := calc_rebuild (map x_t (l_list s)) in
    Ok (reset_left (mk_dlist (map (recalculate M ex use bits) (l_list s)) bits (l_left s) (S (l_rebuilds s)))).
  (** DivList.h:598-608 reportChanges *)
  Definition report_changes (s : dlist) (changes : nat) : res dlist :=
    if negb auto then Ok s else
    if changes <? l_left s then Ok (mk_dlist (l_list s) (l_bits s) (l_left s - changes) (l_rebuilds s))
    else rebuild_list s.

  (** DivList.h:392-397 the constructor; without automatic rebuilds _changesTillRebuild is uninitialised and never read *)
  Definition construct : res dlist :=
    let* bits := calc_rebuild [] in
    Ok (reset_left (mk_dlist [] bits 0 0)).

  (** DivList.h:399-408 insert *)
  Definition insert (s : dlist) (entry : M) : res dlist :=
    let e := extend M ex use (l_bits s) entry in
    let* l := if negb sorted then Ok (l_list s ++ [e]) else insert_sort (l_list s) e in
    report_changes (mk_dlist l (l_bits s) (l_left s) (l_rebuilds s)) 1.
  (** DivList.h:414-415: the loop over the range of insert *)
  Fixpoint insert_each (s : dlist) (es : list M) : res dlist :=
    match es with
    | [] => Ok s
    | e :: es' => let* s' := insert s e in insert_each s' es'
    end.
  (** DivList.h:410-427 insert of a range *)
  Definition insert_range (s : dlist) (es : list M) : res dlist :=
    match l_list s with
    | _ :: _ => insert_each s es
    | [] =>
        match es with
        | [] => Ok s
        | _ :: _ =>
            let* bits := calc_rebuild es in
            let l := map (extend M ex use bits) es in
            Ok (reset_left (mk_dlist (if sorted then sort_ext l else l) bits (l_left s) (l_rebuilds s)))
        end
    end.

  (** DivList.h:429-441 removeMultiples *)
  Definition remove_multiples (s : dlist) (mono : M) : res (dlist * bool * list M) :=
    let m := extend M ex use (l_bits s) mono in
    let* (l, out, count) := if linked then Ok (remove_multiples_list m (l_list s)) else remove_multiples_vector m (l_list s) in
    let* s' := report_changes (mk_dlist l (l_bits s) (l_left s) (l_rebuilds s)) count in
    Ok (s', 0 <? count, out).

  (** DivList.h:453-458 *)
  Definition equal_exps (a b : M) : bool := forallb (fun var => Z.eqb (ex a var) (ex b var)) (seq 0 nvars).
  (** DivList.h:449-464 removeElement; note that reportChanges is not called *)
  Definition remove_element (s : dlist) (mono : M) : dlist * bool :=
    match scan (fun x => equal_exps mono (x_t x)) (l_list s) with
    | Some i => (mk_dlist (firstn i (l_list s) ++ skipn (S i) (l_list s)) (l_bits s) (l_left s) (l_rebuilds s), true)
    | None => (s, false)
    end.

  (** DivList.h:484-498 findDivisor *)
  Definition find_divisor (s : dlist) (mono : M) : res (option M) :=
    let* it := find_iterator s mono in
    match it with
    | None => Ok None
    | Some i => let* x := vget (l_list s) i in Ok (Some (x_t x))
    end.
  (** DivList.h:571-573 moveToFront of the iterator of findDivisorIterator if it is not end(), as divsim/DivListModel.h:108-115 does; the answer is the
      new front *)
  Definition to_front (s : dlist) (mono : M) : res (dlist * option M) :=
    let* it := find_iterator s mono in
    match it with
    | None => Ok (s, None)
    | Some i => let* l := move_to_front (l_list s) i in
                let* x := vget l 0 in
                Ok (mk_dlist l (l_bits s) (l_left s) (l_rebuilds s), Some (x_t x))
    end.

  (** One call: DivList.h:73-125 *)
  Definition step (s : dlist) (o : dop M) : res (dlist * dout M) :=
    match o with
    | DInsert e => let* s' := insert s e in Ok (s', DONone)
    | DInsertRange es => let* s' := insert_range s es in Ok (s', DONone)
    | DRemoveMultiples m => let* (s', b, out) := remove_multiples s m in Ok (s', DORemoved b out)
    | DRemoveElement m => let (s', b) := remove_element s m in Ok (s', DOBool b)
    | DFindDivisor m => let* r := find_divisor s m in Ok (s, DOFound r)
    | DAllDivisors m cb => let* xs := all_divisors s m cb in Ok (s, DOList xs)
    | DAllMultiples m cb => Ok (s, DOList (all_multiples s m cb))
    | DForAll cb => Ok (s, DOList (for_all s cb))
    | DToFront m => let* (s', r) := to_front s m in Ok (s', DOFound r)
    | DRebuild => let* s' := rebuild_list s in Ok (s', DONone)
    | DSize => Ok (s, DOSize (length (l_list s)))
    end.

  (** The entries in the order of DivList.h:105-108 forAll; no C++ counterpart *)
  Definition contents (s : dlist) : list M := map x_t (l_list s).
End DivList.
Arguments mk_dlist {M}. Arguments l_list {M}. Arguments l_bits {M}. Arguments l_left {M}. Arguments l_rebuilds {M}.
Arguments contents {M}.
