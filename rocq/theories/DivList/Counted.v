(** Model of src/mathic/DivList.h in which every call of the function divides of the configuration is counted.  The function is called by
    Extender::divides (DivMask.h:405-422, 447-450), and only if the masks do not rule the entry out.

    [w x] is what a call that involves the entry [x] counts.  Everything that does not call divides is as in Model.v. *)
From Coq Require Import List Arith Bool ZArith NArith.
From Verif.Base Require Import Res Arr ResList StdAlg Count.
From Verif.DivMask Require Import Model.
From Verif.Spec Require Import DivFinder.
From Verif.DivList Require Import Model.
Import ListNotations.

(** A test of an entry (DivMask.h:405-422, 447-450) and what it counts *)
Definition test (M : Type) : Type := ext M -> bool * nat.

Section Tests.
  Variable M : Type.
  Variable use : bool.
  Variable divides : M -> M -> bool.
  Variable w : M -> nat.
  Notation ext := (ext M).
  Notation ediv := (ext_divides M use divides).

  (** DivMask.h:405-422, 447-450: does the entry [x] divide [m]? *)
  Definition divisor_test (m : ext) : test M := fun x => (ediv x m, if has_can_divide use (x_mask x) (x_mask m) then w (x_t x) else 0).
  (** DivMask.h:405-422, 447-450: does [m] divide the entry [x]? *)
  Definition multiple_test (m : ext) : test M := fun x => (ediv m x, if has_can_divide use (x_mask m) (x_mask x) then w (x_t x) else 0).

  (** DivList.h:473-477, 489-493 and 332-335 *)
  Fixpoint scan_c (p : test M) (l : list ext) : counted (option nat) :=
    match l with
    | [] => Ok (None, 0)
    | x :: l' => let@ b := Ok (p x) in
                 if b then Ok (Some 0, 0) else (let@ r := scan_c p l' in Ok (option_map S r, 0))
    end.
  (** DivList.h:512-515, 526-529, 365-368 *)
  Fixpoint feed_c (cb : callback M) (p : test M) (l : list ext) (seen : list M) : counted (list M * bool) :=
    match l with
    | [] => Ok (seen, true, 0)
    | x :: l' =>
        let@ b := Ok (p x) in
        if b then
          (let seen' := seen ++ [x_t x] in
           if cb seen' then feed_c cb p l' seen' else Ok (seen', false, 0))
        else feed_c cb p l' seen
    end.
  (** DivList.h:230-237 *)
  Fixpoint first_multiple_c (m : ext) (a : list ext) (k : nat) : counted nat :=
    match k with
    | 0 => Ok (length a, 0)
    | S k' => let it := length a - k in
              let@ x := free (vget a it) in
              let@ b := Ok (multiple_test m x) in
              if b then Ok (it, 0) else first_multiple_c m a k'
    end.
  (** DivList.h:238-245 *)
  Fixpoint compact_c (m : ext) (a : list ext) (k newEnd : nat) (out : list M) : counted (list ext * nat * list M) :=
    match k with
    | 0 => Ok (a, newEnd, out, 0)
    | S k' => let it := length a - k in
              let@ x := free (vget a it) in
              let@ b := Ok (multiple_test m x) in
              if negb b then (let@ a' := free (vset a newEnd x) in compact_c m a' k' (S newEnd) out)
              else compact_c m a k' newEnd (out ++ [x_t x])
    end.
  (** DivList.h:224-251 removeMultiples on a vector *)
  Definition remove_multiples_vector_c (m : ext) (a : list ext) : counted (list ext * list M * nat) :=
    let@ it := first_multiple_c m a (length a) in
    if it =? length a then Ok (a, [], 0, 0) else
    let@ x := free (vget a it) in
    let@ (a', newEnd, out) := compact_c m a (length a - S it) it [x_t x] in
    Ok (firstn newEnd a', out, length a - newEnd, 0).
  (** DivList.h:253-275 removeMultiples on a list *)
  Fixpoint remove_multiples_list_c (m : ext) (l : list ext) : counted (list ext * list M * nat) :=
    match l with
    | [] => Ok ([], [], 0, 0)
    | x :: l' =>
        let@ (kept, out, count) := remove_multiples_list_c m l' in
        let@ b := Ok (multiple_test m x) in
        Ok (if b then (kept, x_t x :: out, S count) else (x :: kept, out, count), 0)
    end.
End Tests.

Section Counted.
  Variable M : Type.
  Variable ex : M -> nat -> Z.
  Variable nvars : nat.
  Variable T : exptype.
  Variable sort_data : list var_data -> list var_data.
  Variable use : bool.
  Variable divides : M -> M -> bool.
  Variable less : M -> M -> bool.
  Variable linked : bool.
  Variable sorted : bool.
  Variable auto : bool.
  Variable ratio : nat -> nat.
  Variable rmin : nat.
  Variable sort_ext : list (ext M) -> list (ext M).
  Variable w : M -> nat.
  Notation ext := (ext M).
  Notation dlist := (dlist M).
  Notation divisor_test := (divisor_test M use divides w).
  Notation multiple_test := (multiple_test M use divides w).

  (** DivList.h:338-356 findDivisorSorted on a list *)
  Fixpoint scan_list_c (m : ext) (count : nat) (l : list ext) : counted (option nat) :=
    match l with
    | [] => Ok (None, 0)
    | x :: l' =>
        let rest count' := let@ b := Ok (divisor_test m x) in
                           if b then Ok (Some 0, 0) else (let@ r := scan_list_c m count' l' in Ok (option_map S r, 0)) in
        if S count =? 35 then (if less (x_t m) (x_t x) then Ok (None, 0) else rest 0) else rest (S count)
    end.
  (** DivList.h:325-356 findDivisorSorted *)
  Definition find_sorted_c (l : list ext) (m : ext) : counted (option nat) :=
    if linked then scan_list_c m 0 l else
    let@ i := free (upper_bound (comp M less) l m) in
    scan_c M (divisor_test m) (firstn i l).
  (** DivList.h:468-481 findDivisorIterator *)
  Definition find_iterator_c (s : dlist) (mono : M) : counted (option nat) :=
    let m := extend M ex use (l_bits s) mono in
    if negb sorted then scan_c M (divisor_test m) (l_list s) else find_sorted_c (l_list s) m.
  (** DivList.h:371-389 findAllDivisorsSorted on a list *)
  Fixpoint feed_list_c (cb : callback M) (m : ext) (count : nat) (l : list ext) (seen : list M) : counted (list M) :=
    match l with
    | [] => Ok (seen, 0)
    | x :: l' =>
        let stop := if S count =? 35 then less (x_t m) (x_t x) else false in
        let count' := if S count =? 35 then 0 else S count in
        if stop then Ok (seen, 0) else
        let@ b := Ok (divisor_test m x) in
        if b then
          (let seen' := seen ++ [x_t x] in
           if cb seen' then feed_list_c cb m count' l' seen' else Ok (seen', 0))
        else feed_list_c cb m count' l' seen
    end.
  (** DivList.h:506-518 findAllDivisors with 358-389 *)
  Definition all_divisors_c (s : dlist) (mono : M) (cb : callback M) : counted (list M) :=
    let m := extend M ex use (l_bits s) mono in
    if negb sorted then (let@ (xs, _) := feed_c M cb (divisor_test m) (l_list s) [] in Ok (xs, 0))
    else if linked then feed_list_c cb m 0 (l_list s) []
    else let@ i := free (upper_bound (comp M less) (l_list s) m) in
         let@ (xs, _) := feed_c M cb (divisor_test m) (firstn i (l_list s)) [] in Ok (xs, 0).
  (** DivList.h:520-530 findAllMultiples *)
  Definition all_multiples_c (s : dlist) (mono : M) (cb : callback M) : counted (list M) :=
    let m := extend M ex use (l_bits s) mono in
    let@ (xs, _) := feed_c M cb (multiple_test m) (l_list s) [] in Ok (xs, 0).
  (** DivList.h:429-441 removeMultiples *)
  Definition remove_multiples_c (s : dlist) (mono : M) : counted (dlist * bool * list M) :=
    let m := extend M ex use (l_bits s) mono in
    let@ (l, out, count) := if linked then remove_multiples_list_c M use divides w m (l_list s) else remove_multiples_vector_c M use divides w m (l_list s) in
    let@ s' := free (report_changes M ex nvars T sort_data use auto ratio rmin (mk_dlist l (l_bits s) (l_left s) (l_rebuilds s)) count) in
    Ok (s', 0 <? count, out, 0).
  (** DivList.h:484-498 findDivisor *)
  Definition find_divisor_c (s : dlist) (mono : M) : counted (option M) :=
    let@ it := find_iterator_c s mono in
    match it with
    | None => Ok (None, 0)
    | Some i => let@ x := free (vget (l_list s) i) in Ok (Some (x_t x), 0)
    end.
  (** DivList.h:571-573 moveToFront of the iterator of findDivisorIterator, as [to_front] *)
  Definition to_front_c (s : dlist) (mono : M) : counted (dlist * option M) :=
    let@ it := find_iterator_c s mono in
    match it with
    | None => Ok (s, None, 0)
    | Some i => let@ l := free (move_to_front M linked (l_list s) i) in
                let@ x := free (vget l 0) in
                Ok (mk_dlist l (l_bits s) (l_left s) (l_rebuilds s), Some (x_t x), 0)
    end.

  (** One call: DivList.h:73-125; the calls not listed do not use divides *)
  Definition step_c (s : dlist) (o : dop M) : counted (dlist * dout M) :=
    match o with
    | DRemoveMultiples m => let@ (s', b, out) := remove_multiples_c s m in Ok (s', DORemoved b out, 0)
    | DFindDivisor m => let@ r := find_divisor_c s m in Ok (s, DOFound r, 0)
    | DAllDivisors m cb => let@ xs := all_divisors_c s m cb in Ok (s, DOList xs, 0)
    | DAllMultiples m cb => let@ xs := all_multiples_c s m cb in Ok (s, DOList xs, 0)
    | DToFront m => let@ (s', r) := to_front_c s m in Ok (s', DOFound r, 0)
    | _ => free (step M ex nvars T sort_data use divides less linked sorted auto ratio rmin sort_ext s o)
    end.
End Counted.
