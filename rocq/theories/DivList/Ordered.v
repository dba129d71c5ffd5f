(** Model of src/mathic/DivList.h with sortOnInsert in which every call of the function isLessThan of the configuration is counted: once for each comparison of
    Comparer (Comparer.h) and in the loops over a std::list (DivList.h:300-302, 346-350, 379-383).

    std::upper_bound on a vector halves the range as libstdc++ does.  What std::sort compares in a range insertion into an empty list is not counted. *)
From Coq Require Import List Arith Bool ZArith NArith.
From Verif.Base Require Import Res Arr StdAlg Count.
From Verif.DivMask Require Import Model.
From Verif.Spec Require Import DivFinder.
From Verif.DivList Require Import Model.
Import ListNotations.

(** std::upper_bound in the range of [len] entries from position [first] on, with [fuel] at least [len] (DivList.h:310-311, 329-330, 362-363) *)
Fixpoint bisect {A B : Type} (fuel : nat) (lt : B -> A -> bool) (l : list A) (x : B) (first len : nat) : counted nat :=
  match fuel with
  | 0 => Ok (first, 0)
  | S fuel' =>
      if len =? 0 then Ok (first, 0) else
      let half := len / 2 in
      let@ y := free (vget l (first + half)) in
      let@ _ := Ok (tt, 1) in
      if lt x y then bisect fuel' lt l x first half else bisect fuel' lt l x (first + half + 1) (len - half - 1)
  end.

Section Ordered.
  Variable M : Type.
  Variable ex : M -> nat -> Z.
  Variable nvars : nat.
  Variable T : exptype.
  Variable sort_data : list var_data -> list var_data.
  Variable use : bool.
  Variable divides : M -> M -> bool.
  Variable less : M -> M -> bool.
  Variable linked : bool.
  Variable sorted : bool.
  Variable auto : bool.
  Variable ratio : nat -> nat.
  Variable rmin : nat.
  Variable sort_ext : list (ext M) -> list (ext M).
  Notation ext := (ext M).
  Notation dlist := (dlist M).
  Notation ediv := (ext_divides M use divides).
  Notation report_changes := (report_changes M ex nvars T sort_data use auto ratio rmin).
  Notation insert_range := (insert_range M ex nvars T sort_data use less linked sorted auto ratio rmin sort_ext).
  Notation step := (step M ex nvars T sort_data use divides less linked sorted auto ratio rmin sort_ext).

  (** DivList.h:294-304 insertSort on a list *)
  Fixpoint insert_list_o (l : list ext) (e : ext) : counted (list ext) :=
    match l with
    | [] => Ok ([e], 0)
    | x :: l' => let@ _ := Ok (tt, 1) in if less (x_t e) (x_t x) then Ok (e :: l, 0) else let@ r := insert_list_o l' e in Ok (x :: r, 0)
    end.
  (** DivList.h:294-313 insertSort *)
  Definition insert_sort_o (l : list ext) (e : ext) : counted (list ext) :=
    if linked then insert_list_o l e else
    let@ i := bisect (length l) (comp M less) l e 0 (length l) in
    Ok (firstn i l ++ e :: skipn i l, 0).
  (** DivList.h:399-408 insert *)
  Definition insert_o (s : dlist) (entry : M) : counted dlist :=
    let e := extend M ex use (l_bits s) entry in
    let@ l := if negb sorted then Ok (l_list s ++ [e], 0) else insert_sort_o (l_list s) e in
    free (report_changes (mk_dlist l (l_bits s) (l_left s) (l_rebuilds s)) 1).
  (** DivList.h:414-415 *)
  Fixpoint insert_each_o (s : dlist) (es : list M) : counted dlist :=
    match es with
    | [] => Ok (s, 0)
    | e :: es' => let@ s' := insert_o s e in insert_each_o s' es'
    end.
  (** DivList.h:410-427 insert of a range *)
  Definition insert_range_o (s : dlist) (es : list M) : counted dlist :=
    match l_list s with
    | _ :: _ => insert_each_o s es
    | [] => free (insert_range s es)
    end.

  (** DivList.h:338-356 findDivisorSorted on a list *)
  Fixpoint scan_list_o (m : ext) (count : nat) (l : list ext) : counted (option nat) :=
    match l with
    | [] => Ok (None, 0)
    | x :: l' =>
        if S count =? 35 then
          let@ _ := Ok (tt, 1) in
          if less (x_t m) (x_t x) then Ok (None, 0)
          else if ediv x m then Ok (Some 0, 0) else let@ r := scan_list_o m 0 l' in Ok (option_map S r, 0)
        else if ediv x m then Ok (Some 0, 0) else let@ r := scan_list_o m (S count) l' in Ok (option_map S r, 0)
    end.
  (** DivList.h:325-356 findDivisorSorted *)
  Definition find_sorted_o (l : list ext) (m : ext) : counted (option nat) :=
    if linked then scan_list_o m 0 l else
    let@ i := bisect (length l) (comp M less) l m 0 (length l) in
    Ok (scan M (fun x => ediv x m) (firstn i l), 0).
  (** DivList.h:468-481 findDivisorIterator *)
  Definition find_iterator_o (s : dlist) (mono : M) : counted (option nat) :=
    let m := extend M ex use (l_bits s) mono in
    if negb sorted then Ok (scan M (fun x => ediv x m) (l_list s), 0) else find_sorted_o (l_list s) m.
  (** DivList.h:484-498 findDivisor *)
  Definition find_divisor_o (s : dlist) (mono : M) : counted (option M) :=
    let@ it := find_iterator_o s mono in
    match it with
    | None => Ok (None, 0)
    | Some i => let@ x := free (vget (l_list s) i) in Ok (Some (x_t x), 0)
    end.
  (** DivList.h:371-389 findAllDivisorsSorted on a list *)
  Fixpoint feed_list_o (cb : callback M) (m : ext) (count : nat) (l : list ext) (seen : list M) : counted (list M) :=
    match l with
    | [] => Ok (seen, 0)
    | x :: l' =>
        let@ stop := if S count =? 35 then Ok (less (x_t m) (x_t x), 1) else Ok (false, 0) in
        let count' := if S count =? 35 then 0 else S count in
        if (stop : bool) then Ok (seen, 0) else
        if ediv x m then
          (let seen' := seen ++ [x_t x] in
           if cb seen' then feed_list_o cb m count' l' seen' else Ok (seen', 0))
        else feed_list_o cb m count' l' seen
    end.
  (** DivList.h:506-518 findAllDivisors *)
  Definition all_divisors_o (s : dlist) (mono : M) (cb : callback M) : counted (list M) :=
    let m := extend M ex use (l_bits s) mono in
    if negb sorted then Ok (fst (feed M cb (fun x => ediv x m) (l_list s) []), 0) else
    if linked then feed_list_o cb m 0 (l_list s) [] else
    let@ i := bisect (length (l_list s)) (comp M less) (l_list s) m 0 (length (l_list s)) in
    Ok (fst (feed M cb (fun x => ediv x m) (firstn i (l_list s)) []), 0).

  (** One call: DivList.h:73-125; the other calls do not compare *)
  Definition step_o (s : dlist) (o : dop M) : counted (dlist * dout M) :=
    match o with
    | DInsert e => let@ s' := insert_o s e in Ok ((s', DONone), 0)
    | DInsertRange es => let@ s' := insert_range_o s es in Ok ((s', DONone), 0)
    | DFindDivisor m => let@ r := find_divisor_o s m in Ok ((s, DOFound r), 0)
    | DAllDivisors m cb => let@ xs := all_divisors_o s m cb in Ok ((s, DOList xs), 0)
    | DToFront m => (* 571-573 after 468-481, which alone compares *)
        let@ _ := find_iterator_o s m in free (step s o)
    | _ => free (step s o)
    end.
  (** The calls of a history; DivList.h:73-125 *)
  Fixpoint run_o (s : dlist) (ops : list (dop M)) : counted (dlist * list (dout M)) :=
    match ops with
    | [] => Ok ((s, []), 0)
    | o :: ops' => let@ (s1, r) := step_o s o in let@ (s2, rs) := run_o s1 ops' in Ok ((s2, r :: rs), 0)
    end.
End Ordered.
