(** Model of src/mathic/DivList.h in which the assignments to entries of the list are counted: those that DivList.h makes itself (lines 241, 284 and 286), one for each entry
    that [push_back] or [insert] stores, and one for each entry that std::vector moves by one place in [insert] (line 312) and [erase] (line 459).

    What std::sort assigns in a range insertion into an empty list is not counted, nor what std::vector assigns when it grows. *)
From Coq Require Import List Arith Bool ZArith NArith.
From Verif.Base Require Import Res Arr StdAlg Count.
From Verif.DivMask Require Import Model.
From Verif.Spec Require Import DivFinder.
From Verif.DivList Require Import Model.
Import ListNotations.

Section Shifted.
  Variable M : Type.
  Variable ex : M -> nat -> Z.
  Variable nvars : nat.
  Variable T : exptype.
  Variable sort_data : list var_data -> list var_data.
  Variable use : bool.
  Variable divides : M -> M -> bool.
  Variable less : M -> M -> bool.
  Variable linked : bool.
  Variable sorted : bool.
  Variable auto : bool.
  Variable ratio : nat -> nat.
  Variable rmin : nat.
  Variable sort_ext : list (ext M) -> list (ext M).
  Notation ext := (ext M).
  Notation dlist := (dlist M).
  Notation ediv := (ext_divides M use divides).
  Notation report_changes := (report_changes M ex nvars T sort_data use auto ratio rmin).
  Notation insert_range := (insert_range M ex nvars T sort_data use less linked sorted auto ratio rmin sort_ext).
  Notation find_iterator := (find_iterator M ex use divides less linked sorted).
  Notation step := (step M ex nvars T sort_data use divides less linked sorted auto ratio rmin sort_ext).

  (** [*p = x]; DivList.h:241, 284, 286 *)
  Definition vset_m (a : list ext) (i : nat) (x : ext) : counted (list ext) :=
    let@ a' := free (vset a i x) in Ok (a', 1).

  (** DivList.h:238-245: the loop that moves the others down *)
  Fixpoint compact_m (m : ext) (a : list ext) (k newEnd : nat) (out : list M) : counted (list ext * nat * list M) :=
    match k with
    | 0 => Ok ((a, newEnd, out), 0)
    | S k' => let it := length a - k in
              let@ x := free (vget a it) in
              if negb (ediv m x) then (let@ a' := vset_m a newEnd x in compact_m m a' k' (S newEnd) out)
              else compact_m m a k' newEnd (out ++ [x_t x])
    end.
  (** DivList.h:224-251 removeMultiples on a vector *)
  Definition remove_multiples_vector_m (m : ext) (a : list ext) : counted (list ext * list M * nat) :=
    let@ it := free (first_multiple M use divides m a (length a)) in
    if it =? length a then Ok ((a, [], 0), 0) else
    let@ x := free (vget a it) in
    let@ (a', newEnd, out) := compact_m m a (length a - S it) it [x_t x] in
    Ok ((firstn newEnd a', out, length a - newEnd), 0).
  (** DivList.h:429-441 removeMultiples *)
  Definition remove_multiples_m (s : dlist) (mono : M) : counted (dlist * bool * list M) :=
    let m := extend M ex use (l_bits s) mono in
    let@ (l, out, count) := if linked then free (Ok (remove_multiples_list M use divides m (l_list s))) else remove_multiples_vector_m m (l_list s) in
    let@ s' := free (report_changes (mk_dlist l (l_bits s) (l_left s) (l_rebuilds s)) count) in
    Ok ((s', 0 <? count, out), 0).

  (** DivList.h:281-285, the loop of moveToFront *)
  Fixpoint shift_up_m (a : list ext) (pos : nat) : counted (list ext) :=
    match pos with
    | 0 => Ok (a, 0)
    | S p => let@ x := free (vget a p) in
             let@ a' := vset_m a pos x in
             shift_up_m a' p
    end.
  (** DivList.h:277-287 and 289-292 moveToFront *)
  Definition move_to_front_m (a : list ext) (pos : nat) : counted (list ext) :=
    if linked then free (move_to_front M linked a pos)
    else
      let@ x := free (vget a pos) in
      let@ a' := shift_up_m a pos in
      vset_m a' 0 x.
  (** DivList.h:571-573 moveToFront of what findDivisorIterator returns *)
  Definition to_front_m (s : dlist) (mono : M) : counted (dlist * option M) :=
    let@ it := free (find_iterator s mono) in
    match it with
    | None => Ok ((s, None), 0)
    | Some i => let@ l := move_to_front_m (l_list s) i in
                let@ x := free (vget l 0) in
                Ok ((mk_dlist l (l_bits s) (l_left s) (l_rebuilds s), Some (x_t x)), 0)
    end.

  (** DivList.h:294-313 insertSort *)
  Definition insert_sort_m (l : list ext) (e : ext) : counted (list ext) :=
    if linked then Ok (insert_list M less l e, 1) else
    let@ i := free (upper_bound (comp M less) l e) in
    Ok (firstn i l ++ e :: skipn i l, S (length l - i)).
  (** DivList.h:399-408 insert *)
  Definition insert_m (s : dlist) (entry : M) : counted dlist :=
    let e := extend M ex use (l_bits s) entry in
    let@ l := if negb sorted then Ok (l_list s ++ [e], 1) else insert_sort_m (l_list s) e in
    free (report_changes (mk_dlist l (l_bits s) (l_left s) (l_rebuilds s)) 1).
  (** DivList.h:414-415 *)
  Fixpoint insert_each_m (s : dlist) (es : list M) : counted dlist :=
    match es with
    | [] => Ok (s, 0)
    | e :: es' => let@ s' := insert_m s e in insert_each_m s' es'
    end.
  (** DivList.h:410-427 insert of a range *)
  Definition insert_range_m (s : dlist) (es : list M) : counted dlist :=
    match l_list s with
    | _ :: _ => insert_each_m s es
    | [] => let@ s' := free (insert_range s es) in Ok (s', length es)
    end.
  (** DivList.h:449-464 removeElement *)
  Definition remove_element_m (s : dlist) (mono : M) : counted (dlist * bool) :=
    Ok (remove_element M ex nvars s mono,
        match scan M (fun x => equal_exps M ex nvars mono (x_t x)) (l_list s) with
        | Some i => if linked then 0 else length (l_list s) - S i
        | None => 0
        end).

  (** One call: DivList.h:73-125 *)
  Definition step_m (s : dlist) (o : dop M) : counted (dlist * dout M) :=
    match o with
    | DInsert e => let@ s' := insert_m s e in Ok ((s', DONone), 0)
    | DInsertRange es => let@ s' := insert_range_m s es in Ok ((s', DONone), 0)
    | DRemoveMultiples m => let@ (s', b, out) := remove_multiples_m s m in Ok ((s', DORemoved b out), 0)
    | DRemoveElement m => let@ (s', b) := remove_element_m s m in Ok ((s', DOBool b), 0)
    | DToFront m => let@ (s', r) := to_front_m s m in Ok ((s', DOFound r), 0)
    | _ => free (step s o)
    end.
  (** The calls of a history; DivList.h:73-125 *)
  Fixpoint run_m (s : dlist) (ops : list (dop M)) : counted (dlist * list (dout M)) :=
    match ops with
    | [] => Ok ((s, []), 0)
    | o :: ops' => let@ (s1, r) := step_m s o in let@ (s2, rs) := run_m s1 ops' in Ok ((s2, r :: rs), 0)
    end.
End Shifted.
