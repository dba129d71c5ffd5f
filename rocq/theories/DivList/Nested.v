(** The searches of src/mathic/DivList.h once more, for callbacks that search the same list.

    A search keeps what it needs in local variables, so that a search made in the function proceed of another one is an ordinary call. *)
From Coq Require Import List Arith Bool ZArith NArith.
From Verif.Base Require Import Res StdAlg.
From Verif.DivMask Require Import Model.
From Verif.Spec Require Import DivFinder.
From Verif.DivList Require Import Model.
Import ListNotations.

Section Nested.
  Context {M : Type}.
  Variable ex : M -> nat -> Z.
  Variable use : bool.
  Variable divides : M -> M -> bool.
  Variable less : M -> M -> bool.
  Variable linked : bool.
  Variable sorted : bool.
  Notation ext := (ext M).
  Notation ediv := (ext_divides M use divides).
  Variable call : dlist M -> dop M -> res (dlist M * dout M).   (* DivList.h:73-125 *)
  Variable cb : callback M.
  Variable inner : list M -> list (dop M).   (* the searches made when so much has been reported *)

  (** The list, and the calls made in proceed so far with their answers; no C++ counterpart *)
  Definition lworld : Type := (dlist M * list (dop M * dout M))%type.
  (** The calls that proceed makes, one after the other; DivList.h:73-125 *)
  Fixpoint calls_l (w : lworld) (ops : list (dop M)) {struct ops} : res lworld :=
    match ops with
    | [] => Ok w
    | o :: ops' => let* (s', r) := call (fst w) o in calls_l (s', snd w ++ [(o, r)]) ops'
    end.
  (** DivList.h:512-515, 526-529, 365-368 and 544-546 *)
  Fixpoint feed_l (p : ext -> bool) (l : list ext) (w : lworld) (seen : list M) {struct l} : res (lworld * list M) :=
    match l with
    | [] => Ok (w, seen)
    | x :: l' =>
        if p x then
          let seen' := seen ++ [x_t x] in
          let* w' := calls_l w (inner seen') in
          if cb seen' then feed_l p l' w' seen' else Ok (w', seen')
        else feed_l p l' w seen
    end.
  (** DivList.h:371-389 findAllDivisorsSorted on a list *)
  Fixpoint feed_list_l (m : ext) (count : nat) (l : list ext) (w : lworld) (seen : list M) {struct l} : res (lworld * list M) :=
    match l with
    | [] => Ok (w, seen)
    | x :: l' =>
        let stop := if S count =? 35 then less (x_t m) (x_t x) else false in
        let count' := if S count =? 35 then 0 else S count in
        if stop then Ok (w, seen) else
        if ediv x m then
          let seen' := seen ++ [x_t x] in
          let* w' := calls_l w (inner seen') in
          if cb seen' then feed_list_l m count' l' w' seen' else Ok (w', seen')
        else feed_list_l m count' l' w seen
    end.
  (** DivList.h:506-518 findAllDivisors with 358-389 *)
  Definition all_divisors_l (s : dlist M) (mono : M) : res (lworld * list M) :=
    let m := extend M ex use (l_bits s) mono in
    if negb sorted then feed_l (fun x => ediv x m) (l_list s) (s, []) []
    else if linked then feed_list_l m 0 (l_list s) (s, []) []
    else let* i := upper_bound (comp M less) (l_list s) m in
         feed_l (fun x => ediv x m) (firstn i (l_list s)) (s, []) [].
  (** DivList.h:520-530 findAllMultiples *)
  Definition all_multiples_l (s : dlist M) (mono : M) : res (lworld * list M) :=
    let m := extend M ex use (l_bits s) mono in feed_l (fun x => ediv m x) (l_list s) (s, []) [].
  (** DivList.h:540-547 forAll *)
  Definition for_all_l (s : dlist M) : res (lworld * list M) := feed_l (fun _ => true) (l_list s) (s, []) [].
End Nested.
