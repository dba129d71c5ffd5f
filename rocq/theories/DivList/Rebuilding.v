(** The searches of src/mathic/DivList.h without sortOnInsert once more, for callbacks that change the list that is being searched.

    rebuild recalculates the masks in place and push_back on a std::list leaves all iterators valid, end() included, so that the search goes on in the changed
    list.  All other calls that change the list count as undefined: an insertion into a std::vector makes its iterators invalid, and a removal may
    remove the entry the iterator is at.  The mask of the monomial that is looked for is computed once, before the loop. *)
From Coq Require Import List Arith Bool ZArith NArith.
From Verif.Base Require Import Res.
From Verif.DivMask Require Import Model.
From Verif.Spec Require Import DivFinder.
From Verif.DivList Require Import Model Nested.
Import ListNotations.

Section Rebuilding.
  Context {M : Type}.
  Variable ex : M -> nat -> Z.
  Variable use : bool.
  Variable divides : M -> M -> bool.
  Variable linked : bool.
  Notation ext := (ext M).
  Notation ediv := (ext_divides M use divides).
  Variable call : dlist M -> dop M -> res (dlist M * dout M).   (* DivList.h:73-125 *)
  Variable cb : callback M.
  Variable inner : list M -> list (dop M).   (* the calls made when so much has been reported *)

  (** The calls that leave all iterators valid: DivList.h:575-586 rebuild, 404 push_back and the searches *)
  Definition harmless (o : dop M) : bool :=
    match o with
    | DInsert _ | DInsertRange _ => linked
    | DRemoveMultiples _ | DRemoveElement _ | DToFront _ => false
    | _ => true
    end.
  (** The calls that proceed makes, one after the other; DivList.h:73-125 *)
  Fixpoint calls_r (w : lworld) (ops : list (dop M)) {struct ops} : res lworld :=
    match ops with
    | [] => Ok w
    | o :: ops' => if harmless o then let* (s', r) := call (fst w) o in calls_r (s', snd w ++ [(o, r)]) ops' else UB
    end.
  (** DivList.h:512-515, 526-529 and 544-546; [k] is the position of the iterator *)
  Fixpoint feed_r (fuel : nat) (p : ext -> bool) (k : nat) (w : lworld) (seen : list M) {struct fuel} : res (lworld * list M) :=
    match fuel with
    | 0 => NoFuel
    | S fuel' =>
        match nth_error (l_list (fst w)) k with
        | None => Ok (w, seen)
        | Some x =>
            if p x then
              let seen' := seen ++ [x_t x] in
              let* w' := calls_r w (inner seen') in
              if cb seen' then feed_r fuel' p (S k) w' seen' else Ok (w', seen')
            else feed_r fuel' p (S k) w seen
        end
    end.
  (** DivList.h:506-515 findAllDivisors *)
  Definition all_divisors_r (fuel : nat) (s : dlist M) (mono : M) : res (lworld * list M) :=
    let m := extend M ex use (l_bits s) mono in feed_r fuel (fun x => ediv x m) 0 (s, []) [].
  (** DivList.h:520-530 findAllMultiples *)
  Definition all_multiples_r (fuel : nat) (s : dlist M) (mono : M) : res (lworld * list M) :=
    let m := extend M ex use (l_bits s) mono in feed_r fuel (fun x => ediv m x) 0 (s, []) [].
  (** DivList.h:540-547 forAll *)
  Definition for_all_r (fuel : nat) (s : dlist M) : res (lworld * list M) := feed_r fuel (fun _ => true) 0 (s, []) [].
End Rebuilding.
