(** Model of the clients of the divisor finders in src/divsim: DivListModel.h and KDTreeModel.h with minimizeOnInsert, and of the choice of a
    finder.  The counting of exponent queries is not modelled; it is not observable by the finders. *)
From Coq Require Import List Arith Bool ZArith.
From Verif.Base Require Import Res.
From Verif.Spec Require Import DivFinder.
From Verif.DivList Require Import Model.
From Verif.KD Require Import EntryArray Model.
Import ListNotations.

(** The calls on a client: DivListModel.h:104-135 *)
Inductive cop (M : Type) : Type :=
| CInsert (e : M)        (* insert(entry, removed) *)
| CAsk (o : dop M).      (* any of the queries *)
Arguments CInsert {M} e. Arguments CAsk {M} o.

Section Client.
  Context {M St : Type}.
  Variable step : St -> dop M -> res (St * dout M).
  Variable find : M -> dop M.             (* the client's findDivisor *)
  Variable after : St -> bool -> res St.  (* what the client does after the insertion, told whether there were multiples *)

  (** DivListModel.h:157-170, 174-187 insert and KDTreeModel.h:161-170, 174-184 insert; the answer is what was handed to the output *)
  Definition min_insert (s : St) (entry : M) : res (St * dout M) :=
    let* (s1, d) := step s (find entry) in
    match d with
    | DOFound (Some _) => Ok (s1, DOList [])
    | _ =>
        let* (s2, r) := step s1 (DRemoveMultiples entry) in
        let* (s3, _) := step s2 (DInsert entry) in
        match r with
        | DORemoved b xs => let* s4 := after s3 b in Ok (s4, DOList xs)
        | _ => UB
        end
    end.
  (** One call: DivListModel.h:104-135 *)
  Definition min_step (s : St) (o : cop M) : res (St * dout M) :=
    match o with
    | CInsert e => min_insert s e
    | CAsk (DFindDivisor m) => step s (find m)   (* DivListModel.h:108-115, KDTreeModel.h:121-123 *)
    | CAsk o => step s o
    end.
End Client.

(** DivListModel.h:110-113: findDivisor moves what it finds to the front *)
Definition list_find {M : Type} (front : bool) (m : M) : dop M := if front then DToFront m else DFindDivisor m.
(** DivListModel.h:166-169: the last entry is moved to the front *)
Definition list_after {M : Type} (linked front : bool) (s : dlist M) (has_multiples : bool) : res (dlist M) :=
  if front && has_multiples then
    match l_list s with
    | [] => UB
    | l => let* l' := move_to_front M linked l (length l - 1) in Ok (mk_dlist l' (l_bits s) (l_left s) (l_rebuilds s))
    end
  else Ok s.
(** KDTreeModel.h has nothing of the kind (KDTreeModel.h:161-184) *)
Definition tree_after {M : Type} (s : kd M) (has_multiples : bool) : res (kd M) := Ok s.
