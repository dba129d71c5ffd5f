(** Specification of ComTree as a plain sequence: node [n] is the [n]-th entry, counted from 1. *)
From Coq Require Import List Arith.
From Verif.Base Require Import Res Arr.
From Verif.ComTree Require Import Model.
Import ListNotations.

Section Spec.
  Context {E : Type}.
  (** What each call does to the sequence of entries; [None] if the call is not allowed there. *)
  Definition seq_step (l : list E) (o : ct_op E) : option (list E * ct_out E) :=
    match o with
    | CPushBack v => Some (l ++ [v], CNone)
    | CPopBack => match l with [] => None | _ => Some (removelast l, CNone) end
    | CSet n v => if andb (Nat.leb 1 n) (Nat.leb n (length l)) then Some (upd l (n - 1) v, CNone) else None
    | CGet n => if Nat.leb 1 n then option_map (fun v => (l, CVal v)) (nth_error l (n - 1)) else None
    | CClear => Some ([], CNone)
    | CGrow => Some (l, CNone)
    | CCopy _ => Some (l, CNone)
    | CSize => Some (l, CNat (length l))
    end.
  Fixpoint seq_run (l : list E) (ops : list (ct_op E)) : option (list E * list (ct_out E)) :=
    match ops with
    | [] => Some (l, [])
    | o :: ops' =>
        match seq_step l o with
        | None => None
        | Some (l1, r) =>
            match seq_run l1 ops' with
            | None => None
            | Some (l2, rs) => Some (l2, r :: rs)
            end
        end
    end.
End Spec.
