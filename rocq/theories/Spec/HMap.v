(** Specification of a table from keys to values that hands out handles, independent of any implementation.

    The table is the list of its entries in the order in which they were inserted; a handle is the place of an entry in this list. *)
From Coq Require Import List Arith Bool.
From Verif.Base Require Import Res Arr.
Import ListNotations.

Inductive hop (K V : Type) : Type :=
| HInsert (k : K) (v : V)        (* insert(k, v) *)
| HLookup (k : K)                (* lookup(k) *)
| HKey (h : nat)                 (* h->key() *)
| HValue (h : nat)               (* h->value() *)
| HSetValue (h : nat) (v : V).   (* h->value() = v *)
Arguments HInsert {K V}. Arguments HLookup {K V}. Arguments HKey {K V}. Arguments HValue {K V}. Arguments HSetValue {K V}.

Inductive hout (K V : Type) : Type :=
| HONone
| HOInserted (is_new : bool) (h : nat)
| HOFound (h : option nat)
| HOKey (k : K)
| HOValue (v : V).
Arguments HONone {K V}. Arguments HOInserted {K V}. Arguments HOFound {K V}. Arguments HOKey {K V}. Arguments HOValue {K V}.

Section HMap.
  Context {K V : Type}.
  Variable keq : K -> K -> bool.

  (** The place of the first entry whose key equals [k]. *)
  Fixpoint place_of (l : list (K * V)) (k : K) : option nat :=
    match l with
    | [] => None
    | (k', _) :: l' => if keq k' k then Some 0 else option_map S (place_of l' k)
    end.

  Definition hmap_step (l : list (K * V)) (o : hop K V) : res (list (K * V) * hout K V) :=
    match o with
    | HInsert k v =>
        match place_of l k with
        | Some h => Ok (l, HOInserted false h)
        | None => Ok (l ++ [(k, v)], HOInserted true (length l))
        end
    | HLookup k => Ok (l, HOFound (place_of l k))
    | HKey h => let* (k, _) := vget l h in Ok (l, HOKey k)
    | HValue h => let* (_, v) := vget l h in Ok (l, HOValue v)
    | HSetValue h v => let* (k, _) := vget l h in let* l' := vset l h (k, v) in Ok (l', HONone)
    end.
End HMap.
