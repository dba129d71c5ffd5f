(** Specification of a table whose key equality may answer anything, independent of any implementation.

    An answer of the table is only held to what the equality said: an insert either adds its entry at the end or names an entry whose key the
    equality accepted, and a lookup either names such an entry or finds nothing. *)
From Coq Require Import List Arith Bool.
From Verif.Base Require Import Res Arr.
From Verif.Spec Require Import HMap.
Import ListNotations.

Section HLoose.
  Context {K V : Type}.
  Variable keq : K -> K -> bool.

  Inductive hloose (l : list (K * V)) : hop K V -> hout K V -> list (K * V) -> Prop :=
  | hl_new k v : hloose l (HInsert k v) (HOInserted true (length l)) (l ++ [(k, v)])
  | hl_old k v h k' v' : nth_error l h = Some (k', v') -> keq k' k = true -> hloose l (HInsert k v) (HOInserted false h) l
  | hl_none k : hloose l (HLookup k) (HOFound None) l
  | hl_some k h k' v' : nth_error l h = Some (k', v') -> keq k' k = true -> hloose l (HLookup k) (HOFound (Some h)) l
  | hl_key h k v : nth_error l h = Some (k, v) -> hloose l (HKey h) (HOKey k) l
  | hl_value h k v : nth_error l h = Some (k, v) -> hloose l (HValue h) (HOValue v) l
  | hl_set h k v v' : nth_error l h = Some (k, v) -> hloose l (HSetValue h v') HONone (upd l h (k, v')).

  Inductive hloose_trace : list (K * V) -> list (hop K V) -> list (hout K V) -> list (K * V) -> Prop :=
  | ht_nil l : hloose_trace l [] [] l
  | ht_cons l o r l1 ops rs l2 : hloose l o r l1 -> hloose_trace l1 ops rs l2 -> hloose_trace l (o :: ops) (r :: rs) l2.

  (** A call through a handle that no insert has given out *)
  Definition bad_handle (n : nat) (o : hop K V) : Prop :=
    match o with HKey h | HValue h | HSetValue h _ => n <= h | _ => False end.
End HLoose.
