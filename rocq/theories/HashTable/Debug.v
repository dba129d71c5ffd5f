(** HashTable.h compiled with MATHIC_DEBUG: the model with its assertions, a failed one being [UB].  The assertion in remove (260) is not
    modelled because remove does not compile when it is used. *)
From Coq Require Import List Arith Bool NArith.
From Verif.Base Require Import Res Arr.
From Verif.Spec Require Import HMap.
From Verif.HashTable Require Import Model.
From Verif.TourTree Require Import Debug.
Import ListNotations.

Section Debug.
  Variable K V : Type.
  Variable keq : K -> K -> bool.
  Variable hash : K -> N.
  Notation table := (table K V).

  (** HashTable.h:219, 266, 304: the count of the nodes in the chains is mNodeCount *)
  Definition check_count (t : table) : res unit := let* n := ht_computeNodeCount K V t in check (n =? t_count t).
  (** HashTable.h:180, 228: the index of the bin is below the size of the table *)
  Definition check_bin (t : table) (k : K) : res unit := check (bin K hash (t_log t) k <? length (t_bins t)).

  (** HashTable.h:263-305 grow *)
  Definition grow_d (t : table) (nbits : nat) : res table :=
    let* _ := check_count t in
    let* t' := grow K V hash t nbits in
    let* _ := check_count t' in
    Ok t'.
  (** HashTable.h:216-219 the end of insert *)
  Definition finish_d (t : table) : res table :=
    let* t' := if N.ltb (t_max t) (N.of_nat (t_count t)) then grow_d t (t_log t + 2) else Ok t in
    let* _ := check_count t' in
    Ok t'.
  (** HashTable.h:175-221 insert *)
  Definition ht_insert_d (t : table) (k : K) (v : V) : res (table * (bool * nat)) :=
    let hashval := bin K hash (t_log t) k in
    let* _ := check_bin t k in
    let* head := vget (t_bins t) hashval in
    match head with
    | None =>
        let (nodes, result) := makeNode K V (t_nodes t) k v in
        let* bins := vset (t_bins t) hashval (Some result) in
        let* t' := finish_d (mk_table (t_log t) bins nodes (S (t_count t)) (t_binCount t) (t_max t)) in
        Ok (t', (true, result))
    | Some p =>
        let* (tmpNode, found) := walk K V keq (length (t_nodes t)) (t_nodes t) p k in
        if (found : bool) then Ok (t, (false, tmpNode)) else
        let (nodes, result) := makeNode K V (t_nodes t) k v in
        let* nodes' := set_next K V nodes tmpNode (Some result) in
        let* t' := finish_d (mk_table (t_log t) (t_bins t) nodes' (S (t_count t)) (t_binCount t) (t_max t)) in
        Ok (t', (true, result))
    end.
  (** HashTable.h:223-235 lookup *)
  Definition ht_lookup_d (t : table) (k : K) : res (option nat) := let* _ := check_bin t k in ht_lookup K V keq hash t k.

  (** One call: HashTable.h:78-103 *)
  Definition ht_step_d (t : table) (o : hop K V) : res (table * hout K V) :=
    match o with
    | HInsert k v => let* (t', r) := ht_insert_d t k v in let (b, h) := (r : bool * nat) in Ok (t', HOInserted b h)
    | HLookup k => let* h := ht_lookup_d t k in Ok (t, HOFound h)
    | o => ht_step K V keq hash t o
    end.
End Debug.
