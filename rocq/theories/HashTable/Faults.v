(** The model of src/mathic/HashTable.h once more, for client functions that throw: hash, keysEqual, the construction of a node, which copies
    a key and a value and may run out of memory, and the allocation of a larger array of bins.

    The functions take the number of such calls that return before one throws (Base/Fault.v). *)
From Coq Require Import List Arith Bool NArith.
From Verif.Base Require Import Res Arr Fault.
From Verif.Spec Require Import HMap.
From Verif.HashTable Require Import Model.
Import ListNotations.

Section Faults.
  Variable K V : Type.
  Variable keq : K -> K -> bool.
  Variable hash : K -> N.
  Notation table := (table K V).
  Notation node := (node K V).

  (** HashTable.h:190-213 the search in insert *)
  Fixpoint walk_x (left : table) (fuel b : nat) (nodes : list (option node)) (p : nat) (k : K) : res (fout table (nat * bool)) :=
    match fuel with
    | 0 => NoFuel
    | S fuel' =>
        let* n := deref K V nodes p in
        client b left (fun b =>
          if keq (n_key n) k then Ok (Fine b (p, true)) else
          match n_next n with
          | None => Ok (Fine b (p, false))
          | Some q => walk_x left fuel' b nodes q k
          end)
    end.

  (** HashTable.h:278-298 the loop over one old chain.  What is left of the table has the new size, the bins filled so far and the old
      mMaxCountBeforeRebuild [max]; the old bins are gone. *)
  Fixpoint relink_x (fuel b log cnt : nat) (max : N) (bins : list (option nat)) (nodes : list (option node)) (binCount : nat) (p : option nat)
    : res (fout table (list (option nat) * list (option node) * nat)) :=
    match p with
    | None => Ok (Fine b (bins, nodes, binCount))
    | Some q =>
        match fuel with
        | 0 => NoFuel
        | S fuel' =>
            let* n := deref K V nodes q in
            let p' := n_next n in
            let* nodes1 := set_next K V nodes q None in
            client b (mk_table log bins nodes1 cnt binCount max) (fun b =>
              let hashval := bin K hash log (n_key n) in
              let* r := vget bins hashval in
              match r with
              | None =>
                  let* nodes2 := set_next K V nodes1 q None in
                  let* bins' := vset bins hashval (Some q) in
                  relink_x fuel' b log cnt max bins' nodes2 (S binCount) p'
              | Some r =>
                  let* last := walk_end K V (length nodes) nodes1 r in
                  let* nodes2 := set_next K V nodes1 last (Some q) in
                  relink_x fuel' b log cnt max bins nodes2 binCount p'
              end)
        end
    end.
  (** HashTable.h:275-299 *)
  Fixpoint relink_all_x (b log cnt : nat) (max : N) (old : list (option nat)) (bins : list (option nat)) (nodes : list (option node)) (binCount : nat)
    : res (fout table (list (option nat) * list (option node) * nat)) :=
    match old with
    | [] => Ok (Fine b (bins, nodes, binCount))
    | p :: old' =>
        fbind (relink_x (length nodes) b log cnt max bins nodes binCount p) (fun b r =>
          let '(bins', nodes', binCount') := r in
          relink_all_x b log cnt max old' bins' nodes' binCount')
    end.

  (** HashTable.h:263-305 grow: mTableSize, mLogTableSize and mHashMask have their new values when the new array is allocated. *)
  Definition grow_x (b : nat) (t : table) (nbits : nat) : res (fout table table) :=
    client b (mk_table nbits (t_bins t) (t_nodes t) (t_count t) (t_binCount t) (t_max t)) (fun b =>
    fbind (relink_all_x b nbits (t_count t) (t_max t) (t_bins t) (repeat None (2 ^ nbits)) (t_nodes t) 0) (fun b r =>
      let '(bins, nodes, binCount) := r in
      Ok (Fine b (mk_table nbits bins nodes (t_count t) binCount (max_count nbits))))).
  (** HashTable.h:216-217 *)
  Definition grow_if_full_x (b : nat) (t : table) : res (fout table table) :=
    if N.ltb (t_max t) (N.of_nat (t_count t)) then grow_x b t (t_log t + 2) else Ok (Fine b t).

  (** HashTable.h:166-173 makeNode has incremented mNodeCount when the node is made *)
  Definition counted (t : table) : table := mk_table (t_log t) (t_bins t) (t_nodes t) (S (t_count t)) (t_binCount t) (t_max t).

  (** HashTable.h:175-221 insert *)
  Definition ht_insert_x (b : nat) (t : table) (k : K) (v : V) : res (fout table (table * (bool * nat))) :=
    client b t (fun b =>
      let hashval := bin K hash (t_log t) k in
      let* head := vget (t_bins t) hashval in
      match head with
      | None =>
          client b (counted t) (fun b =>
            let (nodes, result) := makeNode K V (t_nodes t) k v in
            let* bins := vset (t_bins t) hashval (Some result) in
            fbind (grow_if_full_x b (mk_table (t_log t) bins nodes (S (t_count t)) (t_binCount t) (t_max t)))
              (fun b t' => Ok (Fine b (t', (true, result)))))
      | Some p =>
          fbind (walk_x t (length (t_nodes t)) b (t_nodes t) p k) (fun b r =>
            let (tmpNode, found) := (r : nat * bool) in
            if found then Ok (Fine b (t, (false, tmpNode))) else
            client b (counted t) (fun b =>
              let (nodes, result) := makeNode K V (t_nodes t) k v in
              let* nodes' := set_next K V nodes tmpNode (Some result) in
              fbind (grow_if_full_x b (mk_table (t_log t) (t_bins t) nodes' (S (t_count t)) (t_binCount t) (t_max t)))
                (fun b t' => Ok (Fine b (t', (true, result))))))
      end).

  (** HashTable.h:223-235 lookup *)
  Fixpoint find_x (left : table) (fuel b : nat) (nodes : list (option node)) (p : option nat) (k : K) : res (fout table (option nat)) :=
    match p with
    | None => Ok (Fine b None)
    | Some q =>
        match fuel with
        | 0 => NoFuel
        | S fuel' =>
            let* n := deref K V nodes q in
            client b left (fun b => if keq (n_key n) k then Ok (Fine b (Some q)) else find_x left fuel' b nodes (n_next n) k)
        end
    end.
  (** HashTable.h:223-235 lookup *)
  Definition ht_lookup_x (b : nat) (t : table) (k : K) : res (fout table (option nat)) :=
    client b t (fun b =>
      let* p := vget (t_bins t) (bin K hash (t_log t) k) in find_x t (length (t_nodes t)) b (t_nodes t) p k).
End Faults.
