(** Model of src/mathic/HashTable.h.

    A Handle* is the number of the node in the order of allocation; nodes live in [mNodePool], modelled as the list of all nodes ever
    allocated, [None] once freed.  [size_t] arithmetic and memory are unbounded.  Exceptions and memoryUse() are not modelled;
    remove() (238-261) does not compile when it is used (it calls hashvalue, reads p->key without a call and default constructs a
    Handle) and hardReset() (103) is not defined, so neither is modelled. *)
From Coq Require Import List Arith Bool NArith.
From Verif.Base Require Import Res Arr.
From Verif.Spec Require Import HMap.
Import ListNotations.

Section HashTable.
  Variable K V : Type.
  (** [keq a b] is keysEqual(a, b). *)
  Variable keq : K -> K -> bool.
  Variable hash : K -> N.

  (** HashTable.h:59-75 Handle *)
  Record node := mk_node { n_key : K; n_val : V; n_next : option nat }.
  (** HashTable.h:126-142.  mTableSize is the length of [t_bins], mHashMask is one less. *)
  Record table := mk_table {
    t_log : nat;
    t_bins : list (option nat);
    t_nodes : list (option node);
    t_count : nat;
    t_binCount : nat;
    t_max : N
  }.

  (** HashTable.h:158 and 302: mRebuildThreshold * mTableSize rounded towards 0.  The double 0.1 is 3602879701896397 / 2^55, and multiplying it by
      a power of two is exact. *)
  Definition max_count (log : nat) : N := N.div (N.shiftl 3602879701896397 (N.of_nat log)) (N.shiftl 1 55).

  (** HashTable.h:178, 226, 284: hash(k) & mHashMask *)
  Definition bin (log : nat) (k : K) : nat := N.to_nat (N.land (hash k) (N.pred (N.shiftl 1 (N.of_nat log)))).

  (** HashTable.h:145-159 the constructor *)
  Definition ht_new (nbits : nat) : table := mk_table nbits (repeat None (2 ^ nbits)) [] 0 0 (max_count nbits).

  (** Following a pointer to a Handle (HashTable.h:59-75); a pointer into a freed buffer is undefined *)
  Definition deref (nodes : list (option node)) (h : nat) : res node := let* o := vget nodes h in of_option o.

  (** HashTable.h:203, 282, 289, 296: setting the field next *)
  Definition set_next (nodes : list (option node)) (h : nat) (q : option nat) : res (list (option node)) :=
    let* n := deref nodes h in vset nodes h (Some (mk_node (n_key n) (n_val n) q)).

  (** HashTable.h:190-213 the search in insert: the node with an equal key, or the last node of the chain *)
  Fixpoint walk (fuel : nat) (nodes : list (option node)) (p : nat) (k : K) : res (nat * bool) :=
    match fuel with
    | 0 => NoFuel
    | S fuel' =>
        let* n := deref nodes p in
        if keq (n_key n) k then Ok (p, true) else
        match n_next n with
        | None => Ok (p, false)
        | Some q => walk fuel' nodes q k
        end
    end.

  (** HashTable.h:295 the search for the end of the chain *)
  Fixpoint walk_end (fuel : nat) (nodes : list (option node)) (r : nat) : res nat :=
    match fuel with
    | 0 => NoFuel
    | S fuel' =>
        let* n := deref nodes r in
        match n_next n with None => Ok r | Some q => walk_end fuel' nodes q end
    end.

  (** HashTable.h:278-298 the loop over one old chain; mAlwaysInsertAtEnd is true *)
  Fixpoint relink (fuel : nat) (log : nat) (bins : list (option nat)) (nodes : list (option node)) (binCount : nat) (p : option nat)
    : res (list (option nat) * list (option node) * nat) :=
    match p with
    | None => Ok (bins, nodes, binCount)
    | Some q =>
        match fuel with
        | 0 => NoFuel
        | S fuel' =>
            let* n := deref nodes q in
            let p' := n_next n in
            let* nodes1 := set_next nodes q None in
            let hashval := bin log (n_key n) in
            let* r := vget bins hashval in
            match r with
            | None =>
                let* nodes2 := set_next nodes1 q None in
                let* bins' := vset bins hashval (Some q) in
                relink fuel' log bins' nodes2 (S binCount) p'
            | Some r =>
                let* last := walk_end (length nodes) nodes1 r in
                let* nodes2 := set_next nodes1 last (Some q) in
                relink fuel' log bins nodes2 binCount p'
            end
        end
    end.
  (** HashTable.h:275-299 *)
  Fixpoint relink_all (log : nat) (old : list (option nat)) (bins : list (option nat)) (nodes : list (option node)) (binCount : nat)
    : res (list (option nat) * list (option node) * nat) :=
    match old with
    | [] => Ok (bins, nodes, binCount)
    | p :: old' =>
        let* (bins', nodes', binCount') := relink (length nodes) log bins nodes binCount p in
        relink_all log old' bins' nodes' binCount'
    end.

  (** HashTable.h:263-305 grow *)
  Definition grow (t : table) (nbits : nat) : res table :=
    let* (bins, nodes, binCount) := relink_all nbits (t_bins t) (repeat None (2 ^ nbits)) (t_nodes t) 0 in
    Ok (mk_table nbits bins nodes (t_count t) binCount (max_count nbits)).

  (** HashTable.h:166-173 makeNode *)
  Definition makeNode (nodes : list (option node)) (k : K) (v : V) : list (option node) * nat :=
    (nodes ++ [Some (mk_node k v None)], length nodes).

  (** HashTable.h:216-217 *)
  Definition grow_if_full (t : table) : res table := if N.ltb (t_max t) (N.of_nat (t_count t)) then grow t (t_log t + 2) else Ok t.

  (** HashTable.h:175-221 insert *)
  Definition ht_insert (t : table) (k : K) (v : V) : res (table * (bool * nat)) :=
    let hashval := bin (t_log t) k in
    let* head := vget (t_bins t) hashval in
    match head with
    | None =>
        let (nodes, result) := makeNode (t_nodes t) k v in
        let* bins := vset (t_bins t) hashval (Some result) in
        let* t' := grow_if_full (mk_table (t_log t) bins nodes (S (t_count t)) (t_binCount t) (t_max t)) in
        Ok (t', (true, result))
    | Some p =>
        let* (tmpNode, found) := walk (length (t_nodes t)) (t_nodes t) p k in
        if (found : bool) then Ok (t, (false, tmpNode)) else
        let (nodes, result) := makeNode (t_nodes t) k v in
        let* nodes' := set_next nodes tmpNode (Some result) in
        let* t' := grow_if_full (mk_table (t_log t) (t_bins t) nodes' (S (t_count t)) (t_binCount t) (t_max t)) in
        Ok (t', (true, result))
    end.

  (** HashTable.h:223-235 lookup *)
  Fixpoint find (fuel : nat) (nodes : list (option node)) (p : option nat) (k : K) : res (option nat) :=
    match p with
    | None => Ok None
    | Some q =>
        match fuel with
        | 0 => NoFuel
        | S fuel' =>
            let* n := deref nodes q in
            if keq (n_key n) k then Ok (Some q) else find fuel' nodes (n_next n) k
        end
    end.
  (** HashTable.h:223-235 lookup *)
  Definition ht_lookup (t : table) (k : K) : res (option nat) :=
    let* p := vget (t_bins t) (bin (t_log t) k) in find (length (t_nodes t)) (t_nodes t) p k.

  (** HashTable.h:68-70 Handle::key and value *)
  Definition ht_key (t : table) (h : nat) : res K := let* n := deref (t_nodes t) h in Ok (n_key n).
  (** HashTable.h:69 value *)
  Definition ht_value (t : table) (h : nat) : res V := let* n := deref (t_nodes t) h in Ok (n_val n).
  (** HashTable.h:70 assigning to value() *)
  Definition ht_setValue (t : table) (h : nat) (v : V) : res table :=
    let* n := deref (t_nodes t) h in
    let* nodes := vset (t_nodes t) h (Some (mk_node (n_key n) v (n_next n))) in
    Ok (mk_table (t_log t) (t_bins t) nodes (t_count t) (t_binCount t) (t_max t)).

  (** HashTable.h:161-164 reset *)
  Definition ht_reset (t : table) : table :=
    mk_table (t_log t) (t_bins t) (map (fun _ => None) (t_nodes t)) (t_count t) (t_binCount t) (t_max t).

  (** HashTable.h:315-324 computeNodeCount *)
  Fixpoint chain_length (fuel : nat) (nodes : list (option node)) (p : option nat) : res nat :=
    match p with
    | None => Ok 0
    | Some q =>
        match fuel with
        | 0 => NoFuel
        | S fuel' => let* n := deref nodes q in let* l := chain_length fuel' nodes (n_next n) in Ok (S l)
        end
    end.
  (** HashTable.h:319-322 *)
  Fixpoint count_all (nodes : list (option node)) (bins : list (option nat)) : res nat :=
    match bins with
    | [] => Ok 0
    | p :: bins' => let* a := chain_length (length nodes) nodes p in let* b := count_all nodes bins' in Ok (a + b)
    end.
  (** HashTable.h:315-324 computeNodeCount *)
  Definition ht_computeNodeCount (t : table) : res nat := count_all (t_nodes t) (t_bins t).
  (** HashTable.h:326-335 computeBinCount *)
  Definition ht_computeBinCount (t : table) : nat := length (filter (fun p => match p with Some _ => true | None => false end) (t_bins t)).

  (** One call: HashTable.h:78-103 *)
  Definition ht_step (t : table) (o : hop K V) : res (table * hout K V) :=
    match o with
    | HInsert k v => let* (t', r) := ht_insert t k v in let (b, h) := (r : bool * nat) in Ok (t', HOInserted b h)
    | HLookup k => let* h := ht_lookup t k in Ok (t, HOFound h)
    | HKey h => let* k := ht_key t h in Ok (t, HOKey k)
    | HValue h => let* v := ht_value t h in Ok (t, HOValue v)
    | HSetValue h v => let* t' := ht_setValue t h v in Ok (t', HONone)
    end.
End HashTable.
Arguments mk_node {K V}. Arguments n_key {K V}. Arguments n_val {K V}. Arguments n_next {K V}.
Arguments mk_table {K V}. Arguments t_log {K V}. Arguments t_bins {K V}. Arguments t_nodes {K V}. Arguments t_count {K V}.
Arguments t_binCount {K V}. Arguments t_max {K V}.
