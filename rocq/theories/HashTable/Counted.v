(** The model of src/mathic/HashTable.h once more, with the calls of the configuration counted: a call of hash adds [wh] to the counter
    and a call of keysEqual adds [wk].  Choosing one weight 1 and the other 0 counts the calls of one function.
    [HashTable/CountedProofs.v] shows that forgetting the counter gives the functions of HashTable/Model.v. *)
From Coq Require Import List Arith Bool NArith.
From Verif.Base Require Import Res Arr Count.
From Verif.Spec Require Import HMap.
From Verif.HashTable Require Import Model.
Import ListNotations.

Section Counted.
  Variable K V : Type.
  Variable keq : K -> K -> bool.
  Variable hash : K -> N.
  Variable wh wk : nat.
  Notation node := (node K V).
  Notation table := (table K V).
  Notation bin := (bin K hash).

  (** A call that counts [w] (HashTable.h:36 hash, 39 keysEqual) *)
  Definition tick (w : nat) : counted unit := Ok (tt, w).

  (** HashTable.h:190-213 the search in insert *)
  Fixpoint walk_c (fuel : nat) (nodes : list (option node)) (p : nat) (k : K) : counted (nat * bool) :=
    match fuel with
    | 0 => NoFuel
    | S fuel' =>
        let@ n := free (deref K V nodes p) in
        let@ _ := tick wk in
        if keq (n_key n) k then free (Ok (p, true)) else
        match n_next n with
        | None => free (Ok (p, false))
        | Some q => walk_c fuel' nodes q k
        end
    end.

  (** HashTable.h:278-298 the loop over one old chain *)
  Fixpoint relink_c (fuel : nat) (log : nat) (bins : list (option nat)) (nodes : list (option node)) (binCount : nat) (p : option nat)
    : counted (list (option nat) * list (option node) * nat) :=
    match p with
    | None => free (Ok (bins, nodes, binCount))
    | Some q =>
        match fuel with
        | 0 => NoFuel
        | S fuel' =>
            let@ n := free (deref K V nodes q) in
            let p' := n_next n in
            let@ nodes1 := free (set_next K V nodes q None) in
            let@ _ := tick wh in
            let hashval := bin log (n_key n) in
            let@ r := free (vget bins hashval) in
            match r with
            | None =>
                let@ nodes2 := free (set_next K V nodes1 q None) in
                let@ bins' := free (vset bins hashval (Some q)) in
                relink_c fuel' log bins' nodes2 (S binCount) p'
            | Some r =>
                let@ last := free (walk_end K V (length nodes) nodes1 r) in
                let@ nodes2 := free (set_next K V nodes1 last (Some q)) in
                relink_c fuel' log bins nodes2 binCount p'
            end
        end
    end.
  (** HashTable.h:275-299 *)
  Fixpoint relink_all_c (log : nat) (old : list (option nat)) (bins : list (option nat)) (nodes : list (option node)) (binCount : nat)
    : counted (list (option nat) * list (option node) * nat) :=
    match old with
    | [] => free (Ok (bins, nodes, binCount))
    | p :: old' =>
        let@ x := relink_c (length nodes) log bins nodes binCount p in
        relink_all_c log old' (fst (fst x)) (snd (fst x)) (snd x)
    end.
  (** HashTable.h:263-305 grow *)
  Definition grow_c (t : table) (nbits : nat) : counted table :=
    let@ x := relink_all_c nbits (t_bins t) (repeat None (2 ^ nbits)) (t_nodes t) 0 in
    free (Ok (mk_table nbits (fst (fst x)) (snd (fst x)) (t_count t) (snd x) (max_count nbits))).
  (** HashTable.h:216-217 *)
  Definition grow_if_full_c (t : table) : counted table :=
    if N.ltb (t_max t) (N.of_nat (t_count t)) then grow_c t (t_log t + 2) else free (Ok t).

  (** HashTable.h:175-221 insert *)
  Definition ht_insert_c (t : table) (k : K) (v : V) : counted (table * (bool * nat)) :=
    let@ _ := tick wh in
    let hashval := bin (t_log t) k in
    let@ head := free (vget (t_bins t) hashval) in
    match head with
    | None =>
        let (nodes, result) := makeNode K V (t_nodes t) k v in
        let@ bins := free (vset (t_bins t) hashval (Some result)) in
        let@ t' := grow_if_full_c (mk_table (t_log t) bins nodes (S (t_count t)) (t_binCount t) (t_max t)) in
        free (Ok (t', (true, result)))
    | Some p =>
        let@ w := walk_c (length (t_nodes t)) (t_nodes t) p k in
        if snd w then free (Ok (t, (false, fst w))) else
        let (nodes, result) := makeNode K V (t_nodes t) k v in
        let@ nodes' := free (set_next K V nodes (fst w) (Some result)) in
        let@ t' := grow_if_full_c (mk_table (t_log t) (t_bins t) nodes' (S (t_count t)) (t_binCount t) (t_max t)) in
        free (Ok (t', (true, result)))
    end.

  (** HashTable.h:223-235 the loop of lookup *)
  Fixpoint find_c (fuel : nat) (nodes : list (option node)) (p : option nat) (k : K) : counted (option nat) :=
    match p with
    | None => free (Ok None)
    | Some q =>
        match fuel with
        | 0 => NoFuel
        | S fuel' =>
            let@ n := free (deref K V nodes q) in
            let@ _ := tick wk in
            if keq (n_key n) k then free (Ok (Some q)) else find_c fuel' nodes (n_next n) k
        end
    end.
  (** HashTable.h:223-235 lookup *)
  Definition ht_lookup_c (t : table) (k : K) : counted (option nat) :=
    let@ _ := tick wh in
    let@ p := free (vget (t_bins t) (bin (t_log t) k)) in find_c (length (t_nodes t)) (t_nodes t) p k.

  (** One call: HashTable.h:78-103.  The others call nothing of the configuration. *)
  Definition ht_step_c (t : table) (o : hop K V) : counted (table * hout K V) :=
    match o with
    | HInsert k v => let@ x := ht_insert_c t k v in free (Ok (fst x, HOInserted (fst (snd x)) (snd (snd x))))
    | HLookup k => let@ h := ht_lookup_c t k in free (Ok (t, HOFound h))
    | HKey h => let@ k := free (ht_key K V t h) in free (Ok (t, HOKey k))
    | HValue h => let@ v := free (ht_value K V t h) in free (Ok (t, HOValue v))
    | HSetValue h v => let@ t' := free (ht_setValue K V t h v) in free (Ok (t', HONone))
    end.
  (** A history of calls (HashTable.h:78-103) with everything that was counted *)
  Fixpoint ht_run_c (t : table) (ops : list (hop K V)) : counted (table * list (hout K V)) :=
    match ops with
    | [] => free (Ok (t, []))
    | o :: ops' => let@ x := ht_step_c t o in let@ y := ht_run_c (fst x) ops' in free (Ok (fst y, snd x :: snd y))
    end.
End Counted.
