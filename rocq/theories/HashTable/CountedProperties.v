(** Property theorems about how often HashTable calls its configuration and how many bins it has (C81). *)
From Coq Require Import List Arith Bool NArith.
From Verif.Base Require Import Res Arr Count.
From Verif.Spec Require Import HMap.
From Verif.HashTable Require Import Model Properties Counted CountedProofs.
Import ListNotations.

(** The counted table is the table: dropping the counter from the run of a history gives the run of that history. *)
Theorem C81_counted_table_is_table : forall (K V : Type) (keq : K -> K -> bool) (hash : K -> N) (wh wk : nat) (ops : list (hop K V)) (t : table K V),
  (let* (x, _) := ht_run_c K V keq hash wh wk t ops in Ok x) = run (ht_step K V keq hash) t ops.
Proof. exact (fun K V keq hash wh wk ops t => run_forget keq hash wh wk ops t). Qed.
Print Assumptions C81_counted_table_is_table.

(** C81.  A history computes at most one hash value per insert and lookup and two more per entry of the table in the end; so growing
    costs amortised constant time per insert, whatever the initial size. *)
Theorem C81_hash_calls_amortised : forall (K V : Type) (keq : K -> K -> bool) (hash : K -> N), key_rules keq hash ->
  forall (nbits : nat) (ops : list (hop K V)) t rs hashes, ht_run_c K V keq hash 1 0 (ht_new K V nbits) ops = Ok (t, rs, hashes) ->
  hashes <= list_sum (map (fun o => match o with HInsert _ _ | HLookup _ => 1 | _ => 0 end) ops) + 2 * t_count t.
Proof. exact (fun K V keq hash '(conj _ (conj Hs (conj Ht Hh))) nbits ops t rs n H => hash_calls keq hash Hs Ht Hh nbits ops t rs n H). Qed.
Print Assumptions C81_hash_calls_amortised.

(** C81.  In any table that a history leads to, lookup and insert of [k] compare [k] at most once with each entry whose hash value agrees with
    that of [k] modulo the number of bins, and with no other entry: with all of them if lookup finds nothing. *)
Theorem C81_key_comparisons : forall (K V : Type) (keq : K -> K -> bool) (hash : K -> N), key_rules keq hash ->
  forall (nbits : nat) (ops : list (hop K V)) l t rs,
  run (hmap_step keq) [] ops = Ok (l, rs) -> run (ht_step K V keq hash) (ht_new K V nbits) ops = Ok (t, rs) ->
  forall k, exists same,
    same = length (filter (fun e => N.eqb (hash (fst e) mod N.of_nat (length (t_bins t))) (hash k mod N.of_nat (length (t_bins t)))) l) /\
    (forall o compared, ht_lookup_c K V keq hash 0 1 t k = Ok (o, compared) -> compared <= same /\ (o = None -> compared = same)) /\
    (forall v x compared, ht_insert_c K V keq hash 0 1 t k v = Ok (x, compared) -> compared <= same).
Proof. exact (fun K V keq hash '(conj _ (conj Hs (conj Ht Hh))) nbits ops l t rs H1 H2 k => key_calls keq hash Hs Ht Hh nbits ops l t rs H1 H2 k). Qed.
Print Assumptions C81_key_comparisons.

(** C81.  The bins are at most the initial ones or forty per entry, so the memory of the table is linear in its entries. *)
Theorem C81_bins_linear : forall (K V : Type) (keq : K -> K -> bool) (hash : K -> N), key_rules keq hash ->
  forall (nbits : nat) (ops : list (hop K V)) t l rs,
  run (ht_step K V keq hash) (ht_new K V nbits) ops = Ok (t, rs) -> run (hmap_step keq) [] ops = Ok (l, rs) ->
  length (t_bins t) <= Nat.max (2 ^ nbits) (40 * length l).
Proof. exact (fun K V keq hash '(conj _ (conj Hs (conj Ht Hh))) nbits ops t l rs => bins_linear keq hash Hs Ht Hh nbits ops t l rs). Qed.
Print Assumptions C81_bins_linear.

(** C81, without the hash function: "lookup makes a bounded number of comparisons" is false.  With a hash function that is constant, which
    the documentation allows, there are tables in which one lookup makes any number of them. *)
Theorem C81_bounded_lookup_refuted : forall n, exists t rs,
  run (ht_step nat unit Nat.eqb (fun _ => 0%N)) (ht_new _ _ 10) (map (fun i => HInsert i tt) (seq 0 n)) = Ok (t, rs) /\
  ht_lookup_c nat unit Nat.eqb (fun _ => 0%N) 0 1 t n = Ok (None, n).
Proof. exact all_collide. Qed.
Print Assumptions C81_bounded_lookup_refuted.

(** Thirty inserts into a table that starts with one bin grow it five times; with the hash function of C17, 69 hash values are computed
    and the bound is 90. *)
Definition grow_ops : list (hop (N * nat) nat) := map (fun i => HInsert (N.of_nat i, 0) i) (seq 0 30).
Example C81_nonvacuous :
  key_rules ex_keq ex_hash /\
  (exists t rs, ht_run_c _ _ ex_keq ex_hash 1 0 (ht_new _ _ 0) grow_ops = Ok (t, rs, 69) /\ t_count t = 30 /\ t_log t = 10 /\ length (t_bins t) = 1024 /\
     ht_lookup_c _ _ ex_keq ex_hash 0 1 t (29%N, 5) = Ok (Some 29, 2) /\ ht_lookup_c _ _ ex_keq ex_hash 1 0 t (29%N, 5) = Ok (Some 29, 1)) /\
  (exists t rs, ht_run_c _ _ ex_keq ex_hash 0 1 (ht_new _ _ 0) grow_ops = Ok (t, rs, 15)).
Proof.
  split; [exact ex_rules|]. split.
  - eexists; eexists; split; [vm_compute; reflexivity|]. vm_compute. auto 10.
  - eexists; eexists. vm_compute. reflexivity.
Qed.
