(** Property theorems about HashTable (C17, C18). *)
From Coq Require Import List Arith Bool NArith Lia.
From Verif.Base Require Import Res Arr.
From Verif.Spec Require Import HMap.
From Verif.HashTable Require Import Model Proofs.
Import ListNotations.

(** What the documentation asks of a Configuration: keysEqual is an equivalence and equal keys have equal hash values. *)
Definition key_rules {K : Type} (keq : K -> K -> bool) (hash : K -> N) : Prop :=
  (forall a, keq a a = true) /\ (forall a b, keq a b = true -> keq b a = true) /\
  (forall a b c, keq a b = true -> keq b c = true -> keq a c = true) /\
  (forall a b, keq a b = true -> hash a = hash b).

(** C17.  Any history of calls gets from a HashTable of any initial size exactly the answers of the list of entries of Spec/HMap.v,
    including which calls are undefined (those with a handle that was never handed out); both counts of the nodes are the number of
    entries. *)
Theorem C17_hashtable_is_map : forall (K V : Type) (keq : K -> K -> bool) (hash : K -> N), key_rules keq hash ->
  forall (nbits : nat) (ops : list (hop K V)),
  match run (hmap_step keq) [] ops with
  | Ok (l, rs) => exists t, run (ht_step K V keq hash) (ht_new K V nbits) ops = Ok (t, rs) /\
      t_count t = length l /\ ht_computeNodeCount K V t = Ok (length l)
  | _ => run (ht_step K V keq hash) (ht_new K V nbits) ops = UB
  end.
Proof. exact (fun K V keq hash '(conj _ (conj Hs (conj Ht Hh))) => ht_refines keq hash Hs Ht Hh). Qed.
Print Assumptions C17_hashtable_is_map.

(** C17.  No two entries have equal keys, so the number of entries is the number of different keys. *)
Theorem C17_keys_distinct : forall (K V : Type) (keq : K -> K -> bool),
  (forall a b, keq a b = true -> keq b a = true) -> (forall a b c, keq a b = true -> keq b c = true -> keq a c = true) ->
  forall (ops : list (hop K V)) l rs, run (hmap_step keq) [] ops = Ok (l, rs) ->
  forall x y k v k' v', nth_error l x = Some (k, v) -> nth_error l y = Some (k', v') -> keq k k' = true -> x = y.
Proof. exact (fun K V keq Hs Ht => ht_distinct keq (fun _ => 0%N) Hs Ht (fun _ _ _ => eq_refl)). Qed.
Print Assumptions C17_keys_distinct.

(** C17.  After any inserts, a lookup finds the key and the value of the first insert of an equal key, and nothing if there was none. *)
Theorem C17_lookup_finds_first_insert : forall (K V : Type) (keq : K -> K -> bool) (hash : K -> N), key_rules keq hash ->
  forall (nbits : nat) (kvs : list (K * V)), exists t rs,
    run (ht_step K V keq hash) (ht_new K V nbits) (map (fun e => HInsert (fst e) (snd e)) kvs) = Ok (t, rs) /\
    forall k, match List.find (fun e => keq (fst e) k) kvs with
    | None => ht_lookup K V keq hash t k = Ok None
    | Some (k', v) => exists h, ht_lookup K V keq hash t k = Ok (Some h) /\ ht_key K V t h = Ok k' /\ ht_value K V t h = Ok v
    end.
Proof. exact (fun K V keq hash '(conj _ (conj Hs (conj Ht Hh))) => ht_first_insert keq hash Hs Ht Hh). Qed.
Print Assumptions C17_lookup_finds_first_insert.

(** Keys are equal when their first components are; the hash function makes many keys collide. *)
Definition ex_keq (a b : N * nat) : bool := N.eqb (fst a) (fst b).
Definition ex_hash (a : N * nat) : N := N.div2 (fst a).
Lemma ex_rules : key_rules ex_keq ex_hash.
Proof.
  unfold key_rules, ex_keq, ex_hash. repeat split.
  - intros a. apply N.eqb_refl.
  - intros a b H. now rewrite N.eqb_sym.
  - intros a b c H1 H2. apply N.eqb_eq in H1, H2. apply N.eqb_eq. congruence.
  - intros a b H. apply N.eqb_eq in H. now rewrite H.
Qed.
Definition ex_ops : list (hop (N * nat) nat) :=
  [HInsert (5%N, 0) 10; HInsert (4%N, 0) 11; HInsert (5%N, 1) 12; HInsert (20%N, 0) 13; HLookup (5%N, 7); HSetValue 1 14; HInsert (37%N, 0) 15;
   HKey 0; HLookup (4%N, 0); HValue 1; HLookup (21%N, 0); HInsert (12%N, 0) 16].
Example C17_nonvacuous :
  exists t rs, run (ht_step _ _ ex_keq ex_hash) (ht_new _ _ 0) ex_ops = Ok (t, rs) /\ t_log t = 6 /\ t_count t = 5 /\
    rs = [HOInserted true 0; HOInserted true 1; HOInserted false 0; HOInserted true 2; HOFound (Some 0); HONone; HOInserted true 3;
          HOKey (5%N, 0); HOFound (Some 1); HOValue 14; HOFound None; HOInserted true 4].
Proof. eexists; eexists; split; [vm_compute; reflexivity|repeat split]. Qed.

(** C17.  A hash function that tells equal keys apart makes the table forget keys. *)
Theorem C17_hash_must_respect_equality_refuted :
  exists (keq : N -> N -> bool) (hash : N -> N) t rs,
    (forall a, keq a a = true) /\ (forall a b, keq a b = true -> keq b a = true) /\ (forall a b c, keq a b = true -> keq b c = true -> keq a c = true) /\
    run (ht_step N nat keq hash) (ht_new _ _ 4) [HInsert 1%N 7; HLookup 2%N; HInsert 2%N 8] = Ok (t, rs) /\
    keq 1%N 2%N = true /\ rs = [HOInserted true 0; HOFound None; HOInserted true 1].
Proof.
  exists (fun _ _ => true), (fun k => k). eexists. eexists. do 3 (split; [reflexivity|]). split; [vm_compute; reflexivity|split; reflexivity].
Qed.
Print Assumptions C17_hash_must_respect_equality_refuted.

(** C17.  reset() frees the nodes but keeps the pointers to them, so the next lookup of a key in a used bin reads freed memory, and so
    does the next insert. *)
Theorem C17_usable_after_reset_refuted :
  exists t rs, run (ht_step _ _ ex_keq ex_hash) (ht_new _ nat 4) [HInsert (3%N, 0) 7] = Ok (t, rs) /\
    ht_lookup _ _ ex_keq ex_hash (ht_reset _ _ t) (3%N, 0) = UB /\
    ht_insert _ _ ex_keq ex_hash (ht_reset _ _ t) (3%N, 0) 7 = UB.
Proof. eexists; eexists; split; [vm_compute; reflexivity|split; reflexivity]. Qed.
Print Assumptions C17_usable_after_reset_refuted.

(** C17.  The member mBinCount is not the number of used bins: insert never counts the bin it starts to use. *)
Theorem C17_bin_count_refuted :
  exists t rs, run (ht_step _ _ ex_keq ex_hash) (ht_new _ nat 10) [HInsert (3%N, 0) 7] = Ok (t, rs) /\
    t_binCount t = 0 /\ ht_computeBinCount _ _ t = 1.
Proof. eexists; eexists; split; [vm_compute; reflexivity|split; vm_compute; reflexivity]. Qed.
Print Assumptions C17_bin_count_refuted.

(** C18.  In any reachable state, growing the table to any size succeeds, gives a table of the size asked for, and leaves the answers
    to all later histories as they were. *)
Theorem C18_growing_changes_no_answer : forall (K V : Type) (keq : K -> K -> bool) (hash : K -> N), key_rules keq hash ->
  forall nbits (ops : list (hop K V)) t rs n, run (ht_step K V keq hash) (ht_new K V nbits) ops = Ok (t, rs) ->
  exists t', grow K V hash t n = Ok t' /\ length (t_bins t') = 2 ^ n /\
    forall ops', match run (ht_step K V keq hash) t ops' with
      | Ok (_, rs') => exists t2, run (ht_step K V keq hash) t' ops' = Ok (t2, rs')
      | r => run (ht_step K V keq hash) t' ops' = r
      end.
Proof. exact (fun K V keq hash '(conj _ (conj Hs (conj Ht Hh))) => ht_grow_keeps keq hash Hs Ht Hh). Qed.
Print Assumptions C18_growing_changes_no_answer.

(** C18.  The number of bins is always a power of two; an insert quadruples it exactly when it adds an entry and the number of entries
    then exceeds 0.1 times the number of bins rounded down. *)
Theorem C18_grows_exactly_when_full : forall (K V : Type) (keq : K -> K -> bool) (hash : K -> N), key_rules keq hash ->
  forall nbits (ops : list (hop K V)) t rs k v t' b h, run (ht_step K V keq hash) (ht_new K V nbits) ops = Ok (t, rs) ->
  ht_insert K V keq hash t k v = Ok (t', (b, h)) ->
  length (t_bins t) = 2 ^ t_log t /\
  t_log t' = (if b && N.ltb (max_count (t_log t)) (N.of_nat (S (t_count t))) then t_log t + 2 else t_log t) /\
  length (t_bins t') = 2 ^ t_log t'.
Proof. exact (fun K V keq hash '(conj _ (conj Hs (conj Ht Hh))) => ht_growth keq hash Hs Ht Hh). Qed.
Print Assumptions C18_grows_exactly_when_full.

(** C18.  With at least 4 bins initially the number of entries never exceeds the product of the double 0.1 = 3602879701896397 / 2^55 and
    the number of bins, so that with less than 2^54 bins there are at least ten bins for each entry. *)
Theorem C18_load_bounded : forall (K V : Type) (keq : K -> K -> bool) (hash : K -> N), key_rules keq hash ->
  forall nbits (ops : list (hop K V)) t rs, 2 <= nbits -> run (ht_step K V keq hash) (ht_new K V nbits) ops = Ok (t, rs) ->
  (2 ^ 55 * N.of_nat (t_count t) <= 3602879701896397 * N.of_nat (length (t_bins t)))%N /\
  (length (t_bins t) < 2 ^ 54 -> (10 * N.of_nat (t_count t) <= N.of_nat (length (t_bins t)))%N).
Proof. exact (fun K V keq hash '(conj _ (conj Hs (conj Ht Hh))) => ht_load keq hash Hs Ht Hh). Qed.
Print Assumptions C18_load_bounded.

(** C18.  With less than 4 bins initially the bound can fail. *)
Theorem C18_load_bounded_small_refuted :
  exists t rs, run (ht_step _ _ ex_keq ex_hash) (ht_new _ nat 0) [HInsert (3%N, 0) 7] = Ok (t, rs) /\ t_count t = 1 /\ length (t_bins t) = 4.
Proof. eexists; eexists; split; [vm_compute; reflexivity|split; reflexivity]. Qed.
Print Assumptions C18_load_bounded_small_refuted.

Example C18_nonvacuous :
  exists t rs, 2 <= 2 /\ run (ht_step _ _ ex_keq ex_hash) (ht_new _ nat 2) ex_ops = Ok (t, rs) /\
    t_log t = 6 /\ t_count t = 5 /\ filter (fun p => match p with Some _ => true | None => false end) (t_bins t) = [Some 0; Some 4; Some 2; Some 3].
Proof. eexists; eexists; split; [auto|split; [vm_compute; reflexivity|repeat split]]. Qed.
