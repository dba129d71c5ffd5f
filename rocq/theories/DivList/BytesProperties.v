(** Property theorems about what DivList and HashTable report as their memory (C103). *)
From Coq Require Import List Arith Bool ZArith NArith Lia Permutation.
From Verif.Base Require Import Res.
From Verif.DivMask Require Import Model.
From Verif.Spec Require Import Reach DivFinder HMap PQFacts.
From Verif.HashTable Require Model Properties CountedProofs Bytes BytesProofs.
From Verif.DivList Require Import Model Proofs Properties Bytes BytesProofs.
Import ListNotations.

(** C103.  A DivList on a vector reports memory for at least the entries it holds and for at most twice as many as it held at a time, however it is used, if
    the vector grows by at most a factor of two (and by one from nothing). *)
Theorem C103_divlist_memory : forall (M : Type) (c : config M) (grow : nat -> nat) (size : nat), f_linked c = false -> (forall l, Permutation (f_sort_ext c l) l) ->
  (forall c, c < grow c <= 2 * c + 1) -> forall s0 ops s rs n, linit c = Ok s0 -> run (lstep c) s0 ops = Ok (s, rs) ->
  (forall pre post s1 rs1, ops = pre ++ post -> run (lstep c) s0 pre = Ok (s1, rs1) -> length (contents s1) <= n) ->
  exists cap, run (dm_step M (lstep c) grow) (s0, 0) ops = Ok ((s, cap), rs) /\
    length (contents s) * size <= dm_getMemoryUse M size (s, cap) <= 2 * n * size.
Proof.
  intros M c grow size Hk Hs Hg s0 ops s rs n Hi Hr Hn. unfold lstep in *. rewrite Hk in *. assert (H0 : l_list s0 = []).
  { unfold linit, construct in Hi. apply FaultFacts.bind_inv in Hi as (bits & _ & Hi). injection Hi as <-. unfold reset_left. now destruct (negb (f_auto c)). }
  edestruct (run_cap (f_ex c) (f_nvars c) (f_type c) (f_sort_data c) (f_use c) (f_divides c) (f_less c) (f_sorted c) (f_auto c) (f_ratio c) (f_min c) (f_sort_ext c) Hs grow Hg ops s0 0 s rs) as (cap & A & B & _ & D);
    [rewrite H0; cbn; lia|exact Hr|]. exists cap. split; [exact A|]. unfold dm_getMemoryUse. cbn [snd]. unfold contents, Model.contents; rewrite map_length. split; apply Nat.mul_le_mono_r; [exact B|].
  apply D; [lia|]. intros pre post s1 rs1 E H1. specialize (Hn pre post s1 rs1 E H1). unfold contents, Model.contents in Hn; now rewrite map_length in Hn.
Qed.
Print Assumptions C103_divlist_memory.

(** C103.  What a DivList on a vector reports never falls. *)
Theorem C103_divlist_never_shrinks : forall (M : Type) (c : config M) (grow : nat -> nat) (size : nat), f_linked c = false -> (forall l, Permutation (f_sort_ext c l) l) ->
  (forall c, c < grow c <= 2 * c + 1) -> forall s0 pre post m1 rs1 m rs, linit c = Ok s0 -> run (dm_step M (lstep c) grow) (s0, 0) pre = Ok (m1, rs1) ->
  run (dm_step M (lstep c) grow) (s0, 0) (pre ++ post) = Ok (m, rs) -> dm_getMemoryUse M size m1 <= dm_getMemoryUse M size m.
Proof.
  intros M c grow size Hk Hs Hg s0 pre post [s1 c1] rs1 [s c2] rs Hi H1 H. unfold lstep in *. rewrite Hk in *. assert (H0 : l_list s0 = []).
  { unfold linit, construct in Hi. apply FaultFacts.bind_inv in Hi as (bits & _ & Hi). injection Hi as <-. unfold reset_left. now destruct (negb (f_auto c)). }
  rewrite run_app, H1 in H. cbn [bind] in H. apply FaultFacts.bind_inv in H as ([m2 rs2] & H & E). injection E as -> _.
  edestruct (run_cap (f_ex c) (f_nvars c) (f_type c) (f_sort_data c) (f_use c) (f_divides c) (f_less c) (f_sorted c) (f_auto c) (f_ratio c) (f_min c) (f_sort_ext c) Hs grow Hg pre s0 0 s1 rs1) as (cap & A & B & _);
    [rewrite H0; cbn; lia|exact (mrun_fst _ _ _ _ _ _ _ _ _ _ _ _ _ _ _ _ _ _ H1)|]. rewrite H1 in A. injection A as <-.
  apply Nat.mul_le_mono_r. exact (cap_grows (f_ex c) (f_nvars c) (f_type c) (f_sort_data c) (f_use c) (f_divides c) (f_less c) (f_sorted c) (f_auto c) (f_ratio c) (f_min c) (f_sort_ext c) Hs grow Hg post s1 c1 (s, c2) rs2 B H).
Qed.
Print Assumptions C103_divlist_never_shrinks.

(** C103.  What memoryUse of HashTable reports is the memory of its entries and of at most the initial bins or forty per entry; it never falls. *)
Theorem C103_hashtable_memory : forall (K V : Type) (keq : K -> K -> bool) (hash : K -> N), HashTable.Properties.key_rules keq hash ->
  forall (pointer handle nbits : nat) (ops : list (hop K V)) t l rs,
  run (HashTable.Model.ht_step K V keq hash) (HashTable.Model.ht_new K V nbits) ops = Ok (t, rs) -> run (hmap_step keq) [] ops = Ok (l, rs) ->
  (exists j, 2 ^ (nbits + 2 * j) <= Nat.max (2 ^ nbits) (40 * length l) /\
     HashTable.Bytes.ht_memoryUse pointer handle t = 2 ^ (nbits + 2 * j) * pointer + length l * handle) /\
  forall pre post t1 rs1, ops = pre ++ post -> run (HashTable.Model.ht_step K V keq hash) (HashTable.Model.ht_new K V nbits) pre = Ok (t1, rs1) ->
    HashTable.Bytes.ht_memoryUse pointer handle t1 <= HashTable.Bytes.ht_memoryUse pointer handle t.
Proof. intros K V keq hash (_ & Hs & Ht & Hh) pointer handle nbits ops t l rs. exact (HashTable.BytesProofs.table_memory keq hash Hs Ht Hh pointer handle nbits ops t l rs). Qed.
Print Assumptions C103_hashtable_memory.

(** A list that held six entries and holds three has a capacity of eight; a table of five entries that started with one bin has 64. *)
Definition doubled (c : nat) : nat := Nat.max 1 (2 * c).
Example C103_nonvacuous :
  (forall c, c < doubled c <= 2 * c + 1) /\
  (exists s0 s rs, linit (mono_config lex true false false true) = Ok s0 /\ run (dm_step mono (lstep (mono_config lex true false false true)) doubled) (s0, 0) demo = Ok ((s, 8), rs) /\ length (contents s) = 3) /\
  exists t rs l, run (HashTable.Model.ht_step _ _ HashTable.Properties.ex_keq HashTable.Properties.ex_hash) (HashTable.Model.ht_new _ _ 0) HashTable.Properties.ex_ops = Ok (t, rs) /\
    run (hmap_step HashTable.Properties.ex_keq) [] HashTable.Properties.ex_ops = Ok (l, rs) /\ HashTable.Bytes.ht_memoryUse 8 24 t = 64 * 8 + 5 * 24.
Proof.
  split; [intros c; unfold doubled; lia|]. split.
  - eexists. eexists. eexists. split; [vm_compute; reflexivity|]. split; vm_compute; reflexivity.
  - eexists. eexists. eexists. split; [vm_compute; reflexivity|]. split; vm_compute; reflexivity.
Qed.
