(** Property theorems about the memory of PairQueue (C102). *)
From Coq Require Import List Arith NArith Bool String Lia.
From Verif.Base Require Import Res Arr Order.
From Verif.Spec Require Import PQ Pairs PairsFacts Reach.
From Verif.HeapMem Require Import Model Proofs Memory.
From Verif.TourTree Require Import Model Proofs.
From Verif.PairQueue Require Import Model Proofs Properties Bytes BytesProofs.
Import ListNotations.
Local Notation length := List.length.

(** C102.  The arena of a queue was asked for one Column for each column with rows that was ever added, and for an index of 32 bits (of 16, if the column is
    small) for each of its pairs; the tournament takes at most 16 or four nodes for each column that was held at a time.  Missing: a bound by the pairs
    that were held at a time, see [C102_peak_refuted]. *)
Theorem C102_memory_partial : forall (P : Type) (pdata : N -> N -> P) (lt : N * N * P -> N * N * P -> bool) (sup : bool) (z : psizes),
  strict_weak lt -> forall ops s rs, legal P pdata lt sup ops s rs -> forall n,
  (forall pre post s1 rs1, ops = pre ++ post -> run (pq_step P pdata lt sup) (pq_new P) pre = Ok (s1, rs1) -> length (tt_forAll _ (pq_queue s1)) <= n) ->
  exists arena k, run (pm_step P pdata lt sup z) (pq_new P, 0) ops = Ok ((s, arena), rs) /\
    pm_getMemoryUse P z (s, arena) = arena + 16 * 2 ^ k * z_node z + (8 * 2 ^ k + 2) * z_player z /\
    16 * 2 ^ k <= Nat.max 16 (4 * n) /\
    columns ops * z_column z + pairs ops * Nat.min (z_small z) (z_index z) <= arena <= columns ops * z_column z + pairs ops * Nat.max (z_small z) (z_index z).
Proof.
  intros P pdata lt sup z sw ops s rs Hl n Hn. destruct (memory pdata lt sup sw z ops s rs Hl) as (Hr & _ & Hp & Hs & _ & Hc).
  assert (Hc' : tt_cap (pq_queue s) <= Nat.max 16 (4 * n)) by (apply Hc; intros; eapply Hn; eauto).
  destruct Hs as [Hs|[k Hk]]; [exfalso; exact (reached_cap pdata lt sup sw ops s rs Hl Hs)|].
  exists (asked z 0 ops), k. split; [exact Hr|]. split; [|split; [lia|apply asked_bounds]].
  unfold pm_getMemoryUse, tt_getMemoryUse. cbn [fst snd]. rewrite Hp, Hk. replace (16 * 2 ^ k / 2) with (8 * 2 ^ k) by (apply Nat.div_unique_exact; lia). lia.
Qed.
Print Assumptions C102_memory_partial.

(** C102.  A small column takes indexes of 16 bits: while there are at most 65535 columns, the arena is asked for exactly one Column for each column and
    one SmallIndex for each pair. *)
Theorem C102_small_columns : forall (P : Type) (pdata : N -> N -> P) (lt : N * N * P -> N * N * P -> bool) (sup : bool) (z : psizes),
  strict_weak lt -> forall ops s rs, legal P pdata lt sup ops s rs -> (pq_count s <= 65535)%N ->
  run (pm_step P pdata lt sup z) (pq_new P, 0) ops = Ok ((s, columns ops * z_column z + pairs ops * z_small z), rs).
Proof.
  intros P pdata lt sup z sw ops s rs Hl Hc. destruct (memory pdata lt sup sw z ops s rs Hl) as (Hr & Ha & _). rewrite Hr, asked_small; [reflexivity|]. rewrite <- Ha. exact Hc.
Qed.
Print Assumptions C102_small_columns.

(** C102.  What getMemoryUse reports never falls, whatever is popped or retired. *)
Theorem C102_never_shrinks : forall (P : Type) (pdata : N -> N -> P) (lt : N * N * P -> N * N * P -> bool) (sup : bool) (z : psizes),
  strict_weak lt -> forall ops s rs, legal P pdata lt sup ops s rs -> forall pre post m1 rs1 m rs2, ops = pre ++ post ->
  run (pm_step P pdata lt sup z) (pq_new P, 0) pre = Ok (m1, rs1) -> run (pm_step P pdata lt sup z) (pq_new P, 0) ops = Ok (m, rs2) ->
  pm_getMemoryUse P z m1 <= pm_getMemoryUse P z m.
Proof. intros P pdata lt sup z sw. exact (never_shrinks pdata lt sup sw z). Qed.
Print Assumptions C102_never_shrinks.

(** C102.  The memory is not bounded by the pairs that are held at a time: a queue that holds at most one pair, and none in the end, takes a Column
    for each column that ever passed through it. *)
Theorem C102_peak_refuted : forall z n, (N.of_nat n < index_max)%N -> exists ops s rs arena, legal unit (fun _ _ => tt) (fun _ _ => false) false ops s rs /\
  (forall pre post s1 rs1, ops = pre ++ post -> run (pq_step unit (fun _ _ => tt) (fun _ _ => false) false) (pq_new unit) pre = Ok (s1, rs1) -> pq_pairCount unit s1 <= 1) /\
  pq_pairCount unit s = 0 /\
  run (pm_step unit (fun _ _ => tt) (fun _ _ => false) false z) (pq_new unit, 0) ops = Ok ((s, arena), rs) /\ n * z_column z <= arena.
Proof. exact one_at_a_time. Qed.
Print Assumptions C102_peak_refuted.

(** With sizes as on a 64 bit machine: two columns of three pairs in all, after which all are popped. *)
Definition ex_sizes : psizes := mk_psizes 40 4 2 8 16.
Definition ex_ops : list pq_op := [PAdd []; PAdd [0%N]; PAdd [1%N; 0%N]; PPop; PPop; PPop].
Example C102_nonvacuous : exists s rs, legal N ex_data ex_order false ex_ops s rs /\ strict_weak ex_order /\
  run (pm_step N ex_data ex_order false ex_sizes) (pq_new N, 0) ex_ops = Ok ((s, 86), rs) /\ pm_getMemoryUse N ex_sizes (s, 86) = 86 + 128 + 160 /\ pq_empty N s = true.
Proof.
  assert (H : exists s rs, run (pq_step N ex_data ex_order false) (pq_new N) ex_ops = Ok (s, rs)) by (eexists; eexists; vm_compute; reflexivity).
  destruct H as (s & rs & H). exists s, rs. split; [|split; [exact ex_order_sw|]].
  - apply keeps_reached; [exact H|]. clear H. vm_compute. repeat match goal with
    | |- _ /\ _ => split
    | |- True => exact I
    | |- forall _, _ => intro
    | H : _ \/ _ |- _ => destruct H
    | H : False |- _ => destruct H
    | H : ?a = ?r |- _ => is_var r; subst r
    | |- _ = _ => reflexivity
    | H : _ = _ |- _ => discriminate H
    end.
  - vm_compute in H. injection H as <- <-. vm_compute. auto.
Qed.
