(** How often a PairQueue calls compare and computePairData (C96). *)
From Coq Require Import List Arith NArith Bool Permutation Lia.
From Verif.Base Require Import Res Order.
From Verif.Spec Require Import PQ Pairs PairsFacts Reach.
From Verif.TourTree Require Import Model.
From Verif.PairQueue Require Import Model Proofs Properties Counted CountedProofs.
Import ListNotations.
Local Open Scope N_scope.

(** C96.  Counting changes nothing else. *)
Theorem C96_counting_changes_nothing : forall (P : Type) (pdata : N -> N -> P) (lt : N * N * P -> N * N * P -> bool) (sup : bool) ops s n,
  (let* (s', _, rs) := run (pq_step_c P pdata lt sup) (s, n) ops in Ok (s', rs)) = run (pq_step P pdata lt sup) s ops.
Proof. intros. exact (pq_run_forget pdata lt sup ops s n). Qed.
Print Assumptions C96_counting_changes_nothing.

(** C96.  With k columns in the queue, adding a column compares at most log2 (2k+1) times, and not at all if it has no rows.  pop and retireIndex compare at most
    log2 (2k-1) times for each pair that they take out of the queue.  The other calls do not compare. *)
Theorem C96_comparisons_of_a_call : forall (P : Type) (pdata : N -> N -> P) (lt : N * N * P -> N * N * P -> bool) (sup : bool), strict_weak lt ->
  forall ops s rs o s' r n, legal P pdata lt sup ops s rs -> pallowed pdata lt sup (pq_abs sup s) o -> pq_step P pdata lt sup s o = Ok (s', r) ->
  exists n', pq_step_c P pdata lt sup (s, n) o = Ok (s', n', r) /\
    let k := length (tt_forAll _ (pq_queue s)) in
    match o with
    | PAdd [] => n' = n
    | PAdd _ => (n' <= n + Nat.log2 (2 * k + 1))%nat
    | PPop | PRetire _ => (n' <= n + (pq_pairCount P s - pq_pairCount P s') * Nat.log2 (2 * k - 1))%nat
    | _ => n' = n
    end.
Proof.
  intros P pdata lt sup Hsw ops s rs o s' r n Hr Ha Hst.
  destruct (call_count pdata lt sup Hsw s o s' r n (reached_pinv pdata lt sup Hsw _ _ _ Hr) Ha Hst) as (n' & Hc & Hb). exists n'. split; auto.
  cbn zeta in *. unfold tt_forAll. rewrite map_length. destruct o as [[|]| | | | | | |]; tauto.
Qed.
Print Assumptions C96_comparisons_of_a_call.

(** C96.  While no index is retired, pop compares at most log2 (2k-1) times. *)
Theorem C96_pop_logarithmic : forall (P : Type) (pdata : N -> N -> P) (lt : N * N * P -> N * N * P -> bool) (sup : bool), strict_weak lt ->
  forall ops s rs s' r n, legal P pdata lt sup ops s rs -> (forall i, dead (pq_abs sup s) i = false) -> pallowed pdata lt sup (pq_abs sup s) PPop ->
  pq_step P pdata lt sup s PPop = Ok (s', r) ->
  exists n', pq_step_c P pdata lt sup (s, n) PPop = Ok (s', n', r) /\ (n' <= n + Nat.log2 (2 * length (tt_forAll _ (pq_queue s)) - 1))%nat.
Proof.
  intros P pdata lt sup Hsw ops s rs s' r n Hr Hd Ha Hst. unfold tt_forAll. rewrite map_length.
  exact (pop_log pdata lt sup Hsw s s' r n (reached_pinv pdata lt sup Hsw _ _ _ Hr) Hd Ha Hst).
Qed.
Print Assumptions C96_pop_logarithmic.

(** C96.  A legal history that adds K columns with rows compares at most log2 (2K) times for each of these columns and for each pair handed in and taken out again,
    whichever indexes are retired: the pairs still in the queue have cost nothing. *)
Theorem C96_comparisons_of_a_history : forall (P : Type) (pdata : N -> N -> P) (lt : N * N * P -> N * N * P -> bool) (sup : bool), strict_weak lt ->
  forall ops s rs, legal P pdata lt sup ops s rs -> let L := Nat.log2 (2 * full_columns ops) in
  exists n, run (pq_step_c P pdata lt sup) (pq_new P, 0%nat) ops = Ok (s, n, rs) /\
    (n + pq_pairCount P s * L <= (full_columns ops + length (handed 0 ops)) * L)%nat.
Proof.
  intros P pdata lt sup Hsw ops s rs Hr L. destruct (history_count pdata lt sup Hsw L ops s rs Hr (Nat.le_refl _)) as (n & H1 & _ & H2). eauto.
Qed.
Print Assumptions C96_comparisons_of_a_history.

(** C96.  No pair's data is computed more often than the pair was handed in: once, if the rows of every column differ.  It is computed when the pair becomes the first
    of its column and not before: at most one pair per column in the queue, besides those taken out, has been computed. *)
Theorem C96_pair_data_computed_once : forall (P : Type) (pdata : N -> N -> P) (lt : N * N * P -> N * N * P -> bool) (sup : bool), strict_weak lt ->
  forall ops s rs, legal P pdata lt sup ops s rs ->
  (exists rest, Permutation (handed 0 ops) (computed (pq_log s) ++ rest)) /\
  (NoDup (handed 0 ops) -> NoDup (computed (pq_log s))) /\
  (length (computed (pq_log s)) + pq_pairCount P s <= length (handed 0 ops) + length (tt_forAll _ (pq_queue s)))%nat.
Proof.
  intros P pdata lt sup Hsw ops s rs Hr. destruct (computed_once pdata lt sup Hsw ops s rs Hr) as [(rest & Hp) Hn]. split; [eauto|]. split.
  - intros Hd. apply (Permutation_NoDup Hp) in Hd. now apply nodup_prefix in Hd.
  - unfold tt_forAll. now rewrite map_length.
Qed.
Print Assumptions C96_pair_data_computed_once.

(** Six columns with rows; two pairs are popped; then the indexes below 4 are retired. *)
Definition ex_counted : list pq_op :=
  [PAdd []; PAdd [0]; PAdd [1; 0]; PAdd [2; 1; 0]; PAdd [3; 2; 1; 0]; PAdd [4; 3; 2; 1; 0]; PAdd [5; 4; 3; 2; 1; 0]; PPop; PPop; PRetire 0; PRetire 1; PRetire 2; PRetire 3].

(** The hypotheses are met: here pop and retireIndex take out several pairs, and one pop after retirement compares more often than log2 (2k-1) times: four times
    with five columns. *)
Example C96_nonvacuous :
  exists s rs, legal N ex_data ex_order true ex_counted s rs /\ pallowed ex_data ex_order true (pq_abs true s) PPop /\
    length (tt_forAll _ (pq_queue s)) = 5%nat /\ NoDup (handed 0 ex_counted) /\ full_columns ex_counted = 6%nat /\ pq_pairCount N s = 15%nat /\
    exists s' n n', run (pq_step_c N ex_data ex_order true) (pq_new N, 0%nat) ex_counted = Ok (s, n, rs) /\ n = 19%nat /\
      pq_step_c N ex_data ex_order true (s, n) PPop = Ok (s', n', PPair (5, 4)) /\ n' = 23%nat.
Proof.
  eexists; eexists; split.
  { apply keeps_reached; [vm_compute; reflexivity|].
    vm_compute. repeat match goal with
    | |- _ /\ _ => split
    | |- True => exact I
    | |- forall _, _ => intro
    | H : _ \/ _ |- _ => destruct H
    | H : False |- _ => destruct H
    | H : ?a = ?r |- _ => is_var r; subst r
    | |- _ = _ => reflexivity
    | |- [] <> _ => discriminate
    | H : _ = _ |- _ => discriminate H
    end. }
  split; [vm_compute; intros H; discriminate H|]. split; [reflexivity|]. split.
  { vm_compute. repeat (constructor; [intros H; repeat destruct H as [H|H]; try discriminate H; destruct H|]). constructor. }
  split; [reflexivity|]. split; [reflexivity|]. do 3 eexists. split; [vm_compute; reflexivity|]. split; [reflexivity|]. split; vm_compute; reflexivity.
Qed.
