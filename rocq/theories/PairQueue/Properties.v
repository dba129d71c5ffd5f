(** Property theorems about PairQueue (C14, C15, C16, C49). *)
From Coq Require Import String List NArith Bool Permutation.
From Verif.Base Require Import Res Order.
From Verif.Spec Require Import PQ Pairs PairsFacts Reach.
From Verif.TourTree Require Import Model.
From Verif.PairQueue Require Import Model Proofs.
Import ListNotations.
Local Open Scope N_scope.

(** [legal ops s rs]: the calls [ops], each allowed by [pallowed] where it is made, lead from an empty queue to [s] with answers [rs]. *)
Notation legal P pdata lt sup := (reached (pq_step P pdata lt sup) (fun s => pallowed pdata lt sup (pq_abs sup s)) (pq_new P)).

(** C14.  Every legal history is a history of the specification [pstep] of Spec/Pairs.v. *)
Theorem C14_pairqueue_refines_spec : forall (P : Type) (pdata : N -> N -> P) (lt : N * N * P -> N * N * P -> bool) (sup : bool),
  strict_weak lt -> forall ops s rs, legal P pdata lt sup ops s rs ->
  ptrace pdata lt (mk_ps [] 0 (is_dead sup (pq_new P))) ops rs (pq_abs sup s).
Proof. exact @reached_trace. Qed.
Print Assumptions C14_pairqueue_refines_spec.

(** C14.  An allowed call never meets undefined behaviour and never loops: it answers, or it is a column too many. *)
Theorem C14_pairqueue_progress : forall (P : Type) (pdata : N -> N -> P) (lt : N * N * P -> N * N * P -> bool) (sup : bool),
  strict_weak lt -> forall ops s rs o, legal P pdata lt sup ops s rs -> pallowed pdata lt sup (pq_abs sup s) o ->
  (exists s' r, pq_step P pdata lt sup s o = Ok (s', r)) \/
  (exists rows, o = PAdd rows /\ pq_count s = index_max /\
     pq_step P pdata lt sup s o = Throw "Too large column index in PairQueue."%string).
Proof. exact @pq_progress. Qed.
Print Assumptions C14_pairqueue_progress.

(** C14, C15.  A pair is delivered at most as often as it was handed in; a pair that involves no retired index is delivered exactly as
    often as it was handed in, less the copies still in the queue. *)
Theorem C14_pairs_conserved : forall (P : Type) (pdata : N -> N -> P) (lt : N * N * P -> N * N * P -> bool) (sup : bool),
  strict_weak lt -> forall ops s rs, legal P pdata lt sup ops s rs ->
  Permutation (untouched (is_dead sup s) (handed 0 ops)) (untouched (is_dead sup s) (delivered rs) ++ live (pq_abs sup s)) /\
  exists rest, Permutation (handed 0 ops) (delivered rs ++ live (pq_abs sup s) ++ rest).
Proof. exact @pq_conserved. Qed.
Print Assumptions C14_pairs_conserved.

(** C14.  The columns in the tournament are never exhausted and hold the data of their first row. *)
Theorem C14_columns_nonempty : forall (P : Type) (pdata : N -> N -> P) (lt : N * N * P -> N * N * P -> bool) (sup : bool),
  strict_weak lt -> forall ops s rs c, legal P pdata lt sup ops s rs -> In c (tt_forAll _ (pq_queue s)) ->
  c_rows c <> [] /\ c_pd c = pdata (c_col c) (hd 0 (c_rows c)) /\ c_col c < pq_count s /\ forall r, In r (c_rows c) -> r < c_col c.
Proof. exact @pq_columns. Qed.
Print Assumptions C14_columns_nonempty.

(** C15.  What topPair() answers involves no retired index and is maximal among the pairs that involve none. *)
Theorem C15_top_never_retired : forall (P : Type) (pdata : N -> N -> P) (lt : N * N * P -> N * N * P -> bool) (sup : bool),
  strict_weak lt -> forall ops s rs s' p, legal P pdata lt sup ops s rs -> live (pq_abs sup s) <> [] ->
  pq_step P pdata lt sup s PPop = Ok (s', PPair p) \/ (exists d, pq_step P pdata lt sup s PTop = Ok (s', PPairData p d)) ->
  is_dead sup s (fst p) = false /\ is_dead sup s (snd p) = false /\ is_max (pair_lt pdata lt) p (live (pq_abs sup s)).
Proof. exact @pq_never_retired. Qed.
Print Assumptions C15_top_never_retired.

(** C15.  Retirement is for ever. *)
Theorem C15_retired_stays_retired : forall (P : Type) (pdata : N -> N -> P) (lt : N * N * P -> N * N * P -> bool) (sup : bool),
  strict_weak lt -> forall ops s rs o s' r i, legal P pdata lt sup ops s rs -> pallowed pdata lt sup (pq_abs sup s) o ->
  pq_step P pdata lt sup s o = Ok (s', r) -> is_dead sup s i = true -> is_dead sup s' i = true.
Proof. exact @pq_retired_stays. Qed.
Print Assumptions C15_retired_stays_retired.

(** C16.  A new column stores the row indexes handed in, in 16 or in 32 bits. *)
Theorem C16_rows_stored_without_loss : forall (P : Type) (pdata : N -> N -> P) col rows,
  rows <> [] -> (forall r, In r rows -> r < col) -> col <= index_max ->
  c_create P pdata col rows = Ok (mk_col col rows (pdata col (hd 0 rows)), EConstruct col (hd 0 rows)).
Proof. exact @create_ok. Qed.
Print Assumptions C16_rows_stored_without_loss.

(** C16.  A row that is not below its column may be stored wrongly, so the caller's duty is needed. *)
Theorem C16_row_below_column_needed_refuted :
  exists col rows, col <= index_max /\ (forall r, In r rows -> r <= index_max) /\
    c_create unit (fun _ _ => tt) col rows <> Ok (mk_col col rows tt, EConstruct col (hd 0 rows)).
Proof.
  exists 7, [65536]. split; [vm_compute; discriminate|]. split.
  - intros r [<-|[]]. vm_compute. discriminate.
  - vm_compute. discriminate.
Qed.
Print Assumptions C16_row_below_column_needed_refuted.

(** C16.  The index type is exhausted: addColumnDescending throws before it changes anything (PairQueue.h:552-553 are the first
    statements). *)
Theorem C16_too_many_columns_throws : forall (P : Type) (pdata : N -> N -> P) (lt : N * N * P -> N * N * P -> bool) (sup : bool) s rows,
  index_max <= pq_count s -> pq_add P pdata lt sup s rows = Throw "Too large column index in PairQueue."%string.
Proof. intros P pdata lt sup s rows H. unfold pq_add. apply N.leb_le in H. now rewrite H. Qed.
Print Assumptions C16_too_many_columns_throws.

(** C49.  PairData objects: constructed only where there is none, computed and destructed only where there is one; the columns that
    have one are exactly the columns in the queue. *)
Theorem C49_pairdata_lifetimes : forall (P : Type) (pdata : N -> N -> P) (lt : N * N * P -> N * N * P -> bool) (sup : bool),
  strict_weak lt -> forall ops s rs, legal P pdata lt sup ops s rs ->
  log_ok (pq_log s) /\
  (forall c, held (pq_log s) c = true <-> exists d, In d (tt_forAll _ (pq_queue s)) /\ c_col d = c).
Proof. exact @reached_log. Qed.
Print Assumptions C49_pairdata_lifetimes.

(** C49.  After the destructor no PairData is left. *)
Theorem C49_destructor_destructs_all : forall (P : Type) (pdata : N -> N -> P) (lt : N * N * P -> N * N * P -> bool) (sup : bool),
  strict_weak lt -> forall ops s rs, legal P pdata lt sup ops s rs ->
  log_ok (pq_destroy P s) /\ forall c, held (pq_destroy P s) c = false.
Proof. exact @pq_destroyed. Qed.
Print Assumptions C49_destructor_destructs_all.

(** C49.  "No new PairData will be computed using retired indexes." *)
Theorem C49_no_pairdata_for_retired : forall (P : Type) (pdata : N -> N -> P) (lt : N * N * P -> N * N * P -> bool) (sup : bool),
  strict_weak lt -> forall ops s rs o s' r, legal P pdata lt sup ops s rs -> pallowed pdata lt sup (pq_abs sup s) o ->
  pq_step P pdata lt sup s o = Ok (s', r) ->
  exists new, pq_log s' = new ++ pq_log s /\
    forall e c r, In e new -> computes e = Some (c, r) -> is_dead sup s' c = false /\ is_dead sup s' r = false.
Proof. exact @pq_computes_alive. Qed.
Print Assumptions C49_no_pairdata_for_retired.

(** A concrete configuration: larger row first, then larger column. *)
Definition ex_data (c r : N) : N := c * 10 + r.
Definition ex_order (a b : N * N * N) : bool := snd a <? snd b.
Lemma ex_order_sw : strict_weak ex_order.
Proof.
  split; unfold ex_order; intros.
  - apply N.ltb_irrefl.
  - rewrite N.ltb_lt in *. eapply N.lt_trans; eauto.
  - rewrite N.ltb_ge in *. eapply N.le_trans; eauto.
Qed.

(** PairQueue.h:93-95: destructPairData is called on "a PairData object currently holding data for (col, row)".  When the rows after
    the one popped are all retired, it is called with the last retired row instead. *)
Theorem C49_destruct_row_refuted :
  exists ops s rs, run (pq_step N ex_data ex_order true) (pq_new N) ops = Ok (s, rs) /\
    hd_error (pq_log s) = Some (EDestruct 3 0) /\
    (forall r, In (EConstruct 3 r) (pq_log s) \/ In (ECompute 3 r) (pq_log s) -> r = 2).
Proof.
  exists [PAdd []; PAdd []; PAdd []; PAdd [2; 1; 0]; PRetire 0; PRetire 1; PPop]. eexists; eexists.
  split; [vm_compute; reflexivity|]. split; [reflexivity|].
  intros r [[H|[H|[]]]|[H|[H|[]]]]; congruence.
Qed.
Print Assumptions C49_destruct_row_refuted.

(** The hypotheses are met by a history with several columns, an interior row retired and a column retired. *)
Example C14_nonvacuous :
  exists s rs, legal N ex_data ex_order true
    [PAdd []; PAdd [0]; PAdd [1; 0]; PAdd [2; 1; 0]; PTop; PPop; PRetire 1; PTop; PPop; PEmpty; PPairCount; PPop; PEmpty] s rs /\
    rs = [PNone; PNone; PNone; PNone; PPairData (3, 2) 32; PPair (3, 2); PNone; PPairData (3, 0) 30; PPair (3, 0); PBool false; PNat 2;
          PPair (2, 0); PBool true].
Proof.
  eexists; eexists; split; [|reflexivity]. apply keeps_reached; [vm_compute; reflexivity|].
  vm_compute. repeat match goal with
  | |- _ /\ _ => split
  | |- True => exact I
  | |- forall _, _ => intro
  | H : _ \/ _ |- _ => destruct H
  | H : False |- _ => destruct H
  | H : ?a = ?r |- _ => is_var r; subst r
  | |- _ = _ => reflexivity
  | |- [] <> _ => discriminate
  | H : _ = _ |- _ => discriminate H
  end.
Qed.
