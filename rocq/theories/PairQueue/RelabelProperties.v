(** Property theorems: PairQueue looks at pair data only through the functions of the configuration (C112). *)
From Coq Require Import List Arith NArith Bool String.
From Verif.Base Require Import Res Arr.
From Verif.TourTree Require Import Model.
From Verif.PairQueue Require Import Model RelabelProofs.
From Verif.Queues Require Import RelabelProofs.
Import ListNotations.

(** C112.  If computing other data for a pair amounts to computing the data and applying [f], and comparisons do not notice [f], then in every history the queue with the
    other data delivers the same pairs and makes the same calls of construct, compute and destruct; the data it shows are the images. *)
Theorem C112_pairqueue :
  forall (P Q : Type) (f : P -> Q) pdata pdata' lt lt' supportRetirement, (forall c r, pdata' c r = f (pdata c r)) ->
  (forall c r p d s q, lt' (c, r, f p) (d, s, f q) = lt (c, r, p) (d, s, q)) ->
  forall ops, rmap (fun p => (pq_log (fst p), pq_destroy Q (fst p), snd p)) (run (pq_step Q pdata' lt' supportRetirement) (pq_new Q) ops) =
    rmap (fun p => (pq_log (fst p), pq_destroy P (fst p), map (pqout_map f) (snd p))) (run (pq_step P pdata lt supportRetirement) (pq_new P) ops).
Proof.
  intros * Hp Hl ops. change (pq_new Q) with (pqmap f (pq_new P)). rewrite (pq_run_map f pdata pdata' lt lt' supportRetirement Hp Hl).
  destruct (run (pq_step P pdata lt supportRetirement) (pq_new P) ops) as [[s rs]| | |]; cbn [rmap bind fst snd]; try reflexivity. now rewrite destroy_map.
Qed.
Print Assumptions C112_pairqueue.

(** The answers of a history without the pair data *)
Definition pairs_only {P} (m : res (pairqueue P * list (pq_out P))) : res (list event * list (pq_out unit)) := rmap (fun p => (pq_log (fst p), map (pqout_map (fun _ => tt)) (snd p))) m.

(** C112.  Pair data is a cache: two configurations that compute different data deliver the same pairs if their comparisons of the data computed agree. *)
Theorem C112_same_comparisons_same_pairs :
  forall (P Q : Type) pdata pdata' lt lt' supportRetirement,
  (forall c r p p' d s q q', lt' (c, r, pdata' p p') (d, s, pdata' q q') = lt (c, r, pdata p p') (d, s, pdata q q')) ->
  forall ops, pairs_only (run (pq_step Q pdata' lt' supportRetirement) (pq_new Q) ops) = pairs_only (run (pq_step P pdata lt supportRetirement) (pq_new P) ops).
Proof.
  intros P Q pdata pdata' lt lt' sr H ops. unfold pairs_only.
  set (lt0 := fun a b : N * N * (N * N) => lt (fst a, pdata (fst (snd a)) (snd (snd a))) (fst b, pdata (fst (snd b)) (snd (snd b)))).
  change (pq_new Q) with (pqmap (fun x => pdata' (fst x) (snd x)) (pq_new (N * N))). change (pq_new P) with (pqmap (fun x => pdata (fst x) (snd x)) (pq_new (N * N))).
  rewrite (pq_run_map (fun x => pdata' (fst x) (snd x)) (fun c r => (c, r)) pdata' lt0 lt' sr) by (intros; try reflexivity; apply H).
  rewrite (pq_run_map (fun x => pdata (fst x) (snd x)) (fun c r => (c, r)) pdata lt0 lt sr) by (intros; reflexivity).
  destruct (run (pq_step (N * N) _ lt0 sr) (pq_new (N * N)) ops) as [[s rs]| | |]; cbn; try reflexivity. rewrite !map_map. do 2 f_equal. apply map_ext. now intros [].
Qed.
Print Assumptions C112_same_comparisons_same_pairs.

(** C112 on an example: caching the sum of the indexes, and caching twice the sum with a label that is never compared *)
Definition by_sum (a b : N * N * N) : bool := (snd b <? snd a)%N.
Definition by_double (a b : N * N * (string * N)) : bool := (snd (snd b) <? snd (snd a))%N.
Definition ex_pq : list pq_op := [PAdd []; PAdd [0%N]; PAdd [1%N; 0%N]; PAdd [2%N; 1%N; 0%N]; PTop; PPop; PRetire 1; PPairCount; PPop; PPop; PEmpty].
Example C112_nonvacuous :
  (forall c r p p' d s q q', by_double (c, r, ("x"%string, 2 * (p + p'))%N) (d, s, ("x"%string, 2 * (q + q'))%N) = by_sum (c, r, p + p')%N (d, s, q + q')%N) /\
  rmap snd (run (pq_step _ (fun c r => ("x"%string, 2 * (c + r))%N) by_double true) (pq_new _) ex_pq) =
  rmap (fun p => map (pqout_map (fun n => ("x"%string, 2 * n)%N)) (snd p)) (run (pq_step _ N.add by_sum true) (pq_new _) ex_pq) /\
  exists s rs, run (pq_step _ N.add by_sum true) (pq_new _) ex_pq = Ok (s, rs) /\ nth_error rs 4 = Some (PPairData (1%N, 0%N) 1%N).
Proof.
  split; [|split; [vm_compute; reflexivity|]].
  - intros. unfold by_double, by_sum. cbn [snd]. destruct (N.ltb_spec (q + q') (p + p')); [apply N.ltb_lt|apply N.ltb_ge]; apply N.mul_lt_mono_pos_l || apply N.mul_le_mono_l; auto; reflexivity.
  - destruct (run (pq_step _ N.add by_sum true) (pq_new _) ex_pq) as [[s rs]| | |] eqn:Hr; vm_compute in Hr; try discriminate. injection Hr as <- <-. do 2 eexists. split; reflexivity.
Qed.
