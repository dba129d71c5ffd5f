(** Property theorems about the memory of Geobucket (C64, C65). *)
From Coq Require Import List Arith Bool Lia.
From Verif.Base Require Import Res Order.
From Verif.Spec Require Import PQ PQFacts.
From Verif.Geobucket Require Import Model Proofs Properties.
From Verif.GeoMem Require Import Model Areas StepProofs BoundProofs.
Import ListNotations.

(** C64.  The geobucket that keeps its buckets as pointers into one array, merges through temporary areas in the same array, exchanges
    buffers and moves everything when it adds a bucket, is a priority queue: no read outside the array, through a pointer into an array
    given up, or of a cell not written, is possible. *)
Theorem C64_memory_is_priority_queue :
  forall (E : Type) (lt eqv : E -> E -> bool) (dedup : E -> E -> E) (C : config),
  good_config lt eqv dedup C ->
  exists g0, mg_new E C = Ok g0 /\
  pq_correct lt (dedup_dd (supportDeduplication C) (fun a b => eqv a b || eqv b a) dedup) (mg_step E lt eqv dedup C) g0 mg_held
    (range_calls lt (negb (trackFront C))).
Proof.
  intros E lt eqv dedup C (H1 & H2 & H3 & H4 & H5 & H6).
  exact (memory_correct lt eqv dedup C (Nat.le_trans _ _ _ (Nat.le_succ_diag_r 1) H2) H3 _ _ (gb_pq_correct lt eqv dedup C H1 H5 H6 H2 H3 H4)).
Qed.
Print Assumptions C64_memory_is_priority_queue.

(** C64.  It answers as the geobucket on lists does, and holds the same entries in the same order. *)
Theorem C64_same_answers :
  forall (E : Type) (lt eqv : E -> E -> bool) (dedup : E -> E -> E) (C : config),
  good_config lt eqv dedup C ->
  forall g0 ops, mg_new E C = Ok g0 -> forallb (range_calls lt (negb (trackFront C))) ops = true ->
  match run (gb_step E lt eqv dedup C) (gb_new E C) ops, run (mg_step E lt eqv dedup C) g0 ops with
  | Ok (l, rs), Ok (g, rs') => rs' = rs /\ mg_forAll E g = Ok (gb_forAll E l)
  | UB, UB => True
  | _, _ => False
  end.
Proof.
  intros E lt eqv dedup C (H1 & H2 & H3 & H4 & H5 & H6) g0 ops. exact (same_answers lt eqv dedup C H1 H5 H6 H2 H3 H4 g0 ops).
Qed.
Print Assumptions C64_same_answers.

(** C64.  After any history the areas lie in the current array, do not overlap, take up all of it, and no bucket overflows. *)
Theorem C64_areas :
  forall (E : Type) (lt eqv : E -> E -> bool) (dedup : E -> E -> E) (C : config),
  good_config lt eqv dedup C ->
  forall g0 ops g rs, mg_new E C = Ok g0 -> forallb (range_calls lt (negb (trackFront C))) ops = true ->
  run (mg_step E lt eqv dedup C) g0 ops = Ok (g, rs) -> laid_out C g.
Proof.
  intros E lt eqv dedup C (H1 & H2 & H3 & H4 & H5 & H6) g0 ops g rs Hn Ha Hr.
  destruct (reached lt eqv dedup C H1 H5 H6 H2 H3 H4 g0 ops g rs Hn Ha Hr) as (l & _ & R & I). exact (laid lt C H2 H3 H4 g l R I).
Qed.
Print Assumptions C64_areas.

(** The history of C06 in the three layouts, with and without premerge and de-duplication: the answers, the size of [_mem] and where the
    areas begin. *)
Definition ex_mem (C : config) : option (list (out (nat * nat)) * nat * list (nat * nat)) :=
  match mg_new (nat * nat) C with
  | Ok g0 =>
      match run (mg_step _ ex_lt ex_eqv ex_dedup C) g0 ex_ops with
      | Ok (g, rs) => Some (rs, length (m_cells _ (mg_mem _ g)), map (fun a => (snd (fst a), snd a)) (areas C g))
      | _ => None
      end
  | _ => None
  end.
Example C64_nonvacuous :
  ex_mem (mk_config 2 1 1 false true true true true Plain) =
    Some (ex_outs, 23, [(0, 1); (1, 2); (3, 4); (7, 8); (15, 8)]) /\
  ex_mem (mk_config 2 1 1 false false true false false DoubleBuffer) =
    Some (ex_outs, 94, [(0, 1); (2, 2); (6, 4); (14, 8); (30, 16); (1, 1); (4, 2); (10, 4); (22, 8); (46, 16); (62, 16); (78, 16)]) /\
  ex_mem (mk_config 3 2 2 false true false true false SameSizeBuffer) =
    Some (ex_outs, 72, [(36, 18); (18, 18); (54, 18); (0, 18)]).
Proof. split; [vm_compute; reflexivity|]. split; vm_compute; reflexivity. Qed.

(** C65.  Let at no call more than [N] entries be held and brought in.  Then the buckets are one, geoBase, geoBase^2, ... times
    minBucketSize, the last at most geoBase * N unless it is the first.  [_mem] is the larger of minBucketSize and geoBase * N times a
    constant that depends on the layout only, except for SameSizeBuffer, where it is that times the number of buckets. *)
Theorem C65_memory_bound :
  forall (E : Type) (lt eqv : E -> E -> bool) (dedup : E -> E -> E) (C : config),
  good_config lt eqv dedup C ->
  forall g0 ops g rs N, mg_new E C = Ok g0 -> forallb (range_calls lt (negb (trackFront C))) ops = true ->
  run (mg_step E lt eqv dedup C) g0 ops = Ok (g, rs) ->
  (forall pre o post s rs', ops = pre ++ o :: post -> run (mg_step E lt eqv dedup C) g0 pre = Ok (s, rs') ->
   demand C (length (mg_held s)) o <= N) ->
  let bound := Nat.max (minBucketSize C) (geoBase C * N) in
  let temporary := if premerge C then 1 else 2 in
  let cells := length (m_cells E (mg_mem E g)) in
  exists n, map (mb_cap E) (mg_bs E g) = map (fun i => minBucketSize C * geoBase C ^ i) (seq 0 (S n)) /\
    minBucketSize C * geoBase C ^ n <= bound /\
    match bucketStorage C with
    | Plain => cells <= (2 + temporary) * bound
    | DoubleBuffer => cells <= (4 + temporary) * bound
    | SameSizeBuffer => cells <= (S n + temporary) * bound
    end.
Proof.
  intros E lt eqv dedup C (H1 & H2 & H3 & H4 & H5 & H6) g0 ops g rs N. exact (memory_bound lt eqv dedup C H1 H5 H6 H2 H3 H4 g0 ops g rs N).
Qed.
Print Assumptions C65_memory_bound.

(** C65 does not hold without that exception: with SameSizeBuffer the memory is not linear in the entries. *)
Theorem C65_same_size_linear_refuted :
  ~ exists K, forall (C : config) (xs : list nat) g0 g rs,
    good_config Nat.ltb Nat.eqb (fun a _ => a) C -> geoBase C = 2 -> minBucketSize C = 1 -> insertFactor C = 1 ->
    mg_new nat C = Ok g0 -> run (mg_step nat Nat.ltb Nat.eqb (fun a _ => a) C) g0 [PushRange xs] = Ok (g, rs) -> xs <> [] ->
    length (m_cells nat (mg_mem nat g)) <= K * length xs.
Proof.
  intros (K & HK). destruct (same_not_linear K) as (k & g0 & g & rs & Hn & Hr & Hl).
  specialize (HK same_conf _ g0 g rs same_good eq_refl eq_refl eq_refl Hn Hr (repeat_pow_nil k)). rewrite repeat_length in HK.
  exact (proj1 (Nat.lt_nge _ _) Hl HK).
Qed.
Print Assumptions C65_same_size_linear_refuted.

(** The demands of the calls of the history of C06 and the capacity of the largest bucket: 8 for demands of at most 13, and 32 if a range
    counts four times, for demands of at most 27. *)
Definition ex_peak (C : config) : option (list nat * nat) :=
  match mg_new (nat * nat) C with
  | Ok g0 =>
      match run (mg_step _ ex_lt ex_eqv ex_dedup C) g0 ex_ops with
      | Ok (g, _) =>
          Some (map (fun k => match run (mg_step _ ex_lt ex_eqv ex_dedup C) g0 (firstn k ex_ops) with
                              | Ok (s, _) => match nth_error ex_ops k with Some o => demand C (length (mg_held s)) o | None => 0 end
                              | _ => 0
                              end) (seq 0 (length ex_ops)), mlargest _ (mg_bs _ g))
      | _ => None
      end
  | _ => None
  end.
Example C65_nonvacuous :
  ex_peak (mk_config 2 1 1 false true true true true Plain) = Some ([1; 2; 3; 6; 6; 7; 8; 8; 8; 12; 13; 13; 12; 11; 11], 8) /\
  ex_peak (mk_config 2 1 4 false true true true true Plain) = Some ([1; 2; 3; 15; 6; 7; 8; 8; 8; 27; 13; 13; 12; 11; 11], 32).
Proof. split; vm_compute; reflexivity. Qed.
