(** Property theorems about the sizes that Geobucket computes (C99). *)
From Coq Require Import List Arith Bool Lia.
From Verif.Base Require Import Res.
From Verif.Spec Require Import PQ.
From Verif.Geobucket Require Import Model Properties.
From Verif.GeoMem Require Import Model Areas Sizes SizesProofs.
Import ListNotations.

(** C99.  Let sizes wrap around at [M].  If [_mem] has fewer than [M] cells in the end, and [M] is larger than every range times insertFactor,
    then no size wraps around: every call does what it does with numbers without bounds. *)
Theorem C99_no_wrap_if_memory_fits :
  forall (E : Type) (lt eqv : E -> E -> bool) (dedup : E -> E -> E) (C : config) (M : nat) g0 ops g rs,
  mg_new E C = Ok g0 -> run (mg_step E lt eqv dedup C) g0 ops = Ok (g, rs) ->
  length (m_cells E (mg_mem E g)) < M -> (forall xs, In (PushRange xs) ops -> length xs * insertFactor C < M) ->
  mg_new_s E C M = Ok g0 /\ run (mg_step_s E lt eqv dedup C M) g0 ops = Ok (g, rs).
Proof.
  intros E lt eqv dedup C M g0 ops g rs Hn Hr Hm Hx.
  assert (Hf : Forall (fits C M) ops) by (apply Forall_forall; intros o Ho; destruct o; exact I || exact (Hx _ Ho)).
  destruct (run_s lt eqv dedup C M ops Hf g0 (g, rs) Hr) as (Hle & Hs). split; [|exact (Hs Hm)].
  exact (new_s C M g0 Hn (Nat.le_lt_trans _ _ _ Hle Hm)).
Qed.
Print Assumptions C99_no_wrap_if_memory_fits.

(** C99.  A bound that is linear in what the geobucket has to hold: let at no call more than [N] entries be held and brought in, a range
    counting insertFactor times.  If the larger of minBucketSize and geoBase * N, times a small constant, is below [M], then nothing wraps
    around, so that the geobucket is the priority queue of C64.  The constant is for SameSizeBuffer the number of buckets and one or two. *)
Theorem C99_no_wrap :
  forall (E : Type) (lt eqv : E -> E -> bool) (dedup : E -> E -> E) (C : config) (M : nat),
  good_config lt eqv dedup C ->
  forall g0 ops N, mg_new E C = Ok g0 -> forallb (range_calls lt (negb (trackFront C))) ops = true ->
  (forall pre o post s rs, ops = pre ++ o :: post -> run (mg_step E lt eqv dedup C) g0 pre = Ok (s, rs) ->
   demand C (length (mg_held s)) o <= N) ->
  let bound := Nat.max (minBucketSize C) (geoBase C * N) in
  let temporary := if premerge C then 1 else 2 in
  (forall n, minBucketSize C * geoBase C ^ n <= bound ->
   match bucketStorage C with Plain => 2 + temporary | DoubleBuffer => 4 + temporary | SameSizeBuffer => S n + temporary end * bound < M) ->
  mg_new_s E C M = Ok g0 /\ run (mg_step_s E lt eqv dedup C M) g0 ops = run (mg_step E lt eqv dedup C) g0 ops.
Proof. intros E lt eqv dedup C M Hg g0 ops N Hn Ha HN bound temporary HM. exact (run_same lt eqv dedup C M Hg g0 ops N Hn Ha HN HM). Qed.
Print Assumptions C99_no_wrap.

(** C99 fails without such a bound, whatever the even [M] from 6 on, 2^64 among them.  With buckets of 2 and geoBase [M] / 2 the second bucket
    gets the capacity 0 and the new vector is shorter than the old one, which is copied beyond its end. *)
Theorem C99_large_base_refuted :
  forall h, 3 <= h -> let C := mk_config h 2 1 false false true true false Plain in
  good_config Nat.ltb Nat.eqb (fun a _ => a) C /\
  exists g0, mg_new_s nat C (2 * h) = Ok g0 /\
    run (mg_step_s nat Nat.ltb Nat.eqb (fun a _ => a) C (2 * h)) g0 [Push 1; Push 2; Push 3] = UB.
Proof. intros h Hh C. split; [apply nat_good; cbn; auto; lia|exact (base_overrun h Hh)]. Qed.
Print Assumptions C99_large_base_refuted.

(** C99.  With insertFactor [M] / 2 a range of two goes into a bucket for one entry and overwrites the entry of the next bucket: 1 is lost and
    5 comes twice. *)
Theorem C99_large_factor_refuted :
  forall h, 3 <= h -> let C := mk_config 2 1 h false false true true false Plain in
  good_config Nat.ltb Nat.eqb (fun a _ => a) C /\
  exists g0 g, mg_new_s nat C (2 * h) = Ok g0 /\
    run (mg_step_s nat Nat.ltb Nat.eqb (fun a _ => a) C (2 * h)) g0 [Push 1; PushRange [5; 4]; ForAll; Pop; Pop; Pop] =
      Ok (g, [ONone; ONone; OList [4; 5; 5]; OEntry 5; OEntry 5; OEntry 4]).
Proof. intros h Hh C. split; [apply nat_good; cbn; auto; lia|exact (factor_overrun h Hh)]. Qed.
Print Assumptions C99_large_factor_refuted.

(** The history of C06 needs 23 cells: with sizes that wrap around at 24 all is well, at 23 it is not. *)
Definition ex_wrap (C : config) (M : nat) : option (list (out (nat * nat)) * nat) :=
  match mg_new_s (nat * nat) C M with
  | Ok g0 =>
      match run (mg_step_s _ ex_lt ex_eqv ex_dedup C M) g0 ex_ops with
      | Ok (g, rs) => Some (rs, length (m_cells _ (mg_mem _ g)))
      | _ => None
      end
  | _ => None
  end.
Example C99_nonvacuous :
  ex_wrap (mk_config 2 1 1 false true true true true Plain) 24 = Some (ex_outs, 23) /\
  ex_wrap (mk_config 2 1 1 false true true true true Plain) 23 = None /\
  ex_wrap (mk_config 2 1 1 false false true false false DoubleBuffer) 95 = Some (ex_outs, 94).
Proof. split; [vm_compute; reflexivity|]. split; vm_compute; reflexivity. Qed.
