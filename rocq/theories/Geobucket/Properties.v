(** Property theorems about Geobucket (C06, C07, C08). *)
From Coq Require Import List Arith Bool Permutation Lia.
From Verif.Base Require Import Res Order.
From Verif.Spec Require Import PQ PQFacts.
From Verif.Geobucket Require Import Model Proofs.
Import ListNotations.

(** What Geobucket.h asks of a configuration: the bounds on the numbers (Geobucket.h:52-66, the third is not written down but needed,
    see below), and, if it de-duplicates, that entries that compare equal are equivalent in the order and that deduplicate(a,b) is
    equivalent to a. *)
Definition good_config {E : Type} (lt eqv : E -> E -> bool) (dedup : E -> E -> E) (C : config) : Prop :=
  strict_weak lt /\ 2 <= geoBase C /\ 1 <= minBucketSize C /\ 1 <= insertFactor C /\
  (supportDeduplication C = true -> forall a b, lt a b = false -> eqv a b = true -> equivalent lt a b) /\
  (supportDeduplication C = true -> forall a b, (eqv a b || eqv b a) = true -> equivalent lt (dedup a b) a).

(** C06.  Without de-duplication a Geobucket is a priority queue, for every history of calls with non-empty non-increasing ranges.
    [clear] may be called if the front is not tracked. *)
Theorem C06_geobucket_is_priority_queue :
  forall (E : Type) (lt eqv : E -> E -> bool) (dedup : E -> E -> E) (C : config),
  good_config lt eqv dedup C -> supportDeduplication C = false ->
  pq_correct lt no_dd (gb_step E lt eqv dedup C) (gb_new E C) (gb_forAll E) (range_calls lt (negb (trackFront C))).
Proof.
  exact (fun E lt eqv dedup C '(conj H1 (conj H2 (conj H3 (conj H4 (conj H5 H6))))) Hs =>
    gb_pq_correct_nodedup lt eqv dedup C H1 H5 H6 H2 H3 H4 Hs).
Qed.
Print Assumptions C06_geobucket_is_priority_queue.

Theorem C06_geobucket_sorts :
  forall (E : Type) (lt eqv : E -> E -> bool) (dedup : E -> E -> E) (C : config),
  good_config lt eqv dedup C -> supportDeduplication C = false ->
  forall xs, exists s ys,
    run (gb_step E lt eqv dedup C) (gb_new E C) (map Push xs ++ repeat Pop (length xs))
      = Ok (s, repeat ONone (length xs) ++ map OEntry ys) /\
    Permutation ys xs /\ descending lt ys.
Proof.
  exact (fun E lt eqv dedup C '(conj H1 (conj H2 (conj H3 (conj H4 (conj H5 H6))))) Hs =>
    pq_correct_sorts lt _ _ _ _ (gb_pq_correct_nodedup lt eqv dedup C H1 H5 H6 H2 H3 H4 Hs) (fun _ => eq_refl) eq_refl).
Qed.
Print Assumptions C06_geobucket_sorts.

Definition ex_lt (a b : nat * nat) : bool := Nat.ltb (fst a) (fst b).
Definition ex_eqv (a b : nat * nat) : bool := Nat.eqb (fst a) (fst b).
Definition ex_dedup (a b : nat * nat) : nat * nat := (fst a, snd a + snd b).
Lemma ex_lt_strict_weak : strict_weak ex_lt.
Proof.
  split; unfold ex_lt.
  - intros a. apply Nat.ltb_irrefl.
  - intros a b c H1 H2. apply Nat.ltb_lt in H1. apply Nat.ltb_lt in H2. apply Nat.ltb_lt. eapply Nat.lt_trans; eauto.
  - intros a b c H1 H2. apply Nat.ltb_ge in H1. apply Nat.ltb_ge in H2. apply Nat.ltb_ge. eapply Nat.le_trans; eauto.
Qed.
Lemma ex_good (dd bin track pre coll : bool) (st : storage) (g m i : nat) : 2 <= g -> 1 <= m -> 1 <= i ->
  good_config ex_lt ex_eqv ex_dedup (mk_config g m i dd bin track pre coll st).
Proof.
  intros Hg Hm Hi. split; [exact ex_lt_strict_weak|]. simpl. split; auto. split; auto. split; auto. split; intros _ a b.
  - intros _ H. apply Nat.eqb_eq in H. split; unfold ex_lt; rewrite H; apply Nat.ltb_irrefl.
  - intros _. split; unfold ex_lt, ex_dedup; simpl; apply Nat.ltb_irrefl.
Qed.

(** Histories in which buckets are added, overflow and are merged, for several configurations. *)
Definition ex_ops : list (op (nat * nat)) :=
  [Push (3, 1); Push (5, 1); Push (4, 1); PushRange [(9, 1); (7, 1); (5, 1)]; Top; Push (7, 1); Push (5, 1); Pop; DecreaseTop (2, 1);
   PushRange [(8, 1); (6, 1); (6, 1); (1, 1); (0, 1)]; Push (8, 1); Pop; Pop; Size; Empty].
Definition ex_outs : list (out (nat * nat)) :=
  [ONone; ONone; ONone; ONone; OEntry (9, 1); ONone; ONone; OEntry (9, 1); ONone; ONone; ONone; OEntry (8, 1); OEntry (8, 1); OSize 11; OBool false].
Definition ex_run (C : config) : option (list (out (nat * nat))) :=
  match run (gb_step _ ex_lt ex_eqv ex_dedup C) (gb_new _ C) ex_ops with Ok (_, rs) => Some rs | _ => None end.
Example C06_nonvacuous :
  forallb (range_calls ex_lt false) ex_ops = true /\
  (forall bin track pre coll st, good_config ex_lt ex_eqv ex_dedup (mk_config 2 1 1 false bin track pre coll st)) /\
  ex_run (mk_config 2 1 1 false true true true true Plain) = Some ex_outs /\
  ex_run (mk_config 2 1 1 false false true false false DoubleBuffer) = Some ex_outs /\
  ex_run (mk_config 3 2 2 false true false true false SameSizeBuffer) = Some ex_outs.
Proof.
  split; [reflexivity|]. split; [intros; apply ex_good; lia|]. split; [vm_compute; reflexivity|]. split; vm_compute; reflexivity.
Qed.

(** C07.  With de-duplication (on or off) a Geobucket is a priority queue that may at any time replace two held entries [a], [b] that
    compare equal, in either order of comparison, by [deduplicate(a,b)], and does nothing else to its contents. *)
Theorem C07_geobucket_dedup_is_priority_queue :
  forall (E : Type) (lt eqv : E -> E -> bool) (dedup : E -> E -> E) (C : config),
  good_config lt eqv dedup C ->
  pq_correct lt (dedup_dd (supportDeduplication C) (fun a b => eqv a b || eqv b a) dedup)
    (gb_step E lt eqv dedup C) (gb_new E C) (gb_forAll E) (range_calls lt (negb (trackFront C))).
Proof.
  exact (fun E lt eqv dedup C '(conj H1 (conj H2 (conj H3 (conj H4 (conj H5 H6))))) =>
    gb_pq_correct lt eqv dedup C H1 H5 H6 H2 H3 H4).
Qed.
Print Assumptions C07_geobucket_dedup_is_priority_queue.

(** C07, conservation of any weight that [deduplicate] adds up. *)
Theorem C07_geobucket_conserves :
  forall (E : Type) (lt eqv : E -> E -> bool) (dedup : E -> E -> E) (C : config),
  good_config lt eqv dedup C ->
  forall (M : Type) (zero : M) (add : M -> M -> M),
  (forall x y, add x y = add y x) -> (forall x y z, add x (add y z) = add (add x y) z) -> (forall x, add zero x = x) ->
  forall w : E -> M, (forall a b, (eqv a b || eqv b a) = true -> w (dedup a b) = add (w a) (w b)) ->
  forall ops s rs, forallb (range_calls lt (negb (trackFront C))) ops = true -> forallb keeps ops = true ->
  run (gb_step E lt eqv dedup C) (gb_new E C) ops = Ok (s, rs) ->
  weigh add zero w (pushed ops) = add (weigh add zero w (popped ops rs)) (weigh add zero w (gb_forAll E s)).
Proof.
  exact (fun E lt eqv dedup C '(conj H1 (conj H2 (conj H3 (conj H4 (conj H5 H6))))) M zero add Hc Ha Hz w Hw ops s rs Hl Hk Hr =>
    pq_correct_conserves lt _ _ dedup M zero add Hc Ha Hz w Hw _ _ _ _ _
      (gb_pq_correct lt eqv dedup C H1 H5 H6 H2 H3 H4) ops s rs Hl Hk Hr).
Qed.
Print Assumptions C07_geobucket_conserves.

(** De-duplication in push, in a merge of buckets, when the key of a bucket decreases and inside top(). *)
Definition ex_tops (C : config) (ops : list (op (nat * nat))) : option (list (nat * nat) * list (out (nat * nat))) :=
  match run (gb_step _ ex_lt ex_eqv ex_dedup C) (gb_new _ C) ops with Ok (s, rs) => Some (gb_forAll _ s, rs) | _ => None end.
Example C07_nonvacuous :
  ex_tops (mk_config 2 2 1 true true true false false Plain)
    [Push (9, 1); Push (9, 1); Push (7, 1); PushRange [(9, 1); (7, 1); (5, 1)]; Top; Pop; Pop] =
    Some ([(7, 2); (5, 1)], [ONone; ONone; ONone; ONone; OEntry (9, 2); OEntry (9, 2); OEntry (9, 1)]) /\
  ex_tops (mk_config 2 2 1 true true false false true Plain)
    [PushRange [(9, 1); (7, 1)]; PushRange [(9, 1); (7, 1); (5, 1)]; Top; Pop; Pop] =
    Some ([(5, 1)], [ONone; ONone; OEntry (9, 2); OEntry (9, 2); OEntry (7, 2)]).
Proof. split; vm_compute; reflexivity. Qed.

(** C08.  A cleared Geobucket that does not track the front is a correct priority queue: this is C06/C07 with [Clear] among the calls. *)
Theorem C08_cleared_geobucket_is_priority_queue :
  forall (E : Type) (lt eqv : E -> E -> bool) (dedup : E -> E -> E) (C : config),
  good_config lt eqv dedup C -> trackFront C = false ->
  pq_correct lt (dedup_dd (supportDeduplication C) (fun a b => eqv a b || eqv b a) dedup)
    (gb_step E lt eqv dedup C) (gb_new E C) (gb_forAll E) (range_calls lt true).
Proof.
  exact (fun E lt eqv dedup C '(conj H1 (conj H2 (conj H3 (conj H4 (conj H5 H6))))) Ht =>
    gb_pq_correct_clear lt eqv dedup C H1 H5 H6 H2 H3 H4 Ht).
Qed.
Print Assumptions C08_cleared_geobucket_is_priority_queue.

Example C08_nonvacuous :
  ex_tops (mk_config 2 1 1 false true false true false Plain) [PushRange [(9, 1); (7, 1)]; Top; Clear; Push (1, 1); Push (2, 1); Top] =
    Some ([(2, 1); (1, 1)], [ONone; OEntry (9, 1); ONone; ONone; ONone; OEntry (2, 1)]).
Proof. vm_compute. reflexivity. Qed.

(** C08 is false if the front is tracked.  GeoFront<C,true>::clear forgets the front but leaves the buckets' positions in it.  After a
    clear, moving the entries of one bucket to another writes through such a stale position.  In this history top() then answers 3
    although 50 is held. *)
Definition ex_stale : list (op (nat * nat)) :=
  [PushRange [(9, 0); (8, 0); (7, 0)]; PushRange [(6, 0); (5, 0); (4, 0); (3, 0); (2, 0)]; Clear;
   PushRange [(50, 0); (49, 0); (48, 0); (47, 0); (46, 0)]; Push (1, 0); Push (2, 0); Push (3, 0)].
Definition ex_stale_config (pre : bool) : config := mk_config 2 2 1 false true true pre false Plain.
Theorem C08_cleared_tracking_geobucket_refuted :
  good_config ex_lt ex_eqv ex_dedup (ex_stale_config true) /\
  (exists s rs, run (gb_step _ ex_lt ex_eqv ex_dedup (ex_stale_config true)) (gb_new _ (ex_stale_config true)) (ex_stale ++ [Top]) =
                  Ok (s, rs ++ [OEntry (3, 0)]) /\ In (50, 0) (gb_forAll _ s)) /\
  ~ pq_correct ex_lt no_dd (gb_step _ ex_lt ex_eqv ex_dedup (ex_stale_config true)) (gb_new _ (ex_stale_config true)) (gb_forAll _)
      (range_calls ex_lt true).
Proof.
  split; [apply ex_good; lia|].
  assert (H : exists s, run (gb_step _ ex_lt ex_eqv ex_dedup (ex_stale_config true)) (gb_new _ (ex_stale_config true)) (ex_stale ++ [Top]) =
                  Ok (s, repeat ONone 7 ++ [OEntry (3, 0)]) /\ In (50, 0) (gb_forAll _ s)).
  { eexists. split; [vm_compute; reflexivity|]. simpl. tauto. }
  destruct H as (s & Hr & Hin). split; [exists s, (repeat ONone 7); auto|].
  eapply not_correct_top; [|exact Hr|exact Hin|]; reflexivity.
Qed.
Print Assumptions C08_cleared_tracking_geobucket_refuted.

(** Without premerging the same history reads the last entry of an empty bucket, and a shorter one writes through a position in memory
    that has been freed.  isValid(), which clear() asserts when it is done (Geobucket.h:433), fails. *)
Theorem C08_cleared_tracking_geobucket_undefined_refuted :
  run (gb_step _ ex_lt ex_eqv ex_dedup (ex_stale_config false)) (gb_new _ (ex_stale_config false)) ex_stale = UB /\
  (forall pre, run (gb_step _ ex_lt ex_eqv ex_dedup (ex_stale_config pre)) (gb_new _ (ex_stale_config pre))
     [PushRange [(9, 0); (8, 0); (7, 0)]; Clear; PushRange [(50, 0); (49, 0); (48, 0); (47, 0); (46, 0)]; Push (1, 0); Push (2, 0);
      Push (3, 0)] = UB) /\
  (exists s rs, run (gb_step _ ex_lt ex_eqv ex_dedup (ex_stale_config true)) (gb_new _ (ex_stale_config true)) [Push (1, 0); Clear] =
     Ok (s, rs) /\ gb_isValid _ ex_lt (ex_stale_config true) s = false).
Proof.
  split; [vm_compute; reflexivity|]. split; [intros []; vm_compute; reflexivity|].
  eexists; eexists; split; [vm_compute; reflexivity|reflexivity].
Qed.
Print Assumptions C08_cleared_tracking_geobucket_undefined_refuted.

(** C06, C07.  isValid() holds in every reachable state. *)
Theorem C06_geobucket_always_valid :
  forall (E : Type) (lt eqv : E -> E -> bool) (dedup : E -> E -> E) (C : config),
  good_config lt eqv dedup C ->
  forall ops s rs, forallb (range_calls lt (negb (trackFront C))) ops = true ->
  run (gb_step E lt eqv dedup C) (gb_new E C) ops = Ok (s, rs) -> gb_isValid E lt C s = true.
Proof.
  exact (fun E lt eqv dedup C '(conj H1 (conj H2 (conj H3 (conj H4 (conj H5 H6))))) ops s rs Ha Hr =>
    gb_valid lt eqv dedup C H1 H5 H6 H2 H3 H4 ops Ha s rs Hr).
Qed.
Print Assumptions C06_geobucket_always_valid.

(** The conditions are needed.  With insertFactor 0 a range overflows bucket 0.  An empty range puts an empty bucket into the tracked
    front.  An increasing range makes top() answer a non-maximal entry. *)
Theorem C06_insert_factor_needed_refuted :
  forall track pre coll st, run (gb_step _ ex_lt ex_eqv ex_dedup (mk_config 2 1 0 false true track pre coll Plain))
    (gb_new _ (mk_config 2 1 0 false true track pre coll st)) [PushRange [(2, 0); (1, 0)]] = UB.
Proof. intros [] [] [] []; vm_compute; reflexivity. Qed.
Print Assumptions C06_insert_factor_needed_refuted.

Theorem C06_nonempty_range_needed_refuted :
  exists s rs, run (gb_step _ ex_lt ex_eqv ex_dedup (ex_stale_config true)) (gb_new _ (ex_stale_config true)) [PushRange []] = Ok (s, rs) /\
    gb_isValid _ ex_lt (ex_stale_config true) s = false /\
    run (gb_step _ ex_lt ex_eqv ex_dedup (ex_stale_config true)) (gb_new _ (ex_stale_config true))
      [PushRange [(5, 0); (4, 0); (3, 0)]; PushRange []] = UB.
Proof. eexists; eexists. split; [vm_compute; reflexivity|]. split; vm_compute; reflexivity. Qed.
Print Assumptions C06_nonempty_range_needed_refuted.

Theorem C06_sorted_range_needed_refuted :
  exists s rs, run (gb_step _ ex_lt ex_eqv ex_dedup (ex_stale_config true)) (gb_new _ (ex_stale_config true)) [PushRange [(2, 0); (3, 0)]; Top]
    = Ok (s, rs ++ [OEntry (2, 0)]) /\ In (3, 0) (gb_forAll _ s).
Proof. eexists; exists [ONone]. split; [vm_compute; reflexivity|]. simpl. tauto. Qed.
Print Assumptions C06_sorted_range_needed_refuted.
