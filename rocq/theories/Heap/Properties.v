(** Property theorems about Heap (C01, C02, C03). *)
From Coq Require Import List Arith Bool Permutation.
From Verif.Base Require Import Res Order.
From Verif.Spec Require Import PQ PQFacts.
From Verif.Heap Require Import Model Proofs.
Import ListNotations.

(** C01.  See [pq_correct] in Spec/PQ.v for the meaning. *)
Theorem C01_heap_is_priority_queue : forall (E : Type) (lt eqv : E -> E -> bool) (dedup : E -> E -> E),
  strict_weak lt ->
  pq_correct lt no_dd (heap_step E lt eqv false dedup) [] (fun t => t) (fun _ => true).
Proof. exact @heap_pq_correct_nodedup. Qed.
Print Assumptions C01_heap_is_priority_queue.

Definition ex_lt (a b : nat * nat) : bool := Nat.ltb (fst a) (fst b).
Lemma ex_lt_strict_weak : strict_weak ex_lt.
Proof.
  split; unfold ex_lt.
  - intros a. apply Nat.ltb_irrefl.
  - intros a b c H1 H2. apply Nat.ltb_lt in H1. apply Nat.ltb_lt in H2. apply Nat.ltb_lt. eapply Nat.lt_trans; eauto.
  - intros a b c H1 H2. apply Nat.ltb_ge in H1. apply Nat.ltb_ge in H2. apply Nat.ltb_ge. eapply Nat.le_trans; eauto.
Qed.
Definition ex_eqv (a b : nat * nat) : bool := Nat.eqb (fst a) (fst b).
Definition ex_dedup (a b : nat * nat) : nat * nat := (fst a, snd a + snd b).

Example C01_nonvacuous :
  strict_weak ex_lt /\
  exists s rs, run (heap_step _ ex_lt ex_eqv false ex_dedup) []
    [Push (3, 0); PushRange [(5, 1); (3, 2); (8, 3); (5, 4)]; Top; Pop; DecreaseTop (1, 5); Pop; Size; ForAll] = Ok (s, rs) /\
    nth_error rs 3 = Some (OEntry (8, 3)) /\ nth_error rs 6 = Some (OSize 3).
Proof. split; [exact ex_lt_strict_weak|]. eexists; eexists; split; [vm_compute; reflexivity|split; reflexivity]. Qed.

(** Pushing all of [xs] and then popping as often returns a non-increasing permutation of [xs]. *)
Theorem C01_heap_sorts : forall (E : Type) (lt eqv : E -> E -> bool) (dedup : E -> E -> E), strict_weak lt ->
  forall xs, exists s ys,
    run (heap_step E lt eqv false dedup) [] (map Push xs ++ repeat Pop (length xs))
      = Ok (s, repeat ONone (length xs) ++ map OEntry ys) /\
    Permutation ys xs /\ descending lt ys.
Proof.
  exact (fun E lt eqv dedup H =>
    pq_correct_sorts lt _ _ _ _ (heap_pq_correct_nodedup lt eqv dedup H) (fun _ => eq_refl) eq_refl).
Qed.
Print Assumptions C01_heap_sorts.

(** C02.  With de-duplication (on or off), the heap is a priority queue that may at any time replace two held entries [a], [b] with
    [cmpEqual] by [deduplicate(a,b)], and does nothing else to its contents.  The configuration's duty: [deduplicate(a,b)] is
    equivalent to [a] when it is called. *)
Theorem C02_heap_dedup_is_priority_queue :
  forall (E : Type) (lt eqv : E -> E -> bool) (supportDedup : bool) (dedup : E -> E -> E),
  strict_weak lt ->
  (supportDedup = true -> forall a b, lt a b = false -> eqv a b = true -> equivalent lt (dedup a b) a) ->
  pq_correct lt (dedup_dd supportDedup eqv dedup) (heap_step E lt eqv supportDedup dedup) [] (fun t => t) (fun _ => true).
Proof. exact @heap_pq_correct. Qed.
Print Assumptions C02_heap_dedup_is_priority_queue.

Lemma ex_dedup_ok : true = true -> forall a b, ex_lt a b = false -> ex_eqv a b = true -> equivalent ex_lt (ex_dedup a b) a.
Proof.
  intros _ a b _ _. split; unfold ex_lt, ex_dedup; simpl; apply Nat.ltb_irrefl.
Qed.

(** A history in which de-duplication happens after a sift, so that elements are moved back (second call), and one in which the last
    leaf then fills the hole (third call). *)
Example C02_nonvacuous :
  exists s rs, run (heap_step _ ex_lt ex_eqv true ex_dedup) []
    [PushRange [(9, 1); (5, 1); (7, 1); (3, 1)]; Push (9, 1); Top; DecreaseTop (7, 1)] = Ok (s, rs) /\
    nth_error rs 2 = Some (OEntry (9, 2)) /\ s = [(7, 2); (5, 1); (3, 1)].
Proof. eexists; eexists; split; [vm_compute; reflexivity|split; reflexivity]. Qed.

(** C02, conservation: let [w] assign a weight in a commutative monoid to each entry such that [deduplicate] adds weights.  Then the
    weight of everything pushed is the weight of everything popped plus the weight of what is held. *)
Theorem C02_heap_conserves :
  forall (E : Type) (lt eqv : E -> E -> bool) (supportDedup : bool) (dedup : E -> E -> E),
  strict_weak lt ->
  (supportDedup = true -> forall a b, lt a b = false -> eqv a b = true -> equivalent lt (dedup a b) a) ->
  forall (M : Type) (zero : M) (add : M -> M -> M),
  (forall x y, add x y = add y x) -> (forall x y z, add x (add y z) = add (add x y) z) -> (forall x, add zero x = x) ->
  forall w : E -> M, (forall a b, eqv a b = true -> w (dedup a b) = add (w a) (w b)) ->
  forall ops s rs, forallb keeps ops = true ->
  run (heap_step E lt eqv supportDedup dedup) [] ops = Ok (s, rs) ->
  weigh add zero w (pushed ops) = add (weigh add zero w (popped ops rs)) (weigh add zero w s).
Proof.
  exact (fun E lt eqv sd dedup Hsw Hd M zero add Hc Ha Hz w Hw ops s rs Hk Hr =>
    pq_correct_conserves lt sd eqv dedup M zero add Hc Ha Hz w Hw _ _ _ _ _
      (heap_pq_correct lt eqv sd dedup Hsw Hd) ops s rs (forallb_true ops) Hk Hr).
Qed.
Print Assumptions C02_heap_conserves.

Example C02_conserves_nonvacuous :
  (forall a b, ex_eqv a b = true -> snd (ex_dedup a b) = snd a + snd b) /\
  forallb keeps [PushRange [(9, 1); (8, 1); (8, 1)]; Pop; Push (7, 1)] = true.
Proof. split; [intros; reflexivity|reflexivity]. Qed.

(** C03.  isValid() holds in every reachable state. *)
Theorem C03_heap_always_valid :
  forall (E : Type) (lt eqv : E -> E -> bool) (supportDedup : bool) (dedup : E -> E -> E),
  strict_weak lt ->
  (supportDedup = true -> forall a b, lt a b = false -> eqv a b = true -> equivalent lt (dedup a b) a) ->
  forall ops s rs, run (heap_step E lt eqv supportDedup dedup) [] ops = Ok (s, rs) -> heap_isValid E lt s = true.
Proof. exact @heap_reachable_valid. Qed.
Print Assumptions C03_heap_always_valid.

Example C03_nonvacuous :
  exists s rs, run (heap_step _ ex_lt ex_eqv true ex_dedup) []
    [PushRange [(9, 1); (5, 1); (7, 1); (3, 1)]; Push (9, 1); Pop] = Ok (s, rs) /\ length s = 3 /\ heap_isValid _ ex_lt s = true /\
    heap_isValid _ ex_lt [(1, 0); (2, 0)] = false.
Proof. eexists; eexists; split; [vm_compute; reflexivity|repeat split; reflexivity]. Qed.

(** The duty of [deduplicate] is needed: with a [deduplicate] that returns something larger the heap breaks. *)
Theorem C02_dedup_duty_needed_refuted :
  exists (dedup : nat * nat -> nat * nat -> nat * nat) ops s rs,
    run (heap_step _ ex_lt ex_eqv true dedup) [] ops = Ok (s, rs) /\ heap_isValid _ ex_lt s = false.
Proof.
  exists (fun a b => (fst a + 10, 0)), [PushRange [(9, 1); (8, 1); (8, 1)]; Push (8, 1)].
  eexists; eexists; split; [vm_compute; reflexivity|reflexivity].
Qed.
Print Assumptions C02_dedup_duty_needed_refuted.
