(** What failed allocations leave behind in PairQueue (C95). *)
From Coq Require Import List Arith NArith Bool Lia.
From Verif.Base Require Import Res Order Fault.
From Verif.Spec Require Import PQ Pairs PairsFacts Reach.
From Verif.TourTree Require Import Model.
From Verif.PairQueue Require Import Model Proofs Properties Alloc AllocProofs.
Import ListNotations.
Local Open Scope N_scope.

(** [alegal ops s rs]: the calls [ops], each with its own number of allocations that succeed and each allowed by [pallowed] where it is made, lead from an empty queue
    to [s] with answers [rs]; the caller catches the exceptions and goes on. *)
Notation alegal P pdata lt sup := (reached (aq_step P pdata lt sup) (fun s o => pallowed pdata lt sup (pq_abs sup s) (fst o)) (pq_new P)).

(** C95.  The calls that did not throw answer as the specification of C14 says, as if those that threw had not been made. *)
Theorem C95_failed_calls_invisible : forall (P : Type) (pdata : N -> N -> P) (lt : N * N * P -> N * N * P -> bool) (sup : bool),
  strict_weak lt -> forall ops s rs, alegal P pdata lt sup ops s rs ->
  ptrace pdata lt (mk_ps [] 0 (is_dead sup (pq_new P))) (map fst (kept ops rs)) (map snd (kept ops rs)) (pq_abs sup s).
Proof. exact @alegal_trace. Qed.
Print Assumptions C95_failed_calls_invisible.

(** C95.  Only addColumnDescending throws, and only when one of at most five allocations failed or there are too many columns; the columns, their number, the retired
    indexes and the tournament are what they were. *)
Theorem C95_add_strong_guarantee : forall (P : Type) (pdata : N -> N -> P) (lt : N * N * P -> N * N * P -> bool) (sup : bool),
  strict_weak lt -> forall ops s rs o s', alegal P pdata lt sup ops s rs -> pallowed pdata lt sup (pq_abs sup s) (fst o) -> aq_step P pdata lt sup s o = Ok (s', None) ->
  exists rows, fst o = PAdd rows /\ (pq_count s = index_max \/ (snd o < 5)%nat) /\
    tt_tree (pq_queue s') = tt_tree (pq_queue s) /\ tt_players (pq_queue s') = tt_players (pq_queue s) /\ pq_count s' = pq_count s /\ pq_ret s' = pq_ret s.
Proof. exact @alegal_throws. Qed.
Print Assumptions C95_add_strong_guarantee.

(** C95.  No PairData is leaked or destructed twice, whichever allocations fail: those there are belong to the columns in the queue, and the destructor destructs
    them all. *)
Theorem C95_pairdata_lifetimes : forall (P : Type) (pdata : N -> N -> P) (lt : N * N * P -> N * N * P -> bool) (sup : bool),
  strict_weak lt -> forall ops s rs, alegal P pdata lt sup ops s rs ->
  log_ok (pq_log s) /\ (forall c, held (pq_log s) c = true <-> exists d, In d (tt_forAll _ (pq_queue s)) /\ c_col d = c) /\
  log_ok (pq_destroy P s) /\ forall c, held (pq_destroy P s) c = false.
Proof. exact @alegal_log. Qed.
Print Assumptions C95_pairdata_lifetimes.

(** C95.  An allowed call answers or throws, unless it adds a column after some earlier call threw, when there is no room for one more player.
    Missing from the full claim: that such a call answers or throws too, which is false ([C95_add_after_failure_refuted]). *)
Theorem C95_progress_partial : forall (P : Type) (pdata : N -> N -> P) (lt : N * N * P -> N * N * P -> bool) (sup : bool),
  strict_weak lt -> forall ops s rs o, alegal P pdata lt sup ops s rs -> pallowed pdata lt sup (pq_abs sup s) (fst o) ->
  (exists s' r, aq_step P pdata lt sup s o = Ok (s', r)) \/
  (exists rows, fst o = PAdd rows /\ rows <> [] /\ In None rs /\ (tt_pcap (pq_queue s) <= length (tt_players (pq_queue s)))%nat /\ aq_step P pdata lt sup s o = UB).
Proof. exact @alegal_progress. Qed.
Print Assumptions C95_progress_partial.

(** C95.  With enough memory the calls are those of Model.v. *)
Theorem C95_enough_memory : forall (P : Type) (pdata : N -> N -> P) (lt : N * N * P -> N * N * P -> bool) (sup : bool) b, (5 <= b)%nat ->
  forall ops s rs, legal P pdata lt sup ops s rs -> alegal P pdata lt sup (map (fun o => (o, b)) ops) s (map Some rs).
Proof. exact @enough_run. Qed.
Print Assumptions C95_enough_memory.

(** Column 0 without rows, eight columns with one row each, and a ninth for which the last of its allocations fails *)
Definition ex_ninth : list (pq_op * nat) := (PAdd [], 5%nat) :: map (fun _ => (PAdd [0], 5%nat)) (seq 0 8) ++ [(PAdd [0], 4%nat)].
(** Two more columns *)
Definition ex_eleventh : list (pq_op * nat) := ex_ninth ++ [(PColumnCount, 5%nat); (PAdd [0], 5%nat); (PAdd [0], 5%nat); (PPairCount, 0%nat)].

(** The caller's duties in these histories *)
Lemma ex_keeps : keeps (aq_step N ex_data ex_order true) (fun s o => pallowed ex_data ex_order true (pq_abs true s) (fst o)) (pq_new N) ex_eleventh.
Proof.
  cbn [ex_eleventh ex_ninth map seq app keeps fst]. vm_compute. intuition (try discriminate; try reflexivity; try constructor; subst; auto).
Qed.

Example C95_nonvacuous : strict_weak ex_order /\ exists s rs, alegal N ex_data ex_order true ex_eleventh s rs /\
  rs = repeat (Some PNone) 9 ++ [None; Some (PIndex 9); Some PNone; Some PNone; Some (PNat 10)] /\
  pq_abs true s = mk_ps (map (fun c => (N.of_nat c, 0)) (seq 1 10)) 11 (is_dead true s).
Proof.
  split; [exact ex_order_sw|]. eexists. eexists. split; [apply keeps_reached; [vm_compute; reflexivity|exact ex_keeps]|]. split; vm_compute; reflexivity.
Qed.

(** C95.  The full claim is false: after an addition that failed, the third addition after it is undefined, although all allocations succeed then. *)
Theorem C95_add_after_failure_refuted : ~ (forall ops s rs o, alegal N ex_data ex_order true ops s rs -> pallowed ex_data ex_order true (pq_abs true s) (fst o) ->
  exists s' r, aq_step N ex_data ex_order true s o = Ok (s', r)).
Proof.
  intros H. destruct C95_nonvacuous as (_ & s & rs & Hl & _).
  assert (Hr : run (aq_step N ex_data ex_order true) (pq_new N) ex_eleventh = Ok (s, rs)) by exact (reached_run _ _ _ _ _ _ Hl).
  destruct (H _ _ _ (PAdd [0], 5%nat) Hl) as (s' & r & Hs).
  - vm_compute in Hr. injection Hr as <- _. vm_compute. intuition (try discriminate; try reflexivity; try constructor; subst; auto).
  - vm_compute in Hr. injection Hr as <- _. vm_compute in Hs. discriminate Hs.
Qed.
Print Assumptions C95_add_after_failure_refuted.
