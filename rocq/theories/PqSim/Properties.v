(** Property theorems about the priority queue simulation (C58, C59). *)
From Coq Require Import List Arith NArith Bool Lia.
From Verif.Base Require Import Res.
From Verif.Spec Require Import PQ.
From Verif.Geobucket Require Import Model.
From Verif.PqSim Require Import Model Calls SubjectProofs Instances BuilderProofs.
Import ListNotations.
Local Open Scope N_scope.

(** C58.  Every queue of the simulation, on values and on spans, with and without de-duplication, with pop or with decreaseTop, answers
    every history of sorted pushes and pops as [expected] says: each pop returns the largest value there is, and takes away all its
    copies.  The fuel bounds the loops of pop; see Calls.v. *)
Theorem C58_queue_answers_as_expected : forall m, sim_queue m ->
  forall cs fuel vs, forallb sorted_push cs = true -> (2 * pushes cs <= fuel)%nat ->
  expected cs [] = Some vs -> drive m fuel cs (m_new m) = Ok vs.
Proof. exact (fun m Hm cs fuel vs Hs Hf => drive_ok m fuel cs (sim_queue_ok m Hm) Hs Hf vs). Qed.
Print Assumptions C58_queue_answers_as_expected.

(** Spans overlap, values repeat, and pops come between the pushes. *)
Definition ex_calls : list call :=
  [CPush [9; 5; 2]; CPush [9; 7; 5]; CPop; CPop; CPush [8; 2; 1]; CPop; CPop; CPush [5]; CPop; CPop; CPop].
Example C58_nonvacuous :
  forallb sorted_push ex_calls = true /\ expected ex_calls [] = Some [9; 7; 8; 5; 5; 2; 1] /\
  Forall (fun m => drive m 20 ex_calls (m_new m) = Ok [9; 7; 8; 5; 5; 2; 1]) (main_subjects false).
Proof. split; [reflexivity|]. split; [reflexivity|]. repeat constructor; vm_compute; reflexivity. Qed.

(** All queues that pqMain.cpp runs are of that kind. *)
Theorem C58_main_queues : forall debug, Forall sim_queue (main_subjects debug).
Proof. destruct debug; repeat constructor. Qed.
Print Assumptions C58_main_queues.

(** C59.  A simulation built by pushing non-empty ranges and popping, as orderSpans and dupSpans do, never reports a false error: on every
    queue, every pop returns the value that the builder expects, no matter how often the events are repeated, as long as the events end
    with nothing live. *)
Theorem C59_no_false_error : forall cs b, forallb legal cs = true -> builds (b_new true) cs = Ok b ->
  forall m fuel, sim_queue m -> (2 * length (b_mem b) <= fuel)%nat ->
  forall repeats, b_noLive b = true \/ (repeats <= 1)%nat -> simulate m fuel (b_mem b) (b_events b) repeats = Ok true.
Proof. exact (fun cs b Hl H m fuel Hm => bi_simulate b m fuel (builds_ok cs _ _ bi_new Hl H) (sim_queue_ok m Hm)). Qed.
Print Assumptions C59_no_false_error.

(** dupSpans, which main calls: it never reports a false error, for all results of rand(). *)
Theorem C59_dupSpans_no_false_error : forall rnd f goal avgSpan live dup b, dup_spans rnd f goal avgSpan live dup = Ok b ->
  forall m fuel, sim_queue m -> (2 * length (b_mem b) <= fuel)%nat ->
  forall repeats, simulate m fuel (b_mem b) (b_events b) repeats = Ok true.
Proof.
  intros rnd f goal avgSpan live dup b H m fuel Hm Hf repeats. apply dup_spans_ok in H as (Hb & Hn & _).
  now apply bi_simulate; [|apply sim_queue_ok| |left].
Qed.
Print Assumptions C59_dupSpans_no_false_error.

Theorem C59_main_no_false_error : forall rnd fuel debug elements spanSize size dups b,
  dup_spans rnd fuel elements spanSize size dups = Ok b -> (2 * length (b_mem b) <= fuel)%nat ->
  pq_main rnd fuel debug elements spanSize size dups = Ok true.
Proof.
  intros rnd fuel debug elements spanSize size dups b H Hf. unfold pq_main. rewrite H. cbn [bind]. apply simulate_all_ok. intros m Hm.
  apply dup_spans_ok in H as (Hb & Hn & _). apply bi_simulate; auto. apply sim_queue_ok.
  pose proof (C58_main_queues debug) as Hq. rewrite Forall_forall in Hq. auto.
Qed.
Print Assumptions C59_main_no_false_error.

(** orderSpans, for spans that are not empty. *)
Theorem C59_orderSpans_no_false_error : forall rnd f spanCount spanSize avgSize b, spanSize <> 0 ->
  order_spans rnd f spanCount spanSize avgSize = Ok b ->
  forall m fuel, sim_queue m -> (2 * length (b_mem b) <= fuel)%nat ->
  forall repeats, simulate m fuel (b_mem b) (b_events b) repeats = Ok true.
Proof.
  intros rnd f spanCount spanSize avgSize b Hs H m fuel Hm Hf repeats. apply order_spans_ok in H as (Hb & Hn & _); auto.
  now apply bi_simulate; [|apply sim_queue_ok| |left].
Qed.
Print Assumptions C59_orderSpans_no_false_error.

(** Numbers from a congruential generator stand for rand(). *)
Definition ex_rand (k : nat) : N := N.land (Nat.iter k (fun x => (x * 1103515245 + 12345) mod 2147483648) 42 / 7) 1023.
Example C59_nonvacuous :
  (exists b, dup_spans ex_rand 300 40 4 8 30 = Ok b /\ (40 < length (b_mem b))%nat /\ (2 * length (b_mem b) <= 300)%nat /\
     b_dupCount b <> 0) /\
  pq_main ex_rand 300 true 40 4 8 30 = Ok true /\
  (exists b, order_spans ex_rand 200 6 4 9 = Ok b /\ length (b_mem b) = 24%nat).
Proof.
  split; [|split].
  - eexists. split; [vm_compute; reflexivity|]. cbn. repeat split; try lia; discriminate.
  - vm_compute. reflexivity.
  - eexists. split; [vm_compute; reflexivity|]. reflexivity.
Qed.

(** dupSpans always reaches its goal, with nothing left in the queue, and the number it reports as pushed is what is in _mem. *)
Theorem C59_dupSpans_reaches_goal : forall rnd f goal avgSpan live dup b, dup_spans rnd f goal avgSpan live dup = Ok b ->
  b_noLive b = true /\ goal <= b_pushSum b /\ b_pushSum b = N.of_nat (length (b_mem b)).
Proof. intros rnd f goal avgSpan live dup b H. apply dup_spans_ok in H as (Hb & Hn & Hg). repeat split; auto. apply (bi_sum _ Hb). Qed.
Print Assumptions C59_dupSpans_reaches_goal.

(** dupSpans is defined for spans of at least two values and a positive goal. *)
Theorem C59_dupSpans_defined : forall rnd f goal avgSpan live dup, 2 <= avgSpan -> 1 <= goal -> dup_spans rnd f goal avgSpan live dup <> UB.
Proof. exact dup_spans_defined. Qed.
Print Assumptions C59_dupSpans_defined.

(** It is undefined for spans of one value: the deviation is zero and Simulator.cpp:162 takes a remainder by zero. *)
Theorem C59_dupSpans_defined_refuted : forall rnd f goal live dup, 1 <= goal -> dup_spans rnd (S f) goal 1 live dup = UB.
Proof.
  intros rnd f goal live dup Hg. unfold dup_spans. cbn. destruct (N.ltb_spec 0 goal); [|lia]. cbn.
  destruct goal; [lia|]. reflexivity.
Qed.
Print Assumptions C59_dupSpans_defined_refuted.

(** So it is for a goal of zero: makeDescription divides by the number of pushes (Simulator.cpp:134). *)
Theorem C59_dupSpans_goal_zero_refuted : forall rnd f avgSpan live dup, dup_spans rnd f 0 avgSpan live dup = UB.
Proof. intros rnd f avgSpan live dup. unfold dup_spans. destruct (avgSpan =? 0); [reflexivity|]. destruct f; reflexivity. Qed.
Print Assumptions C59_dupSpans_goal_zero_refuted.

(** randomSpans does report false errors: its builder pops one copy of a value at a time (Simulator.cpp:226), the queues pop all of them.
    Here rand() gives 5 in the first and in the second span and 3 in the third; every queue of main is reported as wrong. *)
Definition ex_rand_repeats (k : nat) : N := nth k [0; 5; 0; 5; 0; 3] 0.
Theorem C59_randomSpans_refuted :
  exists b, random_spans ex_rand_repeats 100 3 1 1 = Ok b /\
    Forall (fun m => sim_queue m /\ simulate m 100 (b_mem b) (b_events b) 1 = Ok false) (main_subjects false).
Proof.
  eexists. split; [vm_compute; reflexivity|]. repeat constructor; try (vm_compute; reflexivity); simpl; lia.
Qed.
Print Assumptions C59_randomSpans_refuted.

(** If the third span is missing, the second pop finds an empty queue. *)
Theorem C59_randomSpans_pops_empty_refuted :
  exists b, random_spans (fun k => nth k [0; 5; 0; 5] 0) 100 2 1 1 = Ok b /\
    Forall (fun m => simulate m 100 (b_mem b) (b_events b) 1 = UB) (main_subjects false).
Proof. eexists. split; [vm_compute; reflexivity|]. repeat constructor; vm_compute; reflexivity. Qed.
Print Assumptions C59_randomSpans_pops_empty_refuted.

(** The hypotheses of [C59_no_false_error] are needed: with values left, the second turn may differ, and an empty push is run as a pop. *)
Example C59_leftovers_matter :
  exists b, builds (b_new true) [CPush [1]; CPop; CPush [9]] = Ok b /\ b_noLive b = false /\
    Forall (fun m => simulate m 100 (b_mem b) (b_events b) 2 = Ok false) (main_subjects false).
Proof. eexists. split; [vm_compute; reflexivity|]. split; [reflexivity|]. repeat constructor; vm_compute; reflexivity. Qed.
Example C59_empty_push_matters :
  exists b, builds (b_new true) [CPush []] = Ok b /\ Forall (fun m => simulate m 100 (b_mem b) (b_events b) 1 = UB) (main_subjects false).
Proof. eexists. split; [vm_compute; reflexivity|]. repeat constructor; vm_compute; reflexivity. Qed.

(** dupSpans stops pushing only if it hits the goal exactly, so it may push more than it was asked for. *)
Theorem C59_dupSpans_exact_refuted : exists b, dup_spans ex_rand 300 40 4 8 30 = Ok b /\ b_pushSum b = 55.
Proof. eexists. split; [vm_compute; reflexivity|]. reflexivity. Qed.
Print Assumptions C59_dupSpans_exact_refuted.
