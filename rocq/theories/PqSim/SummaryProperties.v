(** Properties of what the pq simulation prints about the events it generated (C83). *)
From Coq Require Import List Arith NArith Bool Lia Permutation Ascii String.
From Verif.Base Require Import Res Text.
From Verif.Spec Require Import PQ Lines.
From Verif.Report Require Import NamesProofs PrintProofs.
From Verif.PqSim Require Import Model Calls BuilderProofs Summary SummaryProofs Properties.
Import ListNotations.
Local Notation length := List.length.
Local Open Scope N_scope.

(** The five numbers, for all calls: how many pushes there were, how many values each had on average, how many values were live on average
    before a call, how many values were pushed, and which percentage of them was live already; averages are rounded down. *)
Theorem C83_summary : forall all cs b repeats name, builds (b_new all) cs = Ok b -> pushes cs <> 0%nat -> ~ In newline name ->
  exists t, description_text b repeats name = Ok t /\
  lines t = [txt "*** Simulation """ ++ name ++ txt """";
    txt " " ++ decimal (N.of_nat (push_calls cs)) ++ txt " spans";
    txt " " ++ decimal (N.of_nat (pushes cs) / N.of_nat (push_calls cs)) ++ txt " per span on average";
    txt " " ++ decimal (N.of_nat (list_sum (map (@length N) (history all [] cs))) / N.of_nat (length cs)) ++ txt " elements in queue on average";
    txt " " ++ decimal (N.of_nat (pushes cs)) ++ txt " entries popped in total.";
    txt " " ++ decimal (N.of_nat (duplicates all [] cs) * 100 / N.of_nat (pushes cs)) ++ txt "% duplicates";
    txt " " ++ decimal repeats ++ txt " repeats."].
Proof.
  intros all cs b repeats name H Hp Hn. destruct (builds_counts cs (b_new all) b [] I (perm_nil _) H) as (_ & _ & _ & H1 & _ & H2 & H3 & H4 & H5).
  cbn [b_new b_popDuplicates b_pushCount b_pushSum b_liveSum b_dupCount b_events length Nat.add] in *. rewrite N.add_0_l in *.
  assert (Hc : push_calls cs <> 0%nat).
  { intros E. apply Hp. clear - E. induction cs as [|c cs IH]; [reflexivity|]. destruct c; [discriminate E|]. apply IH, E. }
  unfold description_text, description. rewrite H1, H2, H4. destruct (N.eqb_spec (N.of_nat (push_calls cs)) 0) as [E|_]; [lia|].
  destruct (N.eqb_spec (N.of_nat (pushes cs)) 0) as [E|_]; [lia|]. cbn [bind]. eexists. split; [reflexivity|].
  assert (Ha : b_avg b = N.of_nat (list_sum (map (@length N) (history all [] cs))) / N.of_nat (length cs)).
  { unfold b_avg. rewrite H3, <- H5. destruct (b_events b); auto. destruct cs; [easy|discriminate]. }
  rewrite Ha. set (x1 := decimal (N.of_nat (push_calls cs))). set (x2 := decimal (_ / _)). set (x3 := decimal (_ / _)). set (x4 := decimal (N.of_nat (pushes cs))).
  set (x5 := decimal (_ / _)). set (x6 := decimal repeats).
  assert (Hx : ~ In newline x1 /\ ~ In newline x2 /\ ~ In newline x3 /\ ~ In newline x4 /\ ~ In newline x5 /\ ~ In newline x6) by (repeat split; apply no_nl_decimal).
  clearbody x1 x2 x3 x4 x5 x6. destruct Hx as (X1 & X2 & X3 & X4 & X5 & X6).
  match goal with |- lines ?t = _ => replace t with
    ((txt "*** Simulation """ ++ name ++ txt """") ++ newline :: (txt " " ++ x1 ++ txt " spans") ++ newline :: (txt " " ++ x2 ++ txt " per span on average") ++ newline ::
    (txt " " ++ x3 ++ txt " elements in queue on average") ++ newline :: (txt " " ++ x4 ++ txt " entries popped in total.") ++ newline ::
    (txt " " ++ x5 ++ txt "% duplicates") ++ newline :: (txt " " ++ x6 ++ txt " repeats.") ++ newline :: []) by (rewrite <- !app_assoc; reflexivity) end.
  rewrite !lines_line; [reflexivity|..]; repeat apply no_nl_app; auto; now apply no_nl_txt.
Qed.
Print Assumptions C83_summary.

(** The simulations make such calls.  No push has a value twice, and nothing is live in the end. *)
Theorem C83_simulations : forall rnd f b,
  (forall goal avgSpan live dup, dup_spans rnd f goal avgSpan live dup = Ok b ->
     exists cs, builds (b_new true) cs = Ok b /\ Forall distinct_push cs /\ left_over true cs = [] /\ pushes cs <> 0%nat) /\
  (forall spanCount spanSize avgSize, order_spans rnd f spanCount spanSize avgSize = Ok b ->
     exists cs, builds (b_new true) cs = Ok b /\ Forall distinct_push cs /\ left_over true cs = [] /\ pushes cs <> 0%nat) /\
  (forall spanCount spanSize initialSize, random_spans rnd f spanCount spanSize initialSize = Ok b ->
     exists cs, builds (b_new false) cs = Ok b /\ Forall distinct_push cs /\ left_over false cs = [] /\ pushes cs <> 0%nat).
Proof.
  intros rnd f b. assert (F : forall all, via (b_new all) b /\ b_noLive b = true -> (exists d, description b = Ok d) ->
    exists cs, builds (b_new all) cs = Ok b /\ Forall distinct_push cs /\ left_over all cs = [] /\ pushes cs <> 0%nat).
  { intros all [(cs & H & Hd) Hn] (d & Hdesc). exists cs. split; auto. split; auto. pose proof (builds_counts cs (b_new all) b [] I (perm_nil _) H) as (_ & _ & P & _ & _ & S & _). split.
    - unfold b_noLive in Hn. destruct (b_queue b); [|discriminate]. now apply Permutation_nil in P.
    - cbn [b_new b_pushSum] in S. rewrite N.add_0_l in S. intros E. rewrite E in S. unfold description in Hdesc. rewrite S in Hdesc. destruct (b_pushCount b =? 0); discriminate. }
  split; [|split].
  - intros goal avgSpan live dup H. unfold dup_spans in H. destruct (avgSpan =? 0); [discriminate|]. destruct (dup_loop _ _ _ _ _ _ _ _ _ _) as [b1| | |] eqn:Hl; try discriminate.
    cbn [bind] in H. destruct (description b1) eqn:Hd; try discriminate. injection H as <-. apply F; [|eauto]. now apply dup_loop_via in Hl.
  - intros spanCount spanSize avgSize H. unfold order_spans in H. destruct (order_loop _ _ _ _ _ _ _ _ _ _) as [b1| | |] eqn:Hl; try discriminate.
    cbn [bind] in H. destruct (description b1) eqn:Hd; try discriminate. injection H as <-. apply F; [|eauto]. now apply order_loop_via in Hl.
  - intros spanCount spanSize initialSize H. unfold random_spans in H. destruct (random_loop _ _ _ _ _ _ _ _) as [b1| | |] eqn:Hl; try discriminate.
    cbn [bind] in H. destruct (description b1) eqn:Hd; try discriminate. injection H as <-. apply F; [|eauto]. now apply random_loop_via in Hl.
Qed.
Print Assumptions C83_simulations.

(** How often the simulations pop: if a pop takes out all copies, then every value pushed is a duplicate, or is popped later, or is left in
    the end, where duplicates are not counted; if a pop takes out one copy, then every value pushed is popped or left. *)
Theorem C83_pops : forall cs b,
  (builds (b_new true) cs = Ok b -> (pop_calls cs + duplicates true [] cs + length (nodup N.eq_dec (left_over true cs)) = pushes cs)%nat) /\
  (builds (b_new false) cs = Ok b -> (pop_calls cs + length (left_over false cs) = pushes cs)%nat).
Proof.
  intros cs b. split; intros H; destruct (builds_counts cs (b_new _) b [] I (perm_nil _) H) as (_ & _ & P & _ & H1 & H2 & _ & H3 & _);
    pose proof (account cs (b_new _) b I H eq_refl) as A; cbn [b_new b_popDuplicates b_popCount b_pushSum b_dupCount] in *; rewrite H1, H2 in A.
  - rewrite H3 in A. rewrite (kinds_same _ _ (fun z => conj (Permutation_in z P) (Permutation_in z (Permutation_sym P)))) in A. unfold kinds in A. fold (left_over true cs) in A. lia.
  - unfold b_live in A. rewrite (Permutation_length P) in A. fold (left_over false cs) in A. lia.
Qed.
Print Assumptions C83_pops.

(** So the number of pops is the number that is printed as "entries popped in total" only if there are no duplicates. *)
Theorem C83_entries_popped_refuted : exists b cs, dup_spans ex_rand 300 40 4 8 30 = Ok b /\ builds (b_new true) cs = Ok b /\
  pushes cs = 55%nat /\ pop_calls cs = 45%nat.
Proof.
  assert (E : match dup_spans ex_rand 300 40 4 8 30 with Ok b => (b_pushSum b, b_popCount b) | _ => (0, 0) end = (55, 45)) by (vm_compute; reflexivity).
  destruct (dup_spans ex_rand 300 40 4 8 30) as [b| | |] eqn:H; [|discriminate E..]. apply pair_equal_spec in E as [E1 E2].
  destruct (proj1 (C83_simulations ex_rand 300 b) 40 4 8 30 H) as (cs & Hc & _). exists b, cs. split; [reflexivity|]. split; [exact Hc|].
  pose proof (builds_counts cs (b_new true) b [] I (perm_nil _) Hc) as (_ & _ & _ & _ & H1 & H2 & _). cbn [b_new b_popCount b_pushSum] in *. lia.
Qed.
Print Assumptions C83_entries_popped_refuted.

(** The percentage is below a hundred, whatever percentage was asked for: the first value pushed is no duplicate. *)
Theorem C83_percentage : forall all cs, pushes cs <> 0%nat -> N.of_nat (duplicates all [] cs) * 100 / N.of_nat (pushes cs) < 100.
Proof. intros all cs H. pose proof (duplicates_lt all cs H). apply N.div_lt_upper_bound; lia. Qed.
Print Assumptions C83_percentage.

(** dupSpans makes duplicates even if zero percent are asked for: Simulator.cpp:166 compares with <=. *)
Theorem C83_no_duplicates_refuted : exists b t, dup_spans (fun k => N.of_nat k * N.of_nat k * 50) 100 8 4 3 0 = Ok b /\ description_text b 1 (txt "dup spans") = Ok t /\
  nth 5 (lines t) [] = txt " 25% duplicates".
Proof. eexists. eexists. split; [vm_compute; reflexivity|]. split; vm_compute; reflexivity. Qed.
Print Assumptions C83_no_duplicates_refuted.

(** The list of events tells every push and what every pop took out, and lines that look the same tell the same. *)
Theorem C83_events_printed : forall all cs b, builds (b_new all) cs = Ok b -> forallb legal cs = true ->
  exists t ts, print_events b = Ok t /\ tells all [] cs ts /\
  lines t = (txt "*** The " ++ decimal (N.of_nat (length cs)) ++ txt " events are") :: map line_of ts.
Proof.
  intros all cs b H Hl. destruct (builds_tells cs (b_new all) b [] [] Hl I (perm_nil _) H (Forall2_nil _)) as (ts & Ht & Hf). cbn [b_new b_popDuplicates app] in Ht, Hf.
  destruct (builds_counts cs (b_new all) b [] I (perm_nil _) H) as (_ & _ & _ & _ & _ & _ & _ & _ & H5). cbn [b_new b_events length Nat.add] in H5.
  apply print_loop_lines in Hf as (out & Ho & Hlines). unfold print_events. rewrite Ho. cbn [bind]. eexists. exists ts. split; [reflexivity|]. split; auto. rewrite H5, <- Hlines.
  match goal with |- lines ?t = _ => replace t with ((txt "*** The " ++ decimal (N.of_nat (length cs)) ++ txt " events are") ++ newline :: out) by (rewrite <- !app_assoc; reflexivity) end.
  apply lines_line. repeat apply no_nl_app; try apply no_nl_decimal; now apply no_nl_txt.
Qed.
Print Assumptions C83_events_printed.
Theorem C83_events_determined : forall ts ts', map line_of ts = map line_of ts' -> ts = ts'.
Proof.
  induction ts as [|t ts IH]; intros [|t' ts'] H; try discriminate; auto. cbn [map] in H. injection H as H1 H2. apply line_of_inj in H1. apply IH in H2. congruence.
Qed.
Print Assumptions C83_events_determined.
(** An empty push must not be printed: the popValue of its event is read, which was never set. *)
Theorem C83_empty_push_printed_refuted : exists b, builds (b_new true) [CPush []] = Ok b /\ print_events b = UB.
Proof. eexists. split; vm_compute; reflexivity. Qed.
Print Assumptions C83_empty_push_printed_refuted.

Example C83_nonvacuous : exists b t e, builds (b_new true) [CPush [3; 8]; CPush [8; 5; 4]; CPop; CPop; CPush [4]; CPop; CPop] = Ok b /\
  description_text b 2 (txt "x") = Ok t /\ nth 3 (lines t) [] = txt " 2 elements in queue on average" /\ nth 5 (lines t) [] = txt " 33% duplicates" /\
  print_events b = Ok e /\ firstn 5 (lines e) = map txt ["*** The 7 events are"; "Insert 8 3"; "Insert 8 5 4"; "Pop 8"; "Pop 5"]%string.
Proof. do 3 eexists. split; [vm_compute; reflexivity|]. split; [vm_compute; reflexivity|]. repeat split; vm_compute; reflexivity. Qed.
