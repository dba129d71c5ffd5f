(** Property theorems about the divisor simulation (C60, C61, C62). *)
From Coq Require Import List Arith Bool ZArith Lia Permutation.
From Verif.Base Require Import Res Order Sort StdAlg.
From Verif.Spec Require Import DivFinder DivClient.
From Verif.DivMask Require Import Model Defined.
From Verif.DivList Require Import Model Properties.
From Verif.KD Require Import EntryArray.
From Verif.Finders Require Import Model.
From Verif.DivSim Require Import Model ClientProofs Proofs Detect MainProofs.
Import ListNotations.
Local Notation length := List.length.

(** The finders a simulation may run: any DivListModel and any KDTreeModel, where masks need a number of variables other than 1, tree masks
    need masks, a list is not both sorted and reordered, and a tree that minimizes allows removals.  [most] is how often the same monomial
    may be inserted without minimizing. *)
Inductive subject_ok (nvars : nat) (minimize : bool) (most : nat) : subject -> Prop :=
| list_subject std ULL UDM front sorted r minRebuild : std_ok nvars std -> (UDM = true -> nvars <> 1) -> front && sorted = false ->
    subject_ok nvars minimize most (list_model std nvars ULL UDM minimize front sorted r minRebuild)
| tree_subject std UDM UTDM PT LS AR sorted cache r minRebuild : std_ok nvars std -> (UDM = true -> nvars <> 1) -> (UTDM = true -> UDM = true) -> 0 < LS ->
    (minimize = true -> AR = true) -> (minimize = false -> most <= LS) ->
    subject_ok nvars minimize most (tree_model std nvars UDM UTDM PT LS AR minimize sorted cache r minRebuild).
Lemma subject_behaves nvars minimize most sub : subject_ok nvars minimize most sub -> behaves nvars minimize (fun _ => most) sub.
Proof. intros [|]; [apply list_behaves|apply tree_behaves]; auto. Qed.

(** Exponents that masks can be computed of. *)
Definition good_request (nvars : nat) (q : request monomial) : Prop :=
  length (m_exps (subject_of q)) = nvars /\ Forall (fun e => 0 <= e <= 2 ^ 31 - 32)%Z (m_exps (subject_of q)).
Lemma good_request_good nvars q : good_request nvars q -> good_monomial nvars (subject_of q).
Proof.
  intros [H1 H2]. split; auto. apply forallb_forall. intros v Hv. apply in_seq in Hv. rewrite Forall_forall in H2.
  assert (Hx : (0 <= m_ex (subject_of q) v <= 2 ^ 31 - 32)%Z) by (apply H2, nth_In; lia). apply andb_true_iff. split; apply Z.leb_le; lia.
Qed.

(** C60.  A simulation of insertions and queries in any order, run once on any number of finders, with and without DEBUG, asking for one or for
    all divisors, stops at no error, and all finders end up with the same number of monomials: those of the specification. *)
Theorem C60_no_false_error : forall nvars minimize debug sort findAll most qs subs,
  sorts_pointers sort -> Forall (good_request nvars) qs -> (minimize = false -> forall m, copies (same_exps m_ex nvars) m (put_in qs) <= most) ->
  Forall (subject_ok nvars minimize most) subs ->
  exists evs, simulate debug sort findAll 1 subs (map fresh qs) = Ok (Goes (map (fun _ => length (held (m_divides nvars) minimize qs)) subs, evs)).
Proof.
  intros nvars minimize debug sort findAll most qs subs Hsort Hg Hm Hs.
  destruct (simulate_ok nvars minimize debug sort Hsort findAll (fun _ => most) qs) with (subs := subs) (evs := map fresh qs) as (evs & H & _); eauto.
  - eapply Forall_impl; [|exact Hg]. apply good_request_good.
  - intros Hf m. rewrite app_nil_r. auto.
  - eapply Forall_impl; [|exact Hs]. apply subject_behaves.
  - apply fresh_right.
Qed.
Print Assumptions C60_no_false_error.

(** The same for the program: as long as no monomial is drawn twice, every run finds nothing wrong and prints the number of insertions. *)
Theorem C60_main_no_false_error : forall debug sort std inserts queries ms,
  sorts_pointers sort -> std_ok 10 std -> length ms = inserts + queries -> 0 < queries -> Forall (drawn 10) ms -> NoDup (map m_exps (firstn (S inserts) ms)) ->
  exists evs, div_main debug sort std inserts queries ms = Ok (Goes (map (fun _ => S inserts) (if debug then debug_subjects std else main_subjects std), evs)).
Proof. exact div_main_ok. Qed.
Print Assumptions C60_main_no_false_error.

Definition ptr_sort := isort (fun a b : monomial => m_ptr a <? m_ptr b).
Lemma ptr_sorts : sorts_pointers ptr_sort.
Proof.
  apply isort_sorts. split.
  - intros a. apply Nat.ltb_irrefl.
  - intros a b c H1 H2. apply Nat.ltb_lt in H1, H2. apply Nat.ltb_lt. lia.
  - intros a b c H1 H2. apply Nat.ltb_ge in H1, H2. apply Nat.ltb_ge. lia.
Qed.
Definition ex_std (nvars : nat) : stdlib := mk_stdlib data_sort (isort (fun a b : ext monomial => m_less nvars (x_t a) (x_t b))) keep_order keep_order.
Lemma ex_std_ok nvars : std_ok nvars (ex_std nvars).
Proof.
  split; cbn [ex_std s_data s_ext s_part_ext s_part].
  - exact data_sorts.
  - apply isort_sorts. destruct (m_less_sw nvars) as [H1 H2 H3]. split; [intros a; apply H1|intros a b c; apply H2|intros a b c; apply H3].
  - intros p l. split; reflexivity.
  - intros p l. split; reflexivity.
Qed.
Definition ex_requests : list (request monomial) :=
  [Put (mk_mono 1 [4; 0]%Z); Seek (mk_mono 2 [4; 3]%Z); Put (mk_mono 3 [2; 2]%Z); Seek (mk_mono 4 [9; 9]%Z); Put (mk_mono 5 [1; 1]%Z);
   Seek (mk_mono 6 [2; 2]%Z); Seek (mk_mono 7 [0; 9]%Z); Put (mk_mono 8 [7; 7]%Z); Seek (mk_mono 9 [8; 8]%Z)].
Definition ex_subjects (minimize : bool) : list subject :=
  [list_model (ex_std 2) 2 true true minimize true false ratio_half 2; list_model (ex_std 2) 2 false false minimize false true ratio_0 0;
   tree_model (ex_std 2) 2 true true true 1 true minimize false true ratio_half 2; tree_model (ex_std 2) 2 true false false 2 true minimize true false ratio_1 1].
Example C60_nonvacuous :
  Forall (good_request 2) ex_requests /\ (forall minimize, Forall (subject_ok 2 minimize 1) (ex_subjects minimize)) /\
  length (held (m_divides 2) true ex_requests) = 2 /\ length (held (m_divides 2) false ex_requests) = 4 /\
  (forall debug findAll, match simulate debug ptr_sort findAll 1 (ex_subjects true) (map fresh ex_requests) with Ok (Goes (ns, _)) => ns = [2; 2; 2; 2] | _ => False end) /\
  (forall debug findAll, match simulate debug ptr_sort findAll 1 (ex_subjects false) (map fresh ex_requests) with Ok (Goes (ns, _)) => ns = [4; 4; 4; 4] | _ => False end).
Proof.
  split; [repeat constructor; cbn; lia|]. split; [|split; [reflexivity|split; [reflexivity|split; intros [|] [|]; vm_compute; reflexivity]]].
  intros minimize. pose proof (ex_std_ok 2).
  constructor; [apply list_subject; auto; lia|]. constructor; [apply list_subject; auto; lia|]. constructor; [apply tree_subject; auto; lia|].
  constructor; [apply tree_subject; auto; lia|]. constructor.
Qed.

(** With two repetitions, a single correct finder is reported as wrong: the second time the events are run, the finder already holds the
    monomials of the first time. *)
Theorem C60_repeats_refuted :
  exists sub qs, subject_ok 2 true 0 sub /\ Forall (good_request 2) qs /\
    forall findAll, simulate false ptr_sort findAll 2 [sub] (map fresh qs) = Ok (Stops WrongNumber) /\ simulate true ptr_sort findAll 2 [sub] (map fresh qs) = Ok (Stops Asserted).
Proof.
  exists (list_model (ex_std 2) 2 false false true false false ratio_0 0), [Put (mk_mono 1 [2; 0]%Z); Put (mk_mono 2 [1; 0]%Z)].
  split; [apply list_subject; auto; apply ex_std_ok|]. split; [repeat constructor; cbn; lia|]. intros [|]; split; vm_compute; reflexivity.
Qed.
Print Assumptions C60_repeats_refuted.

(** Queries fail as well, without minimizing. *)
Theorem C60_repeats_queries_refuted :
  exists sub qs, subject_ok 2 false 1 sub /\ Forall (good_request 2) qs /\ (forall m, copies (same_exps m_ex 2) m (put_in qs) <= 1) /\
    simulate false ptr_sort true 2 [sub] (map fresh qs) = Ok (Stops WrongNumber).
Proof.
  exists (list_model (ex_std 2) 2 false false false false false ratio_0 0), [Put (mk_mono 1 [2; 0]%Z); Seek (mk_mono 2 [2; 0]%Z)].
  split; [apply list_subject; auto; apply ex_std_ok|]. split; [repeat constructor; cbn; lia|].
  split; [|vm_compute; reflexivity]. intros m. apply (different_copies 2); repeat constructor. intros [].
Qed.
Print Assumptions C60_repeats_queries_refuted.

(** State events (not made by makeStandard) compare the order in which finders list their entries, so that correct finders are reported. *)
Theorem C60_states_refuted :
  exists first second ms, subject_ok 2 false 1 first /\ subject_ok 2 false 1 second /\ Forall (fun m => good_request 2 (Put m)) ms /\ NoDup (map m_exps ms) /\
    forall debug findAll, simulate debug ptr_sort findAll 1 [first; second] (map (new_event InsertUnknown) ms ++ [new_event StateUnknown (mk_mono 0 [])]) = Ok (Stops StatesDiffer).
Proof.
  exists (list_model (ex_std 2) 2 false false false false false ratio_0 0), (list_model (ex_std 2) 2 false false false false true ratio_0 0), [mk_mono 1 [2; 0]%Z; mk_mono 2 [1; 0]%Z].
  split; [apply list_subject; auto; apply ex_std_ok|]. split; [apply list_subject; auto; apply ex_std_ok|].
  split; [repeat constructor; cbn; lia|]. split; [repeat constructor; cbn; intuition congruence|]. intros [|] [|]; vm_compute; reflexivity.
Qed.
Print Assumptions C60_states_refuted.

(** C61.  Whatever the finders are, if a simulation stops at no error then all of them answered as the first one did: to insertions and to
    searches for all divisors with the same number of monomials, to searches for one divisor alike whether there is one.  With DEBUG, they
    handed over the same monomials on insertion, and what they found are divisors that the first one found as well. *)
Theorem C61_disagreement_detected : forall debug sort findAll qs first subs out, sorts_pointers sort ->
  simulate debug sort findAll 1 (first :: subs) (map fresh qs) = Ok (Goes out) ->
  exists tr, transcript findAll first qs = Ok tr /\ map fst tr = qs /\ (debug = true -> Forall sound tr) /\
    forall sub, In sub subs -> exists tr', transcript findAll sub qs = Ok tr' /\ Forall2 (agree debug) tr tr' /\ (debug = true -> Forall sound tr').
Proof. exact (fun debug sort findAll qs first subs out Hs => simulate_agree debug sort Hs findAll qs first subs out). Qed.
Print Assumptions C61_disagreement_detected.

(** A finder that finds nothing. *)
Definition blind : subject :=
  mk_subject unit (Ok tt) (fun _ o => Ok (tt, match o with CInsert _ => DOList [] | CAsk DSize => DOSize 0 | CAsk (DFindDivisor _) => DOFound None | CAsk _ => DOList [] end)).
Example C61_nonvacuous :
  (forall debug findAll, exists out, simulate debug ptr_sort findAll 1 (ex_subjects true) (map fresh ex_requests) = Ok (Goes out)) /\
  simulate false ptr_sort true 1 (ex_subjects true ++ [blind]) (map fresh ex_requests) = Ok (Stops WrongNumber) /\
  simulate false ptr_sort false 1 (ex_subjects true ++ [blind]) (map fresh ex_requests) = Ok (Stops NotFound) /\
  simulate false ptr_sort false 1 (ex_subjects false ++ [blind]) (map fresh ex_requests) = Ok (Stops NotFound).
Proof. split; [intros [|] [|]; eexists; vm_compute; reflexivity|]. repeat split; vm_compute; reflexivity. Qed.

(** With DEBUG a finder may miss divisors: checkQuery compares only as many monomials as the later finder found.  Without DEBUG the same
    finder is noticed. *)
Theorem C61_debug_missing_divisors_refuted :
  exists first second qs, subject_ok 2 false 1 first /\ Forall (good_request 2) qs /\
    (exists out, simulate true ptr_sort true 1 [first; second] (map fresh qs) = Ok (Goes out)) /\
    simulate false ptr_sort true 1 [first; second] (map fresh qs) = Ok (Stops WrongNumber).
Proof.
  exists (list_model (ex_std 2) 2 false false false false false ratio_0 0), blind, [Put (mk_mono 1 [2; 0]%Z); Seek (mk_mono 2 [2; 0]%Z)].
  split; [apply list_subject; auto; apply ex_std_ok|]. split; [repeat constructor; cbn; lia|].
  split; [eexists; vm_compute; reflexivity|vm_compute; reflexivity].
Qed.
Print Assumptions C61_debug_missing_divisors_refuted.

(** C62.  makeStandard draws inserts + queries monomials, but the first [inserts + 1] of them are inserted, and one query is missing. *)
Theorem C62_standard_counts : forall inserts queries ms, length ms = inserts + queries -> 0 < queries ->
  make_standard inserts queries ms = map fresh (map Put (firstn (inserts + 1) ms) ++ map Seek (skipn (inserts + 1) ms)).
Proof. exact standard_split. Qed.
Print Assumptions C62_standard_counts.

Theorem C62_asked_counts_refuted : forall inserts queries ms, length ms = inserts + queries -> 0 < queries ->
  length (filter (fun e => match e_type e with InsertUnknown => true | _ => false end) (make_standard inserts queries ms)) <> inserts /\
  length (filter (fun e => match e_type e with QueryUnknown => true | _ => false end) (make_standard inserts queries ms)) <> queries.
Proof. exact standard_counts_wrong. Qed.
Print Assumptions C62_asked_counts_refuted.

(** If only insertions are asked for, as many as asked for are made. *)
Theorem C62_insertions_only : forall inserts ms, length ms = inserts -> make_standard inserts 0 ms = map fresh (map Put ms).
Proof. exact standard_inserts_only. Qed.
Print Assumptions C62_insertions_only.

Example C62_nonvacuous : exists ms, length ms = 2 + 3 /\ map e_type (make_standard 2 3 ms) = [InsertUnknown; InsertUnknown; InsertUnknown; QueryUnknown; QueryUnknown].
Proof. exists (repeat (mk_mono 0 [3; 4]%Z) 5). split; reflexivity. Qed.
