(** Property theorems about insertions into KDTree in which client functions or allocations throw (C88). *)
From Coq Require Import List Arith Bool ZArith NArith Lia Permutation.
From Verif.Base Require Import Res Arr ResList StdAlg Order Sort Fault FaultFacts.
From Verif.DivMask Require Import Model Defined.
From Verif.Spec Require Import Reach DivFinder DivFinderFacts DivCaught DivStale.
From Verif.DivList Require Import Properties.
From Verif.KD Require Import EntryArray Tree Model Legal ArrayProofs TreeProofs Proofs Properties Throws ThrowsProperties InsertThrows InsertThrowsProofs.
Import ListNotations.

(** What the standard library's algorithms do when comparisons and predicates may throw, and how many comparisons std::upper_bound makes. *)
Record algs (M : Type) := mk_algs {
  g_upper : list (ext M) -> ext M -> nat;
  g_sort : nat -> list (ext M) -> fout (list (ext M)) (list (ext M));
  g_part : nat -> (ext M -> bool) -> list (ext M) -> fout (list (ext M)) (list (ext M) * list (ext M)) }.
Arguments mk_algs {M}. Arguments g_upper {M}. Arguments g_sort {M}. Arguments g_part {M}.
Definition alegal {M} (C : kconf M) (A : algs M) : Prop := (forall e, g_upper A [] e = 0) /\ sort_legal C (g_sort A) /\ part_legal C (g_part A).
(** Calls with the number of client calls, and allocations if [alloc], that return before one throws. *)
Definition icatch {M} (C : kconf M) (packed alloc : bool) (A : algs M) : kd M -> dop M * nat -> res (kd M * outcome M) :=
  catch_change C packed alloc (g_upper A) (g_sort A) (g_part A).
(** Calls in which an exception may do harm. *)
Definition risky {M} (C : kconf M) (packed alloc : bool) (s : kd M) (o : dop M) : bool :=
  splits C s o && (c_sorted C || c_cache C || negb (c_removals C) || splits_root C packed s o || alloc && negb packed).

(** C88.  Whatever throws, insert and removeElement throw or do what they do without exceptions. *)
Theorem C88_throws_or_same : forall (M : Type) (C : kconf M) packed alloc A, alegal C A -> forall s o b s' r, step C packed s o = Ok (s', r) ->
  icatch C packed alloc A s (o, b) = Ok (s', Answered r) \/ exists s'', icatch C packed alloc A s (o, b) = Ok (s'', Threw []).
Proof.
  intros M C packed alloc A (_ & H1 & H2) s o b s' r H. destruct (tot_change C packed alloc (g_upper A) (g_sort A) (g_part A) H1 H2 b s o _ H) as ([b' a|s''] & E & G);
    unfold icatch, catch_change; cbn [fst snd]; rewrite E; cbn [bind]; [subst a; now left|right; eauto].
Qed.
Print Assumptions C88_throws_or_same.

(** What a client expects of a tree into which an insertion, of which [when] holds, has thrown: the entry is there or it is not, all others are,
    and searches work. *)
Definition harmless {M} (C : kconf M) valid packed alloc (when : kd M -> dop M -> bool) : Prop :=
  forall A, alegal C A -> forall ops s rs e b s', kreached C packed valid ops s rs -> icatch C packed alloc A s (DInsert e, b) = Ok (s', Threw []) ->
    tree_pre C valid (kcontents s) (DInsert e) = true -> when s (DInsert e) = true ->
    (Permutation (kcontents s') (kcontents s) \/ Permutation (kcontents s') (e :: kcontents s)) /\
    forall o, is_search o = true -> exists s'' r, step C packed s' o = Ok (s'', r).

(** C88.  An exception in an insertion that is not risky is harmless. *)
Theorem C88_harmless : forall (M : Type) (C : kconf M) valid packed alloc, klegal C valid -> harmless C valid packed alloc (fun s o => negb (risky C packed alloc s o)).
Proof.
  intros M C valid packed alloc H A (H0 & H1 & H2) ops s rs e b s' Hr Hc Hp Hk. apply negb_true_iff in Hk. assert (Hi := kreached_inv C packed valid ops s rs H Hr).
  assert (Hf : false = true -> c_cache C = false) by discriminate. rewrite (tree_pre_kpre C valid packed) in Hp.
  destruct (catch_ok C packed alloc (g_upper A) (g_sort A) (g_part A) H1 H2 valid H false Hf H0 s (DInsert e) b Hi Hp) as [(s1 & r & G1 & G2 & G3)|[G _]].
  - unfold icatch in Hc. rewrite Hc in G1. injection G1 as <- <-. split.
    + inversion G3; auto.
    + intros o Ho. destruct (step_ok C valid H packed false Hf s' o G2) as (s2 & r2 & E & _); [destruct o; auto; discriminate Ho|]. eauto.
  - unfold at_risk in G. unfold risky in Hk. rewrite Hk in G. discriminate G.
Qed.
Print Assumptions C88_harmless.

(** C88.  A tree goes on answering correctly whatever insertions throw: every history runs to its end as allowed, unless it makes a call that breaks
    the precondition, or a risky insertion throws. *)
Definition tree_goes_on {M} (C : kconf M) packed alloc A (pre : list M -> dop M -> bool) : Prop :=
  exists s0, construct C = Ok s0 /\ forall h,
    (exists s rs, run (icatch C packed alloc A) s0 h = Ok (s, rs) /\ ctrace (c_divides C) (ksame C) true [] (map fst h) rs (kcontents s)) \/
    (exists h1 o b h2 s rs, h = h1 ++ (o, b) :: h2 /\ run (icatch C packed alloc A) s0 h1 = Ok (s, rs) /\
      ctrace (c_divides C) (ksame C) true [] (map fst h1) rs (kcontents s) /\
      (pre (kcontents s) o = false \/ risky C packed alloc s o = true /\ exists s', icatch C packed alloc A s (o, b) = Ok (s', Threw []))).
Lemma goes_on_generic {M} (C : kconf M) valid packed alloc A elem pre : klegal C valid -> alegal C A -> (elem = true -> c_cache C = false) ->
  (forall l o, pre l o = kpre C valid packed elem l o) -> tree_goes_on C packed alloc A pre.
Proof.
  intros H (H0 & H1 & H2) He Hpre. destruct (construct_ok C valid H elem He) as (s0 & E & Hs & Hn). exists s0. split; [exact E|]. intros h.
  destruct (catches_ok C packed alloc (g_upper A) (g_sort A) (g_part A) H1 H2 valid H elem He H0 h s0 Hs) as [(s & rs & G1 & G2 & G3)|(h1 & o & b & h2 & s & rs & G1 & G2 & G3 & G4)];
    rewrite Hn in G3; [left; eauto|right]. exists h1, o, b, h2, s, rs. rewrite Hpre. auto.
Qed.
Theorem C88_trees_go_on : forall (M : Type) (C : kconf M) valid packed alloc A, klegal C valid -> alegal C A -> tree_goes_on C packed alloc A (tree_pre C valid).
Proof. intros M C valid packed alloc A H HA. apply (goes_on_generic C valid packed alloc A false); auto using tree_pre_kpre. discriminate. Qed.
Print Assumptions C88_trees_go_on.
(** C88.  The same with removeElement, in the packed tree without the divisor cache and apart from size(); see C33. *)
Theorem C88_remove_element_goes_on : forall (M : Type) (C : kconf M) valid alloc A, klegal C valid -> alegal C A -> c_cache C = false ->
  tree_goes_on C true alloc A (element_pre C valid).
Proof. intros M C valid alloc A H HA Hc. apply (goes_on_generic C valid true alloc A true); auto. intros l o. now destruct o. Qed.
Print Assumptions C88_remove_element_goes_on.

(** ** Risky insertions *)
(** std::sort and std::partition that look at every entry once; std::partition leaves the entries in reverse order when it does not get to the end. *)
Definition few (C : kconf mono) : algs mono := mk_algs (fun l _ => length l)
  (fun b l => if length l <=? b then Fine (b - length l) (c_sort_ext C l) else Left l)
  (fun b p l => if length l <=? b then Fine (b - length l) (c_part_ext C p l) else Left (rev l)).
Lemma few_legal C : alegal C (few C).
Proof.
  split; [reflexivity|]. split.
  - intros b l. cbn [few g_sort]. now destruct (length l <=? b).
  - intros b p l. cbn [few g_part]. destruct (length l <=? b); [reflexivity|]. symmetry. apply Permutation_rev.
Qed.
Definition ordered : kconf mono := mono_tree true true 2 true true false false.
Definition cached : kconf mono := mono_tree true true 2 true false true false.
Definition tiny : kconf mono := mono_tree true false 1 false false false false.
Ltac reach C packed ops Hr :=
  let H0 := fresh "Hz" in let H1 := fresh "Hy" in let H2 := fresh "Hx" in
  eassert (H0 : construct C = Ok _) by (vm_compute; reflexivity);
  match type of H0 with _ = Ok ?s0 =>
    eassert (H1 : run (step C packed) s0 ops = Ok (_, _)) by (vm_compute; reflexivity);
    assert (H2 : keeps (step C packed) (fun s o => tree_pre C int_mono (kcontents s) o = true) s0 ops) by (vm_compute; tauto)
  end;
  assert (Hr := kreached_run C packed int_mono _ _ _ _ H0 H1 H2).
(** The insertion of [e] throws after [b] calls; by [H] it is harmless. *)
Ltac upset H C packed alloc ops e b :=
  let Hr := fresh "Hr" in let Hc := fresh "Hc" in reach C packed ops Hr;
  match type of Hr with kreached _ _ _ _ ?s _ => eassert (Hc : icatch C packed alloc (few C) s (DInsert e, b) = Ok (_, Threw [])) by (vm_compute; reflexivity) end;
  specialize (H (few C) (few_legal C) _ _ _ _ _ _ Hr Hc eq_refl eq_refl); clear - H; destruct H as [H G].
(** Entries have been lost. *)
Ltac lost H := exfalso; destruct H as [H|H]; apply Permutation_length in H; vm_compute in H; lia.
(** A search is undefined. *)
Ltac stuck G o := let E := fresh "E" in destruct (G o eq_refl) as (? & ? & E); vm_compute in E; discriminate E.
Definition anywhere {M} (_ : kd M) (_ : dop M) : bool := true.
Definition below_root {M} (C : kconf M) packed (s : kd M) (o : dop M) : bool := negb (splits_root C packed s o).

(** C88.  If an insertion that splits the root throws in its last call of getExponent, then the binary tree loses its greater entries, and the packed
    tree those that are not greater together with all that is below the root. *)
Theorem C88_root_refuted : forall packed, ~ (forall (M : Type) (C : kconf M) valid, klegal C valid -> c_sorted C = false -> c_cache C = false -> c_removals C = true ->
  harmless C valid packed false anywhere).
Proof.
  intros packed H. specialize (H mono plain int_mono plain_legal eq_refl eq_refl eq_refl). destruct packed.
  - upset H plain true false (firstn 4 five) (1, 4)%Z 42%nat. lost H.
  - upset H plain false false (firstn 2 five) (1, 4)%Z 40%nat. lost H.
Qed.
Print Assumptions C88_root_refuted.
(** C88.  If the allocation of the new interior node fails then the binary tree has lost the greater entries of the leaf that is split. *)
Theorem C88_allocation_refuted : ~ (forall (M : Type) (C : kconf M) valid, klegal C valid -> c_sorted C = false -> c_cache C = false -> c_removals C = true ->
  harmless C valid false true (below_root C false)).
Proof.
  intros H. specialize (H mono plain int_mono plain_legal eq_refl eq_refl eq_refl). upset H plain false true (firstn 4 five) (1, 4)%Z 43%nat. lost H.
Qed.
Print Assumptions C88_allocation_refuted.
(** C88.  With sortOnInsert, an exception in std::partition leaves a leaf that is not sorted, in which later searches are undefined. *)
Theorem C88_sorted_refuted : forall packed, ~ (forall (M : Type) (C : kconf M) valid, klegal C valid -> c_cache C = false -> c_removals C = true ->
  harmless C valid packed false (below_root C packed)).
Proof.
  intros packed H. assert (Hl : klegal ordered int_mono) by (apply mono_tree_legal; auto with arith). specialize (H mono ordered int_mono Hl eq_refl eq_refl). destruct packed.
  - upset H ordered true false five (5, 1)%Z 39%nat. stuck G (DAllDivisors (3, 9)%Z go_on).
  - upset H ordered false false five (5, 1)%Z 39%nat. stuck G (DAllDivisors (3, 9)%Z go_on).
Qed.
Print Assumptions C88_sorted_refuted.
(** C88.  With AllowRemovals off and leaves of one entry, an exception may leave a leaf without entries, whose first entry later searches read. *)
Theorem C88_no_removals_refuted : forall packed, ~ (forall (M : Type) (C : kconf M) valid, klegal C valid -> c_sorted C = false -> c_cache C = false ->
  harmless C valid packed false (below_root C packed)).
Proof.
  intros packed H. assert (Hl : klegal tiny int_mono) by (apply mono_tree_legal; [discriminate|auto with arith]). specialize (H mono tiny int_mono Hl eq_refl eq_refl). destruct packed.
  - upset H tiny true false (firstn 3 five) (5, 1)%Z 42%nat. stuck G (DAllDivisors (9, 9)%Z go_on).
  - upset H tiny false false (firstn 3 five) (0, 9)%Z 39%nat. stuck G (DAllDivisors (9, 9)%Z go_on).
Qed.
Print Assumptions C88_no_removals_refuted.
(** C88.  With the divisor cache, an exception may leave it pointing to an entry that was moved, which the next findDivisor reads. *)
Theorem C88_cache_refuted : forall packed, ~ (forall (M : Type) (C : kconf M) valid, klegal C valid -> c_sorted C = false -> c_removals C = true ->
  harmless C valid packed false (below_root C packed)).
Proof.
  intros packed H. assert (Hl : klegal cached int_mono) by (apply mono_tree_legal; auto with arith). specialize (H mono cached int_mono Hl eq_refl eq_refl). destruct packed.
  - upset H cached true false (five ++ [DFindDivisor (3, 1)%Z]) (3, 8)%Z 41%nat. stuck G (DFindDivisor (9, 9)%Z).
  - upset H cached false false (firstn 4 five ++ [DFindDivisor (1, 9)%Z]) (0, 4)%Z 42%nat. stuck G (DFindDivisor (9, 9)%Z).
Qed.
Print Assumptions C88_cache_refuted.

(** Both trees: insertions throw when the divmask is computed, on the way down, while a leaf below the root is split and when it has been split; the
    tree goes on and at the end holds what was inserted. *)
Definition upsets : list (dop mono * nat) :=
  map (fun o => (o, many)) five ++
  [(DInsert (5, 1)%Z, 10); (DInsert (5, 1)%Z, 32); (DInsert (5, 1)%Z, 35); (DInsert (5, 1)%Z, 38); (DForAll go_on, many); (DInsert (5, 1)%Z, 41); (DSize, many);
   (DInsert (5, 1)%Z, many); (DFindDivisor (5, 3)%Z, many); (DForAll go_on, many)]%nat.
Definition insert_outcomes (packed : bool) (h : list (dop mono * nat)) : res (list (outcome mono)) :=
  let* s := construct plain in let* (_, os) := run (icatch plain packed packed (few plain)) s h in Ok os.
Definition met : list (outcome mono) :=
  repeat (Answered DONone) 5 ++ repeat (Threw []) 4 ++
  [Answered (DOList [(2, 2); (1, 4); (0, 9); (3, 1); (4, 4)]); Threw []; Answered (DOSize 5); Answered DONone; Answered (DOFound (Some (2, 2)));
   Answered (DOList [(2, 2); (1, 4); (0, 9); (3, 1); (5, 1); (4, 4)])]%Z.
Example C88_nonvacuous : klegal plain int_mono /\ alegal plain (few plain) /\ insert_outcomes true upsets = Ok met /\ insert_outcomes false upsets = Ok met /\
  (exists s rs, kreached plain true int_mono five s rs /\ splits plain s (DInsert (5, 1)%Z) = true /\ risky plain true true s (DInsert (5, 1)%Z) = false) /\
  (exists s rs, kreached plain false int_mono five s rs /\ splits plain s (DInsert (5, 1)%Z) = true /\ risky plain false false s (DInsert (5, 1)%Z) = false).
Proof.
  split; [exact plain_legal|]. split; [apply few_legal|]. split; [vm_compute; reflexivity|]. split; [vm_compute; reflexivity|]. split.
  - reach_five true Hr. do 2 eexists. split; [exact Hr|]. split; vm_compute; reflexivity.
  - reach_five false Hr. do 2 eexists. split; [exact Hr|]. split; vm_compute; reflexivity.
Qed.
