(** Property theorems about rebuilds of KDTree in which client functions or allocations throw (C90). *)
From Coq Require Import List Arith Bool ZArith NArith Lia Permutation.
From Verif.Base Require Import Res Arr ResList StdAlg Order Sort Fault FaultFacts.
From Verif.DivMask Require Import Model Defined.
From Verif.Spec Require Import Reach DivFinder DivFinderFacts DivCaught DivStale DivHonest.
From Verif.DivList Require Import Properties.
From Verif.KD Require Import EntryArray Tree Model Legal ArrayProofs TreeProofs Proofs Properties Throws ThrowsProofs ThrowsSearch ThrowsProperties.
From Verif.KD Require Import InsertThrows InsertThrowsProofs InsertThrowsProperties RebuildThrows RebuildThrowsProofs.
Import ListNotations.

(** What std::sort and std::partition do in a rebuild when comparisons and predicates may throw. *)
Record ralgs (M : Type) := mk_ralgs {
  r_sort : nat -> list (ext M) -> fout (list (ext M)) (list (ext M));
  r_part : nat -> (M -> bool) -> list M -> fout (list M) (list M * list M) }.
Arguments mk_ralgs {M}. Arguments r_sort {M}. Arguments r_part {M}.
Definition rlegal {M} (C : kconf M) (A : ralgs M) : Prop := sort_legal C (r_sort A) /\ prange_legal C (r_part A).
(** rebuild of a tree whose _tmp is empty, with the number of client calls, and allocations if [alloc], that return before one throws. *)
Definition rcatch {M} (C : kconf M) (packed alloc : bool) (A : ralgs M) (s : kd M) (b : nat) : res (remains M * outcome M) :=
  catch_rebuild C packed alloc (r_sort A) (r_part A) s [] b.
(** From [s] on, calls that keep the preconditions answer as they should. *)
Definition works {M} (C : kconf M) packed valid (s : kd M) : Prop :=
  forall ops s1 rs, reached (step C packed) (fun s o => tree_pre C valid (kcontents s) o = true) s ops s1 rs ->
  forall o, tree_pre C valid (kcontents s1) o = true -> exists s' r, step C packed s1 o = Ok (s', r) /\ dstep (c_divides C) (ksame C) (kcontents s1) o r (kcontents s').
Lemma works_inv {M} (C : kconf M) packed valid s : klegal C valid -> inv C valid false s -> works C packed valid s.
Proof.
  intros H Hi ops s1 rs Hr o Ho. assert (Hf : false = true -> c_cache C = false) by discriminate.
  rewrite (tree_pre_kpre C valid packed) in Ho. apply (steps_from_inv C packed valid H false Hf s Hi ops s1 rs); [|exact Ho].
  clear Ho Hi. induction Hr as [|ops s1 rs o' s2 r Hr IH Hp Hs]; [constructor|]. rewrite (tree_pre_kpre C valid packed) in Hp. econstructor; eauto.
Qed.

(** C90.  Whatever throws, rebuild throws or does what it does without exceptions. *)
Theorem C90_throws_or_same : forall (M : Type) (C : kconf M) packed alloc A, rlegal C A -> forall s b s' r, step C packed s DRebuild = Ok (s', r) ->
  rcatch C packed alloc A s b = Ok (Usable s' [], Answered r) \/ exists x, rcatch C packed alloc A s b = Ok (x, Threw []).
Proof.
  intros M C packed alloc A [H1 H2] s b s' r H. cbn [step] in H. apply bind_inv in H as (s1 & H & H'). injection H' as <- <-.
  destruct (tot_rebuild C packed alloc (r_sort A) (r_part A) H1 H2 b s _ H) as ([b' a|x] & E & G); unfold rcatch, catch_rebuild; rewrite E; cbn [bind];
    [subst a; now left|right; eauto].
Qed.
Print Assumptions C90_throws_or_same.

(** [s] with another calculator. *)
Definition recalculated {M} (s : kd M) (bits : list (nat * Z)) : kd M := mk_kd (k_tree s) bits (k_size s) (k_left s) (k_cache s) (k_rebuilds s).
(** C90.  What is there after an exception: (1) the tree of before, while recording has left something in _tmp or not, so that searches go on as after
    an exception in forAll; (2) the entries and masks of before with another calculator; (3) a tree without entries whose size is the old one;
    (4) a torn tree; or (5) a new tree with the old entries, in which the masks of interior nodes have not been computed, if the allocation for that has
    failed. *)
Theorem C90_what_is_left : forall (M : Type) (C : kconf M) valid packed alloc A, klegal C valid -> rlegal C A -> forall ops s rs b x,
  kreached C packed valid ops s rs -> rcatch C packed alloc A s b = Ok (x, Threw []) ->
  (exists tmp, x = Usable s tmp /\ forall upper h, searches_only h = true -> exists s' tmp' os, run (kcatch C packed upper) (s, tmp) h = Ok (s', tmp', os) /\
    kcontents s' = kcontents s /\ strace (c_divides C) (kcontents s) (dirty tmp) (map fst h) os (dirty tmp')) \/
  (exists bits, x = Usable (recalculated s bits) [] /\ c_use C = true) \/
  (exists s', x = Usable s' [] /\ kcontents s' = [] /\ kcontents s <> [] /\ k_size s' = k_size s) \/
  x = Torn \/
  (exists s', x = Usable s' [] /\ Permutation (kcontents s') (kcontents s) /\ k_size s' = k_size s /\ alloc = true /\ c_tree C = true).
Proof.
  intros M C valid packed alloc A H [H1 H2] ops s rs b x Hr Hc. assert (Hi := kreached_inv C packed valid ops s rs H Hr).
  assert (Hf : false = true -> c_cache C = false) by discriminate. unfold rcatch, catch_rebuild in Hc. apply bind_inv in Hc as ([b' s'|x'] & E & Hc); [discriminate Hc|].
  injection Hc as ->. destruct (rebuild_left C packed alloc (r_sort A) (r_part A) H1 H2 valid H false s b x Hi E)
    as [(tmp & -> & Ht)|[(bits & -> & Hu & _)|[(bits & -> & Hn)|[->|(bits & t & -> & Ha & Hm & _ & _ & Hp)]]]].
  - left. exists tmp. split; [reflexivity|]. intros upper h Hh.
    destruct (searches_ok C valid H packed upper false Hf eq_refl h s tmp Hi Ht Hh) as (s' & tmp' & os & G1 & _ & G2 & G3 & _). exists s', tmp', os. auto.
  - right. left. exists bits. auto.
  - right. right. left. eexists. split; [reflexivity|]. auto.
  - auto.
  - right. right. right. right. eexists. split; [reflexivity|]. rewrite kcontents_root. cbn [k_tree root_entries k_size]. rewrite bare_entries. auto.
Qed.
Print Assumptions C90_what_is_left.

(** C90.  Whatever the calculator is, searches do not answer wrongly: they return and report only divisors and multiples that are there, though perhaps not all
    of them, and forAll and size() are exact. *)
Theorem C90_stale_calculator_honest : forall (M : Type) (C : kconf M) valid packed, klegal C valid -> forall ops s rs bits o, kreached C packed valid ops s rs ->
  is_search o = true -> exists s' r, step C packed (recalculated s bits) o = Ok (s', r) /\ honest (c_divides C) (kcontents s) o r /\ kcontents s' = kcontents s.
Proof.
  intros M C valid packed H ops s rs bits o Hr Ho. assert (Hf : false = true -> c_cache C = false) by discriminate.
  apply (stale_ok C packed valid H false Hf s bits o); auto; [|discriminate]. exact (kreached_inv C packed valid ops s rs H Hr).
Qed.
Print Assumptions C90_stale_calculator_honest.

(** C90.  If the tree still has its entries, and nothing is left in _tmp, then another rebuild, once it returns, puts everything right. *)
Theorem C90_rebuilding_again : forall (M : Type) (C : kconf M) valid packed alloc A, klegal C valid -> rlegal C A -> forall ops s rs b s',
  kreached C packed valid ops s rs -> rcatch C packed alloc A s b = Ok (Usable s' [], Threw []) -> length (kcontents s') = k_size s' ->
  exists s2, step C packed s' DRebuild = Ok (s2, DONone) /\ Permutation (kcontents s2) (kcontents s) /\ works C packed valid s2.
Proof.
  intros M C valid packed alloc A H [H1 H2] ops s rs b s' Hr Hc Hs. assert (Hi := kreached_inv C packed valid ops s rs H Hr). unfold rcatch, catch_rebuild in Hc.
  apply bind_inv in Hc as ([b' s0|x] & E & Hc); [discriminate Hc|]. injection Hc as Hx. subst x. assert (Hk := i_size _ _ _ _ Hi). cbn [step].
  destruct (rebuild_left C packed alloc (r_sort A) (r_part A) H1 H2 valid H false s b _ Hi E)
    as [(tmp & Ex & Ht)|[(bits & Ex & _)|[(bits & Ex & Hn)|[Ex|(bits & t & Ex & _ & _ & Hri & _ & Hp)]]]]; [| | |discriminate Ex|]; injection Ex as ->.
  - destruct (rebuild_ok C valid H packed false s (i_root _ _ _ _ Hi) Hk) as (s2 & -> & G1 & G2). cbn [bind]. eexists. split; [reflexivity|]. split; [exact G2|now apply works_inv].
  - rewrite stale_rebuild. destruct (rebuild_ok C valid H packed false s (i_root _ _ _ _ Hi) Hk) as (s2 & -> & G1 & G2). cbn [bind]. eexists. split; [reflexivity|].
    split; [exact G2|now apply works_inv].
  - exfalso. cbn [k_size] in Hs. rewrite Hk in Hs. apply Hn. destruct (kcontents s); [reflexivity|discriminate Hs].
  - destruct (bare_rebuild C packed valid H false (mk_kd (Some (bare t)) bits (k_size s) (k_left s) (option_map (freed C) (k_cache s)) (S (k_rebuilds s))) t eq_refl bits Hri) as (s2 & -> & G1 & G2).
    { cbn [k_size]. rewrite Hk. symmetry. now apply Permutation_length. }
    cbn [bind]. eexists. split; [reflexivity|]. split; [now rewrite G2|now apply works_inv].
Qed.
Print Assumptions C90_rebuilding_again.

(** ** What a client would like *)
(** std::sort and std::partition that look at every entry once. *)
Definition rfew (C : kconf mono) : ralgs mono := mk_ralgs (g_sort (few C)) (fun b p l => if length l <=? b then Fine (b - length l) (c_part C p l) else Left (rev l)).
Lemma rfew_legal C : rlegal C (rfew C).
Proof. split; [apply (few_legal C)|]. intros b p l. cbn [rfew r_part]. destruct (length l <=? b); [reflexivity|]. symmetry. apply Permutation_rev. Qed.
(** An exception in rebuild keeps the tree [good]. *)
Definition rebuild_keeps {M} (C : kconf M) valid packed alloc (good : kd M -> remains M -> Prop) : Prop :=
  forall A, rlegal C A -> forall ops s rs b x, kreached C packed valid ops s rs -> rcatch C packed alloc A s b = Ok (x, Threw []) -> good s x.
Ltac breaks H C packed alloc ops b :=
  let Hr := fresh "Hr" in let Hc := fresh "Hc" in reach C packed ops Hr;
  match type of Hr with kreached _ _ _ _ ?s _ => eassert (Hc : rcatch C packed alloc (rfew C) s b = Ok (_, Threw [])) by (vm_compute; reflexivity) end;
  specialize (H (rfew C) (rfew_legal C) _ _ _ _ _ Hr Hc); clear - H; cbv beta iota in H.
Definition torn {M} (x : remains M) : bool := match x with Torn => true | Usable _ _ => false end.

(** C90.  Entries are kept: false.  If getExponent throws while the first node is being built, then all entries are gone, while size() is what it was. *)
Theorem C90_entries_kept_refuted : forall packed, ~ (forall (M : Type) (C : kconf M) valid, klegal C valid ->
  rebuild_keeps C valid packed false (fun s x => match x with Usable s' _ => length (kcontents s') = k_size s' | Torn => True end)).
Proof.
  intros packed H. specialize (H mono plain int_mono plain_legal). destruct packed.
  - breaks H plain true false five 41%nat. vm_compute in H. discriminate H.
  - breaks H plain false false five 41%nat. vm_compute in H. discriminate H.
Qed.
Print Assumptions C90_entries_kept_refuted.
(** C90.  The tree is never torn: false, if getExponent throws while a later node is being built.  Later calls and the destructor run into null pointers
    or pointers that have not been initialised. *)
Theorem C90_never_torn_refuted : forall packed, ~ (forall (M : Type) (C : kconf M) valid, klegal C valid -> rebuild_keeps C valid packed false (fun _ x => torn x = false)).
Proof.
  intros packed H. specialize (H mono plain int_mono plain_legal). destruct packed.
  - breaks H plain true false five 133%nat. discriminate H.
  - breaks H plain false false five 58%nat. discriminate H.
Qed.
Print Assumptions C90_never_torn_refuted.
(** findDivisor finds a divisor if there is one. *)
Definition finds {M} (C : kconf M) packed (s : kd M) (x : remains M) : Prop :=
  match x with
  | Usable s' [] => length (kcontents s') = k_size s' -> forall m s'' r, step C packed s' (DFindDivisor m) = Ok (s'', DOFound r) -> is_divisor (c_divides C) m (kcontents s') r
  | _ => True
  end.
Ltac overlooks H m e :=
  let Hf := fresh "Hf" in
  match type of H with _ = _ -> forall m0 s'' r, step ?C ?p ?s' _ = _ -> _ =>
    eassert (Hf : step C p s' (DFindDivisor m) = Ok (_, DOFound None)) by (vm_compute; reflexivity)
  end;
  specialize (H eq_refl _ _ _ Hf e); clear - H; vm_compute in H; assert (H' := H ltac:(tauto)); discriminate H'.
(** C90.  As long as the entries are there, findDivisor finds a divisor if there is one: false, if getExponent throws while the calculator is being
    rebuilt, ... *)
Theorem C90_finds_refuted : forall packed, ~ (forall (M : Type) (C : kconf M) valid, klegal C valid -> rebuild_keeps C valid packed false (finds C packed)).
Proof.
  intros packed H. specialize (H mono plain int_mono plain_legal). destruct packed.
  - breaks H plain true false five 20%nat. cbn [finds] in H. overlooks H (9, 9)%Z (3, 1)%Z.
  - breaks H plain false false five 20%nat. cbn [finds] in H. overlooks H (9, 9)%Z (3, 1)%Z.
Qed.
Print Assumptions C90_finds_refuted.
(** C90.  ... or, in the binary tree, if the allocation for the computation of masks fails, even when client functions do not throw. *)
Theorem C90_masks_refuted : ~ (forall (M : Type) (C : kconf M) valid, klegal C valid ->
  rebuild_keeps C valid false true (fun s x => match x with Usable s' [] => k_rebuilds s' <> k_rebuilds s -> finds C false s x | _ => True end)).
Proof.
  intros H. specialize (H mono plain int_mono plain_legal). breaks H plain false true five 237%nat. specialize (H ltac:(intros E; vm_compute in E; discriminate E)).
  cbn [finds] in H. overlooks H (9, 9)%Z (3, 1)%Z.
Qed.
Print Assumptions C90_masks_refuted.
(** C90.  findDivisor is defined: false with the divisor cache, which points to an entry that has been freed. *)
Theorem C90_cache_refuted : forall packed, ~ (forall (M : Type) (C : kconf M) valid, klegal C valid -> rebuild_keeps C valid packed false
  (fun _ x => match x with Usable s' _ => forall m, exists s'' r, step C packed s' (DFindDivisor m) = Ok (s'', r) | Torn => True end)).
Proof.
  intros packed H. assert (Hl : klegal cached int_mono) by (apply mono_tree_legal; auto with arith). specialize (H mono cached int_mono Hl).
  destruct packed; [breaks H cached true false (five ++ [DFindDivisor (9, 9)%Z]) 45%nat|breaks H cached false false (five ++ [DFindDivisor (9, 9)%Z]) 45%nat];
    destruct (H (9, 9)%Z) as (s'' & r & E); vm_compute in E; discriminate E.
Qed.
Print Assumptions C90_cache_refuted.

(** The hypotheses are met: rebuilds that throw while recording, in the calculator, and that return. *)
Definition rebuilt (packed : bool) (b : nat) : res (nat * nat * bool * outcome mono) :=
  let* s0 := construct plain in
  let* (s, _) := run (step plain packed) s0 five in
  let* (x, r) := rcatch plain packed false (rfew plain) s b in
  Ok (match x with Usable s' tmp => (length (kcontents s'), k_size s', dirty tmp, r) | Torn => (0, 0, false, r) end).
Example C90_nonvacuous : klegal plain int_mono /\ rlegal plain (rfew plain) /\
  map (rebuilt false) [4; 20; 41; 229] = [Ok (5, 5, true, Threw []); Ok (5, 5, false, Threw []); Ok (0, 5, false, Threw []); Ok (5, 5, false, Answered DONone)] /\
  map (rebuilt true) [4; 20; 41; 229] = [Ok (5, 5, true, Threw []); Ok (5, 5, false, Threw []); Ok (0, 5, false, Threw []); Ok (5, 5, false, Answered DONone)].
Proof. split; [exact plain_legal|]. split; [apply rfew_legal|]. split; vm_compute; reflexivity. Qed.
