(** Property theorems about KDTree when the rebuild at the end of insert or removeMultiples throws (C94). *)
From Coq Require Import List Arith Bool ZArith NArith Lia Permutation.
From Verif.Base Require Import Res Arr ResList StdAlg Order Sort Fault FaultFacts.
From Verif.DivMask Require Import Model Defined.
From Verif.Spec Require Import Reach DivFinder DivFinderFacts DivCaught DivStale DivHonest.
From Verif.DivList Require Import Properties.
From Verif.KD Require Import EntryArray Tree Model Legal ArrayProofs TreeProofs Proofs Properties Throws ThrowsProofs ThrowsSearch ThrowsProperties.
From Verif.KD Require Import InsertThrows InsertThrowsProofs InsertThrowsProperties RemoveThrows RemoveThrowsProofs RemoveThrowsProperties.
From Verif.KD Require Import RebuildThrows RebuildThrowsProofs RebuildThrowsProperties AutoThrows AutoThrowsProofs.
Import ListNotations.

(** A call on a tree whose _tmp is empty, with the number of client calls, and allocations if [alloc], that return before one throws, also in an automatic
    rebuild. *)
Definition tcatch {M} (C : kconf M) (packed alloc : bool) (A : algs M) (B : ralgs M) (s : kd M) (c : dop M * nat) : res (remains M * outcome M) :=
  catch_auto C packed alloc (g_upper A) (g_sort A) (g_part A) (r_part B) s [] c.
Definition blegal {M} (C : kconf M) (A : algs M) (B : ralgs M) : Prop := alegal C A /\ prange_legal C (r_part B).

(** C94.  Whatever throws, a call throws or does what it does without exceptions. *)
Theorem C94_throws_or_same : forall (M : Type) (C : kconf M) packed alloc A B, blegal C A B -> forall s o b s' r, step C packed s o = Ok (s', r) ->
  tcatch C packed alloc A B s (o, b) = Ok (Usable s' [], Answered r) \/ exists x xs, tcatch C packed alloc A B s (o, b) = Ok (x, Threw xs).
Proof.
  intros M C packed alloc A B ((_ & H1 & H2) & H3) s o b s' r H. assert (T := tot_auto C packed alloc (g_upper A) (g_sort A) (g_part A) (r_part B) H1 H2 H3 b s o (s', [], r)). rewrite H in T.
  destruct (T eq_refl) as ([b' a|[x xs]] & E & G); unfold tcatch, catch_auto; cbn [fst snd]; rewrite E; cbn [bind]; [subst a; now left|right; eauto].
Qed.
Print Assumptions C94_throws_or_same.

(** [r] is what a rebuild of [s] has left: nothing of use, or a tree of the size of [s], for which as many changes are counted, and which has lost all
    entries, or has the entries of [s], and then another rebuild, once it returns, makes all searches work again. *)
Definition half_rebuilt {M} (C : kconf M) packed valid (s : kd M) (r : remains M) : Prop :=
  match r with
  | Torn => True
  | Usable s' tmp => k_size s' = k_size s /\ k_left s' = k_left s /\
      (kcontents s' = [] /\ kcontents s <> [] \/
       Permutation (kcontents s') (kcontents s) /\ exists s2, step C packed s' DRebuild = Ok (s2, DONone) /\ works C packed valid s2 /\ Permutation (kcontents s2) (kcontents s))
  end.
Lemma half_rebuilt_ok {M} (C : kconf M) packed valid alloc A B s b r : klegal C valid -> blegal C A B -> inv C valid false s ->
  rebuild_all_x C packed alloc (g_sort A) (r_part B) b s [] = Ok (Left r) -> half_rebuilt C packed valid s r.
Proof.
  intros H ((_ & H1 & _) & H3) Hi E. assert (R := rebuild_remains C packed alloc (g_sort A) (r_part B) H1 H3 valid H false s b r Hi E). destruct r as [s' tmp|]; [|exact I].
  destruct R as (R1 & R2 & _ & R3). cbn [half_rebuilt]. split; [exact R1|]. split; [exact R2|]. destruct R3 as [R3|(R3 & s2 & G1 & G2 & G3)]; [now left|right]. split; [exact R3|].
  exists s2. cbn [step]. rewrite G1. cbn [bind]. split; [reflexivity|]. split; [now apply works_inv|exact G3].
Qed.

(** C94.  If insert throws, then either the exception came before the entry was in the tree, as in a tree that never rebuilds (see C88), and
    size() is what it was; or a tree with the entry, which answers as it should and has the right size(), was to be rebuilt, and the rebuild threw. *)
Theorem C94_insert_left : forall (M : Type) (C : kconf M) valid packed alloc A B, klegal C valid -> blegal C A B -> forall ops s rs e b x xs,
  kreached C packed valid ops s rs -> tree_pre C valid (kcontents s) (DInsert e) = true -> tcatch C packed alloc A B s (DInsert e, b) = Ok (x, Threw xs) ->
  (exists s', x = Usable s' [] /\ icatch C packed alloc A s (DInsert e, b) = Ok (s', Threw []) /\ k_size s' = k_size s) \/
  (exists s1, works C packed valid s1 /\ Permutation (kcontents s1) (e :: kcontents s) /\ k_size s1 = S (k_size s) /\ c_auto C = true /\ k_left s <= 1 /\ k_left s1 = k_left s /\
    half_rebuilt C packed valid s1 x).
Proof.
  intros M C valid packed alloc A B H HAB ops s rs e b x xs Hr Hp Hc. assert (Hi := kreached_inv C packed valid ops s rs H Hr). destruct (HAB) as ((H0 & H1 & H2) & H3).
  cbn [tree_pre] in Hp. apply andb_true_iff in Hp as [Hv Hco]. apply Nat.ltb_lt in Hco.
  unfold tcatch, catch_auto in Hc. cbn [fst snd auto_x] in Hc. apply bind_inv in Hc as ([b' [[s' t'] r']|[x' xs']] & E & Hc); [discriminate Hc|]. injection Hc as -> ->.
  apply fbind_left in E as [E|(b1 & a & _ & E)]; [|discriminate E]. apply fleft_left in E as (x' & E & Ex). injection Ex as -> ->.
  destruct (insert_auto_left C packed alloc (g_upper A) (g_sort A) (g_part A) (r_part B) H1 H2 valid H false ltac:(discriminate) b s e x' Hi Hv Hco E) as [(s' & -> & G)|(b1 & s1 & G1 & G2 & G3 & G4 & G5 & G6 & G7)].
  - left. exists s'. split; [reflexivity|]. split; [|exact (insert_left_size C packed alloc (g_upper A) (g_sort A) (g_part A) b s e s' G)].
    unfold icatch, catch_change. cbn [fst snd change_x]. rewrite G. reflexivity.
  - right. exists s1. split; [now apply works_inv|]. repeat (split; [assumption|]). exact (half_rebuilt_ok C packed valid alloc A B s1 b1 x' H HAB G1 G7).
Qed.
Print Assumptions C94_insert_left.

(** C94.  If removeMultiples throws, then either the exception came before all multiples were removed, as in a tree that never rebuilds (see
    C89); or the output has received all multiples, and a tree without them, which answers as it should and has the right size(), was to be rebuilt,
    and the rebuild threw. *)
Theorem C94_remove_left : forall (M : Type) (C : kconf M) valid packed alloc A B, klegal C valid -> blegal C A B -> c_removals C = true -> forall ops s rs m b x xs,
  kreached C packed valid ops s rs -> tcatch C packed alloc A B s (DRemoveMultiples m, b) = Ok (x, Threw xs) ->
  (exists s' tmp, x = Usable s' tmp /\ acatch C packed alloc A (s, []) (DRemoveMultiples m, b) = Ok (s', tmp, Threw xs)) \/
  (exists s1, works C packed valid s1 /\ Permutation (kcontents s1) (non_multiples (c_divides C) m (kcontents s)) /\ Permutation xs (multiples (c_divides C) m (kcontents s)) /\
    k_size s1 = length (kcontents s1) /\ c_auto C = true /\ k_left s <= length xs /\ k_left s1 = k_left s /\ half_rebuilt C packed valid s1 x).
Proof.
  intros M C valid packed alloc A B H HAB Hrem ops s rs m b x xs Hr Hc. assert (Hi := kreached_inv C packed valid ops s rs H Hr). destruct (HAB) as ((H0 & H1 & H2) & H3).
  unfold tcatch, catch_auto in Hc. cbn [fst snd auto_x] in Hc. apply bind_inv in Hc as ([b' [[s' t'] r']|[x' xs']] & E & Hc); [discriminate Hc|]. injection Hc as -> ->.
  apply fbind_left in E as [E|(b1 & [[[s' c] out] t'] & _ & E)]; [|discriminate E].
  destruct (remove_auto_left C packed alloc (g_sort A) (r_part B) valid H false ltac:(discriminate) b s m x xs Hi Hrem E) as [(s' & tmp & -> & G)|(b1 & s1 & G1 & G2 & G3 & G4 & G5 & G6 & G7 & G8)].
  - left. exists s', tmp. split; [reflexivity|]. unfold acatch, catch_all. cbn [fst snd all_x]. rewrite G. reflexivity.
  - right. exists s1. split; [now apply works_inv|]. split; [exact G2|]. split; [exact G3|]. split; [exact (i_size _ _ _ _ G1)|]. repeat (split; [assumption|]).
    exact (half_rebuilt_ok C packed valid alloc A B s1 b1 x H HAB G1 G8).
Qed.
Print Assumptions C94_remove_left.

(** C94.  If the rebuild at the end of an insertion has thrown, which size() shows, then it is tried again in the next insertion. *)
Theorem C94_tried_again : forall (M : Type) (C : kconf M) valid packed alloc A B, klegal C valid -> blegal C A B -> forall ops s rs e b s' tmp xs,
  kreached C packed valid ops s rs -> tree_pre C valid (kcontents s) (DInsert e) = true -> tcatch C packed alloc A B s (DInsert e, b) = Ok (Usable s' tmp, Threw xs) ->
  k_size s' = S (k_size s) -> forall e2 s2 r, step C packed s' (DInsert e2) = Ok (s2, r) -> k_rebuilds s2 = S (k_rebuilds s').
Proof.
  intros M C valid packed alloc A B H HAB ops s rs e b s' tmp xs Hr Hp Hc Hz e2 s2 r Hs.
  destruct (C94_insert_left M C valid packed alloc A B H HAB ops s rs e b _ xs Hr Hp Hc) as [(s0 & Ex & _ & G)|(s1 & _ & _ & _ & G1 & G2 & G3 & G4)].
  - injection Ex as -> ->. lia.
  - cbn [half_rebuilt] in G4. destruct G4 as (_ & G4 & _). cbn [step] in Hs. apply bind_inv in Hs as (s3 & Hs & E). injection E as -> _.
    apply (insert_rebuilds C packed s' e2 s2); auto. lia.
Qed.
Print Assumptions C94_tried_again.

(** ** What a client would like *)
Definition auto : kconf mono := mono_tree true true 2 true false false true.
Lemma auto_legal : klegal auto int_mono. Proof. apply mono_tree_legal; auto with arith. Qed.
Lemma few_blegal C : blegal C (few C) (rfew C). Proof. split; [apply few_legal|apply rfew_legal]. Qed.
(** If a call throws then [good] holds of the tree before, of what the output has received, and of what is left.  The call is one that C88 and C89 say
    does no harm: no allocation fails, entries are not sorted, there is no divisor cache and the call does not split a leaf. *)
Definition keeps_good {M} (C : kconf M) valid packed (o : dop M) (good : kd M -> list M -> remains M -> Prop) : Prop :=
  forall A B, blegal C A B -> forall ops s rs b x xs, kreached C packed valid ops s rs -> tree_pre C valid (kcontents s) o = true ->
  tcatch C packed false A B s (o, b) = Ok (x, Threw xs) -> c_sorted C = false -> c_cache C = false -> splits C s o = false -> good s xs x.
Ltac fails H C packed ops o b :=
  let Hr := fresh "Hr" in let Hc := fresh "Hc" in reach C packed ops Hr;
  match type of Hr with kreached _ _ _ _ ?s _ => eassert (Hc : tcatch C packed false (few C) (rfew C) s (o, b) = Ok (_, Threw _)) by (vm_compute; reflexivity) end;
  specialize (H (few C) (rfew C) (few_blegal C) _ _ _ _ _ _ Hr eq_refl Hc eq_refl eq_refl eq_refl); clear - H; cbv beta iota in H.
Definition left_contents {M} (x : remains M) : list M := match x with Usable s _ => kcontents s | Torn => [] end.

(** C94.  If insert throws then the entry is not there: false.  A client that catches the exception and tries again has it twice. *)
Theorem C94_not_inserted_refuted : forall packed, ~ (forall (M : Type) (C : kconf M) valid, klegal C valid -> forall e, keeps_good C valid packed (DInsert e)
  (fun s _ x => ~ In e (kcontents s) -> ~ In e (left_contents x))).
Proof.
  intros packed H. specialize (H mono auto int_mono auto_legal (0, 20)%Z). destruct packed.
  - fails H auto true five (DInsert (0, 20)%Z) 34%nat. vm_compute in H. intuition discriminate.
  - fails H auto false five (DInsert (0, 20)%Z) 34%nat. vm_compute in H. intuition discriminate.
Qed.
Print Assumptions C94_not_inserted_refuted.
(** C94.  If insert throws then the entries of before are there: false.  All may be lost, while size() counts them and the new one. *)
Theorem C94_insert_loses_refuted : forall packed, ~ (forall (M : Type) (C : kconf M) valid, klegal C valid -> forall e, keeps_good C valid packed (DInsert e)
  (fun s _ x => torn x = false -> incl (kcontents s) (left_contents x))).
Proof.
  intros packed H. specialize (H mono auto int_mono auto_legal (0, 20)%Z). destruct packed.
  - fails H auto true five (DInsert (0, 20)%Z) 90%nat. destruct (H eq_refl (3, 1)%Z). vm_compute. tauto.
  - fails H auto false five (DInsert (0, 20)%Z) 90%nat. destruct (H eq_refl (3, 1)%Z). vm_compute. tauto.
Qed.
Print Assumptions C94_insert_loses_refuted.
(** C94.  If removeMultiples throws then entries that are not multiples are still there: false. *)
Theorem C94_remove_loses_refuted : forall packed, ~ (forall (M : Type) (C : kconf M) valid, klegal C valid -> forall m, keeps_good C valid packed (DRemoveMultiples m)
  (fun s _ x => torn x = false -> incl (non_multiples (c_divides C) m (kcontents s)) (left_contents x))).
Proof.
  intros packed H. specialize (H mono auto int_mono auto_legal (1, 1)%Z). destruct packed.
  - fails H auto true five (DRemoveMultiples (1, 1)%Z) 60%nat. destruct (H eq_refl (0, 9)%Z). vm_compute. tauto.
  - fails H auto false five (DRemoveMultiples (1, 1)%Z) 60%nat. destruct (H eq_refl (0, 9)%Z). vm_compute. tauto.
Qed.
Print Assumptions C94_remove_loses_refuted.
(** C94.  If a call throws then the tree is not torn: false. *)
Theorem C94_never_torn_refuted : forall packed, ~ (forall (M : Type) (C : kconf M) valid, klegal C valid -> forall o, keeps_good C valid packed o (fun _ _ x => torn x = false)).
Proof.
  intros packed H. specialize (H mono auto int_mono auto_legal (DInsert (0, 20)%Z)). destruct packed.
  - fails H auto true five (DInsert (0, 20)%Z) 200%nat. discriminate H.
  - fails H auto false five (DInsert (0, 20)%Z) 110%nat. discriminate H.
Qed.
Print Assumptions C94_never_torn_refuted.

(** The hypotheses are met: the sixth insertion rebuilds.  It throws before the entry is in the tree, while entries are recorded, in the calculator and in
    the first leaf, or returns.  Each time: the number of entries, size(), whether _tmp is empty and whether the call threw. *)
Definition sixth (packed : bool) (b : nat) : res (nat * nat * bool * outcome mono) :=
  let* s0 := construct auto in
  let* (s, _) := run (step auto packed) s0 five in
  let* (x, r) := tcatch auto packed false (few auto) (rfew auto) s (DInsert (0, 20)%Z, b) in
  Ok (match x with Usable s' tmp => (length (kcontents s'), k_size s', dirty tmp, r) | Torn => (0, 0, false, r) end).
(** After the insertion that threw in the calculator, the next one rebuilds, and nothing is lost. *)
Definition seventh (packed : bool) : res (nat * nat * nat) :=
  let* s0 := construct auto in
  let* (s, _) := run (step auto packed) s0 five in
  let* (x, _) := tcatch auto packed false (few auto) (rfew auto) s (DInsert (0, 20)%Z, 60) in
  match x with
  | Usable s' _ => let* (s2, _) := step auto packed s' (DInsert (7, 0)%Z) in Ok (k_rebuilds s', k_rebuilds s2, length (kcontents s2))
  | Torn => UB
  end.
Example C94_nonvacuous : klegal auto int_mono /\ blegal auto (few auto) (rfew auto) /\
  map (sixth false) [20; 36; 60; 90; 319] = [Ok (5, 5, false, Threw []); Ok (6, 6, true, Threw []); Ok (6, 6, false, Threw []); Ok (0, 6, false, Threw []); Ok (6, 6, false, Answered DONone)] /\
  map (sixth true) [20; 38; 60; 90; 319] = [Ok (5, 5, false, Threw []); Ok (6, 6, true, Threw []); Ok (6, 6, false, Threw []); Ok (0, 6, false, Threw []); Ok (6, 6, false, Answered DONone)] /\
  seventh false = Ok (1, 2, 7) /\ seventh true = Ok (1, 2, 7).
Proof. split; [exact auto_legal|]. split; [apply few_blegal|]. repeat apply conj; vm_compute; reflexivity. Qed.
