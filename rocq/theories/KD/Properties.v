(** Property theorems about KDTree (C28-C33, C35, C48). *)
From Coq Require Import List Arith Bool ZArith NArith Lia Permutation.
From Verif.Base Require Import Res Arr ResList StdAlg Order Sort.
From Verif.DivMask Require Import Model Defined.
From Verif.Spec Require Import Reach DivFinder DivFinderFacts DivAgree DivAgreeFacts DivInvisible Schedule.
From Verif.DivList Require Import Properties.
From Verif.DivList Require ScheduleProofs.
From Verif.KD Require Import EntryArray Tree Model Legal ArrayProofs Proofs ScheduleProofs.
Import ListNotations.
Local Notation length := List.length.

Definition ksame {M} (C : kconf M) : M -> M -> bool := same_exps (c_ex C) (c_nvars C).
(** What a caller has to respect: only valid entries are inserted, never more equal ones than a leaf holds, and nothing is removed unless
    AllowRemovals.  Insertion of ranges and moving to the front do not exist; removeElement is looked at in C33. *)
Definition tree_pre {M} (C : kconf M) (valid : M -> bool) (l : list M) (o : dop M) : bool :=
  match o with
  | DInsert e => valid e && (copies (ksame C) e l <? c_leaf C)
  | DRemoveMultiples _ => c_removals C
  | DInsertRange _ | DToFront _ | DRemoveElement _ => false
  | _ => true
  end.
Lemma tree_pre_kpre {M} (C : kconf M) valid packed l o : tree_pre C valid l o = kpre C valid packed false l o.
Proof. destruct o; reflexivity. Qed.
Lemma df_steps_pre {M} (divides same : M -> M -> bool) {St} (step : St -> dop M -> res (St * dout M)) init abs (pre pre' : list M -> dop M -> bool) :
  (forall l o, pre' l o = pre l o) -> df_steps divides same step init abs pre -> df_steps divides same step init abs pre'.
Proof.
  intros He (s0 & H1 & H2 & H). exists s0. split; auto. split; auto. intros ops s rs Hr o Hp. rewrite He in Hp. apply (H ops s rs); auto.
  clear - Hr He. induction Hr as [|ops s rs o s1 r1 Hr IH Hp Hs]; [constructor|]. apply (r_snoc _ _ _ ops s rs o s1 r1 IH); auto. now rewrite <- He.
Qed.
Lemma tree_steps {M} (C : kconf M) valid packed : klegal C valid ->
  df_steps (c_divides C) (ksame C) (step C packed) (construct C) kcontents (tree_pre C valid).
Proof.
  intros H. eapply df_steps_pre; [intros l o; apply (tree_pre_kpre C valid packed)|]. apply kd_steps; auto. discriminate.
Qed.
Lemma tree_correct {M} (C : kconf M) valid packed : klegal C valid ->
  df_correct (c_divides C) (ksame C) (step C packed) (construct C) kcontents (tree_pre C valid).
Proof. intros H. apply df_steps_correct, tree_steps, H. Qed.

(** C28.  The binary tree answers every history correctly: findDivisor finds a divisor exactly if one is held, the enumerations report exactly
    the right entries until the callback declines, removeMultiples removes exactly the multiples, size() counts. *)
Theorem C28_binary_tree_exact : forall (M : Type) (C : kconf M) valid, klegal C valid ->
  df_correct (c_divides C) (ksame C) (step C false) (construct C) kcontents (tree_pre C valid).
Proof. exact (fun M C valid H => tree_correct C valid false H). Qed.
Print Assumptions C28_binary_tree_exact.
(** C29.  So does the packed tree. *)
Theorem C29_packed_tree_exact : forall (M : Type) (C : kconf M) valid, klegal C valid ->
  df_correct (c_divides C) (ksame C) (step C true) (construct C) kcontents (tree_pre C valid).
Proof. exact (fun M C valid H => tree_correct C valid true H). Qed.
Print Assumptions C29_packed_tree_exact.

(** Monomials in two variables with int exponents; every choice of the options is legal. *)
Definition mono_tree (use tree : bool) (leaf : nat) (removals sorted cache auto : bool) : kconf mono :=
  mk_kconf mono mono_ex 2 (Signed 32) mono_divides lex use tree leaf removals sorted cache auto (fun n => n / 2) 3
    data_sort (isort (DivList.Model.comp mono lex)) keep_order keep_order.
Definition int_mono := int_exponents mono_ex 2.
Lemma mono_tree_legal use tree leaf removals sorted cache auto : (tree = true -> use = true) -> 0 < leaf ->
  klegal (mono_tree use tree leaf removals sorted cache auto) int_mono.
Proof.
  intros Ht Hl. split; cbn [mono_tree c_divides c_nvars c_ex c_leaf c_tree c_use c_sorted c_less c_sort_data c_sort_ext c_part_ext c_part c_type].
  - exact (k_divides _ (mono_legal lex use true sorted auto)).
  - exact Hl.
  - exact Ht.
  - intros _. exact (lex_compatible use true sorted auto).
  - exact data_sorts.
  - intros _. apply isort_sorts, DivList.Proofs.comp_sw, lex_sw.
  - apply keep_order_partitions.
  - apply keep_order_partitions.
  - intros _. apply int_calc_defined; [lia|]. intros l. apply data_sorts.
  - intros a b var Ha Hb Hv Hab. unfold int_mono, int_exponents in Ha, Hb. rewrite forallb_forall in Ha, Hb.
    specialize (Ha var ltac:(apply in_seq; lia)). specialize (Hb var ltac:(apply in_seq; lia)). apply andb_true_iff in Ha as [Ha1 Ha2], Hb as [Hb1 Hb2].
    apply Z.leb_le in Ha1, Ha2, Hb1, Hb2.
    assert (Hn : forall z, (0 <= z <= 2 ^ 31 - 1 - 31)%Z -> norm (Signed 32) z = Ok z).
    { intros z Hz. unfold norm. cbn [Z.of_N]. change (32 - 1)%Z with 31%Z.
      destruct (Z.leb_spec (- 2 ^ 31) z); [|lia]. destruct (Z.ltb_spec z (2 ^ 31)); [reflexivity|lia]. }
    split; [apply Hn; lia|]. intros z Hz. apply Hn. lia.
Qed.
Definition tree_answers {M} (C : kconf M) (packed : bool) (ops : list (dop M)) : res (list (dout M)) :=
  let* s := construct C in let* (_, rs) := run (step C packed) s ops in Ok rs.

Definition tree_demo : list (dop mono) :=
  [DInsert (3, 1); DInsert (2, 2); DInsert (1, 4); DInsert (0, 9); DInsert (4, 4); DInsert (2, 2); DFindDivisor (2, 5); DAllDivisors (4, 4) go_on;
   DAllDivisors (4, 4) (stop_after 2); DAllMultiples (2, 2) go_on; DSize; DRemoveMultiples (3, 0); DForAll go_on; DSize; DRebuild; DFindDivisor (2, 1)]%Z.
Example C28_nonvacuous :
  klegal (mono_tree true true 2 true true true true) int_mono /\
  tree_answers (mono_tree true true 2 true true true true) false tree_demo =
    Ok [DONone; DONone; DONone; DONone; DONone; DONone; DOFound (Some (1, 4)); DOList [(1, 4); (2, 2); (2, 2); (3, 1); (4, 4)];
        DOList [(1, 4); (2, 2)]; DOList [(4, 4); (2, 2); (2, 2)]; DOSize 6; DORemoved true [(3, 1); (4, 4)];
        DOList [(1, 4); (2, 2); (2, 2); (0, 9)]; DOSize 4; DONone; DOFound None]%Z.
Proof. split; [apply mono_tree_legal; auto with arith|vm_compute; reflexivity]. Qed.
Example C29_nonvacuous :
  klegal (mono_tree true true 2 true true true true) int_mono /\
  tree_answers (mono_tree true true 2 true true true true) true tree_demo =
    Ok [DONone; DONone; DONone; DONone; DONone; DONone; DOFound (Some (1, 4)); DOList [(1, 4); (2, 2); (2, 2); (3, 1); (4, 4)];
        DOList [(1, 4); (2, 2)]; DOList [(2, 2); (2, 2); (4, 4)]; DOSize 6; DORemoved true [(3, 1); (4, 4)];
        DOList [(1, 4); (2, 2); (2, 2); (0, 9)]; DOSize 4; DONone; DOFound None]%Z.
Proof. split; [apply mono_tree_legal; auto with arith|]. vm_compute. reflexivity. Qed.

(** [kreached C packed valid ops s rs]: the calls [ops], respecting the preconditions, lead a new tree to [s] with answers [rs]. *)
Definition kreached {M} (C : kconf M) (packed : bool) (valid : M -> bool) (ops : list (dop M)) (s : kd M) (rs : list (dout M)) : Prop :=
  exists s0, construct C = Ok s0 /\ reached (step C packed) (fun s o => tree_pre C valid (kcontents s) o = true) s0 ops s rs.
Lemma kreached_step {M} (C : kconf M) packed valid ops s rs o : klegal C valid -> kreached C packed valid ops s rs -> tree_pre C valid (kcontents s) o = true ->
  exists s' r, step C packed s o = Ok (s', r) /\ dstep (c_divides C) (ksame C) (kcontents s) o r (kcontents s').
Proof.
  intros H (s0 & Hi & Hr) Hp. destruct (tree_steps C valid packed H) as (s1 & Hi1 & _ & Hs). rewrite Hi in Hi1. injection Hi1 as <-. eauto.
Qed.
Lemma kreached_run {M} (C : kconf M) packed valid s0 ops s rs : construct C = Ok s0 -> run (step C packed) s0 ops = Ok (s, rs) ->
  keeps (step C packed) (fun s o => tree_pre C valid (kcontents s) o = true) s0 ops -> kreached C packed valid ops s rs.
Proof. intros H1 H2 H3. exists s0. split; auto. now apply keeps_reached. Qed.
Lemma kreached_size {M} (C : kconf M) packed valid ops s rs : klegal C valid -> kreached C packed valid ops s rs -> k_size s = length (kcontents s).
Proof.
  intros H Hr. destruct (kreached_step C packed valid ops s rs DSize H Hr eq_refl) as (s' & r & H1 & H2). cbn [step] in H1. injection H1 as <- <-. now inversion H2.
Qed.
Lemma kreached_snoc {M} (C : kconf M) packed valid ops s rs o s' r : kreached C packed valid ops s rs -> tree_pre C valid (kcontents s) o = true ->
  step C packed s o = Ok (s', r) -> kreached C packed valid (ops ++ [o]) s' (rs ++ [r]).
Proof. intros (s0 & H1 & H2) Hp Hs. exists s0. split; auto. econstructor; eauto. Qed.

(** C30.  In every reachable state removeMultiples leaves exactly the other entries, outputs exactly the multiples, says whether there was one
    and updates size(). *)
Lemma tree_remove_multiples {M} (C : kconf M) packed valid ops s rs m : klegal C valid -> c_removals C = true -> kreached C packed valid ops s rs ->
  exists s' b xs, step C packed s (DRemoveMultiples m) = Ok (s', DORemoved b xs) /\
    Permutation xs (multiples (c_divides C) m (kcontents s)) /\ Permutation (kcontents s') (non_multiples (c_divides C) m (kcontents s)) /\
    (b = true <-> exists e, In e (kcontents s) /\ c_divides C m e = true) /\
    step C packed s' DSize = Ok (s', DOSize (length (kcontents s) - length xs)).
Proof.
  intros H Hc Hr. destruct (kreached_step C packed valid ops s rs (DRemoveMultiples m) H Hr Hc) as (s' & r & H1 & H2). inversion H2; subst.
  match goal with Hp : Permutation xs _ |- _ => rename Hp into Hx end. match goal with Hp : Permutation (kcontents s') _ |- _ => rename Hp into Hl end.
  assert (Hs' := kreached_size C packed valid _ _ _ H (kreached_snoc C packed valid ops s rs (DRemoveMultiples m) _ _ Hr Hc H1)).
  exists s', (match xs with [] => false | _ => true end), xs. split; [auto|]. split; [auto|]. split; [auto|]. split; [split|].
  - destruct xs as [|x xs]; [discriminate|]. intros _. exists x. apply (filter_In (fun e => c_divides C m e)). eapply Permutation_in; [eassumption|now left].
  - intros (e & He1 & He2). destruct xs as [|x xs]; auto. apply Permutation_nil in Hx. assert (He : In e (multiples (c_divides C) m (kcontents s))) by (now apply filter_In).
    rewrite Hx in He. destruct He.
  - cbn [step]. do 3 f_equal. apply Permutation_length in Hx, Hl. rewrite Hs', Hx, Hl.
    unfold non_multiples, multiples. pose proof (filter_split (fun e => c_divides C m e) (kcontents s)) as H6. apply Permutation_length in H6. rewrite app_length in H6. lia.
Qed.
Theorem C30_kd_remove_multiples : forall (M : Type) (C : kconf M) packed valid ops s rs m, klegal C valid -> c_removals C = true ->
  kreached C packed valid ops s rs ->
  exists s' b xs, step C packed s (DRemoveMultiples m) = Ok (s', DORemoved b xs) /\
    Permutation xs (multiples (c_divides C) m (kcontents s)) /\ Permutation (kcontents s') (non_multiples (c_divides C) m (kcontents s)) /\
    (b = true <-> exists e, In e (kcontents s) /\ c_divides C m e = true) /\
    step C packed s' DSize = Ok (s', DOSize (length (kcontents s) - length xs)).
Proof. exact (@tree_remove_multiples). Qed.
Print Assumptions C30_kd_remove_multiples.
Example C30_nonvacuous : exists s rs, kreached (mono_tree true true 2 true true true true) true int_mono (firstn 11 tree_demo) s rs /\
  length (multiples mono_divides (3, 0)%Z (kcontents s)) = 2.
Proof.
  eexists. eexists. split; [|shelve]. eapply kreached_run; [vm_compute; reflexivity|vm_compute; reflexivity|vm_compute; tauto].
  Unshelve. vm_compute. reflexivity.
Qed.

(** C31.  Rebuilding keeps exactly the entries. *)
Lemma tree_rebuild {M} (C : kconf M) packed valid ops s rs : klegal C valid -> kreached C packed valid ops s rs ->
  exists s', step C packed s DRebuild = Ok (s', DONone) /\ Permutation (kcontents s') (kcontents s) /\ k_size s' = k_size s.
Proof.
  intros H Hr. destruct (kreached_step C packed valid ops s rs DRebuild H Hr eq_refl) as (s' & r & H1 & H2). inversion H2; subst.
  exists s'. split; auto. split; auto. rewrite (kreached_size C packed valid _ _ _ H Hr).
  rewrite (kreached_size C packed valid _ _ _ H (kreached_snoc C packed valid ops s rs DRebuild _ _ Hr eq_refl H1)). now apply Permutation_length.
Qed.
Theorem C31_rebuild_keeps_contents : forall (M : Type) (C : kconf M) packed valid ops s rs, klegal C valid -> kreached C packed valid ops s rs ->
  exists s', step C packed s DRebuild = Ok (s', DONone) /\ Permutation (kcontents s') (kcontents s) /\ k_size s' = k_size s.
Proof. exact (@tree_rebuild). Qed.
Print Assumptions C31_rebuild_keeps_contents.

(** C31, C32, C36.  The exponents and the divisibility are all that matters: two trees, of either kind, that differ in any of the masks, the
    sorting, the divisor cache, automatic rebuilds and their schedule, and what the standard library does, give the same answers to the same
    history, even if one of them is explicitly rebuilt now and then and the other is not.  The leaf size only limits how many equal entries
    there may be. *)
Definition same_problem {M} (C C' : kconf M) : Prop :=
  c_ex C = c_ex C' /\ c_nvars C = c_nvars C' /\ c_divides C = c_divides C'.
Definition tree_by_exponents {M} (C : kconf M) : Prop :=
  forall a b m, ksame C a b = true -> c_divides C a m = c_divides C b m /\ c_divides C m a = c_divides C m b.
Lemma tree_options {M} (C C' : kconf M) packed packed' valid ops s rs : klegal C valid -> klegal C' valid -> same_problem C C' -> tree_by_exponents C ->
  c_leaf C <= c_leaf C' -> (c_removals C = true -> c_removals C' = true) -> Forall full ops ->
  kreached C packed valid ops s rs ->
  exists s0 s' rs', construct C' = Ok s0 /\ run (step C' packed') s0 (without_rebuilds ops) = Ok (s', rs') /\
    Forall2 (answers_alike (ksame C)) (observed ops rs) rs' /\ alike (ksame C) (kcontents s) (kcontents s').
Proof.
  intros H H' (E1 & E2 & E3) Hb Hl Hrem Hf (a0 & Ha & Hr). destruct (same_exps_equiv (c_ex C) (c_nvars C)) as (R1 & R2 & R3).
  assert (Hst := tree_steps C' valid packed' H'). unfold ksame in Hst. rewrite <- E1, <- E2, <- E3 in Hst. destruct Hst as (b0 & Hb0 & Hc0 & Hst).
  destruct (rebuilds_invisible (c_divides C) (ksame C) R1 R2 R3 (fun a b m Hab => proj1 (Hb a b m Hab)) (fun a b m Hab => proj2 (Hb a b m Hab))
    (step C packed) (construct C) kcontents (tree_pre C valid) (step C' packed') (construct C') kcontents (tree_pre C' valid)
    (tree_steps C valid packed H) (ex_intro _ b0 (conj Hb0 (conj Hc0 Hst)))) with (a0 := a0) (b0 := b0) (ops := ops) (a := s) (rs := rs) as (s' & rs' & G1 & G2 & G3); auto.
  - intros l l' o Hal. destruct o; cbn [tree_pre]; auto. rewrite !andb_true_iff, !Nat.ltb_lt. intros [G1 G2]. split; auto.
    replace (ksame C') with (ksame C) by (unfold ksame; now rewrite E1, E2). rewrite <- (Hal e). lia.
  - exists b0, s', rs'. split; auto. split; auto. eapply reached_run; eauto.
Qed.
Theorem C31_rebuilds_invisible : forall (M : Type) (C C' : kconf M) packed packed' valid ops s rs,
  klegal C valid -> klegal C' valid -> same_problem C C' -> tree_by_exponents C ->
  c_leaf C <= c_leaf C' -> (c_removals C = true -> c_removals C' = true) -> Forall full ops ->
  kreached C packed valid ops s rs ->
  exists s0 s' rs', construct C' = Ok s0 /\ run (step C' packed') s0 (without_rebuilds ops) = Ok (s', rs') /\
    Forall2 (answers_alike (ksame C)) (observed ops rs) rs' /\ alike (ksame C) (kcontents s) (kcontents s').
Proof. exact (@tree_options). Qed.
Print Assumptions C31_rebuilds_invisible.
Lemma mono_by_exponents use tree leaf removals sorted cache auto : tree_by_exponents (mono_tree use tree leaf removals sorted cache auto).
Proof.
  intros [a1 a2] [b1 b2] m H. unfold ksame, same_exps in H. cbn in H. apply andb_true_iff in H as [H1 H2]. rewrite andb_true_r in H2. apply Z.eqb_eq in H1, H2. now subst.
Qed.
Example C31_nonvacuous :
  let C := mono_tree true true 2 true true true true in let C' := mono_tree false false 5 true false false false in
  klegal C int_mono /\ klegal C' int_mono /\ same_problem C C' /\ tree_by_exponents C /\
  exists ops s rs, kreached C true int_mono ops s rs /\ Forall full ops /\ length (observed ops rs) = 14 /\ k_rebuilds s = 3.
Proof.
  cbn zeta. split; [apply mono_tree_legal; auto with arith|]. split; [apply mono_tree_legal; auto with arith|]. split; [repeat split|]. split; [apply mono_by_exponents|].
  exists (firstn 8 tree_demo ++ skipn 9 tree_demo). eexists. eexists. split; [|split; [|shelve]].
  - eapply kreached_run; [vm_compute; reflexivity|vm_compute; reflexivity|vm_compute; tauto].
  - cbn. repeat constructor.
  Unshelve. split; vm_compute; reflexivity.
Qed.

(** C32.  With the divisor cache on, findDivisor in every reachable state still finds a divisor exactly when one is held, and it changes
    nothing that is held. *)
Lemma tree_cache {M} (C : kconf M) packed valid ops s rs m : klegal C valid -> c_cache C = true -> kreached C packed valid ops s rs ->
  exists s' r, step C packed s (DFindDivisor m) = Ok (s', DOFound r) /\ k_tree s' = k_tree s /\
    match r with Some e => In e (kcontents s) /\ c_divides C e m = true | None => forall e, In e (kcontents s) -> c_divides C e m = false end.
Proof.
  intros H _ Hr. destruct (kreached_step C packed valid ops s rs (DFindDivisor m) H Hr eq_refl) as (s' & r & H1 & H2). inversion H2; subst.
  exists s', r0. split; auto. split; auto. clear - H1. cbn [step] in H1.
  destruct (find_divisor C s m) as [[s1 p]| | |] eqn:Hf; cbn [bind] in H1; try discriminate.
  assert (Ht : k_tree s1 = k_tree s).
  { unfold find_divisor in Hf.
    assert (G : forall s2 p2, (let* r := tree_find C (k_tree s) (kext C (k_bits s) m) in
        Ok (match r with Some _ => if c_cache C then mk_kd (k_tree s) (k_bits s) (k_size s) (k_left s) r (k_rebuilds s) else s | None => s end, r)) = Ok (s2, p2) -> k_tree s2 = k_tree s).
    { intros s2 p2. destruct (tree_find _ _ _) as [[p0|]| | |]; cbn [bind]; try discriminate; intros E; injection E as <- _; [destruct (c_cache C)|]; reflexivity. }
    cbn zeta in Hf. destruct (c_cache C); [|eapply G; exact Hf]. destruct (k_cache s) as [p0|]; [|eapply G; exact Hf].
    destruct (entry_at s p0) as [e| | |]; cbn [bind] in Hf; try discriminate. destruct (c_divides C e m); [|eapply G; exact Hf]. now injection Hf as <- _. }
  destruct p as [p|]; [destruct (entry_at s1 p); cbn [bind] in H1; try discriminate|]; injection H1 as <- _; exact Ht.
Qed.
Theorem C32_cache_exact : forall (M : Type) (C : kconf M) packed valid ops s rs m, klegal C valid -> c_cache C = true -> kreached C packed valid ops s rs ->
  exists s' r, step C packed s (DFindDivisor m) = Ok (s', DOFound r) /\ k_tree s' = k_tree s /\
    match r with Some e => In e (kcontents s) /\ c_divides C e m = true | None => forall e, In e (kcontents s) -> c_divides C e m = false end.
Proof. exact (@tree_cache). Qed.
Print Assumptions C32_cache_exact.
(** C32.  Switching the cache on or off changes no answer. *)
Definition with_cache {M} (b : bool) (C : kconf M) : kconf M :=
  mk_kconf M (c_ex C) (c_nvars C) (c_type C) (c_divides C) (c_less C) (c_use C) (c_tree C) (c_leaf C) (c_removals C) (c_sorted C) b (c_auto C) (c_ratio C)
    (c_min C) (c_sort_data C) (c_sort_ext C) (c_part_ext C) (c_part C).
Lemma cache_switch {M} (C : kconf M) packed valid b ops s rs : klegal C valid -> tree_by_exponents C -> Forall full ops -> kreached C packed valid ops s rs ->
  exists s0 s' rs', construct (with_cache b C) = Ok s0 /\ run (step (with_cache b C) packed) s0 (without_rebuilds ops) = Ok (s', rs') /\
    Forall2 (answers_alike (ksame C)) (observed ops rs) rs' /\ alike (ksame C) (kcontents s) (kcontents s').
Proof.
  intros H Hb Hf Hr. apply (tree_options C (with_cache b C) packed packed valid ops s rs); auto.
  - destruct H; split; assumption.
  - repeat split.
Qed.
Theorem C32_cache_invisible : forall (M : Type) (C : kconf M) packed valid b ops s rs, klegal C valid -> tree_by_exponents C -> Forall full ops ->
  kreached C packed valid ops s rs ->
  exists s0 s' rs', construct (with_cache b C) = Ok s0 /\ run (step (with_cache b C) packed) s0 (without_rebuilds ops) = Ok (s', rs') /\
    Forall2 (answers_alike (ksame C)) (observed ops rs) rs' /\ alike (ksame C) (kcontents s) (kcontents s').
Proof. exact (@cache_switch). Qed.
Print Assumptions C32_cache_invisible.
Example C32_nonvacuous : exists s rs, kreached (mono_tree true true 2 true true true true) false int_mono (firstn 7 tree_demo) s rs /\ k_cache s <> None.
Proof.
  eexists. eexists. split; [|shelve]. eapply kreached_run; [vm_compute; reflexivity|vm_compute; reflexivity|vm_compute; tauto].
  Unshelve. vm_compute. discriminate.
Qed.

(** C33.  After removeElement of a packed tree, size() still counts the removed entry, and with the divisor cache on, the next findDivisor may
    look at an entry that is gone. *)
Theorem C33_remove_element_refuted :
  klegal (mono_tree true true 2 true true false true) int_mono /\ klegal (mono_tree true true 2 true true true true) int_mono /\
  tree_answers (mono_tree true true 2 true true false true) true [DInsert (1, 1); DRemoveElement (1, 1); DForAll go_on; DSize]%Z =
    Ok [DONone; DOBool true; DOList []; DOSize 1] /\
  tree_answers (mono_tree true true 2 true true true true) true [DInsert (1, 1); DFindDivisor (1, 1); DRemoveElement (1, 1); DFindDivisor (1, 1)]%Z = UB.
Proof. split; [apply mono_tree_legal; auto with arith|]. split; [apply mono_tree_legal; auto with arith|]. split; vm_compute; reflexivity. Qed.
Print Assumptions C33_remove_element_refuted.
Definition element_pre {M} (C : kconf M) (valid : M -> bool) (l : list M) (o : dop M) : bool :=
  match o with DSize => false | DRemoveElement _ => c_removals C | _ => tree_pre C valid l o end.
Lemma element_correct {M} (C : kconf M) valid : klegal C valid -> c_cache C = false ->
  df_correct (c_divides C) (ksame C) (step C true) (construct C) kcontents (element_pre C valid).
Proof.
  intros H Hc. apply df_steps_correct. apply df_steps_pre with (pre := kpre C valid true true); [intros l o; destruct o; reflexivity|].
  apply kd_steps; auto.
Qed.
(** C33.  Without the divisor cache and apart from size(), a packed tree answers every history with removeElement correctly: one entry with
    equal exponents is removed if there is one, the answer says so, and later queries reflect it.  Missing: size() and the cache, by
    [C33_remove_element_refuted], and the binary tree, whose removeElement does not compile. *)
Theorem C33_remove_element_partial : forall (M : Type) (C : kconf M) valid, klegal C valid -> c_cache C = false ->
  df_correct (c_divides C) (ksame C) (step C true) (construct C) kcontents (element_pre C valid).
Proof. exact (@element_correct). Qed.
Print Assumptions C33_remove_element_partial.
Example C33_nonvacuous :
  klegal (mono_tree true true 2 true true false true) int_mono /\
  tree_answers (mono_tree true true 2 true true false true) true
    [DInsert (3, 1); DInsert (2, 2); DInsert (1, 4); DInsert (0, 9); DInsert (2, 2); DRemoveElement (2, 2); DRemoveElement (2, 3); DForAll go_on; DFindDivisor (2, 3);
     DRemoveElement (2, 2); DFindDivisor (2, 3); DRebuild; DForAll go_on]%Z =
    Ok [DONone; DONone; DONone; DONone; DONone; DOBool true; DOBool false; DOList [(1, 4); (2, 2); (0, 9); (3, 1)]; DOFound (Some (2, 2)); DOBool true; DOFound None;
        DONone; DOList [(0, 9); (1, 4); (3, 1)]]%Z.
Proof. split; [apply mono_tree_legal; auto with arith|vm_compute; reflexivity]. Qed.

(** C35.  For callers that catch exceptions: in every state they can reach, insert of a valid entry either adds it or throws and leaves the
    entries as they were, and it throws exactly if the tree already holds as many entries with the same exponents as fit into a leaf. *)
Definition caught {M} (C : kconf M) (packed : bool) (valid : M -> bool) (ops : list (dop M)) (s : kd M) (rs : list (option (dout M))) : Prop :=
  exists s0, construct C = Ok s0 /\
    reached (catching C packed) (fun _ o => match o with DInsert e => valid e | DInsertRange _ | DToFront _ | DRemoveElement _ => false | _ => true end = true) s0 ops s rs.
Lemma tree_caught {M} (C : kconf M) packed valid ops s rs e : klegal C valid -> caught C packed valid ops s rs -> valid e = true ->
  exists s' r, catching C packed s (DInsert e) = Ok (s', r) /\
    if copies (ksame C) e (kcontents s) <? c_leaf C then r = Some DONone /\ Permutation (kcontents s') (e :: kcontents s) /\ k_size s' = S (k_size s)
    else r = None /\ kcontents s' = kcontents s /\ k_size s' = k_size s.
Proof.
  intros H (s0 & H0 & Hr) He. destruct (kd_catching C valid H packed false ltac:(discriminate)) as (s1 & H1 & _ & Hc). rewrite H0 in H1. injection H1 as <-.
  assert (Hr' : forall ops s rs, reached (catching C packed) (fun _ o => match o with DInsert e => valid e | DInsertRange _ | DToFront _ | DRemoveElement _ => false | _ => true end = true) s0 ops s rs ->
    reached (catching C packed) (fun _ o => kpre_catch valid packed false o = true) s0 ops s rs).
  { clear. intros ops s rs Hr. induction Hr as [|ops s rs o s' r Hr IH Hp Hs]; [constructor|]. apply (r_snoc _ _ _ ops s rs o s' r IH); [destruct o; auto; discriminate Hp|exact Hs]. }
  assert (Hsz : forall ops s rs, reached (catching C packed) (fun _ o => kpre_catch valid packed false o = true) s0 ops s rs -> k_size s = length (kcontents s)).
  { intros ops' s' rs' Hs'. destruct (Hc _ _ _ Hs' DSize eq_refl) as (s2 & r2 & G1 & r3 & -> & G2). cbn in G1. injection G1 as <- <-. now inversion G2. }
  assert (Hq := Hr' _ _ _ Hr). destruct (Hc _ _ _ Hq (DInsert e) He) as (s' & r & G1 & G2).
  assert (Hq' := Hsz _ _ _ (r_snoc _ _ _ _ _ _ (DInsert e) _ _ Hq He G1)). apply Hsz in Hq.
  exists s', r. split; auto. cbn [kpre] in G2. rewrite He in G2. cbn [andb] in G2. fold (ksame C) in G2.
  destruct (copies (ksame C) e (kcontents s) <? c_leaf C).
  - destruct G2 as (r' & -> & G2). inversion G2; subst. split; auto. split; auto. rewrite Hq, Hq'.
    match goal with Hp : Permutation _ _ |- _ => apply Permutation_length in Hp; exact Hp end.
  - destruct G2 as [-> ->]. split; auto. split; auto. rewrite Hq, Hq'. apply (f_equal (@length M)). 
    destruct (Hc _ _ _ (Hr' _ _ _ Hr) (DInsert e) He) as (s2 & r2 & G3 & G4). rewrite G1 in G3. injection G3 as <- <-. cbn [kpre] in G4.
    destruct (valid e && _); [destruct G4 as (? & ? & _); discriminate|]. apply G4.
Qed.
Theorem C35_insert_adds_or_throws : forall (M : Type) (C : kconf M) packed valid ops s rs e, klegal C valid -> caught C packed valid ops s rs -> valid e = true ->
  exists s' r, catching C packed s (DInsert e) = Ok (s', r) /\
    if copies (ksame C) e (kcontents s) <? c_leaf C then r = Some DONone /\ Permutation (kcontents s') (e :: kcontents s) /\ k_size s' = S (k_size s)
    else r = None /\ kcontents s' = kcontents s /\ k_size s' = k_size s.
Proof. exact (@tree_caught). Qed.
Print Assumptions C35_insert_adds_or_throws.
Definition tree_outcomes {M} (C : kconf M) (packed : bool) (ops : list (dop M)) : res (list (option (dout M))) :=
  let* s := construct C in let* (_, rs) := run (catching C packed) s ops in Ok rs.
Example C35_nonvacuous :
  klegal (mono_tree true true 2 true true true true) int_mono /\
  tree_outcomes (mono_tree true true 2 true true true true) false [DInsert (1, 1); DInsert (1, 1); DInsert (1, 1); DInsert (0, 3); DInsert (1, 1); DForAll go_on; DSize]%Z =
    Ok [Some DONone; Some DONone; None; Some DONone; None; Some (DOList [(0, 3); (1, 1); (1, 1)]%Z); Some (DOSize 3)].
Proof. split; [apply mono_tree_legal; auto with arith|vm_compute; reflexivity]. Qed.

(** C48.  The rebuilds of a KD tree follow the schedule of Spec/Schedule.v, for histories without removeElement, which is not reported. *)
Definition no_removed_elements {M} (ops : list (dop M)) : Prop := existsb is_element ops = false.
Theorem C48_kd_schedule : forall (M : Type) (C : kconf M) packed s0 ops s rs, construct C = Ok s0 -> no_removed_elements ops ->
  run (step C packed) s0 ops = Ok (s, rs) ->
  k_rebuilds s = c_rebuilds (accounts (c_auto C) (c_ratio C) (c_min C) fresh ops rs) /\
  k_size s = c_size (accounts (c_auto C) (c_ratio C) (c_min C) fresh ops rs).
Proof. exact (@kd_schedule). Qed.
Print Assumptions C48_kd_schedule.
Lemma only_insertions {M} (es : list M) : no_removed_elements (map DInsert es).
Proof. unfold no_removed_elements. induction es; auto. Qed.
Lemma tree_insertions {M} (C : kconf M) packed s0 es s rs : c_auto C = true -> construct C = Ok s0 -> run (step C packed) s0 (map DInsert es) = Ok (s, rs) ->
  let n := length es in
  Nat.iter (k_rebuilds s) (next (c_ratio C) (c_min C)) 0 <= n < Nat.iter (S (k_rebuilds s)) (next (c_ratio C) (c_min C)) 0 /\
  forall p q, 0 < p -> 0 < q -> (forall k, c_ratio C k = k * p / q) -> k_rebuilds s <= doubling p q * (Nat.log2 n + 1).
Proof.
  intros Ha H0 H n. assert (Hr : k_rebuilds s = c_rebuilds (insertions (c_auto C) (c_ratio C) (c_min C) n)).
  { destruct (kd_schedule C packed s0 _ s rs H0 (only_insertions es) H) as [-> _]. apply DivList.ScheduleProofs.run_length in H. rewrite map_length in H.
    now rewrite DivList.ScheduleProofs.accounts_insertions. }
  destruct (insertions_ok (c_auto C) (c_ratio C) (c_min C) Ha n) as (H1 & H2 & H3 & H4). rewrite Hr. split.
  - change (Nat.iter (S ?k) ?f 0) with (f (Nat.iter k f 0)). rewrite <- H2. lia.
  - intros p q Hp Hq Hpq. now apply rebuilds_logarithmic.
Qed.
Theorem C48_kd_insertions : forall (M : Type) (C : kconf M) packed s0 es s rs, c_auto C = true -> construct C = Ok s0 ->
  run (step C packed) s0 (map DInsert es) = Ok (s, rs) ->
  let n := length es in
  Nat.iter (k_rebuilds s) (next (c_ratio C) (c_min C)) 0 <= n < Nat.iter (S (k_rebuilds s)) (next (c_ratio C) (c_min C)) 0 /\
  forall p q, 0 < p -> 0 < q -> (forall k, c_ratio C k = k * p / q) -> k_rebuilds s <= doubling p q * (Nat.log2 n + 1).
Proof. exact (@tree_insertions). Qed.
Print Assumptions C48_kd_insertions.
Lemma tree_manual {M} (C : kconf M) packed s0 ops s rs : c_auto C = false -> construct C = Ok s0 -> no_removed_elements ops ->
  run (step C packed) s0 ops = Ok (s, rs) -> k_rebuilds s = length (filter is_rebuild ops).
Proof.
  intros Ha H0 He H. destruct (kd_schedule C packed s0 ops s rs H0 He H) as [-> _]. rewrite Ha, manual_accounts; [reflexivity|]. now apply DivList.ScheduleProofs.run_length in H.
Qed.
Theorem C48_kd_manual : forall (M : Type) (C : kconf M) packed s0 ops s rs, c_auto C = false -> construct C = Ok s0 -> no_removed_elements ops ->
  run (step C packed) s0 ops = Ok (s, rs) -> k_rebuilds s = length (filter is_rebuild ops).
Proof. exact (@tree_manual). Qed.
Print Assumptions C48_kd_manual.
Example C48_kd_nonvacuous : exists s0 s rs, construct (mono_tree true true 2 true true true true) = Ok s0 /\
  run (step (mono_tree true true 2 true true true true) true) s0 (map (fun k => DInsert (Z.of_nat k, 0%Z)) (seq 0 40)) = Ok (s, rs) /\ k_rebuilds s = 6.
Proof. eexists. eexists. eexists. split; [vm_compute; reflexivity|]. split; vm_compute; reflexivity. Qed.
