(** Property theorems about all divisor finders (C34, C36). *)
From Coq Require Import List Arith Bool ZArith NArith Lia Permutation.
From Verif.Base Require Import Res Arr StdAlg Order Sort.
From Verif.DivMask Require Import Model Defined.
From Verif.Spec Require Import Reach DivFinder DivFinderFacts DivAgree DivAgreeFacts DivInvisible.
From Verif.DivList Require Import Model Properties.
From Verif.DivList Require Proofs.
From Verif.KD Require Import EntryArray Tree Model Legal Properties.
From Verif.KD Require Proofs.
From Verif.Finders Require Import Model Proofs.
Import ListNotations.
Local Notation length := List.length.

(** The divisor finders of the library in all their configurations. *)
Inductive finder (M : Type) : Type :=
| FList (c : config M)
| FTree (C : kconf M) (packed : bool) (valid : M -> bool).
Arguments FList {M}. Arguments FTree {M}.
Section Finder.
  Context {M : Type}.
  Definition fstate (f : finder M) : Type := match f with FList _ => dlist M | FTree _ _ _ => kd M end.
  Definition fstep (f : finder M) : fstate f -> dop M -> res (fstate f * dout M) :=
    match f with FList c => lstep c | FTree C packed _ => KD.Model.step C packed end.
  Definition finit (f : finder M) : res (fstate f) := match f with FList c => linit c | FTree C _ _ => KD.Model.construct C end.
  Definition fheld (f : finder M) : fstate f -> list M := match f with FList _ => contents | FTree _ _ _ => kcontents end.
  Definition fpre (f : finder M) : list M -> dop M -> bool := match f with FList c => lpre c | FTree C _ valid => tree_pre C valid end.
  (** The finder is about monomials with these exponents and this divisibility, and its configuration is legal. *)
  Definition finds (ex : M -> nat -> Z) (nvars : nat) (divides : M -> M -> bool) (f : finder M) : Prop :=
    match f with
    | FList c => f_ex c = ex /\ f_nvars c = nvars /\ f_divides c = divides /\ legal c /\ (f_sorted c = true -> compatible_order c)
    | FTree C _ valid => c_ex C = ex /\ c_nvars C = nvars /\ c_divides C = divides /\ klegal C valid
    end.
  (** Divisibility depends on the exponents only. *)
  Definition respects (ex : M -> nat -> Z) (nvars : nat) (divides : M -> M -> bool) : Prop :=
    forall a b m, same_exps ex nvars a b = true -> divides a m = divides b m /\ divides m a = divides m b.

  Lemma finder_steps ex nvars divides f : finds ex nvars divides f -> df_steps divides (same_exps ex nvars) (fstep f) (finit f) (fheld f) (fpre f).
  Proof.
    destruct f as [c|C packed valid]; cbn [finds fstep finit fheld fpre fstate].
    - intros (<- & <- & <- & H & Ho). exact (list_steps c H Ho).
    - intros (<- & <- & <- & H). exact (tree_steps C valid packed H).
  Qed.
  Lemma finders_agree ex nvars divides f g ops : finds ex nvars divides f -> finds ex nvars divides g -> respects ex nvars divides -> Forall full ops ->
    agree (answers_alike (same_exps ex nvars)) (fstep f) (finit f) (fheld f) (fpre f) (fstep g) (finit g) (fheld g) (fpre g) ops.
  Proof.
    intros Hf Hg Hr Ho. destruct (same_exps_equiv ex nvars) as (R1 & R2 & R3).
    apply (df_agree divides (same_exps ex nvars) R1 R2 R3 (fun a b m Hab => proj1 (Hr a b m Hab)) (fun a b m Hab => proj2 (Hr a b m Hab))); auto;
      apply df_steps_correct, finder_steps; auto.
  Qed.
End Finder.

(** C36.  Any two divisor finders, of whatever kind and configuration, answer a history alike up to order and the choice of the divisor that is
    found, unless the history breaks a rule of one of them. *)
Theorem C36_finders_agree : forall (M : Type) ex nvars divides (f g : finder M) ops,
  finds ex nvars divides f -> finds ex nvars divides g -> respects ex nvars divides -> Forall full ops ->
  agree (answers_alike (same_exps ex nvars)) (fstep f) (finit f) (fheld f) (fpre f) (fstep g) (finit g) (fheld g) (fpre g) ops.
Proof. exact (@finders_agree). Qed.
Print Assumptions C36_finders_agree.

(** C36.  If moreover every call that respects the rules of [f] respects those of [g], then whatever [f] can be asked, [g] answers alike, even
    if only [f] is asked to rebuild now and then. *)
Lemma finder_replaces {M} ex nvars divides (f g : finder M) ops s0 s rs : finds ex nvars divides f -> finds ex nvars divides g -> respects ex nvars divides ->
  (forall l l' o, alike (same_exps ex nvars) l l' -> fpre f l o = true -> fpre g l' o = true) -> Forall full ops ->
  finit f = Ok s0 -> reached (fstep f) (fun s o => fpre f (fheld f s) o = true) s0 ops s rs ->
  exists t0 t rs', finit g = Ok t0 /\ run (fstep g) t0 (without_rebuilds ops) = Ok (t, rs') /\
    Forall2 (answers_alike (same_exps ex nvars)) (observed ops rs) rs' /\ alike (same_exps ex nvars) (fheld f s) (fheld g t).
Proof.
  intros Hf Hg Hr Hc Ho H0 H. destruct (same_exps_equiv ex nvars) as (R1 & R2 & R3). assert (Sf := finder_steps ex nvars divides f Hf).
  assert (Sg := finder_steps ex nvars divides g Hg). destruct Sg as (t0 & Ht0 & Hn & Sg).
  destruct (rebuilds_invisible divides (same_exps ex nvars) R1 R2 R3 (fun a b m Hab => proj1 (Hr a b m Hab)) (fun a b m Hab => proj2 (Hr a b m Hab))
    (fstep f) (finit f) (fheld f) (fpre f) (fstep g) (finit g) (fheld g) (fpre g) Sf (ex_intro _ t0 (conj Ht0 (conj Hn Sg))) Hc s0 t0 H0 Ht0 ops s rs H Ho)
    as (t & rs' & H1 & H2 & H3).
  exists t0, t, rs'. split; auto. split; auto. eapply reached_run; eauto.
Qed.
Theorem C36_finder_replaces : forall (M : Type) ex nvars divides (f g : finder M) ops s0 s rs,
  finds ex nvars divides f -> finds ex nvars divides g -> respects ex nvars divides ->
  (forall l l' o, alike (same_exps ex nvars) l l' -> fpre f l o = true -> fpre g l' o = true) -> Forall full ops ->
  finit f = Ok s0 -> reached (fstep f) (fun s o => fpre f (fheld f s) o = true) s0 ops s rs ->
  exists t0 t rs', finit g = Ok t0 /\ run (fstep g) t0 (without_rebuilds ops) = Ok (t, rs') /\
    Forall2 (answers_alike (same_exps ex nvars)) (observed ops rs) rs' /\ alike (same_exps ex nvars) (fheld f s) (fheld g t).
Proof. exact (@finder_replaces). Qed.
Print Assumptions C36_finder_replaces.

Lemma mono_respects : respects mono_ex 2 mono_divides.
Proof.
  intros [a1 a2] [b1 b2] m H. unfold same_exps in H. cbn in H. apply andb_true_iff in H as [H1 H2]. rewrite andb_true_r in H2. apply Z.eqb_eq in H1, H2. now subst.
Qed.
Definition tree_finder : finder mono := FTree (mono_tree true true 2 true true true true) true int_mono.
Definition list_finder : finder mono := FList (mono_config lex true true true true).
Definition finder_answers {M} (f : finder M) (ops : list (dop M)) : res (list (dout M)) := let* s := finit f in let* (_, rs) := run (fstep f) s ops in Ok rs.
Definition full_demo : list (dop mono) := firstn 8 tree_demo ++ skipn 9 tree_demo.
Example C36_nonvacuous :
  finds mono_ex 2 mono_divides tree_finder /\ finds mono_ex 2 mono_divides list_finder /\ respects mono_ex 2 mono_divides /\ Forall full full_demo /\
  (forall l l' o, alike (same_exps mono_ex 2) l l' -> fpre tree_finder l o = true -> fpre list_finder l' o = true) /\
  (exists rs, finder_answers tree_finder full_demo = Ok rs /\ length rs = 15) /\ (exists rs, finder_answers list_finder full_demo = Ok rs /\ length rs = 15).
Proof.
  split; [split; [reflexivity|split; [reflexivity|split; [reflexivity|apply mono_tree_legal; auto with arith]]]|].
  split; [split; [reflexivity|split; [reflexivity|split; [reflexivity|split; [apply mono_legal|intros _; apply lex_compatible]]]]|].
  split; [exact mono_respects|]. split; [cbn; repeat constructor|]. split.
  - intros l l' o _. destruct o; cbn [fpre tree_finder list_finder tree_pre lpre]; auto; try discriminate. rewrite andb_true_iff. tauto.
  - split; eexists; (split; [vm_compute; reflexivity|reflexivity]).
Qed.

(** C34.  Over a DivList, sorted or not, with or without moving divisors to the front, minimising insertion runs through and the list then holds
    exactly the minimal ones of everything ever inserted: every held entry is minimal, every minimal one is held once up to mutual
    divisibility, and a monomial has a held divisor exactly if something that was ever inserted divides it. *)
Definition preorder {M} (divides : M -> M -> bool) : Prop :=
  (forall a, divides a a = true) /\ (forall a b c, divides a b = true -> divides b c = true -> divides a c = true).
Lemma respects_same {M} ex nvars (divides : M -> M -> bool) : preorder divides -> respects ex nvars divides ->
  forall a b, same_exps ex nvars a b = true -> divides b a = true.
Proof. intros [Hr _] H a b Hs. rewrite <- (proj1 (H a b a Hs)). apply Hr. Qed.
Lemma list_minimal {M} (c : config M) front ops : legal c -> (f_sorted c = true -> compatible_order c) -> (front = true -> f_sorted c = false) ->
  preorder (f_divides c) -> by_exponents c -> forallb (fine (f_valid c)) ops = true ->
  exists s0 s rs, linit c = Ok s0 /\ run (min_step (lstep c) (list_find front) (list_after (f_linked c) front)) s0 ops = Ok (s, rs) /\
    exactly_minimal (f_divides c) (inserted ops) (contents s).
Proof.
  intros H Ho Hfr Hpre Hb Hops.
  destruct (DivList.Proofs.construct_ok (f_ex c) (f_nvars c) (f_type c) (f_sort_data c) (fun l => proj1 (k_sort c H l)) (f_use c) (f_less c) (f_sorted c) (f_auto c)
    (f_ratio c) (f_min c) (f_valid c) (k_defined c H)) as (s0 & H0 & Hi & He).
  assert (Hst := DivList.Proofs.step_ok (f_ex c) (f_nvars c) (f_type c) (f_sort_data c) (fun l => proj1 (k_sort c H l)) (f_use c) (f_divides c) (f_less c)
    (k_divides c H) (f_linked c) (f_sorted c) (f_auto c) Ho (f_ratio c) (f_min c) (f_sort_ext c) (fun Hs => k_sort_ext c H (proj1 (Ho Hs))) (f_valid c) (k_defined c H)).
  destruct (min_run (f_divides c) (lsame c) (proj1 Hpre) (proj2 Hpre) (respects_same _ _ _ Hpre Hb) (lstep c) contents (lpre c) _ Hst
    (list_find front) (list_after (f_linked c) front)) with (valid := f_valid c) (ops := ops) (s := s0) (es := @nil M) as (s & rs & H1 & _ & H2); auto.
  - intros l m. unfold list_find. destruct front; auto. cbn [lpre]. now rewrite Hfr.
  - intros l m r l' Hd. unfold list_find in Hd. destruct front; inversion Hd; subst; eauto.
  - intros s b Hi' Hne. unfold list_after. destruct (front && b) eqn:Hfb; [|exists s; auto]. apply andb_true_iff in Hfb as [Hf _].
    unfold contents in Hne. destruct Hi' as [I1 I2 I3 I4]. destruct (@exists_last _ (l_list s)) as (l1 & x & Hl); [intros E; rewrite E in Hne; now apply Hne|].
    unfold contents in *. rewrite Hl in *. destruct (l1 ++ [x]) as [|y k] eqn:Hk; [now destruct l1|]. rewrite <- Hk in *. rewrite app_length. cbn [List.length].
    replace (length l1 + 1 - 1) with (length l1) by lia. rewrite DivList.Proofs.move_to_front_ok. cbn [bind]. eexists. split; [reflexivity|].
    assert (Hp : Permutation (map x_t (x :: l1 ++ [])) (map x_t (l1 ++ [x]))) by (apply Permutation_map; rewrite app_nil_r; apply Permutation_cons_append).
    split; [|exact Hp]. split; cbn [l_list l_bits]; unfold contents; cbn [l_list]; auto.
    + rewrite app_nil_r. rewrite !map_app in I1. apply app_inj_tail in I1 as [I1 I1']. cbn [map]. f_equal; auto.
    + intros Hs. rewrite Hfr in Hs; auto; discriminate.
    + rewrite forallb_forall in *. intros z Hz. apply I4. eapply Permutation_in; [|exact Hz]. exact Hp.
  - intros l o Hq. destruct o; auto; discriminate Hq.
  - rewrite He. split; [intros x []|]. split; [intros x []|]. intros a l0 Hp. apply Permutation_nil in Hp. discriminate.
  - exists s0, s, rs. split; auto. split; auto. rewrite app_nil_r in H2. eapply exactly_minimal_members; [intros x; apply in_rev|]. apply min_of_exactly; auto; apply Hpre.
Qed.
Theorem C34_divlist_minimal : forall (M : Type) (c : config M) front ops, legal c -> (f_sorted c = true -> compatible_order c) ->
  (front = true -> f_sorted c = false) -> preorder (f_divides c) -> by_exponents c -> forallb (fine (f_valid c)) ops = true ->
  exists s0 s rs, linit c = Ok s0 /\ run (min_step (lstep c) (list_find front) (list_after (f_linked c) front)) s0 ops = Ok (s, rs) /\
    exactly_minimal (f_divides c) (inserted ops) (contents s).
Proof. exact (@list_minimal). Qed.
Print Assumptions C34_divlist_minimal.

(** C34.  The same over both KD trees, in all configurations that allow removals; no exception is possible, whatever the leaf size. *)
Lemma tree_minimal {M} (C : kconf M) packed valid ops : klegal C valid -> c_removals C = true ->
  preorder (c_divides C) -> tree_by_exponents C -> forallb (fine valid) ops = true ->
  exists s0 s rs, KD.Model.construct C = Ok s0 /\ run (min_step (KD.Model.step C packed) DFindDivisor tree_after) s0 ops = Ok (s, rs) /\
    exactly_minimal (c_divides C) (inserted ops) (kcontents s).
Proof.
  intros H Hrem Hpre Hb Hops. destruct (KD.Proofs.construct_ok C valid H false ltac:(discriminate)) as (s0 & H0 & Hi & He).
  assert (Hst := KD.Proofs.step_ok C valid H packed false ltac:(discriminate)).
  destruct (min_run (c_divides C) (ksame C) (proj1 Hpre) (proj2 Hpre) (respects_same _ _ _ Hpre Hb) (KD.Model.step C packed) kcontents _ _ Hst
    DFindDivisor tree_after) with (valid := valid) (ops := ops) (s := s0) (es := @nil M) as (s & rs & H1 & _ & H2); auto.
  - intros l m r l' Hd. inversion Hd; subst; eauto.
  - intros l e Hv Hc. cbn [KD.Proofs.kpre]. fold (ksame C). rewrite Hv, Hc. cbn [andb]. apply Nat.ltb_lt. exact (kl_leaf C valid H).
  - intros s b Hi' _. exists s. auto.
  - intros l o Hq. destruct o; auto; discriminate Hq.
  - rewrite He. split; [intros x []|]. split; [intros x []|]. intros a l0 Hp. apply Permutation_nil in Hp. discriminate.
  - exists s0, s, rs. split; auto. split; auto. rewrite app_nil_r in H2. eapply exactly_minimal_members; [intros x; apply in_rev|]. apply min_of_exactly; auto; apply Hpre.
Qed.
Theorem C34_kd_minimal : forall (M : Type) (C : kconf M) packed valid ops, klegal C valid -> c_removals C = true ->
  preorder (c_divides C) -> tree_by_exponents C -> forallb (fine valid) ops = true ->
  exists s0 s rs, KD.Model.construct C = Ok s0 /\ run (min_step (KD.Model.step C packed) DFindDivisor tree_after) s0 ops = Ok (s, rs) /\
    exactly_minimal (c_divides C) (inserted ops) (kcontents s).
Proof. exact (@tree_minimal). Qed.
Print Assumptions C34_kd_minimal.

Lemma mono_preorder : preorder mono_divides.
Proof.
  split.
  - intros [a b]. unfold mono_divides. cbn. now rewrite !Z.leb_refl.
  - intros [a1 a2] [b1 b2] [c1 c2]. unfold mono_divides. cbn. rewrite !andb_true_iff, !Z.leb_le. lia.
Qed.
Definition min_demo : list (cop mono) :=
  [CInsert (4, 4); CInsert (3, 5); CInsert (5, 5); CInsert (2, 6); CAsk (DFindDivisor (9, 9)); CInsert (3, 3); CInsert (7, 0); CInsert (3, 3); CAsk DSize;
   CAsk (DForAll go_on)]%Z.
Example C34_nonvacuous :
  klegal (mono_tree true true 1 true true true true) int_mono /\ preorder mono_divides /\ tree_by_exponents (mono_tree true true 1 true true true true) /\
  forallb (fine int_mono) min_demo = true /\
  (let C := mono_tree true true 1 true true true true in
   let* s := KD.Model.construct C in let* (_, rs) := run (min_step (KD.Model.step C true) DFindDivisor tree_after) s min_demo in Ok rs) =
  Ok [DOList []; DOList []; DOList []; DOList []; DOFound (Some (3, 5)); DOList [(3, 5); (4, 4)]; DOList []; DOList []; DOSize 3; DOList [(2, 6); (7, 0); (3, 3)]]%Z /\
  (let c := mono_config lex true true false true in
   let* s := linit c in let* (_, rs) := run (min_step (lstep c) (list_find true) (list_after true true)) s min_demo in Ok rs) =
  Ok [DOList []; DOList []; DOList []; DOList []; DOFound (Some (4, 4)); DOList [(4, 4); (3, 5)]; DOList []; DOList []; DOSize 3; DOList [(3, 3); (2, 6); (7, 0)]]%Z.
Proof.
  split; [apply mono_tree_legal; auto with arith|]. split; [exact mono_preorder|]. split; [apply mono_by_exponents|]. split; [reflexivity|].
  split; vm_compute; reflexivity.
Qed.
