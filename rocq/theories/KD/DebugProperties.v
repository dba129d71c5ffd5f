(** Property theorems about the self-checks of the KD trees (C53). *)
From Coq Require Import List Arith Bool ZArith NArith Lia Permutation.
From Verif.Base Require Import Res Arr ResList StdAlg Order Sort.
From Verif.DivMask Require Import Model Defined.
From Verif.Spec Require Import Reach DivFinder DivFinderFacts.
From Verif.DivList Require Import Properties.
From Verif.KD Require Import EntryArray Tree Model Legal TreeProofs Proofs Debug DebugProofs Properties.
Import ListNotations.
Local Notation length := List.length.

(** As [tree_pre], with removeElement where it exists and there is no divisor cache (see C33). *)
Definition element_pre {M} (C : kconf M) (packed : bool) (valid : M -> bool) (l : list M) (o : dop M) : bool :=
  match o with DRemoveElement _ => packed && c_removals C && negb (c_cache C) | _ => tree_pre C valid l o end.
Definition uses_element {M} (C : kconf M) (packed : bool) : bool := packed && c_removals C && negb (c_cache C).
Lemma uses_no_cache {M} (C : kconf M) packed : uses_element C packed = true -> c_cache C = false.
Proof. unfold uses_element. destruct (c_cache C); auto. now rewrite andb_false_r. Qed.
Lemma debug_step {M} (C : kconf M) packed valid : klegal C valid -> forall s o, dinv C valid (uses_element C packed) s -> element_pre C packed valid (kcontents s) o = true ->
  exists s' r, step C packed s o = Ok (s', r) /\ dinv C valid (uses_element C packed) s' /\ step_debug C packed s o = Ok (s', r).
Proof.
  intros H s o Hd Hp. pose proof (step_debug_ok C valid H packed (uses_element C packed) (uses_no_cache C packed) s o Hd) as Hs.
  destruct o as [e|es|m|m|m|m cb|m cb|cb|m| |]; cbn [element_pre tree_pre] in Hp; try discriminate; try (now apply Hs).
  - apply Hs. cbn [kpre]. unfold uses_element. rewrite Hp. apply andb_prop in Hp as [Hp _]. apply andb_prop in Hp as [-> ->]. reflexivity.
  - cbn [step step_debug]. eauto.
Qed.
Lemma debug_reached {M} (C : kconf M) packed valid s0 ops s rs : klegal C valid -> construct C = Ok s0 ->
  reached (step_debug C packed) (fun s o => element_pre C packed valid (kcontents s) o = true) s0 ops s rs -> dinv C valid (uses_element C packed) s.
Proof.
  intros H H0. apply reached_inv.
  - eapply construct_dinv; eauto. apply uses_no_cache.
  - intros s1 o s2 r Hd Hp Hs. destruct (debug_step C packed valid H s1 o Hd Hp) as (s3 & r3 & G1 & G2 & G3). congruence.
Qed.

(** C53.  In a build with MATHIC_DEBUG no assertion of a KD tree fails: in every state that calls respecting the preconditions can reach, every
    further such call passes all checks, and it does what it does in a build without them. *)
Theorem C53_debug_build_agrees : forall (M : Type) (C : kconf M) packed valid s0 ops s rs o, klegal C valid -> construct C = Ok s0 ->
  reached (step_debug C packed) (fun s o => element_pre C packed valid (kcontents s) o = true) s0 ops s rs ->
  element_pre C packed valid (kcontents s) o = true ->
  exists s' r, step_debug C packed s o = Ok (s', r) /\ step C packed s o = Ok (s', r).
Proof.
  intros M C packed valid s0 ops s rs o H H0 Hr Hp. destruct (debug_step C packed valid H s o (debug_reached C packed valid s0 ops s rs H H0 Hr) Hp) as (s' & r & G1 & _ & G3).
  eauto.
Qed.
Print Assumptions C53_debug_build_agrees.

(** The trees are valid also after exceptions: for callers that catch exceptions, insert any number of copies and ask for removals even if they
    are disabled. *)
Definition catch_pre {M} (C : kconf M) (packed : bool) (valid : M -> bool) (o : dop M) : bool :=
  match o with
  | DInsert e => valid e
  | DInsertRange _ | DToFront _ => false
  | DRemoveElement _ => packed && negb (c_cache C)
  | _ => true
  end.
Lemma catch_inv {M} (C : kconf M) packed valid s0 ops s rs : klegal C valid -> construct C = Ok s0 ->
  reached (catching C packed) (fun _ o => catch_pre C packed valid o = true) s0 ops s rs -> dinv C valid (packed && negb (c_cache C)) s.
Proof.
  intros H H0. assert (He : packed && negb (c_cache C) = true -> c_cache C = false) by (destruct (c_cache C); auto; now rewrite andb_false_r). apply reached_inv.
  - eapply construct_dinv; eauto.
  - intros s1 o s2 r Hd Hp Hs. destruct o as [e|es|m|m|m|m cb|m cb|cb|m| |]; cbn [catch_pre] in Hp; try discriminate;
      try (eapply (catching_dinv C valid H packed _ He); [exact Hd| |exact Hs]; cbn [kpre_catch]; solve [auto]).
    + eapply (catching_dinv C valid H packed _ He); [exact Hd| |exact Hs]. cbn [kpre_catch]. rewrite Hp. now apply andb_prop in Hp as [-> _].
    + cbn in Hs. now injection Hs as <- _.
Qed.
Theorem C53_debug_valid : forall (M : Type) (C : kconf M) packed valid s0 ops s rs, klegal C valid -> construct C = Ok s0 ->
  reached (catching C packed) (fun _ o => catch_pre C packed valid o = true) s0 ops s rs ->
  tree_debug C packed (k_tree s) = true /\ nodes_debug C packed (k_tree s) = true.
Proof.
  intros M C packed valid s0 ops s rs H H0 Hr. destruct (catch_inv C packed valid s0 ops s rs H H0 Hr) as [[Hi _ _ _] Hm].
  split; [eapply tree_debug_ok|eapply nodes_debug_ok]; eauto.
Qed.
Print Assumptions C53_debug_valid.

Definition debug_answers {M} (C : kconf M) (packed : bool) (ops : list (dop M)) : res (list (dout M)) :=
  let* s := construct C in let* (_, rs) := run (step_debug C packed) s ops in Ok rs.
(** The demonstration of C28 and C29 in a build with assertions, and trees that fail the checks: an entry on the wrong side, a mask that is not
    below the one underneath, a leaf that holds too much, an empty leaf. *)
Example C53_nonvacuous :
  let C := mono_tree true true 2 true true true true in let C' := mono_tree true true 2 false true true true in
  klegal C int_mono /\ debug_answers C false tree_demo = tree_answers C false tree_demo /\ debug_answers C true tree_demo = tree_answers C true tree_demo /\
  (exists rs, debug_answers C true tree_demo = Ok rs) /\
  let leaf l := Leaf (mk_arr (map (kext C []) l) 0) in
  let bad1 := Split 0 1%Z 0 (leaf [(2, 0)%Z]) (leaf [(3, 0)%Z]) in
  let bad2 := Split 0 1%Z 1 (leaf [(1, 0)%Z]) (leaf [(3, 0)%Z]) in
  let bad3 := leaf [(1, 0); (2, 0); (3, 0)]%Z in
  let bad4 := Split 0 1%Z 0 (leaf [(1, 0)%Z]) (leaf []) in
  let fine := Split 0 1%Z 0 (leaf [(1, 0)%Z]) (leaf [(3, 0)%Z]) in
  map (fun p => map (fun t => tree_debug C' p (Some t)) [bad1; bad2; bad3; bad4; fine]) [false; true] =
    [[false; false; false; false; true]; [false; false; false; false; true]].
Proof.
  cbv zeta. split; [apply mono_tree_legal; auto with arith|]. split; [vm_compute; reflexivity|]. split; [vm_compute; reflexivity|].
  split; [eexists; vm_compute; reflexivity|vm_compute; reflexivity].
Qed.
