(** Properties C66 and C67 of the KD trees whose nodes lie in memory.  Assumptions are printed beneath each theorem. *)
From Coq Require Import List Arith Bool ZArith NArith String Lia Permutation.
From Verif.Base Require Import Res Arr ResList StdAlg.
From Verif.DivMask Require Import Model.
From Verif.Spec Require Import Reach DivFinder DivFinderFacts.
From Verif.DivList Require Import Properties.
From Verif.KD Require Import EntryArray Tree Model Legal TreeProofs Proofs Properties.
From Verif.KDMem Require Import Arena Binary Packed Model Faithful Proofs.
Import ListNotations.
Local Notation length := List.length.

(** What a tree in memory holds: the entries its destructor would destroy; nothing if that would be undefined *)
Definition held {M} (C : kconf M) (packed : bool) (s : mkd (kd_impl C packed)) : list M := match m_destroy C packed s with Ok gone => map x_t gone | _ => [] end.

(** C66.  Whatever the calls, with nodes linked by pointers the tree gives the very answers of the tree that is a value, dereferences no null,
    dangling or uninitialised pointer, and its destructor destroys each entry it holds exactly once. *)
Lemma same_answers {M} (C : kconf M) packed s0 ops s rs : construct C = Ok s0 -> run (step C packed) s0 ops = Ok (s, rs) ->
  exists m0 m gone, m_construct C packed = Ok m0 /\ run (m_step C packed) m0 ops = Ok (m, rs) /\ m_destroy C packed m = Ok gone /\ Permutation (map x_t gone) (kcontents s).
Proof.
  intros H0 Hr. destruct (kd_faithful C packed) as (R & P & HF). destruct (construct_rel C packed R P HF s0 H0) as (m0 & Hm0 & Hrel).
  destruct (run_rel C packed R P HF ops _ _ _ _ Hrel Hr) as (m & Hm & Hrel'). destruct (destroy_rel C packed R P HF _ _ Hrel') as (gone & G1 & G2). eauto 10.
Qed.
Theorem C66_memory_same_answers : forall (M : Type) (C : kconf M) packed s0 ops s rs, construct C = Ok s0 -> run (step C packed) s0 ops = Ok (s, rs) ->
  exists m0 m gone, m_construct C packed = Ok m0 /\ run (m_step C packed) m0 ops = Ok (m, rs) /\ m_destroy C packed m = Ok gone /\ Permutation (map x_t gone) (kcontents s).
Proof. exact (@same_answers). Qed.
Print Assumptions C66_memory_same_answers.

(** C66.  So the trees in memory are correct divisor finders, in the sense of C28 and C29, with respect to what their destructor would destroy. *)
Lemma copies_perm {M} (same : M -> M -> bool) e l l' : Permutation l l' -> copies same e l = copies same e l'.
Proof. intros H. unfold copies. apply Permutation_length, filter_perm, H. Qed.
Lemma memory_correct {M} (C : kconf M) packed valid : klegal C valid ->
  df_correct (c_divides C) (ksame C) (m_step C packed) (m_construct C packed) (held C packed) (tree_pre C valid).
Proof.
  intros H. apply df_steps_correct. destruct (kd_faithful C packed) as (R & P & HF).
  apply (df_steps_by_rel (c_divides C) (ksame C) (m_step C packed) (step C packed) (m_construct C packed) (construct C) (held C packed) kcontents (tree_pre C valid) (krel C packed R P)).
  - intros l l' o Hl. destruct o; cbn [tree_pre]; auto. now rewrite (copies_perm _ _ _ _ Hl).
  - intros m s Hm. destruct (destroy_rel C packed R P HF _ _ Hm) as (gone & G1 & G2). unfold held. now rewrite G1.
  - apply construct_rel, HF.
  - intros m s o s' r Hm Hs. eapply step_rel; eauto.
  - apply tree_steps, H.
Qed.
Theorem C66_memory_exact : forall (M : Type) (C : kconf M) packed valid, klegal C valid ->
  df_correct (c_divides C) (ksame C) (m_step C packed) (m_construct C packed) (held C packed) (tree_pre C valid).
Proof. exact (@memory_correct). Qed.
Print Assumptions C66_memory_exact.

(** C66.  A caller that catches exceptions never meets undefined behaviour either, whether or not insertions were abandoned: the answers are those of the
    tree that is a value, and the destructor destroys each entry exactly once. *)
Lemma memory_caught {M} (C : kconf M) packed valid ops s rs : klegal C valid -> caught C packed valid ops s rs ->
  exists m0 m gone, m_construct C packed = Ok m0 /\ run (m_catching C packed) m0 ops = Ok (m, rs) /\ m_destroy C packed m = Ok gone /\ Permutation (map x_t gone) (kcontents s).
Proof.
  intros H (s0 & H0 & Hr). destruct (kd_faithful C packed) as (R & P & HF). destruct (construct_rel C packed R P HF s0 H0) as (m0 & Hm0 & Hrel0).
  destruct (construct_ok C valid H false ltac:(discriminate)) as (s1 & H1 & Hi0 & _). rewrite H0 in H1. injection H1 as <-.
  assert (Hgo : exists m, run (m_catching C packed) m0 ops = Ok (m, rs) /\ krel C packed R P m s /\ inv C valid false s).
  { induction Hr as [|ops s rs o s' r Hr (m & IH1 & IH2 & IH3) Hp Hs]; [exists m0; auto|].
    assert (Hp' : kpre_catch valid packed false o = true) by (destruct o; auto; discriminate).
    destruct (catching_rel C packed R P HF valid false m s o s' r H ltac:(discriminate) IH2 IH3 Hp' Hs) as (m' & Hm' & Hrel').
    exists m'. split; [eapply run_one; eauto|]. split; auto.
    destruct (catching_ok C valid H packed false ltac:(discriminate) s o IH3 Hp') as (s2 & r2 & G1 & G2 & _). congruence. }
  destruct Hgo as (m & G1 & G2 & _). destruct (destroy_rel C packed R P HF _ _ G2) as (gone & G3 & G4). eauto 10.
Qed.
Theorem C66_memory_caught : forall (M : Type) (C : kconf M) packed valid ops s rs, klegal C valid -> caught C packed valid ops s rs ->
  exists m0 m gone, m_construct C packed = Ok m0 /\ run (m_catching C packed) m0 ops = Ok (m, rs) /\ m_destroy C packed m = Ok gone /\ Permutation (map x_t gone) (kcontents s).
Proof. exact (@memory_caught). Qed.
Print Assumptions C66_memory_caught.

Definition memory_answers {M} (C : kconf M) (packed : bool) (ops : list (dop M)) : res (list (dout M) * list M) :=
  let* s := m_construct C packed in let* (s', rs) := run (m_step C packed) s ops in let* gone := m_destroy C packed s' in Ok (rs, map x_t gone).
Definition memory_outcomes {M} (C : kconf M) (packed : bool) (ops : list (dop M)) : res (list (option (dout M)) * list M) :=
  let* s := m_construct C packed in let* (s', rs) := run (m_catching C packed) s ops in let* gone := m_destroy C packed s' in Ok (rs, map x_t gone).
Example C66_nonvacuous :
  klegal (mono_tree true true 2 true true true true) int_mono /\
  memory_answers (mono_tree true true 2 true true true true) false (firstn 10 tree_demo) =
    Ok ([DONone; DONone; DONone; DONone; DONone; DONone; DOFound (Some (1, 4)); DOList [(1, 4); (2, 2); (2, 2); (3, 1); (4, 4)];
        DOList [(1, 4); (2, 2)]; DOList [(4, 4); (2, 2); (2, 2)]], [(1, 4); (2, 2); (2, 2); (0, 9); (4, 4); (3, 1)])%Z /\
  memory_outcomes (mono_tree true true 2 true true true true) true [DInsert (1, 1); DInsert (1, 1); DInsert (1, 1); DInsert (0, 3); DInsert (1, 1); DForAll go_on; DSize]%Z =
    Ok ([Some DONone; Some DONone; None; Some DONone; None; Some (DOList [(0, 3); (1, 1); (1, 1)]%Z); Some (DOSize 3)], [(0, 3); (1, 1); (1, 1)]%Z).
Proof. split; [apply mono_tree_legal; auto with arith|]. split; vm_compute; reflexivity. Qed.

(** C67.  The trees by themselves: reset of a range with more copies than fit into a leaf throws, and then the tree cannot even be destroyed: clear() follows a
    null child (binary) or a child that was never written (packed). *)
Definition too_many : list mono := [(0, 0); (1, 1); (1, 1); (1, 1)]%Z.
Theorem C67_failed_reset_refuted :
  let C := mono_tree true true 2 true true false false in klegal C int_mono /\
  (exists T, b_reset_leaves C b_empty too_many [] = Ok (T, Some "ERROR: Inserted duplicate entry into a KD tree."%string) /\ b_clear T = UB) /\
  (exists T, p_reset_leaves C p_empty too_many [] = Ok (T, Some "ERROR: Inserted duplicate entry into a KD tree."%string) /\ p_clear T = UB).
Proof.
  cbn zeta. split; [apply mono_tree_legal; auto with arith|]. split; (eexists; split; [vm_compute; reflexivity|vm_compute; reflexivity]).
Qed.
Print Assumptions C67_failed_reset_refuted.
(** C67.  If no monomial has more copies than fit into a leaf, reset succeeds from every state that calls have led to, and what is destroyed later is what was
    given.  Missing: ranges with more copies, by [C67_failed_reset_refuted]. *)
Lemma reset_holds {M} (C : kconf M) packed valid ops s0 s rs l bits : klegal C valid -> construct C = Ok s0 -> run (step C packed) s0 ops = Ok (s, rs) ->
  (forall a, In a l -> valid a = true) -> (forall e, copies (ksame C) e l <= c_leaf C) ->
  exists m0 m T T' gone, m_construct C packed = Ok m0 /\ run (m_step C packed) m0 ops = Ok (m, rs) /\ i_reset (kd_impl C packed) (m_tree m) l bits = Ok T /\
    i_clear (kd_impl C packed) T = Ok (T', gone) /\ Permutation (map x_t gone) l.
Proof.
  intros H H0 Hr Hv Hc. destruct (kd_faithful C packed) as (R & P & HF). destruct (construct_rel C packed R P HF s0 H0) as (m0 & Hm0 & Hrel).
  destruct (run_rel C packed R P HF ops _ _ _ _ Hrel Hr) as (m & Hm & Hrel').
  destruct (tree_reset_ok C valid H bits l Hv Hc) as (root & R1 & _ & R2). destruct (f_reset _ _ _ _ _ HF _ _ _ _ _ (r_tree _ _ _ _ _ _ Hrel') R1) as (T & T1 & T2).
  destruct (f_clear _ _ _ _ _ HF _ _ T2) as (T' & gone & G1 & _ & G2). exists m0, m, T, T', gone. do 4 (split; auto). rewrite <- R2. unfold root_entries.
  apply Permutation_map. destruct root; exact G2.
Qed.
Theorem C67_reset_partial : forall (M : Type) (C : kconf M) packed valid ops s0 s rs l bits, klegal C valid -> construct C = Ok s0 -> run (step C packed) s0 ops = Ok (s, rs) ->
  (forall a, In a l -> valid a = true) -> (forall e, copies (ksame C) e l <= c_leaf C) ->
  exists m0 m T T' gone, m_construct C packed = Ok m0 /\ run (m_step C packed) m0 ops = Ok (m, rs) /\ i_reset (kd_impl C packed) (m_tree m) l bits = Ok T /\
    i_clear (kd_impl C packed) T = Ok (T', gone) /\ Permutation (map x_t gone) l.
Proof. exact (@reset_holds). Qed.
Print Assumptions C67_reset_partial.
Example C67_nonvacuous : let C := mono_tree true true 2 true true false false in
  (forall a, In a (firstn 3 too_many) -> int_mono a = true) /\ (forall e, copies (ksame C) e (firstn 3 too_many) <= 2) /\
  (let* T := p_reset C p_empty (firstn 3 too_many) [] in let* (_, gone) := p_clear T in Ok (map x_t gone)) = Ok [(0, 0); (1, 1); (1, 1)]%Z.
Proof.
  cbn zeta. split; [|split].
  - intros a Ha. cbn in Ha. repeat destruct Ha as [<- |Ha]; try reflexivity. destruct Ha.
  - intros [a b]. unfold copies, ksame, same_exps. cbn. destruct a as [|[a|a|]|a]; cbn; try lia; destruct b as [|[b|b|]|b]; cbn; lia.
  - vm_compute. reflexivity.
Qed.
