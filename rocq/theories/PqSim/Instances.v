(** The queues of the simulation: each serves pushes and pops like a set of values. *)
From Coq Require Import List Arith NArith Bool Permutation Lia.
From Verif.Base Require Import Res Order.
From Verif.Spec Require Import PQ PQFacts PQState PQStateFacts.
From Verif.Heap Require Import Model Proofs Stateful StatefulProofs.
From Verif.TourTree Require Import Model Proofs.
From Verif.StlSet Require Import Model Proofs.
From Verif.Geobucket Require Import Model Proofs Properties.
From Verif.PqSim Require Import Model Calls ClientProofs SubjectProofs.
Import ListNotations.
Local Open Scope N_scope.

Lemma nlt_strict_weak : strict_weak N.ltb.
Proof.
  split.
  - intros a. apply N.ltb_irrefl.
  - intros a b c H1 H2. apply N.ltb_lt in H1. apply N.ltb_lt in H2. apply N.ltb_lt. lia.
  - intros a b c H1 H2. apply N.ltb_ge in H1. apply N.ltb_ge in H2. apply N.ltb_ge. lia.
Qed.
Lemma item_lt_strict_weak : strict_weak item_lt.
Proof.
  split; unfold item_lt.
  - intros a. apply N.ltb_irrefl.
  - intros a b c H1 H2. apply N.ltb_lt in H1. apply N.ltb_lt in H2. apply N.ltb_lt. lia.
  - intros a b c H1 H2. apply N.ltb_ge in H1. apply N.ltb_ge in H2. apply N.ltb_ge. lia.
Qed.

Lemma no_flat {E P} : forall (p : P) (a b c : E) p', flat_dd no_dd p a b c p' -> False.
Proof. intros p a b c p' [[] _]. Qed.
Lemma apis {E} (api : op E -> bool) : (forall x, api (Push x) = true) -> api Pop = true -> api Top = true -> api Empty = true ->
  (forall x, api (Push x) = true) /\ api Pop = true /\ api Top = true /\ api Empty = true.
Proof. auto. Qed.

(** ** Heap *)
Lemma heap_values_ok dedup : subject_ok (heap_on_values dedup).
Proof.
  apply (on_values_ok _ _ (valid N.ltb) (fun t => t) (fun _ => true) (state_dd dedup N.eqb dedup_value)); auto.
  - intros p a b c p' (_ & He & Hd). unfold dedup_value in Hd. injection Hd as <- <-. apply N.eqb_eq in He. auto.
  - intros s p o Hv _. apply heap_step_s_correct; auto; [exact nlt_strict_weak|]. intros _ q a b _ _. split; apply N.ltb_irrefl.
  - intros i Hi; simpl in Hi; lia.
Qed.

(** What deduplicate does to items *)
Lemma dedup_item_dd dedup : i_dd (state_dd dedup item_eqv dedup_item).
Proof.
  intros p a b c p' (_ & He & Hd). apply N.eqb_eq in He. unfold dedup_item in Hd. unfold i_nexts.
  destruct (to_next b) as [n| | |]; injection Hd as <- <-; rewrite ?app_nil_r; auto. destruct (at_end n); rewrite ?app_nil_r; auto.
Qed.

Lemma dedup_item_equiv dedup : dedup = true -> forall p a b, item_lt a b = false -> item_eqv a b = true ->
  equivalent item_lt (fst (dedup_item p a b)) a.
Proof.
  intros _ p a b _ _. unfold dedup_item. destruct (to_next b); split; apply N.ltb_irrefl.
Qed.

Lemma heap_spans_ok dedup : subject_ok (heap_on_spans dedup).
Proof.
  apply (on_spans_ok _ _ dedup true (valid item_lt) (fun t => t) (fun _ => true) (state_dd dedup item_eqv dedup_item)); auto.
  - apply dedup_item_dd.
  - intros Hd p a b c p' (H & _ & _). congruence.
  - intros s p o Hv _. apply heap_step_s_correct; auto; [exact item_lt_strict_weak|]. apply dedup_item_equiv.
  - intros _ s p s1 p1 x Hv Ht. cbn [heap_step_s] in Ht. unfold heap_top in Ht. rewrite tget_tat in Ht.
    destruct (tat s 1) as [h|] eqn:Hh; [|discriminate]. cbn in Ht. injection Ht as <- <- <-.
    destruct (heap_pop_s_spec item_lt item_eqv dedup dedup_item item_lt_strict_weak (dedup_item_equiv dedup) s p h Hv Hh) as (t' & c' & R & Hp & Hv' & Hperm & Hm).
    exists R. split; auto. split.
    + intros y. destruct (heap_decreaseTop_s_spec item_lt item_eqv dedup dedup_item item_lt_strict_weak (dedup_item_equiv dedup) s p h R y Hv Hh Hperm) as (t2 & c2 & H2 & Hv2 & Hm2).
      exists t2, c2. cbn [heap_step_s]. rewrite H2. auto.
    + exists t', c'. cbn [heap_step_s]. rewrite Hp. auto.
  - intros i Hi; simpl in Hi; lia.
Qed.

(** ** TourTree *)
Lemma tourtree_values_ok : subject_ok tourtree_on_values.
Proof.
  apply (on_values_ok _ _ (TourTree.Proofs.inv N.ltb) contents (tt_api N) (flat_dd no_dd)); auto.
  - intros p a b c p' H. destruct (no_flat _ _ _ _ _ H).
  - apply with_pending_ok. apply tt_step_correct. exact nlt_strict_weak.
  - apply tt_new_inv.
Qed.
Lemma tourtree_spans_ok : subject_ok tourtree_on_spans.
Proof.
  apply (on_spans_ok _ _ false true (TourTree.Proofs.inv item_lt) contents (tt_api item) (flat_dd no_dd)); auto.
  - intros p a b c p' H. destruct (no_flat _ _ _ _ _ H).
  - intros _ p a b c p' H. destruct (no_flat _ _ _ _ _ H).
  - apply with_pending_ok. apply tt_step_correct. exact item_lt_strict_weak.
  - intros _ s p s1 p1 x Hi Ht. unfold with_pending in *. cbn [fst snd tt_step] in *.
    destruct (tt_top item s) as [t| | |] eqn:Htop; try discriminate. cbn in Ht. injection Ht as <- <- <-.
    assert (Hne : tt_players s <> []).
    { intros H0. pose proof (proj2 (TourTree.Proofs.inv_nil item_lt s Hi) H0) as H1. unfold tt_top in Htop. rewrite H1 in Htop. discriminate. }
    destruct (TourTree.Proofs.pop_spec item_lt item_lt_strict_weak s Hi Hne) as (s' & t' & Hp & Hi' & _ & Hperm & Htop').
    assert (t' = t) by congruence. subst t'. exists (contents s'). split; [exact Hperm|]. split.
    + intros y. destruct (TourTree.Proofs.decreaseTop_spec item_lt item_lt_strict_weak s y Hi Hne) as (s2 & t2 & m & H2 & Hi2 & Hpm & _ & Hm & Htop2).
      assert (t2 = t) by congruence. subst t2. exists s2, p. rewrite H2. cbn [bind]. split; auto. split; auto. apply sm_perm.
      rewrite Hm. constructor. rewrite Hperm in Hpm. now apply Permutation_cons_inv in Hpm.
    + exists s', p. rewrite Hp. cbn [bind]. split; auto. split; auto. now apply sm_perm.
  - apply tt_new_inv.
Qed.

(** ** StlSet *)
Lemma stlset_values_ok : subject_ok stlset_on_values.
Proof.
  apply (on_values_ok _ _ (descending N.ltb) (fun m => m) (stl_api N) (flat_dd no_dd)); auto.
  - intros p a b c p' H. destruct (no_flat _ _ _ _ _ H).
  - apply with_pending_ok. apply stl_step_correct. exact nlt_strict_weak.
  - exact I.
Qed.
Lemma stlset_spans_ok : subject_ok stlset_on_spans.
Proof.
  apply (on_spans_ok _ _ false false (descending item_lt) (fun m => m) (stl_api item) (flat_dd no_dd)); auto.
  - intros p a b c p' H. destruct (no_flat _ _ _ _ _ H).
  - intros _ p a b c p' H. destruct (no_flat _ _ _ _ _ H).
  - apply with_pending_ok. apply stl_step_correct. exact item_lt_strict_weak.
  - discriminate.
  - exact I.
Qed.

(** ** Geobucket *)
Definition sim_config (C : config) : Prop := (2 <= geoBase C /\ 1 <= minBucketSize C /\ 1 <= insertFactor C)%nat.
Lemma geobucket_values_ok C : sim_config C -> subject_ok (geobucket_on_values C).
Proof.
  intros (H1 & H2 & H3).
  assert (Heq : supportDeduplication C = true -> forall a b, N.ltb a b = false -> N.eqb a b = true -> equivalent N.ltb a b).
  { intros _ a b _ He. apply N.eqb_eq in He. subst. split; apply N.ltb_irrefl. }
  assert (Hd : supportDeduplication C = true -> forall a b, ((a =? b) || (b =? a)) = true -> equivalent N.ltb a a).
  { intros _ a b _. split; apply N.ltb_irrefl. }
  apply (on_values_ok _ _ (Inv N.ltb C) (gb_forAll N) (range_calls N.ltb (negb (trackFront C)))
          (flat_dd (dedup_dd (supportDeduplication C) (fun a b => (a =? b) || (b =? a)) (fun a _ => a)))); auto.
  - intros p a b c p' [(_ & He & ->) ->]. split; auto. split; auto. apply orb_true_iff in He as [He|He]; apply N.eqb_eq in He; auto.
  - apply with_pending_ok. intros g o. apply (gb_step_ok N.ltb N.eqb (fun a _ => a) C nlt_strict_weak Heq Hd H1 H2 H3).
  - now apply gb_new_inv.
Qed.
Lemma geobucket_spans_ok C : sim_config C -> supportDeduplication C = false -> subject_ok (geobucket_on_spans C).
Proof.
  intros (H1 & H2 & H3) Hs.
  apply (on_spans_ok _ _ false false (Inv item_lt C) (gb_forAll item) (range_calls item_lt (negb (trackFront C)))
          (flat_dd (dedup_dd (supportDeduplication C) (fun a b => item_eqv a b || item_eqv b a) (fun a _ => a)))); auto.
  - intros p a b c p' [(H & _) _]. congruence.
  - intros _ p a b c p' [_ H]. auto.
  - apply with_pending_ok. intros g o. apply (gb_step_ok item_lt item_eqv (fun a _ => a) C item_lt_strict_weak); auto; intros; congruence.
  - discriminate.
  - now apply gb_new_inv.
Qed.

(** All subjects of pqMain.cpp *)
Lemma main_subjects_ok debug : Forall subject_ok (main_subjects debug).
Proof.
  assert (Hc : forall n d, (2 <= n)%nat -> sim_config (main_geobucket n d)).
  { intros n d H. unfold sim_config, main_geobucket. simpl. repeat split; auto; lia. }
  destruct debug; repeat constructor; auto using heap_values_ok, heap_spans_ok, tourtree_values_ok, tourtree_spans_ok, stlset_values_ok, stlset_spans_ok;
    apply geobucket_values_ok, Hc; lia.
Qed.

Lemma sim_queue_ok m : sim_queue m -> subject_ok m.
Proof.
  destruct 1; auto using heap_values_ok, heap_spans_ok, tourtree_values_ok, tourtree_spans_ok, stlset_values_ok, stlset_spans_ok.
  - apply geobucket_values_ok. now split.
  - apply geobucket_spans_ok; auto. now split.
Qed.
