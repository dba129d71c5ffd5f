(** pop() and decreaseTop() act on the entry that top() shows. *)
From Coq Require Import List Arith Bool Permutation Lia.
From Verif.Base Require Import Res Order.
From Verif.Spec Require Import PQ PQFacts TopAgree.
From Verif.Heap Require Import Model Proofs.
From Verif.TourTree Require Import Model Proofs.
From Verif.StlSet Require Import Model Proofs.
From Verif.Geobucket Require Import Model ListProofs Proofs.
Import ListNotations.

Lemma heap_top_agrees {E} (lt eqv : E -> E -> bool) on dedup : strict_weak lt ->
  (on = true -> forall a b, lt a b = false -> eqv a b = true -> equivalent lt (dedup a b) a) ->
  top_agrees (dedup_dd on eqv dedup) (heap_step E lt eqv on dedup) [] (fun t => t) (fun _ => true).
Proof.
  intros Hsw Hd ops t rs t1 x Ha Hr Ht.
  assert (Hv : valid lt t).
  { eapply (inv_lift lt _ _ (heap_step E lt eqv on dedup) (fun t => t) (valid lt) (fun _ => true)); eauto.
    - intros s o Hs _. apply (heap_step_correct lt eqv on dedup Hsw Hd); auto.
    - intros i Hi; simpl in Hi; lia. }
  cbn [heap_step] in Ht. unfold heap_top in Ht. destruct (tget t 1) as [h| | |] eqn:Hh; try discriminate.
  cbn [bind] in Ht. injection Ht as <- <-. rewrite tget_tat in Hh. destruct (tat t 1) as [h'|] eqn:Htat; [|discriminate]. injection Hh as ->.
  split; [cbn [heap_step]; unfold heap_top; rewrite tget_tat, Htat; reflexivity|].
  destruct (heap_pop_spec lt eqv on dedup Hsw Hd t h Hv Htat) as (t' & R & Hp & _ & Hperm & Hm). exists R. split; auto. split.
  - exists t'. cbn [heap_step]. rewrite Hp. auto.
  - intros y _. destruct (heap_decreaseTop_spec lt eqv on dedup Hsw Hd t h R y Hv Htat Hperm) as (t2 & H2 & _ & Hm2).
    exists t2. cbn [heap_step]. rewrite H2. auto.
Qed.

Lemma tt_top_agrees {E} (lt : E -> E -> bool) : strict_weak lt -> top_agrees no_dd (tt_step E lt) (tt_new E) (tt_forAll E) (tt_api E).
Proof.
  intros Hsw ops s rs s1 x Ha Hr Ht.
  assert (Hi : TourTree.Proofs.inv lt s) by (eapply tt_reachable_inv; eauto).
  cbn [tt_step] in Ht. destruct (tt_top E s) as [t| | |] eqn:Htop; try discriminate. cbn [bind] in Ht. injection Ht as <- <-.
  split; [cbn [tt_step]; rewrite Htop; reflexivity|].
  assert (Hne : tt_players s <> []).
  { intros H0. pose proof (proj2 (TourTree.Proofs.inv_nil lt s Hi) H0) as H1. unfold tt_top in Htop. rewrite H1 in Htop. discriminate. }
  destruct (TourTree.Proofs.pop_spec lt Hsw s Hi Hne) as (s' & t' & Hp & _ & _ & Hperm & Htop').
  assert (t' = t) by congruence. subst t'. exists (contents s'). split; [exact Hperm|]. split.
  - exists s'. cbn [tt_step]. rewrite Hp. split; auto. now apply merges_perm.
  - intros y _. destruct (TourTree.Proofs.decreaseTop_spec lt Hsw s y Hi Hne) as (s2 & t2 & m & H2 & _ & Hpm & _ & Hm & Htop2).
    assert (t2 = t) by congruence. subst t2. exists s2. cbn [tt_step]. rewrite H2. split; auto. apply merges_perm.
    change (Permutation (y :: contents s') (contents s2)). rewrite Hm. constructor. rewrite Hperm in Hpm. now apply Permutation_cons_inv in Hpm.
Qed.

Lemma stl_top_agrees {E} (lt : E -> E -> bool) : top_agrees no_dd (stl_step E lt) [] (fun m => m) (stl_api E).
Proof.
  intros ops m rs m1 x _ _ Ht. cbn [stl_step] in *. unfold stl_top in *. destruct m as [|t m]; [discriminate|].
  cbn in Ht. injection Ht as <- <-. split; [reflexivity|]. exists m. split; auto. split; [|discriminate].
  exists m. cbn. split; auto. now apply merges_perm.
Qed.

Lemma gb_top_agrees {E} (lt eqv : E -> E -> bool) dedup C : strict_weak lt ->
  (supportDeduplication C = true -> forall a b, lt a b = false -> eqv a b = true -> equivalent lt a b) ->
  (supportDeduplication C = true -> forall a b, (eqv a b || eqv b a) = true -> equivalent lt (dedup a b) a) ->
  2 <= geoBase C -> 1 <= minBucketSize C -> 1 <= insertFactor C ->
  top_agrees (dedup_dd (supportDeduplication C) (fun a b => eqv a b || eqv b a) dedup)
    (gb_step E lt eqv dedup C) (gb_new E C) (gb_forAll E) (range_calls lt (negb (trackFront C))).
Proof.
  intros H1 H2 H3 H4 H5 H6 ops g rs g1 x Ha Hr Ht.
  assert (Hi : Inv lt C g).
  { eapply (inv_lift lt _ _ (gb_step E lt eqv dedup C) (gb_forAll E) (Inv lt C) (range_calls lt (negb (trackFront C)))); eauto.
    - intros s o Hs Ho. apply (gb_step_ok lt eqv dedup C H1 H2 H3 H4 H5 H6); auto.
    - now apply gb_new_inv. }
  cbn [gb_step] in Ht. unfold gb_top in Ht. pose proof (getMax_ok lt eqv dedup C H1 H2 H3 H4 H5 H6 g Hi) as Hgm.
  destruct (gb_getMax E lt eqv dedup C g) as [[g' m]| | |] eqn:Hm; try discriminate. cbn [bind] in Ht.
  destruct (key E C (g_bs g') m) as [t| | |] eqn:Hk; try discriminate. cbn [bind] in Ht. injection Ht as -> ->.
  apply getMax_again in Hm. destruct Hgm as (Hi1 & _ & z & Hz & _).
  split; [cbn [gb_step]; unfold gb_top; rewrite Hm; cbn [bind]; rewrite Hk; reflexivity|].
  pose proof (pop_top lt eqv dedup C H1 H2 H3 H4 H5 H6 g1 Hi1) as Hp.
  destruct (gb_pop E lt eqv dedup C g1) as [[g2 y]| | |] eqn:Hpop; try contradiction.
  - destruct Hp as (Hi2 & g3 & i & l & Hm3 & Hk3 & _ & Hperm & _ & Hmg). rewrite Hm in Hm3. injection Hm3 as <- <-.
    assert (y = x) by congruence. subst y. exists l. split; [exact Hperm|]. split.
    + exists g2. cbn [gb_step]. rewrite Hpop. split; auto.
    + intros y _. destruct (Geobucket.Proofs.push_ok lt eqv dedup C H1 H2 H3 H4 H5 g2 y Hi2) as (g4 & Hg4 & _ & Hm4).
      exists g4. cbn [gb_step]. unfold gb_decreaseTop. rewrite Hpop. cbn [bind]. rewrite Hg4. split; [reflexivity|].
      eapply merges_trans; [|exact Hm4]. apply (merges_app_both _ [y] [y]); [apply merges_refl|exact Hmg].
  - exfalso. apply ko_inv in Hz as (b & Hb & Hz). apply last_entry_inv in Hz as (q & Hq). apply nth_error_In in Hb.
    assert (Hin : In z (flat_map b_ents (g_bs g1))) by (apply in_flat_map; exists b; split; auto; rewrite Hq; apply in_or_app; right; now left).
    rewrite Hp in Hin. destruct Hin.
Qed.
