(** Proofs about Geobucket when client functions throw: calls that return. *)
From Coq Require Import List Arith Bool Lia.
From Verif.Base Require Import Res Arr Fault FaultFacts.
From Verif.Spec Require Import PQ.
From Verif.Geobucket Require Import Model Faults Throws.
Import ListNotations.

Section Normal.
  Context {E : Type}.
  Variable lt eqv : E -> E -> bool.
  Variable dedup : E -> E -> E.
  Variable C : config.

  Lemma ki_normal bs a i : forall pos b slots toks b' r, ki_loop_x E lt C b bs a slots toks i pos = Ok (Fine b' r) -> ki_loop E lt C bs a slots toks i pos = Ok r.
  Proof.
    induction pos as [|p IH]; intros b slots toks b' r H; cbn [ki_loop_x ki_loop] in *.
    - fine. reflexivity.
    - fine. destruct (lt a1 a2); fine; eauto.
  Qed.
  Lemma kd_normal a n i : forall k b bs cnt slots toks pos b' r, kd_loop_x E lt eqv dedup C b k bs cnt a slots n toks i pos = Ok (Fine b' r) ->
    kd_loop E lt eqv dedup C k bs cnt a slots n toks i pos = Ok r.
  Proof.
    induction k as [|k IH]; intros b bs cnt slots toks pos b' r H; cbn [kd_loop_x kd_loop] in *.
    - fine. reflexivity.
    - fine. destruct (lt a1 a2); [fine; eauto|]. destruct (negb (supportDeduplication C) || negb (eqv a1 a2)); [fine; reflexivity|].
      fine. destruct (b_empty E a7); fine; eauto.
  Qed.
  Lemma keyIncreased_normal b bs f i b' r : f_keyIncreased_x E lt C b bs f i = Ok (Fine b' r) -> f_keyIncreased E lt C bs f i = Ok r.
  Proof.
    unfold f_keyIncreased_x, f_keyIncreased. destruct f as [c|a slots n toks]; intros H; fine; [reflexivity|].
    use ki_normal. again. destruct a2. reflexivity.
  Qed.
  Lemma insert_front_normal b bs f i b' r : f_insert_x E lt C b bs f i = Ok (Fine b' r) -> f_insert E lt C bs f i = Ok r.
  Proof.
    unfold f_insert_x, f_insert. destruct f as [c|a slots n toks]; intros H; fine; [reflexivity|].
    destruct a0 as [[a0 slots0] toks0]. fine. eapply keyIncreased_normal. eassumption.
  Qed.
  Lemma keyDecreased_normal b bs cnt f i b' r : f_keyDecreased_x E lt eqv dedup C b bs cnt f i = Ok (Fine b' r) -> f_keyDecreased E lt eqv dedup C bs cnt f i = Ok r.
  Proof.
    unfold f_keyDecreased_x, f_keyDecreased. destruct f as [c|a slots n toks]; intros H; fine; [reflexivity|].
    destruct (b_empty E a0); fine; [reflexivity|]. destruct (n <=? a2); [discriminate|]. eapply kd_normal. eassumption.
  Qed.
  Lemma cm_normal : forall k b bs cnt m it b' r, cm_loop_x E lt eqv dedup C b k bs cnt m it = Ok (Fine b' r) -> cm_loop E lt eqv dedup C k bs cnt m it = Ok r.
  Proof.
    induction k as [|k IH]; intros b bs cnt m it b' r H; cbn [cm_loop_x cm_loop] in *.
    - fine. reflexivity.
    - fine. destruct (b_empty E a); [eauto|]. fine. destruct (lt a0 a1); [eauto|]. destruct (supportDeduplication C && eqv a0 a1); [|eauto]. fine. eauto.
  Qed.
  Lemma getMax_normal b g b' r : gb_getMax_x E lt eqv dedup C b g = Ok (Fine b' r) -> gb_getMax E lt eqv dedup C g = Ok r.
  Proof.
    unfold gb_getMax_x, gb_getMax. destruct (g_front g) as [[m|]|a slots n toks]; intros H; fine; [reflexivity| |].
    - use cm_normal. again. destruct a0 as [[bs cnt] m']. cbn [bind]. fine. reflexivity.
    - destruct (n =? 0); [discriminate|]. fine. reflexivity.
  Qed.
  Lemma addBucket_normal b g b' r : gb_addBucket_x E C b g = Ok (Fine b' r) -> gb_addBucket E C g = Ok r.
  Proof. unfold gb_addBucket_x. intros H. fine. reflexivity. Qed.

  Lemma merge_normal : forall l1 l2 b b' r, gb_merge_x E lt eqv dedup C b l1 l2 = Fine b' r -> gb_merge E lt eqv dedup C l1 l2 = r.
  Proof.
    induction l1 as [|x l1 IH1].
    - intros l2 b b' r H. destruct l2; cbn in *; congruence.
    - induction l2 as [|y l2 IH2]; intros b b' r H.
      + cbn in *. congruence.
      + cbn [gb_merge_x gb_merge] in H |- *. destruct b as [|b]; [discriminate|]. destruct (lt x y).
        * destruct (gb_merge_x E lt eqv dedup C b l1 (y :: l2)) as [b1 [r1 k1]|[r1 k1]] eqn:Hm; cbn [wrote] in H; [|discriminate].
          apply IH1 in Hm. rewrite Hm. injection H as <- <-. reflexivity.
        * destruct (negb (supportDeduplication C) || negb (eqv x y)).
          -- change (wrote E y 0 (gb_merge_x E lt eqv dedup C b (x :: l1) l2) = Fine b' r) in H.
             destruct (gb_merge_x E lt eqv dedup C b (x :: l1) l2) as [b1 [r1 k1]|[r1 k1]] eqn:Hm; cbn [wrote] in H; [|discriminate].
             apply IH2 in Hm.
             change ((let (r, k) := gb_merge E lt eqv dedup C (x :: l1) l2 in (y :: r, k)) = r). rewrite Hm. injection H as <- <-. reflexivity.
          -- destruct b as [|b]; [discriminate|].
             destruct (gb_merge_x E lt eqv dedup C b l1 l2) as [b1 [r1 k1]|[r1 k1]] eqn:Hm; cbn [wrote] in H; [|discriminate].
             apply IH1 in Hm. rewrite Hm. injection H as <- <-. reflexivity.
  Qed.

  Lemma mergeRange_normal b g into l b' r : gb_mergeRange_x E lt eqv dedup C b g into l = Ok (Fine b' r) -> gb_mergeRange E lt eqv dedup C g into l = Ok r.
  Proof.
    unfold gb_mergeRange_x, gb_mergeRange. intros H. fine.
    destruct (bucketStorage C).
    - destruct (largest E (g_bs g) <? b_size E a); [discriminate|].
      destruct (gb_merge_x E lt eqv dedup C b l (b_ents a)) as [b1 [rr k]|[w k]] eqn:Hm; fine; [|destruct (area E C (g_bs g) a <? length w); fine].
      apply merge_normal in Hm. rewrite Hm. again. use keyIncreased_normal. reflexivity.
    - destruct (gb_merge_x E lt eqv dedup C b (b_ents a) l) as [b1 [rr k]|[w k]] eqn:Hm; fine; [|destruct (area E C (g_bs g) a <? length w); fine].
      apply merge_normal in Hm. rewrite Hm. again. use keyIncreased_normal. reflexivity.
    - destruct (gb_merge_x E lt eqv dedup C b (b_ents a) l) as [b1 [rr k]|[w k]] eqn:Hm; fine; [|destruct (area E C (g_bs g) a <? length w); fine].
      apply merge_normal in Hm. rewrite Hm. again. use keyIncreased_normal. reflexivity.
  Qed.
  Lemma mergeToNonEmpty_normal b g to from b' r : gb_mergeToNonEmpty_x E lt eqv dedup C b g to from = Ok (Fine b' r) -> gb_mergeToNonEmpty E lt eqv dedup C g to from = Ok r.
  Proof.
    unfold gb_mergeToNonEmpty_x, gb_mergeToNonEmpty. intros H. fine. use mergeRange_normal. again. fine.
    again. again. reflexivity.
  Qed.
  Lemma mergeToEmpty_normal b g to from l b' r : gb_mergeToEmpty_x E lt eqv dedup C b g to from l = Ok (Fine b' r) -> gb_mergeToEmpty E lt eqv dedup C g to from l = Ok r.
  Proof.
    unfold gb_mergeToEmpty_x, gb_mergeToEmpty. intros H. fine. destruct (gb_merge_x E lt eqv dedup C b l (b_ents a0)) as [b1 [rr k]|[w k]] eqn:Hm; fine.
    - apply merge_normal in Hm. rewrite Hm. again.
      use keyIncreased_normal. again. reflexivity.
    - destruct (area E C (g_bs g) a <? length w); discriminate.
  Qed.
  Lemma assign_normal b g i l b' r : gb_assign_x E lt C b g i l = Ok (Fine b' r) -> gb_assign E lt C g i l = Ok r.
  Proof. unfold gb_assign_x, gb_assign. intros H. fine. use insert_front_normal. again. reflexivity. Qed.
  Lemma grow_normal : forall fuel b g i acc b' r, grow_loop_x E C fuel b g i acc = Ok (Fine b' r) -> grow_loop E C fuel g i acc = Ok r.
  Proof.
    induction fuel as [|fuel IH]; intros b g i acc b' r H; cbn [grow_loop_x grow_loop] in *; [discriminate|]. fine.
    assert ((if i =? length (g_bs g) then gb_addBucket E C g else Ok g) = Ok a) as ->.
    { destruct (i =? length (g_bs g)); [eapply addBucket_normal; eassumption|fine; reflexivity]. }
    cbn [bind]. rewrite H. cbn [bind]. destruct (_ <=? _); [fine; reflexivity|eauto].
  Qed.
  Lemma carry_normal go_x go : (forall b g i l b' r, go_x b g i l = Ok (Fine b' r) -> go g i l = Ok r) ->
    forall b g i l b' r, carry_x E lt eqv dedup C go_x b g i l = Ok (Fine b' r) -> carry E lt eqv dedup C go g i l = Ok r.
  Proof.
    intros Hgo b g i l b' r H. unfold carry_x, carry in *. fine. destruct (b_empty E a0); [eapply mergeToEmpty_normal; eassumption|].
    destruct (gb_merge_x E lt eqv dedup C b l (b_ents a)) as [b1 [rr k]|[w k]] eqn:Hm; fine.
    - apply merge_normal in Hm. rewrite Hm, H1. cbn [bind]. destruct (largest E (g_bs g) <? length rr); [discriminate|]. fine. eauto.
    - destruct (largest E (g_bs g) <? length w); discriminate.
  Qed.
  Lemma carry_loop_normal : forall fuel b g i l b' r, carry_loop_x E lt eqv dedup C fuel b g i l = Ok (Fine b' r) -> carry_loop E lt eqv dedup C fuel g i l = Ok r.
  Proof.
    induction fuel as [|fuel IH]; intros b g i l b' r H; cbn [carry_loop_x carry_loop] in *; [discriminate|]. fine.
    destruct (_ <=? _); [eapply mergeRange_normal; eassumption|]. eapply carry_normal; [|eassumption]. eauto.
  Qed.
  Lemma nopremerge_normal b g i l b' r : gb_insert_nopremerge_x E lt eqv dedup C b g i l = Ok (Fine b' r) -> gb_insert_nopremerge E lt eqv dedup C g i l = Ok r.
  Proof.
    unfold gb_insert_nopremerge_x, gb_insert_nopremerge. intros H. fine. destruct (b_empty E a); [eapply assign_normal; eassumption|].
    destruct (_ <=? _); [eapply mergeRange_normal; eassumption|]. fine. use grow_normal. again.
    eapply carry_normal; [|eassumption]. apply carry_loop_normal.
  Qed.
  Lemma pre_range_normal : forall fuel b g rb inc b' r, pre_range_x E C fuel b g rb inc = Ok (Fine b' r) -> pre_range E C fuel g rb inc = Ok r.
  Proof.
    induction fuel as [|fuel IH]; intros b g rb inc b' r H; cbn [pre_range_x pre_range] in *; [discriminate|]. fine.
    destruct (_ <=? _); [fine; reflexivity|]. destruct (_ =? _); [|eauto]. fine. use addBucket_normal. again. reflexivity.
  Qed.
  Lemma premerge_normal b g i l b' r : gb_insert_premerge_x E lt eqv dedup C b g i l = Ok (Fine b' r) -> gb_insert_premerge E lt eqv dedup C g i l = Ok r.
  Proof.
    unfold gb_insert_premerge_x, gb_insert_premerge. intros H. fine. use pre_range_normal. again. destruct a as [g1 rb]. fine.
    match goal with |- bind ?m _ = _ => assert (m = Ok a) as -> end.
    { destruct (i =? rb); [fine; reflexivity|]. fine. destruct (b_empty E a1); fine; [reflexivity|]. use mergeToNonEmpty_normal. again.
      again. assumption. }
    cbn [bind]. again. destruct (b_empty E a0); [eapply assign_normal|eapply mergeRange_normal]; eassumption.
  Qed.
  Lemma insert_normal b g i l b' r : gb_insert_x E lt eqv dedup C b g i l = Ok (Fine b' r) -> gb_insert E lt eqv dedup C g i l = Ok r.
  Proof. unfold gb_insert_x, gb_insert. destruct (premerge C); [apply premerge_normal|apply nopremerge_normal]. Qed.

  Lemma bin_normal left x l : forall fuel b beg rg b' r, bin_search_x E lt eqv C left fuel b l x beg rg = Ok (Fine b' r) -> bin_search E lt eqv C fuel l x beg rg = Ok r.
  Proof.
    induction fuel as [|fuel IH]; intros b beg rg b' r H; cbn [bin_search_x bin_search] in *; [discriminate|].
    destruct (rg =? 0); [fine; reflexivity|]. fine. destruct (lt x a); [eauto|]. destruct (_ || _); [eauto|]. fine. reflexivity.
  Qed.
  Lemma lin_normal left x : forall l b pos b' r, lin_search_x E lt eqv C left b l x pos = Ok (Fine b' r) -> lin_search E lt eqv C l x pos = r.
  Proof.
    induction l as [|y l IH]; intros b pos b' r H; cbn [lin_search_x lin_search] in *; [fine; reflexivity|]. fine.
    destruct (lt x y); [fine; reflexivity|]. destruct (_ && _); [fine; reflexivity|eauto].
  Qed.
  Lemma push_normal b g x b' r : push_x E lt eqv dedup C b g x = Ok (Fine b' r) -> gb_push E lt eqv dedup C g x = Ok r.
  Proof.
    unfold push_x, gb_push. intros H. fine. destruct (_ =? _); [eapply insert_normal; eassumption|]. destruct (b_empty E a).
    - fine. use insert_front_normal. again. reflexivity.
    - fine. assert ((if minBucketBinarySearch C then bin_search E lt eqv C (S (b_size E a)) (b_ents a) x 0 (b_size E a) else Ok (lin_search E lt eqv C (b_ents a) x 0)) = Ok a0) as ->.
      { destruct (minBucketBinarySearch C); [eapply bin_normal; eassumption|f_equal; eapply lin_normal; eassumption]. }
      cbn [bind]. destruct a0; fine; try reflexivity. use keyIncreased_normal. again. reflexivity.
  Qed.
  Lemma add_normal : forall fuel b g adj b' r, add_loop_x E C fuel b g adj = Ok (Fine b' r) -> add_loop E C fuel g adj = Ok r.
  Proof.
    induction fuel as [|fuel IH]; intros b g adj b' r H; cbn [add_loop_x add_loop] in *; [discriminate|].
    destruct (_ <? _); fine; [|reflexivity]. use addBucket_normal. again. eauto.
  Qed.
  Lemma pushRange_normal b g xs b' r : pushRange_x E lt eqv dedup C b g xs = Ok (Fine b' r) -> gb_pushRange E lt eqv dedup C g xs = Ok r.
  Proof.
    unfold pushRange_x, gb_pushRange. intros H. fine. use add_normal. again. again. eapply insert_normal. eassumption.
  Qed.
  Lemma pop_normal b g b' r : pop_x E lt eqv dedup C b g = Ok (Fine b' r) -> gb_pop E lt eqv dedup C g = Ok r.
  Proof.
    unfold pop_x, gb_pop. intros H. fine. use getMax_normal. again. destruct a as [g1 m]. fine.
    use keyDecreased_normal. again. destruct a4 as [[bs' cnt'] f]. fine. reflexivity.
  Qed.
  Lemma top_normal b g b' r : top_x E lt eqv dedup C b g = Ok (Fine b' r) -> gb_top E lt eqv dedup C g = Ok r.
  Proof.
    unfold top_x, gb_top. intros H. fine. use getMax_normal. again. destruct a as [g1 m]. fine. reflexivity.
  Qed.
  Lemma step_normal b g o b' r : gb_step_x E lt eqv dedup C b g o = Ok (Fine b' r) -> gb_step E lt eqv dedup C g o = Ok r.
  Proof.
    destruct o as [x|xs| | |x| | | |]; cbn [gb_step_x gb_step]; intros H; fine; try reflexivity; try congruence.
    - use push_normal. again. reflexivity.
    - use pushRange_normal. again. reflexivity.
    - use pop_normal. again. destruct a. fine. reflexivity.
    - use top_normal. again. destruct a. fine. reflexivity.
    - unfold decreaseTop_x, gb_decreaseTop in *. fine. use pop_normal. again. destruct a0. use push_normal. again. reflexivity.
  Qed.
End Normal.
