(** How many buckets a geobucket has, from the entries it had to hold. *)
From Coq Require Import List Arith Bool Lia Permutation.
From Verif.Base Require Import Res Arr Order.
From Verif.Spec Require Import PQ PQFacts.
From Verif.Geobucket Require Import Model Proofs.
From Verif.GeoMem Require Import MemProofs Areas.
Import ListNotations.

Section SizeProofs.
  Context {E : Type}.
  Variable lt eqv : E -> E -> bool.
  Variable dedup : E -> E -> E.
  Variable C : config.
  Hypothesis Hlt : strict_weak lt.
  Hypothesis Heq : supportDeduplication C = true -> forall a b, lt a b = false -> eqv a b = true -> equivalent lt a b.
  Hypothesis Hdd : supportDeduplication C = true -> forall a b, (eqv a b || eqv b a) = true -> equivalent lt (dedup a b) a.
  Hypothesis Hg : 2 <= geoBase C.
  Hypothesis Hm : 1 <= minBucketSize C.
  Hypothesis Hi : 1 <= insertFactor C.
  Notation bucket := (bucket E).
  Notation geobucket := (geobucket E).
  Notation flat := (flat_map (@b_ents E)).
  Notation inv := (inv lt C).
  Notation Inv := (Inv lt C).
  Notation dd := (dedup_dd (supportDeduplication C) (fun a b => eqv a b || eqv b a) dedup).
  Notation cap := (fun i => minBucketSize C * geoBase C ^ i).

  (** [g'] has as many buckets as [g], or the last but one of its buckets does not have room for [N] entries *)
  Definition grown (N : nat) (g g' : geobucket) : Prop :=
    length (g_bs g') = length (g_bs g) \/ length (g_bs g) < length (g_bs g') /\ cap (length (g_bs g') - 2) < N.
  Definition same (g g' : geobucket) : Prop := length (g_bs g') = length (g_bs g).
  Lemma grown_same N g g1 g' : grown N g g1 -> same g1 g' -> grown N g g'.
  Proof. unfold grown, same. intros H ->. auto. Qed.
  Lemma same_grown N g g1 g' : same g g1 -> grown N g1 g' -> grown N g g'.
  Proof. unfold grown, same. intros ->. auto. Qed.
  Lemma grown_trans N g g1 g' : grown N g g1 -> grown N g1 g' -> grown N g g'.
  Proof. unfold grown. intros [H|[H H1]] [H'|[H' H1']]; rewrite ?H', ?H in *; auto; right; split; auto; lia. Qed.
  Lemma grown_mono N N' g g' : N <= N' -> grown N g g' -> grown N' g g'.
  Proof. unfold grown. intros H [H1|[H1 H2]]; auto. right. split; auto. lia. Qed.

  Lemma vset_len {A} (l : list A) i x l' : vset l i x = Ok l' -> length l' = length l.
  Proof. unfold vset. destruct (i <? length l); [|discriminate]. intros H. injection H as <-. apply upd_length. Qed.

  (** * Calls that add no buckets *)
  Lemma mergeRange_len g i l g' : gb_mergeRange E lt eqv dedup C g i l = Ok g' -> same g g'.
  Proof.
    unfold gb_mergeRange. intros H. binv H. destruct (match bucketStorage C with Plain => _ | _ => _ end) as [r k]. binv H.
    destruct (match bucketStorage C with Plain => _ | _ => _ end); [discriminate|]. repeat binv H. injection H as <-. match goal with Hv : vset _ _ _ = Ok _ |- _ => apply vset_len in Hv; exact Hv end.
  Qed.
  Lemma mergeToNonEmpty_len g to from g' : gb_mergeToNonEmpty E lt eqv dedup C g to from = Ok g' -> same g g'.
  Proof.
    unfold gb_mergeToNonEmpty. intros H. do 7 binv H. injection H as <-. apply mergeRange_len in Eb2. apply vset_len in Eb4. unfold same in *. simpl in *. congruence.
  Qed.
  Lemma mergeToEmpty_len g to from l g' : gb_mergeToEmpty E lt eqv dedup C g to from l = Ok g' -> same g g'.
  Proof.
    unfold gb_mergeToEmpty. intros H. do 2 binv H. destruct (gb_merge _ _ _ _ _ _ _) as [r k]. repeat binv H. injection H as <-.
    apply vset_len in Eb3, Eb4. unfold same. simpl. congruence.
  Qed.
  Lemma moveToEmpty_len g to from g' : gb_moveToEmpty E C g to from = Ok g' -> same g g'.
  Proof. unfold gb_moveToEmpty. intros H. repeat binv H. injection H as <-. apply vset_len in Eb2, Eb3. unfold same. simpl. congruence. Qed.
  Lemma assign_len g i l g' : gb_assign E lt C g i l = Ok g' -> same g g'.
  Proof. unfold gb_assign. intros H. repeat binv H. injection H as <-. now apply vset_len in Eb1. Qed.
  Lemma carry_len go_on g b l g' : (forall g1 b1 l1 g2, go_on g1 b1 l1 = Ok g2 -> same g1 g2) ->
    carry E lt eqv dedup C go_on g b l = Ok g' -> same g g'.
  Proof.
    intros Hgo. unfold carry. intros H. do 2 binv H. destruct (b_empty E _); [now apply mergeToEmpty_len in H|].
    destruct (gb_merge _ _ _ _ _ _ _) as [r k]. binv H. destruct (_ <? _); [discriminate|]. do 2 binv H. apply Hgo in H. apply vset_len in Eb2.
    unfold same in *. simpl in *. congruence.
  Qed.
  Lemma carry_loop_len : forall fuel g b l g', carry_loop E lt eqv dedup C fuel g b l = Ok g' -> same g g'.
  Proof.
    induction fuel as [|fuel IH]; intros g b l g'; cbn [carry_loop]; [discriminate|]. intros H. binv H.
    destruct (_ <=? _); [now apply mergeRange_len in H|]. eapply carry_len; eauto.
  Qed.
  Lemma pre_moves_len : forall k g rit g', pre_moves E C k g rit = Ok g' -> same g g'.
  Proof.
    induction k as [|k IH]; intros g rit g'; cbn [pre_moves]; intros H; [injection H as <-; reflexivity|].
    binv H. apply IH in H. apply moveToEmpty_len in Eb. unfold same in *. congruence.
  Qed.
  Lemma kd_len a n b : forall k bs cnt slots toks pos bs' cnt' f', kd_loop E lt eqv dedup C k bs cnt a slots n toks b pos = Ok (bs', cnt', f') ->
    length bs' = length bs.
  Proof.
    induction k as [|k IH]; intros bs cnt slots toks pos bs' cnt' f' H; cbn [kd_loop] in H.
    { repeat binv H. injection H as <- <- <-. auto. }
    do 3 binv H. destruct (lt _ _); [do 2 binv H; eauto|].
    destruct (_ || _). { repeat binv H. injection H as <- <- <-. auto. }
    do 7 binv H. apply vset_len in Eb4, Eb7. destruct (b_empty E _).
    - do 2 binv H. injection H as <- <- <-. congruence.
    - do 2 binv H. apply IH in H. congruence.
  Qed.
  Lemma keyDecreased_len bs cnt f b bs' cnt' f' : f_keyDecreased E lt eqv dedup C bs cnt f b = Ok (bs', cnt', f') -> length bs' = length bs.
  Proof.
    unfold f_keyDecreased. destruct f as [c|a slots n toks]; intros H; [injection H as <- <- <-; auto|].
    binv H. destruct (b_empty E _); [binv H; injection H as <- <- <-; auto|]. do 2 binv H. destruct (_ <=? _); [discriminate|].
    now apply kd_len in H.
  Qed.
  Lemma cm_len : forall k bs cnt mx it bs' cnt' i', cm_loop E lt eqv dedup C k bs cnt mx it = Ok (bs', cnt', i') -> length bs' = length bs.
  Proof.
    induction k as [|k IH]; intros bs cnt mx it bs' cnt' i' H; cbn [cm_loop] in H; [injection H as <- <- <-; auto|].
    binv H. destruct (b_empty E _); [eauto|]. do 2 binv H. destruct (lt _ _); [eauto|]. destruct (_ && _); [|eauto].
    do 7 binv H. apply vset_len in Eb4, Eb7. apply IH in H. congruence.
  Qed.
  Lemma getMax_len g g' i : gb_getMax E lt eqv dedup C g = Ok (g', i) -> same g g'.
  Proof.
    unfold gb_getMax. intros H. destruct (g_front g) as [[c|]|a slots n toks].
    - injection H as <- <-. reflexivity.
    - do 2 binv H. destruct a0 as [[bs cnt] m']. injection H as <- <-. now apply cm_len in Eb0.
    - destruct (n =? 0); [discriminate|]. binv H. injection H as <- <-. reflexivity.
  Qed.
  Lemma pop_len g g' x : gb_pop E lt eqv dedup C g = Ok (g', x) -> same g g'.
  Proof.
    unfold gb_pop. intros H. binv H. destruct a as [g1 i]. do 6 binv H. destruct a4 as [[bs cnt] f]. injection H as <- <-.
    apply getMax_len in Eb. apply vset_len in Eb3. apply keyDecreased_len in Eb5. unfold same in *. simpl. congruence.
  Qed.

  (** * Adding buckets *)
  Lemma flat_len_app (l1 l2 : list bucket) : length (flat (l1 ++ l2)) = length (flat l1) + length (flat l2).
  Proof. now rewrite flat_map_app, app_length. Qed.
  Lemma skipn_nth (bs : list bucket) i b : nth_error bs i = Some b -> length (flat (skipn i bs)) = length (b_ents b) + length (flat (skipn (S i) bs)).
  Proof.
    revert i; induction bs as [|c bs IH]; intros [|i] H; try discriminate; simpl in *.
    - injection H as ->. now rewrite app_length.
    - now apply IH.
  Qed.
  Lemma addBucket_grown p N g g' : inv p g -> g_bs g <> [] -> cap (length (g_bs g) - 1) < N -> gb_addBucket E C g = Ok g' ->
    inv p g' /\ grown N g g' /\ length (g_bs g') = S (length (g_bs g)) /\ exists c, g_bs g' = g_bs g ++ [c] /\ b_ents c = [].
  Proof.
    intros I Hne Hc H. destruct (addBucket_ok lt C Hg Hm p g I) as (g1 & c & H1 & I1 & Hbs & Hce & _). rewrite H1 in H. injection H as <-.
    assert (Hl : length (g_bs g1) = S (length (g_bs g))) by (rewrite Hbs, app_length; simpl; lia).
    split; auto. split; [|split; eauto]. right. split; [lia|]. rewrite Hl. exact Hc.
  Qed.

  Lemma grow_grown p N : forall fuel g i acc g', inv p g -> 1 <= i -> i <= length (g_bs g) -> acc + length (flat (skipn i (g_bs g))) <= N ->
    cap (i - 1) < acc -> grow_loop E C fuel g i acc = Ok g' -> grown N g g'.
  Proof.
    induction fuel as [|fuel IH]; intros g i acc g' I H1 Hil Hacc Hcap H; cbn [grow_loop] in H; [discriminate|].
    destruct (Nat.eqb_spec i (length (g_bs g))) as [He|Hne].
    - binv H. destruct (fun h1 h2 => addBucket_grown p N _ _ I h1 h2 Eb) as (I1 & G1 & Hl & c & Hbs & Hce).
      { intros Hz. rewrite Hz in *. simpl in *. lia. }
      { rewrite <- He. lia. }
      assert (Hc : nth_error (g_bs a) i = Some c) by (rewrite Hbs, He, nth_error_app2, Nat.sub_diag by lia; reflexivity).
      unfold vget in H. rewrite Hc in H. cbn [of_option bind] in H. unfold b_size in H. rewrite Hce in H. cbn [length] in H. rewrite Nat.add_0_r in H.
      destruct (Nat.leb_spec acc (b_cap c)) as [|Hgt]; [now injection H as <-|].
      eapply grown_trans; [exact G1|]. eapply IH; [exact I1| | | | |exact H]; try lia.
      + rewrite skipn_all2 by lia. rewrite skipn_all2 in Hacc by lia. simpl in *. lia.
      + cbn [Nat.sub]. rewrite Nat.sub_0_r, <- (wf_cap _ _ _ (i_wf _ _ _ _ I1) _ _ Hc). auto.
    - cbn [bind] in H. binv H. unfold vget in Eb. destruct (nth_error (g_bs g) i) as [b|] eqn:Hb; [|discriminate]. injection Eb as <-.
      destruct (Nat.leb_spec (acc + b_size E b) (b_cap b)) as [|Hgt]; [injection H as <-; now left|].
      pose proof (skipn_nth _ _ _ Hb) as Hs. unfold b_size in *. eapply IH; [exact I| | | | |exact H]; try lia.
      cbn [Nat.sub]. rewrite Nat.sub_0_r. rewrite <- (wf_cap _ _ _ (i_wf _ _ _ _ I) _ _ Hb). lia.
  Qed.

  Lemma flat_skipn (bs : list bucket) i : length (flat (skipn i bs)) <= length (flat bs).
  Proof. rewrite <- (firstn_skipn i bs) at 2. rewrite flat_len_app. lia. Qed.

  Lemma pre_range_grown p N : forall fuel g r inc g' r', inv p g -> inc + length (flat (skipn r (g_bs g))) <= N ->
    pre_range E C fuel g r inc = Ok (g', r') -> grown N g g'.
  Proof.
    induction fuel as [|fuel IH]; intros g r inc g' r' I Hinc H; cbn [pre_range] in H; [discriminate|].
    binv H. unfold vget in Eb. destruct (nth_error (g_bs g) r) as [b|] eqn:Hb; [|discriminate]. injection Eb as <-.
    pose proof (skipn_nth _ _ _ Hb) as Hs. unfold b_size in *.
    destruct (Nat.leb_spec (length (b_ents b) + inc) (b_cap b)) as [|Hgt]; [injection H as <- <-; now left|].
    destruct (Nat.eqb_spec (S r) (length (g_bs g))) as [He|Hne].
    - binv H. injection H as <- <-. destruct (fun h1 h2 => addBucket_grown p N _ _ I h1 h2 Eb) as (_ & G1 & _); auto.
      { intros Hz. rewrite Hz in *. destruct r; discriminate. }
      rewrite <- He. cbn [Nat.sub]. rewrite Nat.sub_0_r. rewrite <- (wf_cap _ _ _ (i_wf _ _ _ _ I) _ _ Hb). lia.
    - eapply IH; [exact I| |exact H]. lia.
  Qed.

  Lemma insert_grown p g b l g' : inv p g -> gb_insert E lt eqv dedup C g b l = Ok g' -> grown (length (flat (g_bs g)) + length l) g g'.
  Proof.
    intros I H. unfold gb_insert in H. destruct (premerge C).
    - unfold gb_insert_premerge in H. binv H. destruct a as [g1 rb]. apply grown_same with (g1 := g1).
      { eapply pre_range_grown; [exact I| |exact Eb]. pose proof (flat_skipn (g_bs g) b). lia. }
      binv H. assert (S1 : same g1 a).
      { destruct (b =? rb); [injection Eb0 as <-; reflexivity|]. binv Eb0. destruct (b_empty E _); [now apply pre_moves_len in Eb0|].
        binv Eb0. apply mergeToNonEmpty_len in Eb2. apply pre_moves_len in Eb0. unfold same in *. congruence. }
      binv H. destruct (b_empty E _); [apply assign_len in H|apply mergeRange_len in H]; unfold same in *; congruence.
    - unfold gb_insert_nopremerge in H. binv H. unfold vget in Eb. destruct (nth_error (g_bs g) b) as [bb|] eqn:Hb; [|discriminate]. injection Eb as <-.
      destruct (b_empty E bb); [left; now apply assign_len in H|]. pose proof (skipn_nth _ _ _ Hb) as Hs. pose proof (flat_skipn (g_bs g) b). unfold b_size in *.
      destruct (Nat.leb_spec (length (b_ents bb) + length l) (b_cap bb)) as [|Hgt]; [left; now apply mergeRange_len in H|].
      binv H. apply grown_same with (g1 := a); [|eapply carry_len; [|exact H]; apply carry_loop_len].
      assert (b < length (g_bs g)) by (apply nth_error_Some; congruence).
      eapply grow_grown; [exact I| | | | |exact Eb]; try lia.
      cbn [Nat.sub]. rewrite Nat.sub_0_r. rewrite <- (wf_cap _ _ _ (i_wf _ _ _ _ I) _ _ Hb). lia.
  Qed.

  Lemma largest_cap bs : wf lt C bs -> largest E bs = cap (length bs - 1).
  Proof. intros W. destruct (largest_ok lt C bs W) as (bs' & b & _ & -> & Hb). now rewrite (wf_cap _ _ _ W _ _ Hb). Qed.
  Lemma add_grown p N adj : adj <= N -> forall fuel g g', inv p g -> add_loop E C fuel g adj = Ok g' ->
    grown N g g' /\ inv p g' /\ length (flat (g_bs g')) = length (flat (g_bs g)).
  Proof.
    intros Ha. induction fuel as [|fuel IH]; intros g g' I H; cbn [add_loop] in H; [discriminate|].
    destruct (Nat.ltb_spec (largest E (g_bs g)) adj) as [Hlg|_]; [|injection H as <-; split; auto; now left].
    binv H. rewrite (largest_cap _ (i_wf _ _ _ _ I)) in Hlg.
    destruct (fun h1 h2 => addBucket_grown p N _ _ I h1 h2 Eb) as (I1 & G1 & _ & c & Hbs & Hce).
    { apply (wf_ne _ _ _ (i_wf _ _ _ _ I)). }
    { lia. }
    destruct (IH _ _ I1 H) as (G & I' & Hl). split; [eapply grown_trans; eauto|]. split; auto. rewrite Hl, Hbs, flat_len_app. simpl. rewrite Hce. simpl. lia.
  Qed.

  Lemma push_grown g x g' : Inv g -> gb_push E lt eqv dedup C g x = Ok g' -> grown (length (flat (g_bs g)) + 1) g g'.
  Proof.
    intros [[Hw Hc Hf] _] H. unfold gb_push in H. binv H. destruct (_ =? _).
    { apply (insert_grown 1) in H; [exact H|]. split; simpl in *; auto. }
    destruct (b_empty E _); [left; do 3 binv H; injection H as <-; now apply vset_len in Eb1|].
    binv H. destruct a0 as [i| |i].
    - left. do 2 binv H. injection H as <-. now apply vset_len in Eb2.
    - left. do 3 binv H. injection H as <-. now apply vset_len in Eb2.
    - left. do 4 binv H. injection H as <-. now apply vset_len in Eb3.
  Qed.
  Lemma pushRange_grown g xs g' : Inv g -> gb_pushRange E lt eqv dedup C g xs = Ok g' ->
    grown (length (flat (g_bs g)) + length xs * insertFactor C) g g'.
  Proof.
    intros [[Hw Hc Hf] _] H. unfold gb_pushRange in H. binv H. binv H.
    assert (I0 : inv (length xs) (mk_gb (g_bs g) (g_count g + length xs) (g_front g))) by (split; simpl in *; auto; lia).
    destruct (add_grown (length xs) (length (flat (g_bs g)) + length xs * insertFactor C) (length xs * insertFactor C) ltac:(lia) _ _ _ I0 Eb) as (G & I & Hl).
    apply (insert_grown (length xs)) in H; auto. rewrite Hl in H. cbn [g_bs] in H. rewrite rev_length in H.
    eapply grown_trans; [exact G|]. eapply grown_mono; [|exact H].
    assert (length xs * 1 <= length xs * insertFactor C) by (now apply Nat.mul_le_mono_l). lia.
  Qed.

  Lemma merges_le l l' : merges dd l l' -> length l' <= length l.
  Proof.
    induction 1 as [l l' P|l a b c m l' P _ _ IH]; [now rewrite (Permutation_length P)|]. rewrite (Permutation_length P). simpl in *. lia.
  Qed.

  Lemma step_grown g o g' r : Inv g -> range_calls lt (negb (trackFront C)) o = true -> gb_step E lt eqv dedup C g o = Ok (g', r) ->
    grown (demand C (length (gb_forAll E g)) o) g g'.
  Proof.
    intros I Ha H. unfold demand, gb_forAll. destruct o as [x|xs| | |x| | | |]; cbn [gb_step] in H.
    - binv H. injection H as <- <-. now apply push_grown with (x := x).
    - binv H. injection H as <- <-. now apply pushRange_grown.
    - binv H. destruct a as [g1 x]. injection H as <- <-. left. now apply pop_len in Eb.
    - binv H. destruct a as [g1 x]. injection H as <- <-. left. unfold gb_top in Eb. binv Eb. destruct a as [g2 i]. binv Eb. injection Eb as <- <-.
      now apply getMax_len in Eb0.
    - binv H. injection H as <- <-. unfold gb_decreaseTop in Eb. binv Eb. destruct a0 as [g1 y].
      pose proof (Proofs.pop_ok lt eqv dedup C Hlt Heq Hdd Hg Hm Hi g I) as Hp. rewrite Eb0 in Hp. destruct Hp as (I1 & m & M1 & _ & M2).
      apply merges_le in M1, M2. apply pop_len in Eb0. apply push_grown in Eb; auto. eapply same_grown; [exact Eb0|]. eapply grown_mono; [|exact Eb].
      simpl in M1. lia.
    - injection H as <- <-. left. unfold gb_clear. simpl. now rewrite map_length.
    - injection H as <- <-. now left.
    - injection H as <- <-. now left.
    - injection H as <- <-. now left.
  Qed.

  Lemma run_grown N : forall ops g g' rs, Inv g -> forallb (range_calls lt (negb (trackFront C))) ops = true ->
    (forall pre o post s rs, ops = pre ++ o :: post -> run (gb_step E lt eqv dedup C) g pre = Ok (s, rs) -> demand C (length (gb_forAll E s)) o <= N) ->
    run (gb_step E lt eqv dedup C) g ops = Ok (g', rs) -> grown N g g'.
  Proof.
    induction ops as [|o ops IH]; intros g g' rs I Ha HN H; cbn [run] in H; [injection H as <- <-; now left|].
    simpl in Ha. apply andb_true_iff in Ha as [Ho Ha].
    binv H. destruct a as [g1 r]. binv H. destruct a as [g2 rs']. injection H as <- <-.
    pose proof (gb_step_ok lt eqv dedup C Hlt Heq Hdd Hg Hm Hi g o I Ho) as Hs. rewrite Eb in Hs. destruct Hs as (I1 & _).
    eapply grown_trans.
    - eapply grown_mono; [|eapply step_grown; eauto]. apply (HN [] o ops g []); auto.
    - eapply IH; eauto. intros pre o' post s rs He Hr. apply (HN (o :: pre) o' post s (r :: rs)); [now rewrite He|].
      cbn [run]. rewrite Eb. cbn [bind]. now rewrite Hr.
  Qed.
End SizeProofs.
