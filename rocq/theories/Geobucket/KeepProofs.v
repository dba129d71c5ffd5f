(** Proofs about Geobucket when client functions throw: what premerging Geobuckets that do not track the front keep. *)
From Coq Require Import List Arith Bool Lia Permutation Sorting.Sorted.
From Verif.Base Require Import Res Arr Order Fault FaultFacts.
From Verif.Spec Require Import PQ PQFacts.
From Verif.Geobucket Require Import Model Faults Throws ThrowsProofs ListProofs Proofs.
Import ListNotations.

(** * A greater count changes no answer but that of size and empty *)
Section Up.
  Context {E : Type}.
  Variable lt eqv : E -> E -> bool.
  Variable dedup : E -> E -> E.
  Variable C : config.
  Notation geobucket := (geobucket E).
  Definition up (d : nat) (g : geobucket) : geobucket := mk_gb (g_bs g) (g_count g + d) (g_front g).

  Lemma dec_up n k m d : dec n k = Ok m -> dec (n + d) k = Ok (m + d).
  Proof.
    unfold dec. destruct (Nat.leb_spec k n); intros H1; [|discriminate H1]. injection H1 as <-.
    destruct (Nat.leb_spec k (n + d)); [f_equal; lia|lia].
  Qed.
  Ltac ok1 :=
    match goal with
    | H : bind _ _ = Ok _ |- _ => let a := fresh "a" in let H1 := fresh "H" in let H2 := fresh "H" in apply bind_inv in H as (a & H1 & H2)
    | H : Ok _ = Ok _ |- _ => injection H; clear H; intros; subst
    | H : UB = Ok _ |- _ => discriminate H
    | H : NoFuel = Ok _ |- _ => discriminate H
    | H : dec _ _ = Ok _ |- context [dec (_ + ?d) _] => rewrite (dec_up _ _ _ d H); clear H; cbn [bind]
    | H : ?m = Ok _ |- context [bind ?m _] => rewrite H; cbn [bind]
    end.
  Ltac okk := repeat (ok1; cbv beta iota zeta in *).

  Lemma cm_up d : forall k bs cnt m it bs' cnt' m', cm_loop E lt eqv dedup C k bs cnt m it = Ok (bs', cnt', m') ->
    cm_loop E lt eqv dedup C k bs (cnt + d) m it = Ok (bs', cnt' + d, m').
  Proof.
    induction k as [|k IH]; intros bs cnt m it bs' cnt' m' H; cbn [cm_loop] in *; [injection H as <- <- <-; reflexivity|].
    okk. destruct (b_empty E a); [auto|]. okk. destruct (lt a0 a1); [auto|]. destruct (supportDeduplication C && eqv a0 a1); [|auto]. okk. auto.
  Qed.
  Lemma kd_up d a n i : forall k bs cnt slots toks pos bs' cnt' f, kd_loop E lt eqv dedup C k bs cnt a slots n toks i pos = Ok (bs', cnt', f) ->
    kd_loop E lt eqv dedup C k bs (cnt + d) a slots n toks i pos = Ok (bs', cnt' + d, f).
  Proof.
    induction k as [|k IH]; intros bs cnt slots toks pos bs' cnt' f H; cbn [kd_loop] in *.
    - okk. reflexivity.
    - okk. destruct (lt a1 a2); [okk; auto|]. destruct (negb (supportDeduplication C) || negb (eqv a1 a2)).
      + okk. reflexivity.
      + okk. destruct (b_empty E a7); [|okk; auto].
        okk. reflexivity.
  Qed.
  Lemma keyDecreased_up d bs cnt f i bs' cnt' f' : f_keyDecreased E lt eqv dedup C bs cnt f i = Ok (bs', cnt', f') ->
    f_keyDecreased E lt eqv dedup C bs (cnt + d) f i = Ok (bs', cnt' + d, f').
  Proof.
    unfold f_keyDecreased. destruct f as [c|a slots n toks]; intros H; [injection H as <- <- <-; reflexivity|]. okk. destruct (b_empty E a0).
    - okk. reflexivity.
    - okk. destruct (n <=? a2); [discriminate|]. now apply kd_up.
  Qed.
  Lemma getMax_up d g g' m : gb_getMax E lt eqv dedup C g = Ok (g', m) -> gb_getMax E lt eqv dedup C (up d g) = Ok (up d g', m).
  Proof.
    unfold gb_getMax, up. cbn [g_front g_bs g_count]. destruct (g_front g) as [[m0|]|a slots n toks] eqn:Hf; intros H.
    - injection H as <- <-. rewrite Hf. reflexivity.
    - apply bind_inv in H as (m0 & Hm & H). rewrite Hm. cbn [bind]. apply bind_inv in H as ([[bs cnt] m'] & Hc & H).
      rewrite (cm_up d _ _ _ _ _ _ _ _ Hc). cbn [bind]. injection H as <- <-. reflexivity.
    - destruct (n =? 0); [discriminate|]. apply bind_inv in H as (m0 & Hm & H). rewrite Hm. cbn [bind]. injection H as <- <-. rewrite Hf. reflexivity.
  Qed.
  Lemma addBucket_up d g g' : gb_addBucket E C g = Ok g' -> gb_addBucket E C (up d g) = Ok (up d g').
  Proof.
    unfold gb_addBucket, up. cbn [g_front g_bs g_count]. destruct (g_front g) as [c|a slots n toks]; intros H; [okk; reflexivity|].
    apply bind_inv in H as ([[a1 s1] t1] & Hm & H). rewrite Hm. cbn [bind]. okk. reflexivity.
  Qed.
  Lemma mergeRange_up d g i l g' : gb_mergeRange E lt eqv dedup C g i l = Ok g' -> gb_mergeRange E lt eqv dedup C (up d g) i l = Ok (up d g').
  Proof.
    unfold gb_mergeRange, up. cbn [g_front g_bs g_count]. intros H. okk.
    destruct (match bucketStorage C with Plain => _ | _ => gb_merge E lt eqv dedup C (b_ents a) l end) as [r k]. okk.
    destruct (match bucketStorage C with Plain => _ | _ => false end); [discriminate|]. okk. reflexivity.
  Qed.
  Lemma mergeToNonEmpty_up d g i j g' : gb_mergeToNonEmpty E lt eqv dedup C g i j = Ok g' -> gb_mergeToNonEmpty E lt eqv dedup C (up d g) i j = Ok (up d g').
  Proof.
    unfold gb_mergeToNonEmpty. cbn [up g_front g_bs g_count]. intros H. okk.
    match goal with H : gb_mergeRange _ _ _ _ _ _ _ _ = Ok _ |- _ => apply (mergeRange_up d) in H; unfold up in H; cbn [g_front g_bs g_count] in H; rewrite H end.
    cbn [bind g_front g_bs g_count]. okk. reflexivity.
  Qed.
  Lemma mergeToEmpty_up d g i j l g' : gb_mergeToEmpty E lt eqv dedup C g i j l = Ok g' -> gb_mergeToEmpty E lt eqv dedup C (up d g) i j l = Ok (up d g').
  Proof.
    unfold gb_mergeToEmpty. cbn [up g_front g_bs g_count]. intros H. okk. destruct (gb_merge E lt eqv dedup C l (b_ents a0)) as [r k]. okk. reflexivity.
  Qed.
  Lemma moveToEmpty_up d g i j g' : gb_moveToEmpty E C g i j = Ok g' -> gb_moveToEmpty E C (up d g) i j = Ok (up d g').
  Proof. unfold gb_moveToEmpty. cbn [up g_front g_bs g_count]. intros H. okk. reflexivity. Qed.
  Lemma assign_up d g i l g' : gb_assign E lt C g i l = Ok g' -> gb_assign E lt C (up d g) i l = Ok (up d g').
  Proof. unfold gb_assign. cbn [up g_front g_bs g_count]. intros H. okk. reflexivity. Qed.
  Lemma grow_up d : forall fuel g i acc g', grow_loop E C fuel g i acc = Ok g' -> grow_loop E C fuel (up d g) i acc = Ok (up d g').
  Proof.
    induction fuel as [|fuel IH]; intros g i acc g' H; cbn [grow_loop] in *; [discriminate|]. apply bind_inv in H as (g1 & H1 & H).
    assert ((if i =? length (g_bs (up d g)) then gb_addBucket E C (up d g) else Ok (up d g)) = Ok (up d g1)) as ->.
    { cbn [up g_bs]. destruct (i =? length (g_bs g)); [now apply addBucket_up|okk; reflexivity]. }
    cbn [bind]. apply bind_inv in H as (bk & Hb & H). change (g_bs (up d g1)) with (g_bs g1). rewrite Hb. cbn [bind].
    destruct (_ <=? _); [okk; reflexivity|auto].
  Qed.
  Lemma carry_up d go : (forall g i l g', go g i l = Ok g' -> go (up d g) i l = Ok (up d g')) ->
    forall g i l g', carry E lt eqv dedup C go g i l = Ok g' -> carry E lt eqv dedup C go (up d g) i l = Ok (up d g').
  Proof.
    intros Hgo g i l g' H. unfold carry in *. cbn [up g_front g_bs g_count]. okk. destruct (b_empty E a0); [now apply mergeToEmpty_up|].
    destruct (gb_merge E lt eqv dedup C l (b_ents a)) as [r k]. okk. destruct (_ <? _); [discriminate|]. okk.
    match goal with H : go _ _ _ = Ok _ |- _ => apply Hgo in H; exact H end.
  Qed.
  Lemma carry_loop_up d : forall fuel g i l g', carry_loop E lt eqv dedup C fuel g i l = Ok g' -> carry_loop E lt eqv dedup C fuel (up d g) i l = Ok (up d g').
  Proof.
    induction fuel as [|fuel IH]; intros g i l g' H; cbn [carry_loop] in *; [discriminate|]. change (g_bs (up d g)) with (g_bs g). okk.
    destruct (_ <=? _); [now apply mergeRange_up|]. apply carry_up; auto.
  Qed.
  Lemma nopremerge_up d g i l g' : gb_insert_nopremerge E lt eqv dedup C g i l = Ok g' -> gb_insert_nopremerge E lt eqv dedup C (up d g) i l = Ok (up d g').
  Proof.
    unfold gb_insert_nopremerge. change (g_bs (up d g)) with (g_bs g). intros H. okk. destruct (b_empty E a); [now apply assign_up|].
    destruct (_ <=? _); [now apply mergeRange_up|]. apply bind_inv in H1 as (g1 & Hg & H1). rewrite (grow_up d _ _ _ _ _ Hg). cbn [bind].
    apply carry_up; auto. apply carry_loop_up.
  Qed.
  Lemma pre_range_up d : forall fuel g r inc g' r', pre_range E C fuel g r inc = Ok (g', r') -> pre_range E C fuel (up d g) r inc = Ok (up d g', r').
  Proof.
    induction fuel as [|fuel IH]; intros g r inc g' r' H; cbn [pre_range] in *; [discriminate|]. change (g_bs (up d g)) with (g_bs g). okk.
    destruct (_ <=? _); [injection H1 as <- <-; reflexivity|]. destruct (_ =? _); [|auto].
    apply bind_inv in H1 as (g1 & Hg & H1). rewrite (addBucket_up d _ _ Hg). cbn [bind]. injection H1 as <- <-. reflexivity.
  Qed.
  Lemma pre_moves_up d : forall k g r g', pre_moves E C k g r = Ok g' -> pre_moves E C k (up d g) r = Ok (up d g').
  Proof.
    induction k as [|k IH]; intros g r g' H; cbn [pre_moves] in *; [okk; reflexivity|]. apply bind_inv in H as (g1 & Hg & H).
    rewrite (moveToEmpty_up d _ _ _ _ Hg). cbn [bind]. auto.
  Qed.
  Lemma premerge_up d g i l g' : gb_insert_premerge E lt eqv dedup C g i l = Ok g' -> gb_insert_premerge E lt eqv dedup C (up d g) i l = Ok (up d g').
  Proof.
    unfold gb_insert_premerge. change (g_bs (up d g)) with (g_bs g). intros H. apply bind_inv in H as ([g1 rb] & Hp & H).
    rewrite (pre_range_up d _ _ _ _ _ _ Hp). cbn [bind]. change (g_bs (up d g1)) with (g_bs g1). apply bind_inv in H as (g2 & H2 & H).
    match goal with |- bind ?m _ = _ => assert (m = Ok (up d g2)) as -> end.
    { clear H. destruct (i =? rb); [okk; reflexivity|]. apply bind_inv in H2 as (rbk & Hrb & H2). rewrite Hrb. cbn [bind].
      destruct (b_empty E rbk); [now apply pre_moves_up|]. apply bind_inv in H2 as (g3 & Hg & H2). rewrite (mergeToNonEmpty_up d _ _ _ _ Hg). cbn [bind]. now apply pre_moves_up. }
    cbn [bind]. change (g_bs (up d g2)) with (g_bs g2). okk. destruct (b_empty E a); [now apply assign_up|now apply mergeRange_up].
  Qed.
  Lemma insert_up d g i l g' : gb_insert E lt eqv dedup C g i l = Ok g' -> gb_insert E lt eqv dedup C (up d g) i l = Ok (up d g').
  Proof. unfold gb_insert. destruct (premerge C); [apply premerge_up|apply nopremerge_up]. Qed.
  Lemma push_up d g x g' : gb_push E lt eqv dedup C g x = Ok g' -> gb_push E lt eqv dedup C (up d g) x = Ok (up d g').
  Proof.
    unfold gb_push. change (g_bs (up d g)) with (g_bs g). change (g_front (up d g)) with (g_front g). change (S (g_count (up d g))) with (S (g_count g) + d).
    intros H. okk. destruct (_ =? _).
    - apply (insert_up d) in H1. exact H1.
    - destruct (b_empty E a); [okk; reflexivity|]. apply bind_inv in H1 as (pl & Hpl & H1). rewrite Hpl. cbn [bind].
      destruct pl; okk; reflexivity.
  Qed.
  Lemma add_up d : forall fuel g adj g', add_loop E C fuel g adj = Ok g' -> add_loop E C fuel (up d g) adj = Ok (up d g').
  Proof.
    induction fuel as [|fuel IH]; intros g adj g' H; cbn [add_loop] in *; [discriminate|]. change (g_bs (up d g)) with (g_bs g).
    destruct (_ <? _); [|okk; reflexivity]. apply bind_inv in H as (g1 & Hg & H). rewrite (addBucket_up d _ _ Hg). cbn [bind]. auto.
  Qed.
  Lemma pushRange_up d g xs g' : gb_pushRange E lt eqv dedup C g xs = Ok g' -> gb_pushRange E lt eqv dedup C (up d g) xs = Ok (up d g').
  Proof.
    unfold gb_pushRange. intros H. apply bind_inv in H as (g1 & Ha & H). apply (add_up d) in Ha. unfold up in Ha. cbn [g_bs g_front g_count] in Ha.
    replace (g_count g + length xs + d) with (g_count g + d + length xs) in Ha by lia. cbn [up g_bs g_front g_count]. rewrite Ha. cbn [bind g_bs].
    okk. apply (insert_up d) in H1. exact H1.
  Qed.
  Lemma pop_up d g g' x : gb_pop E lt eqv dedup C g = Ok (g', x) -> gb_pop E lt eqv dedup C (up d g) = Ok (up d g', x).
  Proof.
    unfold gb_pop. intros H. apply bind_inv in H as ([g1 m] & Hm & H). rewrite (getMax_up d _ _ _ Hm). cbn [bind up g_bs g_front g_count].
    okk. match goal with H : f_keyDecreased _ _ _ _ _ _ _ _ _ = Ok ?r |- _ => destruct r as [[bs' cnt'] f]; rewrite (keyDecreased_up d _ _ _ _ _ _ _ H) end.
    cbn [bind]. okk. reflexivity.
  Qed.
  Lemma top_up d g g' x : gb_top E lt eqv dedup C g = Ok (g', x) -> gb_top E lt eqv dedup C (up d g) = Ok (up d g', x).
  Proof.
    unfold gb_top. intros H. apply bind_inv in H as ([g1 m] & Hm & H). rewrite (getMax_up d _ _ _ Hm). cbn [bind up g_bs g_front g_count].
    okk. reflexivity.
  Qed.
  Lemma decreaseTop_up d g x g' : gb_decreaseTop E lt eqv dedup C g x = Ok g' -> gb_decreaseTop E lt eqv dedup C (up d g) x = Ok (up d g').
  Proof.
    unfold gb_decreaseTop. intros H. apply bind_inv in H as ([g1 y] & Hm & H). rewrite (pop_up d _ _ _ Hm). cbn [bind]. now apply push_up.
  Qed.
End Up.

(** * What is kept *)
Section Keep.
  Context {E : Type}.
  Variable lt eqv : E -> E -> bool.
  Variable dedup : E -> E -> E.
  Variable C : config.
  Hypothesis Hsw : strict_weak lt.
  Hypothesis Heq : supportDeduplication C = true -> forall a b, lt a b = false -> eqv a b = true -> equivalent lt a b.
  Hypothesis Hdd : supportDeduplication C = true -> forall a b, (eqv a b || eqv b a) = true -> equivalent lt (dedup a b) a.
  Hypothesis Hg : 2 <= geoBase C.
  Hypothesis Hm : 1 <= minBucketSize C.
  Hypothesis Hif : 1 <= insertFactor C.
  Hypothesis Htf : trackFront C = false.
  Hypothesis Hpm : premerge C = true.
  Hypothesis Hst : bucketStorage C <> Plain.

  Notation geobucket := (geobucket E).
  Notation dd := (dedup_dd (supportDeduplication C) (fun a b => eqv a b || eqv b a) dedup).
  Notation flat := (flat_map (@b_ents E)).
  Notation Inv := (Inv lt C).
  Notation inv := (inv lt C).
  Notation wf := (wf lt C).
  Notation cache_ok := (cache_ok lt).

  (** [g'] is [g] up to the count, which is right for [g] *)
  Definition same (g g' : geobucket) : Prop := g_bs g' = g_bs g /\ g_front g' = g_front g /\ (supportDeduplication C = false -> g_count g' = g_count g).

  Lemma same_refl g : same g g.
  Proof. repeat split; auto. Qed.

  Lemma cache_front p g : inv p g -> exists c, g_front g = FCache c.
  Proof. intros [_ _ Hf]. destruct (g_front g) as [c|a slots n toks]; simpl in Hf; [eauto|destruct Hf; congruence]. Qed.

  Lemma merge_left_count : supportDeduplication C = false -> forall l1 l2 b w k, gb_merge_x E lt eqv dedup C b l1 l2 = Left (w, k) -> k = 0.
  Proof.
    intros Hs. induction l1 as [|x l1 IH1]; [intros [|y l2] b w k H; discriminate H|].
    induction l2 as [|y l2 IH2]; intros b w k H; [discriminate H|]. cbn [gb_merge_x] in H. destruct b as [|b]; [congruence|].
    destruct (lt x y); [|replace (negb (supportDeduplication C) || negb (eqv x y)) with true in H by now rewrite Hs].
    - destruct (gb_merge_x E lt eqv dedup C b l1 (y :: l2)) as [b1 [r1 k1]|[r1 k1]] eqn:Hmx; cbn [wrote] in H; [discriminate H|].
      apply IH1 in Hmx. injection H as _ <-. exact Hmx.
    - change (wrote E y 0 (gb_merge_x E lt eqv dedup C b (x :: l1) l2) = Left (w, k)) in H.
      destruct (gb_merge_x E lt eqv dedup C b (x :: l1) l2) as [b1 [r1 k1]|[r1 k1]] eqn:Hmx; cbn [wrote] in H; [discriminate H|].
      apply IH2 in Hmx. injection H as _ <-. exact Hmx.
  Qed.

  Lemma mergeRange_left b g c i l g' : g_front g = FCache c -> gb_mergeRange_x E lt eqv dedup C b g i l = Ok (Left g') -> same g g'.
  Proof.
    intros Hc H. unfold gb_mergeRange_x in H. apply bind_inv in H as (bk & _ & H).
    assert (Hx : forall o : fout (list E * nat) (list E * nat), match o with
      | Left (w, k) => let* cnt := dec (g_count g) k in if area E C (g_bs g) bk <? length w then UB else Ok (Left (mk_gb (g_bs g) cnt (g_front g)))
      | Fine b (r, k) => let* cnt := dec (g_count g) k in let* b' := bk_hold E (area E C (g_bs g) bk) bk r in let* bs' := vset (g_bs g) i b' in
          fbind (fleft (mk_gb bs' cnt) (f_keyIncreased_x E lt C b bs' (g_front g) i)) (fun b f => Ok (Fine b (mk_gb bs' cnt f)))
      end = Ok (Left g') -> (forall w k, o = Left (w, k) -> supportDeduplication C = false -> k = 0) -> same g g').
    { clear H. intros [b1 [r k]|[w k]] H Hk; apply bind_inv in H as (cnt & Hd & H).
      - apply bind_inv in H as (b' & _ & H). apply bind_inv in H as (bs' & _ & H). rewrite Hc in H. cbn [f_keyIncreased_x fleft bind fbind] in H. discriminate H.
      - destruct (_ <? _); [discriminate H|]. injection H as <-. split; [reflexivity|split; [reflexivity|]]. intros Hs. rewrite (Hk w k eq_refl Hs) in Hd.
        unfold dec in Hd. cbn in Hd. injection Hd as <-. cbn [g_count]. lia. }
    destruct (bucketStorage C); [congruence| |];
      (eapply Hx; [exact H|]; intros w k Ho Hs; eapply merge_left_count; eassumption).
  Qed.
  Lemma mergeToNonEmpty_left b g c to from g' : g_front g = FCache c -> gb_mergeToNonEmpty_x E lt eqv dedup C b g to from = Ok (Left g') -> same g g'.
  Proof.
    intros Hc H. unfold gb_mergeToNonEmpty_x in H. rewrite Htf in H. cbn [negb bind] in H. rewrite Hc in H. cbn [f_swapKeys bind] in H.
    apply bind_inv in H as (bf & _ & H). apply fbind_left in H as [H|(b1 & g1 & _ & H)].
    - eapply mergeRange_left in H; [|reflexivity]. destruct H as (H1 & H2 & H3). cbn [g_bs g_count g_front] in *. split; [exact H1|split; [congruence|exact H3]].
    - apply bind_inv in H as (x & _ & H). apply bind_inv in H as (y & _ & H). apply bind_inv in H as (z & _ & H). discriminate H.
  Qed.
  Lemma assign_left b g c i l g' : g_front g = FCache c -> gb_assign_x E lt C b g i l = Ok (Left g') -> False.
  Proof.
    intros Hc H. unfold gb_assign_x in H. apply bind_inv in H as (x & _ & H). apply bind_inv in H as (y & _ & H). apply bind_inv in H as (z & _ & H).
    rewrite Hc in H. cbn in H. discriminate H.
  Qed.
  Lemma addBucket_left b g g' : gb_addBucket_x E C b g = Ok (Left g') -> g' = g.
  Proof.
    intros H. unfold gb_addBucket_x in H. apply client_left in H as [H|(b1 & -> & H)]; [exact H|]. apply bind_inv in H as (x & _ & H). discriminate H.
  Qed.
  Lemma addBucket_cache g c g' : g_front g = FCache c -> gb_addBucket E C g = Ok g' -> g_front g' = FCache None.
  Proof. intros Hc H. unfold gb_addBucket in H. rewrite Hc in H. injection H as <-. reflexivity. Qed.
  Lemma pre_range_left : forall fuel b g r inc g', pre_range_x E C fuel b g r inc = Ok (Left g') -> g' = g.
  Proof.
    induction fuel as [|fuel IH]; intros b g r inc g' H; cbn [pre_range_x] in H; [discriminate H|]. apply bind_inv in H as (rb & _ & H).
    destruct (_ <=? _); [discriminate H|]. destruct (_ =? _); [|eauto]. apply fbind_left in H as [H|(b1 & g1 & _ & H)]; [now apply addBucket_left in H|discriminate H].
  Qed.
  Lemma pre_range_front : forall fuel g c r inc g' r', g_front g = FCache c -> pre_range E C fuel g r inc = Ok (g', r') -> g' = g \/ g_front g' = FCache None.
  Proof.
    induction fuel as [|fuel IH]; intros g c r inc g' r' Hc H; cbn [pre_range] in H; [discriminate H|]. apply bind_inv in H as (rb & _ & H).
    destruct (_ <=? _); [injection H as <- <-; auto|]. destruct (_ =? _); [|eauto]. apply bind_inv in H as (g1 & Ha & H). injection H as <- <-.
    right. eapply addBucket_cache; eassumption.
  Qed.
  Lemma moveToEmpty_from g c i j g' : g_front g = FCache c -> gb_moveToEmpty E C g i j = Ok g' ->
    g_front g' = FCache c /\ exists bk, vget (g_bs g') j = Ok bk /\ b_empty E bk = true.
  Proof.
    intros Hc H. unfold gb_moveToEmpty in H. apply bind_inv in H as (bt & _ & H). apply bind_inv in H as (bf & _ & H). apply bind_inv in H as (bt' & _ & H).
    apply bind_inv in H as (bs1 & _ & H). apply bind_inv in H as (bs2 & Hv & H). apply bind_inv in H as (f & Hf & H). injection H as <-. cbn [g_bs g_front].
    rewrite Hc in Hf. injection Hf as <-. split; [reflexivity|].
    unfold vset in Hv. destruct (Nat.ltb_spec j (length bs1)) as [Hlt|]; [|discriminate Hv]. injection Hv as <-.
    exists (bk_clear E bf). split; [|reflexivity]. unfold vget. now rewrite nth_upd_same by exact Hlt.
  Qed.
  Lemma pre_moves_from : forall k g c r g', g_front g = FCache c -> pre_moves E C k g r = Ok g' ->
    g_front g' = FCache c /\ (k <> 0 -> exists bk, vget (g_bs g') (r - k) = Ok bk /\ b_empty E bk = true).
  Proof.
    induction k as [|k IH]; intros g c r g' Hc H; cbn [pre_moves] in H.
    - injection H as <-. split; [exact Hc|congruence].
    - apply bind_inv in H as (g1 & Hmv & H). apply (moveToEmpty_from g c) in Hmv as [Hc1 He]; [|exact Hc]. destruct (IH g1 c (r - 1) g' Hc1 H) as [Hc' Hk].
      split; [exact Hc'|]. intros _. destruct k as [|k].
      + cbn [pre_moves] in H. injection H as <-. exact He.
      + replace (r - S (S k)) with (r - 1 - S k) by lia. apply Hk. discriminate.
  Qed.
  Lemma mergeRange_front g c i l g' : g_front g = FCache c -> gb_mergeRange E lt eqv dedup C g i l = Ok g' -> g_front g' = FCache None.
  Proof.
    intros Hc H. unfold gb_mergeRange in H. apply bind_inv in H as (bk & _ & H). destruct (match bucketStorage C with Plain => _ | _ => gb_merge E lt eqv dedup C (b_ents bk) l end) as [r k].
    apply bind_inv in H as (cnt & _ & H). destruct (match bucketStorage C with Plain => _ | _ => false end); [discriminate H|].
    apply bind_inv in H as (b' & _ & H). apply bind_inv in H as (bs' & _ & H). apply bind_inv in H as (f & Hf & H). rewrite Hc in Hf. injection Hf as <-. injection H as <-. reflexivity.
  Qed.
  Lemma mergeToNonEmpty_from g c to from g' : g_front g = FCache c -> gb_mergeToNonEmpty E lt eqv dedup C g to from = Ok g' ->
    g_front g' = FCache None /\ exists bk, vget (g_bs g') from = Ok bk /\ b_empty E bk = true.
  Proof.
    intros Hc H. unfold gb_mergeToNonEmpty in H. rewrite Htf in H. cbn [negb bind] in H. rewrite Hc in H. cbn [f_swapKeys bind] in H.
    apply bind_inv in H as (bf & _ & H). apply bind_inv in H as (g1 & Hmr & H). eapply mergeRange_front in Hmr; [|reflexivity].
    apply bind_inv in H as (b1 & _ & H). apply bind_inv in H as (bs & Hv & H). rewrite Hmr in H. cbn [f_remove bind] in H. injection H as <-. split; [reflexivity|]. cbn [g_bs].
    unfold vset in Hv. destruct (Nat.ltb_spec from (length (g_bs g1))) as [Hlt|]; [|discriminate Hv]. injection Hv as <-.
    exists (bk_clear E b1). split; [|reflexivity]. unfold vget. now rewrite nth_upd_same by exact Hlt.
  Qed.

  (** [kept p g g']: [g'] holds what [g] holds, its buckets are in order, and without de-duplication it counts [p] entries too many *)
  Definition kept (p : nat) (g g' : geobucket) : Prop :=
    exists g0, inv p g0 /\ cache_ok (g_bs g0) (g_front g0) /\ merges dd (flat (g_bs g)) (flat (g_bs g0)) /\ same g0 g'.

  Lemma insert_left p b g i bb l g' : inv (length l + p) g -> cache_ok (g_bs g) (g_front g) -> nth_error (g_bs g) i = Some bb -> length l <= b_cap bb ->
    gb_insert_premerge_x E lt eqv dedup C b g i l = Ok (Left g') -> kept (length l + p) g g'.
  Proof.
    intros Hi Hcf Hbb Hl H. destruct (cache_front _ _ Hi) as [c Hc]. unfold gb_insert_premerge_x in H. apply fbind_left in H as [H|(b1 & [g1 rb] & Hpr & H)].
    { apply pre_range_left in H. subst g'. exists g. split; [exact Hi|split; [exact Hcf|split; [apply merges_refl|apply same_refl]]]. }
    apply pre_range_normal in Hpr. pose proof (nth_error_some_lt _ _ _ Hbb) as Hlt.
    destruct (pre_range_ok lt C Hg Hm (length l + p) (S (length (g_bs g))) g i (length l) bb Hi Hbb Hl) as (g1' & ext & rb' & rbk & Hpr' & Hi1 & Hbs1 & Hext & Hle & _); [lia|].
    rewrite Hpr in Hpr'. injection Hpr' as <- <-.
    assert (Hcf1 : cache_ok (g_bs g1) (g_front g1)).
    { destruct (pre_range_front _ _ _ _ _ _ _ Hc Hpr) as [->|Hn]; [exact Hcf|]. rewrite Hn. exact I. }
    exists g1. split; [exact Hi1|split; [exact Hcf1|split; [rewrite Hbs1, flat_map_app, Hext, app_nil_r; apply merges_refl|]]].
    destruct (cache_front _ _ Hi1) as [c1 Hc1]. clear Hpr Hext Hbs1. apply fbind_left in H as [H|(b2 & g2 & H2 & H)].
    - destruct (i =? rb); [discriminate H|]. apply bind_inv in H as (rk & _ & H). destruct (b_empty E rk).
      { apply bind_inv in H as (x & _ & H). discriminate H. }
      apply fbind_left in H as [H|(b3 & g3 & _ & H)]; [|apply bind_inv in H as (x & _ & H); discriminate H].
      apply mergeToNonEmpty_left with (c := c1) in H; [exact H|exact Hc1].
    - destruct (Nat.eqb_spec i rb) as [->|Hne].
      + injection H2 as <- <-. apply bind_inv in H as (bk & _ & H). destruct (b_empty E bk).
        * apply assign_left with (c := c1) in H; [destruct H|exact Hc1].
        * apply mergeRange_left with (c := c1) in H; [exact H|exact Hc1].
      + exfalso. assert (He : exists c2, g_front g2 = FCache c2 /\ exists bk, vget (g_bs g2) i = Ok bk /\ b_empty E bk = true).
        { apply bind_inv in H2 as (rk & _ & H2). destruct (b_empty E rk).
          - apply bind_inv in H2 as (g3 & Hmv & H2). injection H2 as _ <-. destruct (pre_moves_from _ _ _ _ _ Hc1 Hmv) as [Hf He].
            exists c1. split; [exact Hf|]. destruct He as (bk & Hb & He); [lia|]. replace (rb - (rb - i)) with i in Hb by lia. eauto.
          - apply fbind_fine in H2 as (b3 & g3 & Hmg & H2). apply mergeToNonEmpty_normal in Hmg.
            destruct (mergeToNonEmpty_from _ _ _ _ _ Hc1 Hmg) as [Hf3 He3].
            apply bind_inv in H2 as (g4 & Hmv & H2). injection H2 as _ <-. destruct (pre_moves_from _ _ _ _ _ Hf3 Hmv) as [Hf He].
            exists None. split; [exact Hf|]. destruct (Nat.eq_dec (rb - 1 - i) 0) as [Hz|Hnz].
            + rewrite Hz in Hmv. cbn [pre_moves] in Hmv. injection Hmv as <-. replace i with (rb - 1) by lia. exact He3.
            + destruct (He Hnz) as (bk & Hb & He'). replace (rb - 1 - (rb - 1 - i)) with i in Hb by lia. eauto. }
        destruct He as (c2 & Hf2 & bk & Hb & He). rewrite Hb in H. cbn [bind] in H. rewrite He in H. eapply assign_left; eassumption.
  Qed.

  Lemma bin_left left x l : forall fuel b beg rg g', bin_search_x E lt eqv C left fuel b l x beg rg = Ok (Left g') -> g' = left.
  Proof.
    induction fuel as [|fuel IH]; intros b beg rg g' H; cbn [bin_search_x] in H; [discriminate H|]. destruct (rg =? 0); [discriminate H|].
    apply bind_inv in H as (y & _ & H). apply client_left in H as [H|(b1 & -> & H)]; [exact H|]. destruct (lt x y); [eauto|]. destruct (_ || _); [eauto|discriminate H].
  Qed.
  Lemma lin_left left x : forall l b pos g', lin_search_x E lt eqv C left b l x pos = Ok (Left g') -> g' = left.
  Proof.
    induction l as [|y l IH]; intros b pos g' H; cbn [lin_search_x] in H; [discriminate H|]. apply client_left in H as [H|(b1 & -> & H)]; [exact H|].
    destruct (lt x y); [discriminate H|]. destruct (_ && _); [discriminate H|eauto].
  Qed.

  Lemma raised p k g : inv p g -> inv (k + p) (mk_gb (g_bs g) (g_count g + k) (g_front g)).
  Proof. intros [Hw Hc Hf]. split; cbn [g_bs g_count g_front]; auto. lia. Qed.

  Lemma push_left b g x g' : Inv g -> push_x E lt eqv dedup C b g x = Ok (Left g') -> kept 1 g g'.
  Proof.
    intros [Hi Hcf] H. pose proof (raised 0 1 g Hi) as Hi1. rewrite Nat.add_1_r in Hi1. set (g1 := mk_gb (g_bs g) (S (g_count g)) (g_front g)) in *.
    assert (Hk1 : kept 1 g g1).
    { exists g1. split; [exact Hi1|split; [exact Hcf|split; [apply merges_refl|apply same_refl]]]. }
    destruct (cache_front _ _ Hi) as [c Hc]. unfold push_x in H. apply bind_inv in H as (bk & Hb & H). fold g1 in H. destruct (b_size E bk =? b_cap bk) eqn:Hfull.
    - unfold gb_insert_x in H. rewrite Hpm in H. assert (Hbn : nth_error (g_bs g1) 0 = Some bk).
      { cbn [g1 g_bs]. unfold vget in Hb. destruct (nth_error (g_bs g) 0); cbn in Hb; congruence. }
      destruct (insert_left 0 b g1 0 bk [x] g' Hi1 Hcf Hbn) as (g0 & H1 & H2 & H3 & H4); [|exact H|].
      + pose proof (cap_pos lt C Hg Hm _ _ _ (i_wf _ _ _ _ Hi1) Hbn). cbn [length]. lia.
      + exists g0. split; [exact H1|split; [exact H2|split; [exact H3|exact H4]]].
    - destruct (b_empty E bk).
      + apply bind_inv in H as (b' & _ & H). apply bind_inv in H as (bs & _ & H). rewrite Hc in H. cbn in H. discriminate H.
      + apply fbind_left in H as [H|(b1 & pl & _ & H)].
        * assert (g' = g1) as -> by (destruct (minBucketBinarySearch C); [eapply bin_left|eapply lin_left]; eassumption). exact Hk1.
        * destruct pl as [i| |i].
          -- apply bind_inv in H as (b' & _ & H). apply bind_inv in H as (bs & _ & H). discriminate H.
          -- apply bind_inv in H as (b' & _ & H). apply bind_inv in H as (bs & _ & H). rewrite Hc in H. cbn in H. discriminate H.
          -- apply client_left in H as [->|(b2 & -> & H)]; [exact Hk1|]. apply bind_inv in H as (y & _ & H). apply bind_inv in H as (b' & _ & H).
             apply bind_inv in H as (bs & _ & H). apply bind_inv in H as (cnt & _ & H). discriminate H.
  Qed.

  Lemma add_left p adj : forall fuel b g g', inv p g -> cache_ok (g_bs g) (g_front g) -> add_loop_x E C fuel b g adj = Ok (Left g') ->
    inv p g' /\ cache_ok (g_bs g') (g_front g') /\ flat (g_bs g') = flat (g_bs g).
  Proof.
    induction fuel as [|fuel IH]; intros b g g' Hi Hcf H; cbn [add_loop_x] in H; [discriminate H|]. destruct (_ <? _); [|discriminate H].
    apply fbind_left in H as [H|(b1 & g1 & Ha & H)]; [apply addBucket_left in H; subst g'; auto|].
    apply addBucket_normal in Ha. destruct (addBucket_ok lt C Hg Hm p g Hi) as (g1' & cb & Ha' & Hi1 & Hbs & Hce & Hcf1). rewrite Ha in Ha'. injection Ha' as <-.
    destruct (IH b1 g1 g' Hi1 Hcf1 H) as (H1 & H2 & H3). split; [exact H1|split; [exact H2|]]. rewrite H3, Hbs, flat_map_app. cbn. now rewrite Hce, !app_nil_r.
  Qed.
  Lemma add_cache p adj : forall fuel g g', inv p g -> cache_ok (g_bs g) (g_front g) -> add_loop E C fuel g adj = Ok g' -> cache_ok (g_bs g') (g_front g').
  Proof.
    induction fuel as [|fuel IH]; intros g g' Hi Hcf H; cbn [add_loop] in H; [discriminate H|]. destruct (_ <? _); [|injection H as <-; exact Hcf].
    apply bind_inv in H as (g1 & Ha & H). destruct (addBucket_ok lt C Hg Hm p g Hi) as (g1' & cb & Ha' & Hi1 & Hbs & Hce & Hcf1). rewrite Ha in Ha'. injection Ha' as <-. eauto.
  Qed.

  Lemma pushRange_left b g xs g' : Inv g -> xs <> [] -> pushRange_x E lt eqv dedup C b g xs = Ok (Left g') -> kept (length xs) g g'.
  Proof.
    intros [Hi Hcf] Hne H. pose proof (raised 0 (length xs) g Hi) as Hi1. rewrite Nat.add_0_r in Hi1. unfold pushRange_x in H.
    apply fbind_left in H as [H|(b1 & g1 & Ha & H)].
    - eapply add_left in H; [|exact Hi1|exact Hcf]. destruct H as (H1 & H2 & H3). exists g'. split; [exact H1|split; [exact H2|split; [|apply same_refl]]].
      rewrite H3. cbn [g_bs]. apply merges_refl.
    - apply add_normal in Ha. pose proof (add_cache _ _ _ _ _ Hi1 Hcf Ha) as Hcf1.
      destruct (add_loop_ok lt C Hg Hm (length xs) (length xs * insertFactor C) (S (length xs * insertFactor C)) _ Hi1) as (g1' & ext & Ha' & Hi2 & Hbs & Hext & Hle); [lia|].
      rewrite Ha in Ha'. injection Ha' as <-. cbn [g_bs] in Hbs.
      destruct (find_bucket_ok C Hg Hm (length xs * insertFactor C) (g_bs g1) 0) as (j & bb & Hfb & Hj & Hcap).
      { destruct (largest_ok lt C _ (i_wf _ _ _ _ Hi2)) as (bs' & bl & Hbs' & Hlg & Hnth). exists bl. split; [eapply nth_error_In; eauto|lia]. }
      rewrite Hfb in H. cbn [bind] in H. rewrite Nat.add_0_l in H. unfold gb_insert_x in H. rewrite Hpm in H.
      replace (length xs) with (length (rev xs) + 0) in Hi2 by (rewrite rev_length; lia).
      destruct (insert_left 0 b1 g1 j bb (rev xs) g' Hi2 Hcf1 Hj) as (g0 & H1 & H2 & H3 & H4); [rewrite rev_length; nia|exact H|].
      rewrite rev_length, Nat.add_0_r in H1. exists g0. split; [exact H1|split; [exact H2|split; [|exact H4]]].
      rewrite Hbs, flat_map_app, Hext, app_nil_r in H3. exact H3.
  Qed.

  Lemma cm_left : forall k b bs cnt m it x bs' cnt', it + k <= length bs -> wf bs -> cnt = length (flat bs) -> m < it -> ko bs m = Some x ->
    cm_loop_x E lt eqv dedup C b k bs cnt m it = Ok (Left (bs', cnt')) ->
    wf bs' /\ cnt' = length (flat bs') /\ merges dd (flat bs) (flat bs').
  Proof.
    induction k as [|k IH]; intros b bs cnt m it x bs' cnt' Hk Hw Hc Hmi Hx H; cbn [cm_loop_x] in H; [discriminate H|].
    apply bind_inv in H as (bk & Hb & H). assert (Hbn : nth_error bs it = Some bk) by (unfold vget in Hb; destruct (nth_error bs it); cbn in Hb; congruence).
    destruct (b_empty_spec bk) as [He|Hne]; [eapply (IH b bs cnt m (S it) x); eauto; lia|].
    destruct (@CmpListProofs.last_entry_some E _ Hne) as (bl & y & Hbl & Hy). rewrite (bk_back_ok lt C bk y) in H by (auto; eapply wf_good; eauto). cbn [bind] in H.
    rewrite (key_ok lt C bs m x Hw Hx) in H. cbn [bind] in H. assert (Hkit : ko bs it = Some y) by (rewrite (ko_some _ _ _ Hbn); auto).
    assert (Hstop : wf bs /\ cnt = length (flat bs) /\ merges dd (flat bs) (flat bs)) by (split; [exact Hw|split; [exact Hc|apply merges_refl]]).
    apply client_left in H as [H|(b1 & -> & H)]; [injection H as -> ->; exact Hstop|].
    destruct (lt y x) eqn:Hlt; [eapply (IH b1 bs cnt m (S it) x); eauto; lia|].
    destruct (supportDeduplication C && eqv y x) eqn:Hd; [|eapply (IH b1 bs cnt it (S it) y); eauto; lia].
    apply client_left in H as [H|(b2 & -> & H)]; [injection H as -> ->; exact Hstop|].
    apply andb_true_iff in Hd as [Hs Hev]. destruct (CmpListProofs.eqv_both lt lt eqv dedup C Heq Hdd y x Hs Hlt Hev) as (Exy & _ & Hdx & _ & Hddxy).
    destruct (absorb lt eqv dedup C Hsw Hg Hm Hif bs m it x y (dedup x y)) as (bi & bi' & bj & bj' & Hbi & Hset & Hbj & Hpop & Hil & Hjl & Hw' & Hki & Hkj & Hko & Hmg & Hlen); auto; [lia|].
    unfold vget in H at 1. rewrite Hbi in H. cbn [of_option bind] in H. rewrite Hset in H. cbn [bind] in H. rewrite vset_ok in H by auto. cbn [bind] in H.
    unfold vget in H at 1. rewrite nth_upd_other in H by lia. rewrite Hbj in H. cbn [of_option bind] in H. rewrite Hpop in H. cbn [bind] in H.
    rewrite vset_ok in H by (now rewrite upd_length). cbn [bind] in H. unfold dec in H. destruct (Nat.leb_spec 1 cnt); [|lia]. cbn [bind] in H.
    destruct (IH b2 (upd (upd bs m bi') it bj') (cnt - 1) m (S it) (dedup x y) bs' cnt') as (H1 & H2 & H3); auto; [rewrite !upd_length; lia|lia|].
    split; [exact H1|split; [exact H2|eapply merges_trans; eauto]].
  Qed.

  Lemma getMax_left b g g' : Inv g -> gb_getMax_x E lt eqv dedup C b g = Ok (Left g') -> Inv g' /\ merges dd (flat (g_bs g)) (flat (g_bs g')).
  Proof.
    intros [Hi Hcf] H. destruct (cache_front _ _ Hi) as [c Hc]. pose proof Hi as [Hw Hcnt Hf]. unfold gb_getMax_x in H. rewrite Hc in H. destruct c as [m|]; [discriminate H|].
    pose proof (first_nonempty_ok C Hg Hm Hif (g_bs g) 0) as Hfn. destruct (first_nonempty E (g_bs g) 0) as [m| | |]; cbn [bind] in H; try discriminate H.
    rewrite Nat.sub_0_r in Hfn. destruct Hfn as (_ & (bk & Hb & Hbn) & _). pose proof (nth_error_some_lt _ _ _ Hb) as Hml.
    destruct (@CmpListProofs.last_entry_some E _ Hbn) as (bl & x & Hbl & Hx). apply fbind_left in H as [H|(b1 & [[bs1 c1] m1] & _ & H)]; [|discriminate H].
    apply fleft_left in H as ([bs1 c1] & H & ->). cbn [fst snd] in *.
    assert (Hmk : S m + (length (g_bs g) - S m) <= length (g_bs g)) by lia.
    assert (Hmx : ko (g_bs g) m = Some x) by now rewrite (ko_some _ _ _ Hb).
    destruct (cm_left _ _ _ _ _ _ x _ _ Hmk Hw Hcnt (Nat.lt_succ_diag_r m) Hmx H) as (H1 & H2 & H3).
    split; [|exact H3]. split; [split; cbn [g_bs g_count g_front]; auto|exact I].
  Qed.
  Lemma pop_left b g g' : Inv g -> pop_x E lt eqv dedup C b g = Ok (Left g') -> Inv g' /\ merges dd (flat (g_bs g)) (flat (g_bs g')).
  Proof.
    intros Hi H. unfold pop_x in H. apply fbind_left in H as [H|(b1 & [g1 m] & Hgm & H)]; [now apply getMax_left in H|]. exfalso.
    apply getMax_normal in Hgm. pose proof (getMax_ok lt eqv dedup C Hsw Heq Hdd Hg Hm Hif g Hi) as Hok. rewrite Hgm in Hok. destruct Hok as ([Hi1 _] & _).
    destruct (cache_front _ _ Hi1) as [c Hc].
    apply bind_inv in H as (x1 & _ & H). apply bind_inv in H as (x2 & _ & H). apply bind_inv in H as (x3 & _ & H). apply bind_inv in H as (x4 & _ & H).
    apply bind_inv in H as (x5 & _ & H). rewrite Hc in H. cbn in H. discriminate H.
  Qed.
  Lemma top_left b g g' : Inv g -> top_x E lt eqv dedup C b g = Ok (Left g') -> Inv g' /\ merges dd (flat (g_bs g)) (flat (g_bs g')).
  Proof.
    intros Hi H. unfold top_x in H. apply fbind_left in H as [H|(b1 & [g1 m] & Hgm & H)]; [now apply getMax_left in H|]. exfalso.
    apply bind_inv in H as (x1 & _ & H). discriminate H.
  Qed.

  Lemma kept_inv g g' : Inv g' -> merges dd (flat (g_bs g)) (flat (g_bs g')) -> kept 0 g g'.
  Proof. intros [Hi Hcf] Hmg. exists g'. split; [exact Hi|split; [exact Hcf|split; [exact Hmg|apply same_refl]]]. Qed.
  Lemma kept_merges p g g' : kept p g g' -> merges dd (flat (g_bs g)) (flat (g_bs g')).
  Proof. intros (g0 & _ & _ & Hmg & Hbs & _). now rewrite Hbs. Qed.

  (** What the queue holds after an exception: what it held, except that decreaseTop may have removed the top entry. *)
  Definition after (l : list E) (o : op E) (l' : list E) : Prop :=
    merges dd l l' \/
    match o with DecreaseTop _ => exists t m, merges dd l (t :: m) /\ is_max lt t (t :: m) /\ merges dd m l' | _ => False end.

  Lemma step_left b g o g' : Inv g -> o <> PushRange [] -> gb_step_x E lt eqv dedup C b g o = Ok (Left g') ->
    exists p g1, kept p g1 g' /\ after (flat (g_bs g)) o (flat (g_bs g')).
  Proof.
    intros Hi Hne H. destruct o as [x|xs| | |x| | | |]; cbn [gb_step_x] in H; try (apply bind_inv in H as (y & _ & H); discriminate H).
    - apply fbind_left in H as [H|(b1 & g1 & _ & H)]; [|discriminate H]. apply push_left in H; [|exact Hi]. exists 1, g. split; [exact H|]. left. eapply kept_merges; eassumption.
    - apply fbind_left in H as [H|(b1 & g1 & _ & H)]; [|discriminate H]. apply pushRange_left in H; [|exact Hi|congruence]. exists (length xs), g. split; [exact H|].
      left. eapply kept_merges; eassumption.
    - apply fbind_left in H as [H|(b1 & [g1 y] & _ & H)]; [|discriminate H]. apply pop_left in H as [H1 H2]; [|exact Hi]. exists 0, g. split; [now apply kept_inv|now left].
    - apply fbind_left in H as [H|(b1 & [g1 y] & _ & H)]; [|discriminate H]. apply top_left in H as [H1 H2]; [|exact Hi]. exists 0, g. split; [now apply kept_inv|now left].
    - apply fbind_left in H as [H|(b1 & g1 & _ & H)]; [|discriminate H]. unfold decreaseTop_x in H. apply fbind_left in H as [H|(b1 & [g1 y] & Hp & H)].
      + apply pop_left in H as [H1 H2]; [|exact Hi]. exists 0, g. split; [now apply kept_inv|now left].
      + apply pop_normal in Hp. pose proof (pop_ok lt eqv dedup C Hsw Heq Hdd Hg Hm Hif g Hi) as Hok. rewrite Hp in Hok. destruct Hok as (Hi1 & m & H1 & H2 & H3).
        apply push_left in H; [|exact Hi1]. exists 1, g1. split; [exact H|]. right. exists y, m. split; [exact H1|split; [exact H2|]].
        eapply merges_trans; [exact H3|]. eapply kept_merges; eassumption.
  Qed.

  Lemma reach_left ops g rs o b g' : forallb (range_calls lt true) ops = true -> run (gb_step E lt eqv dedup C) (gb_new E C) ops = Ok (g, rs) ->
    o <> PushRange [] -> gb_step_x E lt eqv dedup C b g o = Ok (Left g') -> after (gb_forAll E g) o (gb_forAll E g').
  Proof.
    intros Ha Hr Ho Hx. assert (Hi : Inv g).
    { eapply inv_lift with (Inv := Inv) (api := range_calls lt (negb (trackFront C))); [|apply gb_new_inv; auto| |exact Hr].
      - intros s o' Hs Ho'. apply (gb_step_ok lt eqv dedup C Hsw Heq Hdd Hg Hm Hif s o' Hs Ho').
      - rewrite Htf. exact Ha. }
    destruct (step_left b g o g' Hi Ho Hx) as (p & g1 & _ & H). exact H.
  Qed.
End Keep.
