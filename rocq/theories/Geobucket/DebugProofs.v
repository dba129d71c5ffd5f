(** No assertion of Geobucket fails: with its assertions it computes what it computes without. *)
From Coq Require Import List Arith Bool Lia Permutation.
From Verif.Base Require Import Res Arr Order.
From Verif.Spec Require Import PQ PQFacts.
From Verif.Geobucket Require Import Model FrontProofs ListProofs Proofs Debug.
Import ListNotations.

(** Neighbours in a range, checked by [ok] *)
Fixpoint neighbours {E : Type} (ok : E -> E -> bool) (xs : list E) : bool :=
  match xs with
  | x :: (y :: _) as xs' => ok x y && neighbours ok xs'
  | _ => true
  end.
(** What the documentation asks of a range (Geobucket.h:138-140): it does not increase, and with de-duplication it decreases.  Here it also is
    not empty, and clear is only called if the front is not tracked. *)
Definition allowed_call {E : Type} (lt : E -> E -> bool) (C : config) (o : op E) : bool :=
  match o with
  | PushRange xs =>
      negb (length xs =? 0) && (if supportDeduplication C then neighbours (fun x y => lt y x) xs else neighbours (fun x y => negb (lt x y)) xs)
  | Clear => negb (trackFront C)
  | _ => true
  end.

Lemma asserted_true {A} b (r : res A) : b = true -> asserted b r = r.
Proof. now intros ->. Qed.

Section DebugProofs.
  Context {E : Type}.
  Variable lt eqv : E -> E -> bool.
  Variable dedup : E -> E -> E.
  Variable C : config.
  Hypothesis Hlt : strict_weak lt.
  Hypothesis Heq : supportDeduplication C = true -> forall a b, lt a b = false -> eqv a b = true -> equivalent lt a b.
  Hypothesis Hdd : supportDeduplication C = true -> forall a b, (eqv a b || eqv b a) = true -> equivalent lt (dedup a b) a.
  Hypothesis Hg : 2 <= geoBase C.
  Hypothesis Hm : 1 <= minBucketSize C.
  Hypothesis Hi : 1 <= insertFactor C.
  Notation bucket := (bucket E).
  Notation geobucket := (geobucket E).
  Notation flat := (flat_map (@b_ents E)).
  Notation Inv := (Inv lt C).
  Notation inv := (inv lt C).
  Notation asc := (asc lt).
  Notation wf := (wf lt C).
  Notation dd := (dedup_dd (supportDeduplication C) (fun a b => eqv a b || eqv b a) dedup).

  Lemma nonempty_b (b : bucket) : b_ents b <> [] -> b_empty E b = false.
  Proof. unfold b_empty. destruct (b_ents b); congruence. Qed.
  Lemma empty_b (b : bucket) : b_ents b = [] -> b_empty E b = true.
  Proof. unfold b_empty. now intros ->. Qed.
  Lemma some_b (l : list E) : l <> [] -> some_entry E l = true.
  Proof. destruct l; [congruence|auto]. Qed.

  Lemma mergeRange_d g i b l : nth_error (g_bs g) i = Some b -> b_ents b <> [] -> l <> [] -> length l <= b_cap b ->
    gb_mergeRange_d E lt eqv dedup C g i l = gb_mergeRange E lt eqv dedup C g i l.
  Proof.
    intros Hb Hne Hl Hc. unfold gb_mergeRange_d. unfold vget at 1. rewrite Hb. cbn [of_option bind]. apply asserted_true.
    rewrite nonempty_b, some_b by auto. apply Nat.leb_le in Hc. now rewrite Hc.
  Qed.
  Lemma mergeToEmpty_d g to from bt bf l : nth_error (g_bs g) to = Some bt -> nth_error (g_bs g) from = Some bf -> to <> from ->
    b_ents bt = [] -> b_ents bf <> [] -> l <> [] -> length l + length (b_ents bf) <= b_cap bt ->
    gb_mergeToEmpty_d E lt eqv dedup C g to from l = gb_mergeToEmpty E lt eqv dedup C g to from l.
  Proof.
    intros Ht Hf Hne He Hfe Hl Hc. unfold gb_mergeToEmpty_d. unfold vget at 1 2. rewrite Ht, Hf. cbn [of_option bind]. apply asserted_true.
    rewrite empty_b, nonempty_b, some_b by auto. apply Nat.leb_le in Hc. unfold b_size. rewrite Hc. apply Nat.eqb_neq in Hne. now rewrite Hne.
  Qed.
  Lemma moveToEmpty_d g to from bt bf : nth_error (g_bs g) to = Some bt -> nth_error (g_bs g) from = Some bf -> to <> from ->
    b_ents bt = [] -> b_ents bf <> [] -> length (b_ents bf) <= b_cap bt -> gb_moveToEmpty_d E C g to from = gb_moveToEmpty E C g to from.
  Proof.
    intros Ht Hf Hne He Hfe Hc. unfold gb_moveToEmpty_d. unfold vget at 1 2. rewrite Ht, Hf. cbn [of_option bind]. apply asserted_true.
    rewrite empty_b, nonempty_b by auto. apply Nat.leb_le in Hc. unfold b_size. rewrite Hc. apply Nat.eqb_neq in Hne. now rewrite Hne.
  Qed.
  Lemma remove_d (bs : list bucket) f i b : nth_error bs i = Some b -> b_ents b = [] -> f_remove_d E bs f i = f_remove f i.
  Proof.
    intros Hb He. destruct f; [reflexivity|]. unfold f_remove_d, vget. rewrite Hb. cbn [of_option bind]. apply asserted_true. now apply empty_b.
  Qed.
  Lemma insert_f (bs bs' : list bucket) f i b : front_ok lt C bs f -> i < length bs -> ko bs i = None -> nth_error bs' i = Some b -> b_ents b <> [] ->
    f_insert_d E lt C bs' f i = f_insert E lt C bs' f i.
  Proof.
    intros Hf Hil Hk Hb Hne. destruct f as [c|a slots n toks]; [reflexivity|]. unfold f_insert_d.
    destruct Hf as (_ & F & R & Ht & HF & _). unfold vget. rewrite (rep_not_in _ _ _ _ _ _ R), Hb; [|lia|].
    - cbn [of_option bind]. apply asserted_true. now rewrite nonempty_b.
    - intros Hin. apply HF in Hin. now apply Hin.
  Qed.

  Lemma assign_d p g i b l : inv (length l + p) g -> nth_error (g_bs g) i = Some b -> b_ents b = [] -> l <> [] ->
    gb_assign_d E lt C g i l = gb_assign E lt C g i l.
  Proof.
    intros [Hw Hc Hf] Hb He Hne. unfold gb_assign_d, gb_assign. unfold vget. rewrite Hb. cbn [of_option bind]. pose proof (nth_error_some_lt _ _ _ Hb) as Hil.
    unfold bk_hold. destruct (length l <=? _); [|reflexivity]. cbn [bind]. rewrite vset_ok by auto. cbn [bind].
    erewrite insert_f; eauto; [now apply (ko_none _ _ b)|now apply nth_upd_same|auto].
  Qed.

  Lemma mergeToNonEmpty_d g to from bt bf : nth_error (g_bs g) to = Some bt -> nth_error (g_bs g) from = Some bf -> to <> from ->
    b_ents bt <> [] -> b_ents bf <> [] -> length (b_ents bf) + length (b_ents bt) <= b_cap bt ->
    gb_mergeToNonEmpty_d E lt eqv dedup C g to from = gb_mergeToNonEmpty E lt eqv dedup C g to from.
  Proof.
    intros Ht Hf Hne He Hfe Hc. unfold gb_mergeToNonEmpty_d, gb_mergeToNonEmpty. unfold vget at 1 2. rewrite Ht, Hf. cbn [of_option bind].
    rewrite asserted_true.
    - destruct (if negb (trackFront C) then _ else _) as [sw| | |]; auto. cbn [bind].
      destruct (if sw then _ else _) as [f| | |]; auto. cbn [bind]. unfold vget at 1 3. rewrite Hf. cbn [of_option bind].
      rewrite (mergeRange_d _ to bt) by (auto; lia). destruct (gb_mergeRange _ _ _ _ _ _ _ _) as [g1| | |]; auto. cbn [bind].
      unfold vget. destruct (nth_error (g_bs g1) from) as [b1|] eqn:Hb1; auto. cbn [of_option bind].
      pose proof (nth_error_some_lt _ _ _ Hb1). rewrite vset_ok by auto. cbn [bind]. erewrite remove_d; [reflexivity|now apply nth_upd_same|reflexivity].
    - rewrite !nonempty_b by auto. apply Nat.eqb_neq in Hne. rewrite Hne. cbn [negb andb]. apply Nat.leb_le. unfold b_size. lia.
  Qed.

  Lemma carry_d_ok p go_d go_on g b l cur : inv (length l + p) g -> nth_error (g_bs g) b = Some cur -> b_ents cur <> [] -> asc l -> l <> [] ->
    length l <= b_cap cur -> room (g_bs g) (S b) (length l + length (b_ents cur)) ->
    (forall g' r nx, inv (length r + p) g' -> nth_error (g_bs g') (S b) = Some nx -> b_ents nx <> [] -> asc r -> r <> [] -> length r <= b_cap nx ->
       room (g_bs g') (S b) (length r) -> length (g_bs g') = length (g_bs g) -> go_d g' (S b) r = go_on g' (S b) r) ->
    carry_d E lt eqv dedup C go_d g b l = carry E lt eqv dedup C go_on g b l.
  Proof.
    intros Hin Hcur Hne Ha Hl0 Hl Hroom Hgo. pose proof Hin as [Hw Hc Hf]. destruct (room_nth _ _ _ Hroom) as [nx Hnx].
    unfold carry_d, carry, vget. rewrite Hcur, Hnx. cbn [of_option bind].
    pose proof (wf_good _ _ _ Hw _ _ Hcur) as [Hca Hcl _]. pose proof (cap_double lt C Hg Hm _ _ _ _ Hw Hcur Hnx) as Hdbl.
    destruct (b_empty_spec nx) as [He|Hnne].
    - eapply mergeToEmpty_d; eauto; lia.
    - destruct (gb_merge E lt eqv dedup C l (b_ents cur)) as [r k] eqn:Hmg.
      assert (Hmr : merged lt eqv dedup C l (b_ents cur) r k) by (eapply gb_merge_ok; eauto).
      pose proof (m_len _ _ _ _ _ _ _ _ Hmr) as Hml. pose proof (flat_ge C Hg Hm _ _ _ Hcur) as Hfg. pose proof (nth_error_some_lt _ _ _ Hcur) as Hb.
      unfold dec. destruct (Nat.leb_spec k (g_count g)); [|lia]. cbn [bind].
      pose proof (cap_largest lt C Hg Hm _ _ _ Hw Hnx) as Hlg. destruct (Nat.ltb_spec (largest E (g_bs g)) (length r)); [lia|].
      rewrite vset_ok by auto. cbn [bind]. erewrite remove_d; [|now apply nth_upd_same|reflexivity].
      destruct (fo_rm lt C (g_bs g) (upd (g_bs g) b (bk_clear E cur)) (g_front g) b) as (f' & -> & Hf' & _); auto.
      { apply upd_length. } { rewrite (ko_none _ _ _ Hcur). auto. } { rewrite ko_upd, Nat.eqb_refl by auto. reflexivity. }
      { intros j Hj. rewrite ko_upd by auto. destruct (Nat.eqb_spec j b); congruence. }
      cbn [bind]. pose proof (flat_upd _ _ _ (bk_clear E cur) Hcur) as P1. simpl in P1. pose proof (perm_len _ _ P1) as Hpl. rewrite app_length in Hpl.
      apply Hgo with (nx := nx).
      + split; cbn [g_bs g_count g_front]; auto; [|lia]. eapply wf_upd; eauto. now apply bk_clear_good.
      + cbn [g_bs]. rewrite nth_upd_other by lia. auto.
      + auto.
      + apply Hmr.
      + intros ->. destruct l; [congruence|]. destruct (b_ents cur); [congruence|]. simpl in Hmg.
        repeat match type of Hmg with context[if ?c then _ else _] => destruct c end; repeat match type of Hmg with context[let (_, _) := ?c in _] => destruct c end; discriminate.
      + lia.
      + cbn [g_bs]. apply (room_upd C Hg Hm); [|lia]. apply (room_mono C Hg Hm) with (1 := Hroom). lia.
      + cbn [g_bs]. apply upd_length.
  Qed.

  Lemma carry_loop_d_ok p : forall fuel g b tmp cur, inv (length tmp + p) g -> nth_error (g_bs g) b = Some cur -> b_ents cur <> [] -> asc tmp -> tmp <> [] ->
    length tmp <= b_cap cur -> room (g_bs g) b (length tmp) ->
    carry_loop_d E lt eqv dedup C fuel g b tmp = carry_loop E lt eqv dedup C fuel g b tmp.
  Proof.
    induction fuel as [|fuel IH]; intros g b tmp cur Hin Hcur Hne Ha Ht Hl Hroom; [reflexivity|].
    cbn [carry_loop_d carry_loop]. unfold vget. rewrite Hcur. cbn [of_option bind]. unfold b_size.
    destruct (Nat.leb_spec (length tmp + length (b_ents cur)) (b_cap cur)) as [Hle|Hgt].
    - now apply mergeRange_d with (b := cur).
    - apply carry_d_ok with (p := p) (cur := cur); auto.
      + inversion Hroom as [? ? c Hc Hle|? ? c Hc Hr]; subst; rewrite Hcur in Hc; injection Hc as <-; [lia|auto].
      + intros g' r nx Hi' Hnx Hnne Har Hr Hlr Hroom' Hlen. eapply IH; eauto.
  Qed.

  Lemma nopremerge_d p g b l bb : inv (length l + p) g -> nth_error (g_bs g) b = Some bb -> asc l -> l <> [] -> length l <= b_cap bb ->
    gb_insert_nopremerge_d E lt eqv dedup C g b l = gb_insert_nopremerge E lt eqv dedup C g b l.
  Proof.
    intros Hin Hb Ha Hne Hl. pose proof Hin as [Hw Hc Hf]. pose proof (nth_error_some_lt _ _ _ Hb) as Hbl.
    unfold gb_insert_nopremerge_d, gb_insert_nopremerge. rewrite asserted_true by (now apply some_b). unfold vget. rewrite Hb. cbn [of_option bind].
    destruct (b_empty_spec bb) as [He|Hnne].
    - eapply assign_d; eauto.
    - unfold b_size. destruct (Nat.leb_spec (length (b_ents bb) + length l) (b_cap bb)) as [Hle|Hgt].
      + now apply mergeRange_d with (b := bb).
      + destruct (grow_ok lt C Hg Hm (length l + p) (S (length (g_bs g))) g (S b) (length (b_ents bb) + length l)) as (g1 & ext & -> & Hi1 & Hbs & Hext & Hroom); auto; try lia.
        { pose proof (double_pow C Hg Hm b). pose proof (bg_len _ _ _ (wf_good _ _ _ Hw _ _ Hb)). rewrite (wf_cap _ _ _ Hw _ _ Hb) in *. lia. }
        cbn [bind].
        assert (Hb1 : nth_error (g_bs g1) b = Some bb) by (rewrite Hbs; rewrite nth_error_app1; auto).
        apply carry_d_ok with (p := p) (cur := bb); auto.
        * apply (room_mono C Hg Hm) with (1 := Hroom). lia.
        * intros g' r nx Hi' Hnx Hnne' Har Hr Hlr Hroom' Hlen. eapply carry_loop_d_ok; eauto.
  Qed.

  Lemma pre_moves_d_ok p : forall k g rit bt, inv p g -> k <= rit -> nth_error (g_bs g) rit = Some bt -> b_ents bt = [] ->
    (forall i, rit - k <= i < rit -> exists b, nth_error (g_bs g) i = Some b /\ b_ents b <> []) ->
    pre_moves_d E C k g rit = pre_moves E C k g rit.
  Proof.
    induction k as [|k IH]; intros g rit bt Hin Hk Hbt Het Hall; cbn [pre_moves pre_moves_d]; [reflexivity|].
    destruct (Hall (rit - 1)) as (bf & Hbf & Hfe); [lia|]. pose proof Hin as [Hw _ _].
    assert (Hcap0 : length (b_ents bf) <= b_cap bt).
    { pose proof (cap_mono lt C Hg Hm _ (rit - 1) rit _ _ Hw Hbf Hbt). pose proof (bg_len _ _ _ (wf_good _ _ _ Hw _ _ Hbf)). lia. }
    rewrite (moveToEmpty_d _ _ _ bt bf) by (auto; lia).
    destruct (moveToEmpty_ok lt C Hg Hm p g rit (rit - 1) bt bf) as (g1 & bt' & -> & Hi1 & Hbs & Hbt' & Hcap & Hp); auto; try lia.
    cbn [bind]. pose proof (nth_error_some_lt _ _ _ Hbf). pose proof (nth_error_some_lt _ _ _ Hbt).
    apply IH with (bt := bk_clear E bf); auto; try lia.
    + rewrite Hbs. apply nth_upd_same. now rewrite upd_length.
    + intros i Hir. destruct (Hall i) as (b & Hb & Hbne); [lia|]. exists b. split; auto. rewrite Hbs. rewrite !nth_upd_other by lia. auto.
  Qed.

  Lemma premerge_d p g b l bb : inv (length l + p) g -> nth_error (g_bs g) b = Some bb -> asc l -> l <> [] -> length l <= b_cap bb ->
    gb_insert_premerge_d E lt eqv dedup C g b l = gb_insert_premerge E lt eqv dedup C g b l.
  Proof.
    intros Hin Hb Ha Hne Hl. pose proof Hin as [Hw Hc Hf]. pose proof (nth_error_some_lt _ _ _ Hb) as Hbl.
    unfold gb_insert_premerge_d, gb_insert_premerge.
    destruct (pre_range_ok lt C Hg Hm (length l + p) (S (length (g_bs g))) g b (length l) bb) as (g1 & ext & r & rb & -> & Hi1 & Hbs & Hext & Hle & Hr & Hall & Hsame & Hless); auto; [lia|].
    cbn [bind]. pose proof Hi1 as [Hw1 _ _].
    assert (Hb1 : nth_error (g_bs g1) b = Some bb) by (rewrite Hbs; rewrite nth_error_app1; auto).
    destruct (Nat.eqb_spec b r) as [<-|Hbr].
    - cbn [bind]. assert (rb = bb) as -> by congruence. unfold vget. rewrite Hb1. cbn [of_option bind]. specialize (Hsame eq_refl).
      destruct (b_empty_spec bb) as [He|Hnne]; [eapply assign_d; eauto|]. now apply mergeRange_d with (b := bb).
    - destruct (Hless ltac:(lia)) as (pb & Hpb & Hpl). destruct (Hall (r - 1)) as (pb' & Hpb' & Hpne); [lia|].
      assert (pb' = pb) as -> by congruence.
      assert (Hmid : exists g2 b2, let m := (let* rr := vget (g_bs g1) r in
         if b_empty E rr then pre_moves E C (r - b) g1 r
         else let* g' := gb_mergeToNonEmpty E lt eqv dedup C g1 r (r - 1) in pre_moves E C (r - 1 - b) g' (r - 1)) in
        m = Ok g2 /\ inv (length l + p) g2 /\ nth_error (g_bs g2) b = Some b2 /\ b_ents b2 = [] /\
        (let* rr := vget (g_bs g1) r in
         if b_empty E rr then pre_moves_d E C (r - b) g1 r
         else let* g' := gb_mergeToNonEmpty_d E lt eqv dedup C g1 r (r - 1) in pre_moves_d E C (r - 1 - b) g' (r - 1)) = m).
      { cbv zeta. unfold vget. rewrite Hr. cbn [of_option bind]. destruct (b_empty_spec rb) as [He|Hnne].
        - destruct (pre_moves_ok lt C Hg Hm (length l + p) (r - b) g1 r rb) as (g2 & b2 & Hpm & Hi2 & Hb2 & He2 & Hp2); auto; try lia.
          { intros i Hir. apply Hall. lia. }
          replace (r - (r - b)) with b in Hb2 by lia. exists g2, b2. split; auto. split; auto. split; auto. split; auto.
          eapply pre_moves_d_ok; eauto; [lia|]. intros i Hir. apply Hall. lia.
        - rewrite (mergeToNonEmpty_d g1 r (r - 1) rb pb) by (auto; lia).
          destruct (mergeToNonEmpty_ok lt eqv dedup C Hlt Heq Hdd Hg Hm (length l + p) g1 r (r - 1) rb pb) as (g' & bt' & -> & Hi' & Hbs' & Hcap' & Hmg); auto; try lia.
          cbn [bind]. pose proof (nth_error_some_lt _ _ _ Hpb).
          assert (Hn : nth_error (g_bs g') (r - 1) = Some (bk_clear E pb)) by (rewrite Hbs'; apply nth_upd_same; now rewrite upd_length).
          assert (Hq : forall i, r - 1 - (r - 1 - b) <= i < r - 1 -> exists c, nth_error (g_bs g') i = Some c /\ b_ents c <> []).
          { intros i Hir. destruct (Hall i) as (c & Hcn & Hcne); [lia|]. exists c. split; auto. rewrite Hbs'. rewrite !nth_upd_other by lia. auto. }
          destruct (pre_moves_ok lt C Hg Hm (length l + p) (r - 1 - b) g' (r - 1) (bk_clear E pb)) as (g2 & b2 & Hpm & Hi2 & Hb2 & He2 & Hp2); auto; try lia.
          replace (r - 1 - (r - 1 - b)) with b in Hb2 by lia. exists g2, b2. split; auto. split; auto. split; auto. split; auto.
          eapply pre_moves_d_ok; eauto. lia. }
      destruct Hmid as (g2 & b2 & Hmid & Hi2 & Hb2 & He2 & ->). cbv zeta in Hmid. rewrite Hmid. cbn [bind]. unfold vget. rewrite Hb2. cbn [of_option bind].
      destruct (b_empty_spec b2) as [_|Hno]; [|contradiction]. eapply assign_d; eauto.
  Qed.

  Lemma insert_d p g b l bb : inv (length l + p) g -> nth_error (g_bs g) b = Some bb -> asc l -> l <> [] -> length l <= b_cap bb ->
    gb_insert_d E lt eqv dedup C g b l = gb_insert E lt eqv dedup C g b l.
  Proof. intros. unfold gb_insert_d, gb_insert. destruct (premerge C); [eapply premerge_d|eapply nopremerge_d]; eauto. Qed.

  Lemma push_d g x : Inv g -> gb_push_d E lt eqv dedup C g x = gb_push E lt eqv dedup C g x.
  Proof.
    intros [[Hw Hc Hf] Hcf]. unfold gb_push_d, gb_push. destruct (nth_error_lt (g_bs g) 0) as [b Hb].
    { destruct (g_bs g) eqn:Hbs; [exfalso; now apply (wf_ne _ _ _ Hw)|simpl; lia]. }
    pose proof (nth_error_some_lt _ _ _ Hb) as H0. pose proof (wf_good _ _ _ Hw _ _ Hb) as Hbg. pose proof (cap_pos lt C Hg Hm _ _ _ Hw Hb) as Hcap1.
    unfold vget at 1 3. rewrite Hb. cbn [of_option bind].
    destruct (Nat.eqb_spec (b_size E b) (b_cap b)) as [Hfull|Hnf].
    - apply insert_d with (p := 0) (bb := b); auto; [|repeat constructor|discriminate].
      split; cbn [g_bs g_count g_front]; auto; try (simpl in *; lia).
    - pose proof (bg_len _ _ _ Hbg) as Hbl.
      assert (Hp : bk_push_back_d E C (area E C (g_bs g) b) b x = bk_push_back E C (area E C (g_bs g) b) b x).
      { unfold bk_push_back_d. apply asserted_true. apply Nat.ltb_lt. unfold b_size in *. lia. }
      rewrite Hp. destruct (b_empty_spec b) as [He|Hne].
      + unfold bk_push_back. destruct (b_size E b <? _); [|reflexivity]. cbn [bind]. rewrite vset_ok by auto. cbn [bind].
        erewrite insert_f; eauto; [now apply (ko_none _ _ b)|now apply nth_upd_same|]. cbn [b_ents]. destruct (b_ents b); discriminate.
      + reflexivity.
  Qed.

  Lemma documented_api (o : op E) : allowed_call lt C o = true -> range_calls lt (negb (trackFront C)) o = true.
  Proof.
    destruct o; cbn [allowed_call range_calls]; auto. destruct xs as [|x xs]; [discriminate|]. cbn [length Nat.eqb negb andb].
    generalize (x :: xs). clear x xs. induction l as [|x [|y l] IH]; auto. destruct (supportDeduplication C); intros H; cbn [neighbours] in H.
    - apply andb_true_iff in H as [H1 H2]. specialize (IH H2). cbn [non_increasing]. apply andb_true_iff. split; auto.
      apply negb_true_iff. destruct (lt x y) eqn:Hxy; auto. rewrite <- (sw_irrefl lt Hlt x). symmetry. eapply (sw_trans lt Hlt); eauto.
    - apply andb_true_iff in H as [H1 H2]. specialize (IH H2). cbn [non_increasing]. apply andb_true_iff. split; auto.
  Qed.

  Lemma allowed_range xs : allowed_call lt C (PushRange xs) = true -> xs <> [] /\ range_asserted E lt C xs = true.
  Proof.
    cbn [allowed_call]. intros H. apply andb_true_iff in H as [H1 H2]. split; [destruct xs; [discriminate|congruence]|]. clear H1. revert H2.
    induction xs as [|x [|y l] IH]; auto. cbn [range_asserted] in *. destruct (supportDeduplication C); cbn [neighbours]; intros H;
      apply andb_true_iff in H as [H1 H2]; apply andb_true_iff; split; auto.
  Qed.

  Lemma size_d g : Inv g -> gb_size_d E g = Ok (g_count g).
  Proof.
    intros [[_ Hc _] _]. unfold gb_size_d. apply asserted_true. apply Nat.eqb_eq. rewrite Hc. simpl. clear.
    induction (g_bs g) as [|b l IH]; auto. cbn [map flat_map]. rewrite app_length, <- IH. reflexivity.
  Qed.
  Lemma empty_d g : Inv g -> gb_empty_d E g = Ok (g_count g =? 0).
  Proof. intros H. unfold gb_empty_d. now rewrite size_d. Qed.
  Lemma valid_d g : Inv g -> gb_isValid E lt C g = true.
  Proof. intros H. eapply inv_valid; eauto. Qed.
  Lemma pop_d g : Inv g -> gb_pop_d E lt eqv dedup C g = gb_pop E lt eqv dedup C g.
  Proof.
    intros H. unfold gb_pop_d. pose proof (pop_ok lt eqv dedup C Hlt Heq Hdd Hg Hm Hi g H) as P. destruct (gb_pop _ _ _ _ _ _) as [[g' x]| | |]; auto.
    cbn [bind]. apply asserted_true. now apply valid_d.
  Qed.
  Lemma pop_empty g : Inv g -> g_count g = 0 -> gb_pop E lt eqv dedup C g = UB.
  Proof.
    intros I H. pose proof (pop_ok lt eqv dedup C Hlt Heq Hdd Hg Hm Hi g I) as P. destruct (gb_pop _ _ _ _ _ _) as [[g' x]| | |]; try tauto.
    destruct P as (_ & m & M & _). destruct I as [[_ Hc _] _]. rewrite H in Hc. simpl in Hc. symmetry in Hc. apply length_zero_iff_nil in Hc. rewrite Hc in M.
    apply merges_nil_l in M. discriminate.
  Qed.

  Lemma step_d g o : Inv g -> allowed_call lt C o = true -> gb_step_d E lt eqv dedup C g o = gb_step E lt eqv dedup C g o.
  Proof.
    intros I Ho. pose proof (documented_api _ Ho) as Ha. destruct o as [x|xs| | |x| | | |]; cbn [gb_step_d gb_step].
    - now rewrite push_d.
    - apply allowed_range in Ho as [Hxs Hr]. unfold gb_pushRange_d. rewrite asserted_true by auto.
      simpl in Ha. assert (Has : asc (rev xs)).
      { apply (descb_asc lt Hlt). destruct xs; [congruence|exact Ha]. }
      destruct (pushRange_ok lt eqv dedup C Hlt Heq Hdd Hg Hm Hi g xs I Hxs Has) as (g' & Hg' & I' & _). rewrite Hg'. cbn [bind].
      unfold gb_pushRange in Hg'. pose proof I as [[Hw Hc Hf] Hcf].
      destruct (add_loop_ok lt C Hg Hm (length xs) (length xs * insertFactor C) (S (length xs * insertFactor C)) (mk_gb (g_bs g) (g_count g + length xs) (g_front g)))
        as (g1 & ext & Hal & Hi1 & Hbs & Hext & Hle); [split; cbn [g_bs g_count g_front]; auto; simpl in Hc; lia|lia|].
      rewrite Hal in *. cbn [bind g_bs] in *.
      destruct (find_bucket_ok C Hg Hm (length xs * insertFactor C) (g_bs g1) 0) as (j & b & Hfb & Hj & Hcap).
      { destruct (largest_ok lt C _ (i_wf _ _ _ _ Hi1)) as (bs' & b & Hbs' & Hl & Hnth). exists b. split; [eapply nth_error_In; eauto|lia]. }
      rewrite Hfb in *. cbn [bind] in *. rewrite Nat.add_0_l in *.
      rewrite (insert_d 0 g1 j (rev xs) b); auto.
      + rewrite Hg'. cbn [bind]. rewrite asserted_true; auto. now apply valid_d.
      + now rewrite rev_length, Nat.add_0_r.
      + intros H. apply Hxs. apply (f_equal (@rev E)) in H. now rewrite rev_involutive in H.
      + rewrite rev_length. nia.
    - now rewrite pop_d.
    - rewrite empty_d by auto. cbn [bind]. destruct (Nat.eqb_spec (g_count g) 0) as [Hz|]; [|reflexivity]. cbn [negb asserted].
      pose proof (getMax_ok lt eqv dedup C Hlt Heq Hdd Hg Hm Hi g I) as P. unfold gb_top. destruct (gb_getMax _ _ _ _ _ _) as [[g' m]| | |]; try tauto.
      destruct P as (I' & M & x & Hx & _). destruct I as [[_ Hc _] _]. rewrite Hz in Hc. simpl in Hc. symmetry in Hc. apply length_zero_iff_nil in Hc.
      rewrite Hc in M. apply merges_nil_l in M. now rewrite (flat_nil_ko _ M) in Hx.
    - rewrite empty_d by auto. cbn [bind]. rewrite pop_d by auto. unfold gb_decreaseTop. destruct (Nat.eqb_spec (g_count g) 0) as [Hz|].
      + cbn [negb asserted]. now rewrite pop_empty.
      + cbn [negb asserted]. pose proof (pop_ok lt eqv dedup C Hlt Heq Hdd Hg Hm Hi g I) as P. destruct (gb_pop _ _ _ _ _ _) as [[g1 t]| | |]; auto.
        cbn [bind]. now rewrite push_d.
    - cbn [allowed_call] in Ho. apply negb_true_iff in Ho. destruct (clear_ok lt C Hg Hm g I Ho) as [I' _]. cbv zeta. rewrite !asserted_true; auto; now apply valid_d.
    - now rewrite size_d.
    - now rewrite empty_d.
    - rewrite asserted_true; auto. now apply valid_d.
  Qed.

  Lemma run_d : forall ops g, Inv g -> forallb (allowed_call lt C) ops = true -> run (gb_step_d E lt eqv dedup C) g ops = run (gb_step E lt eqv dedup C) g ops.
  Proof.
    induction ops as [|o ops IH]; intros g I Ha; [reflexivity|]. cbn [forallb] in Ha. apply andb_true_iff in Ha as [Ho Ha]. cbn [run].
    rewrite step_d by auto. pose proof (gb_step_ok lt eqv dedup C Hlt Heq Hdd Hg Hm Hi g o I (documented_api _ Ho)) as S.
    destruct (gb_step E lt eqv dedup C g o) as [[g1 r]| | |]; auto. cbn [bind]. now rewrite IH.
  Qed.
  Lemma new_d : gb_new_d E lt C = Ok (gb_new E C).
  Proof.
    unfold gb_new_d. rewrite asserted_true by (apply Nat.leb_le; auto). rewrite gb_new_ok. cbn [bind]. apply asserted_true.
    assert (V : gb_isValid E lt C (gb_new E C) = true) by (apply valid_d, gb_new_inv; auto).
    unfold gb_isValid in V. now apply andb_true_iff in V as [_ V].
  Qed.
  Lemma debug_run ops : forallb (allowed_call lt C) ops = true ->
    (let* g := gb_new_d E lt C in run (gb_step_d E lt eqv dedup C) g ops) = run (gb_step E lt eqv dedup C) (gb_new E C) ops.
  Proof. intros H. rewrite new_d. cbn [bind]. apply run_d; auto. apply gb_new_inv; auto. Qed.

  (** * Where assertions fail *)
  Lemma push_new x : exists g, gb_push E lt eqv dedup C (gb_new E C) x = Ok g /\ g_bs g = [mk_b (minBucketSize C) [x] (if collectMax C then Some x else None)] /\
    g_count g = 1 /\ g_front g = (if trackFront C then FOrder 1 [Some 0] 1 [Some (1, 0)] else FCache None).
  Proof.
    unfold gb_push, gb_new. cbn [g_bs g_count g_front vget nth_error of_option bind]. unfold b_size at 1. cbn [b_ents length b_cap].
    destruct (Nat.eqb_spec 0 (minBucketSize C)); [lia|]. unfold b_empty. cbn [b_ents]. unfold bk_push_back, b_size, area, largest. cbn [b_ents length rev app b_cap].
    assert (Ha : match bucketStorage C with SameSizeBuffer => minBucketSize C | _ => minBucketSize C end = minBucketSize C) by (destruct (bucketStorage C); auto).
    rewrite Ha. destruct (Nat.ltb_spec 0 (minBucketSize C)); [|lia]. cbn [bind b_back app].
    destruct (trackFront C); (eexists; split; [reflexivity|]); auto.
  Qed.
  Lemma empty_range x : (let* g := gb_new_d E lt C in run (gb_step_d E lt eqv dedup C) g [Push x; PushRange []]) = UB /\
    exists g, run (gb_step E lt eqv dedup C) (gb_new E C) [Push x; PushRange []] = Ok (g, [ONone; ONone]) /\ gb_forAll E g = [x].
  Proof.
    destruct (push_new x) as (g1 & Hp & Hbs & Hc & Hf). split.
    - rewrite new_d. cbn [bind run gb_step_d]. rewrite push_d by (apply gb_new_inv; auto). rewrite Hp. cbn [bind].
      unfold gb_pushRange_d. cbn [range_asserted asserted length Nat.mul rev add_loop]. cbn [g_bs]. rewrite Hbs.
      destruct (Nat.ltb_spec (largest E [mk_b (minBucketSize C) [x] (if collectMax C then Some x else None)]) 0); [lia|]. cbn [bind g_bs find_bucket Nat.leb].
      unfold gb_insert_d. destruct (premerge C); [|reflexivity].
      unfold gb_insert_premerge_d. cbn [g_bs length pre_range]. unfold vget at 1. cbn [nth_error of_option bind b_size b_ents length Nat.add b_cap].
      unfold b_size. cbn [b_ents length Nat.add]. destruct (Nat.leb_spec 1 (minBucketSize C)); [|lia]. reflexivity.
    - cbn [run gb_step]. rewrite Hp. cbn [bind]. unfold gb_pushRange. cbn [length Nat.mul rev add_loop g_bs]. rewrite Hbs.
      destruct (Nat.ltb_spec (largest E [mk_b (minBucketSize C) [x] (if collectMax C then Some x else None)]) 0); [lia|]. cbn [bind g_bs find_bucket Nat.leb].
      destruct (mergeRange_ok lt eqv dedup C Hlt Heq Hdd Hg Hm 0 (mk_gb (g_bs g1) (g_count g1 + 0) (g_front g1)) 0 (mk_b (minBucketSize C) [x] (if collectMax C then Some x else None)) [])
        as (g' & Hg' & _ & _ & Hmg).
      + destruct (push_ok lt eqv dedup C Hlt Heq Hdd Hg Hm (gb_new E C) x) as (g2 & Hp2 & [[W K F] _] & _); [apply gb_new_inv; auto|].
        rewrite Hp in Hp2. injection Hp2 as <-. split; cbn [g_bs g_count g_front length]; auto. rewrite Nat.add_0_r. auto.
      + cbn [g_bs]. now rewrite Hbs.
      + discriminate.
      + constructor.
      + cbn [b_ents length b_cap]. lia.
      + assert (Hins : gb_insert E lt eqv dedup C (mk_gb (g_bs g1) (g_count g1 + 0) (g_front g1)) 0 [] = Ok g').
        { rewrite <- Hg'. unfold gb_insert. destruct (premerge C).
          - unfold gb_insert_premerge. cbn [g_bs]. rewrite Hbs. cbn [length pre_range g_bs]. unfold vget at 1. cbn [nth_error of_option bind].
            unfold b_size at 1. cbn [b_ents length Nat.add b_cap]. destruct (Nat.leb_spec 1 (minBucketSize C)); [|lia]. reflexivity.
          - unfold gb_insert_nopremerge. cbn [g_bs]. rewrite Hbs. unfold vget at 1. cbn [nth_error of_option bind b_empty b_ents].
            unfold b_empty, b_size. cbn [b_ents length Nat.add b_cap]. destruct (Nat.leb_spec 1 (minBucketSize C)); [|lia]. reflexivity. }
        rewrite <- Hbs. rewrite Hins. cbn [bind]. exists g'. split; auto. unfold gb_forAll. cbn [g_bs] in Hmg. rewrite Hbs in Hmg. cbn [flat_map b_ents app] in Hmg.
        inversion Hmg as [? ? P|? a b c m ? P]; subst; [now apply Permutation_length_1_inv in P|]. apply Permutation_length in P. discriminate.
  Qed.
  Lemma clear_fails : trackFront C = true -> forall x, (let* g := gb_new_d E lt C in run (gb_step_d E lt eqv dedup C) g [Push x; Clear]) = UB.
  Proof.
    intros Ht x. destruct (push_new x) as (g1 & Hp & Hbs & Hc & Hf). rewrite new_d. cbn [bind run gb_step_d]. rewrite push_d by (apply gb_new_inv; auto).
    rewrite Hp. cbn [bind].
    assert (I : Inv g1).
    { destruct (push_ok lt eqv dedup C Hlt Heq Hdd Hg Hm (gb_new E C) x) as (g2 & Hp2 & I & _); [apply gb_new_inv; auto|]. rewrite Hp in Hp2. now injection Hp2 as <-. }
    rewrite asserted_true by (now apply valid_d). cbv zeta. unfold gb_isValid, gb_clear. cbn [g_bs g_count g_front]. rewrite Hbs, Hf, Ht.
    cbn [map bk_clear f_clear f_isValid tokens_validb b_empty b_ents b_cap b_back andb]. rewrite !andb_false_r. reflexivity.
  Qed.
End DebugProofs.
