(** Proofs about GeoMem/Model.v: insert and the calls. *)
From Coq Require Import List Arith Bool Lia.
From Verif.Base Require Import Res Arr.
From Verif.Spec Require Import PQ PQFacts.
From Verif.Geobucket Require Import Model.
From Verif.GeoMem Require Import Model MemProofs RepProofs Proofs GrowProofs Areas.
Import ListNotations.

Section StepProofs.
  Context {E : Type}.
  Variable lt eqv : E -> E -> bool.
  Variable dedup : E -> E -> E.
  Variable C : config.
  Hypothesis Hgb : 1 <= geoBase C.
  Hypothesis Hmin : 1 <= minBucketSize C.
  Notation mem := (mem E).
  Notation mbucket := (mbucket E).
  Notation bucket := (bucket E).
  Notation cells := (m_cells E).
  Notation mgb := (mgb E).
  Notation geobucket := (geobucket E).
  Notation caps := (map (mb_cap E)).
  Notation Rep := (Rep C).
  Notation lay := (lay C).
  Notation loc := (loc C).
  Notation len := (len C).
  Notation within := (within C).
  Notation area := (area E C).
  Notation rep := (rep C).

  Lemma rep_len mg g : rep mg g -> length (mg_bs E mg) = length (g_bs g).
  Proof. intros (R & _). eapply F2_length. apply R. Qed.
  Lemma rep_nth mg g i b : rep mg g -> vget (g_bs g) i = Ok b ->
    exists mb, vget (mg_bs E mg) i = Ok mb /\ brep (mg_mem E mg) mb b /\ nth_error (mg_bs E mg) i = Some mb /\ i < length (mg_bs E mg).
  Proof.
    intros (R & _) H. apply vget_inv in H. destruct (Rep_nth _ _ _ _ _ _ _ _ R H) as (mb & Hn & Hg & Br & _ & _ & _ & Hi & _). eauto.
  Qed.
  (** The state with another count *)
  Lemma rep_count m mbs tmp tmpN c f bs c' : rep (mk_mgb E m mbs tmp tmpN c f) (mk_gb bs c f) -> rep (mk_mgb E m mbs tmp tmpN c' f) (mk_gb bs c' f).
  Proof. intros (R & _). split; auto. Qed.

  Lemma grow_ok : forall fuel mg g i acc g', rep mg g -> grow_loop E C fuel g i acc = Ok g' ->
    exists mg', mgrow_loop E C fuel mg i acc = Ok mg' /\ rep mg' g'.
  Proof.
    induction fuel as [|fuel IH]; intros mg g i acc g' R H; cbn [grow_loop mgrow_loop] in *; [discriminate|].
    rewrite (rep_len _ _ R). destruct (i =? length (g_bs g)).
    - binv H. destruct (addBucket_ok C Hgb Hmin _ _ _ R Eb) as (mg1 & -> & R1). cbn [bind].
      binv H. destruct (rep_nth _ _ _ _ R1 Eb0) as (mb & -> & Br & Hmb & Hi). cbn [bind]. rewrite (br_size _ _ _ Br), (br_cap _ _ _ Br). fold (b_size E a0).
      destruct (acc + b_size E a0 <=? b_cap a0); [injection H as <-; eauto|eauto].
    - cbn [bind] in *. binv H. destruct (rep_nth _ _ _ _ R Eb) as (mb & -> & Br & Hmb & Hi). cbn [bind]. rewrite (br_size _ _ _ Br), (br_cap _ _ _ Br). fold (b_size E a).
      destruct (acc + b_size E a <=? b_cap a); [injection H as <-; eauto|eauto].
  Qed.

  Lemma largest_upd (bs : list bucket) i (b b' : bucket) : nth_error bs i = Some b -> b_cap b' = b_cap b -> largest E (upd bs i b') = largest E bs.
  Proof. intros Hb Hc. rewrite <- !last_largest. f_equal. eapply area_upd; eauto. Qed.

  Lemma carry_loop_ok : premerge C = false -> forall fuel mg g b tmp g', rep mg g -> holds (mg_mem E mg) (mg_tmpNP E mg) tmp ->
    length tmp <= largest E (g_bs g) -> carry_loop E lt eqv dedup C fuel g b tmp = Ok g' ->
    exists mg', mcarry_loop E lt eqv dedup C fuel mg b (padd (mg_tmpNP E mg) (length tmp)) = Ok mg' /\ rep mg' g'.
  Proof.
    intros Hp. induction fuel as [|fuel IH]; intros mg g b tmp g' R Hh Hl H; cbn [carry_loop mcarry_loop] in *; [discriminate|].
    assert (S : forall bad : name -> Prop, ~ bad TmpN -> src C (mg_mem E mg) (mg_bs E mg) (mg_tmp E mg) (mg_tmpNP E mg) bad
      (Int E (mg_tmpNP E mg) (padd (mg_tmpNP E mg) (length tmp))) tmp).
    { intros bad Hb. split; [split; auto|]. exists TmpN. split; auto. eapply within_tmpN; eauto. apply R. }
    binv H. destruct (rep_nth _ _ _ _ R Eb) as (mb & -> & Br & Hmb & Hi). cbn [bind]. rewrite (br_size _ _ _ Br), (br_cap _ _ _ Br). fold (b_size E a).
    replace (snd (padd (mg_tmpNP E mg) (length tmp)) - snd (mg_tmpNP E mg)) with (length tmp) by (simpl; lia).
    destruct (length tmp + b_size E a <=? b_cap a).
    { destruct (mergeRange_ok lt eqv dedup C Hgb Hmin mg g b _ tmp g' R (S (fun n => n = Buf b \/ n = Oth b \/ n = Tmp) ltac:(intros [He|[He|He]]; discriminate)) H) as (mg' & -> & R' & _). eauto. }
    unfold carry in H. rewrite Eb in H. cbn [bind] in H. binv H. destruct (rep_nth _ _ _ _ R Eb0) as (mn & -> & Brn & _). cbn [bind].
    rewrite (mb_empty_ok _ _ _ Brn). destruct (b_empty E a0).
    { eapply mergeToEmpty_ok; eauto. apply S. discriminate. }
    destruct (gb_merge E lt eqv dedup C tmp (b_ents a)) as [r k] eqn:Hg. binv H.
    destruct (Nat.ltb_spec (largest E (g_bs g)) (length r)) as [|Hr]; [discriminate|]. binv H. apply vset_inv in Eb2 as (Hi2 & ->). binv H.
    destruct mg as [m mbs mtmp mtmpN cnt f]. destruct R as (R & Rc & Rf). simpl in R, Rc, Rf, S, Hh. subst cnt f. cbn [mg_bs mg_mem mg_tmp mg_tmpNP mg_count mg_front].
    apply vget_inv in Eb. cbn [mg_bs mg_mem] in Br, Hmb, Hi.
    destruct (within_tmp C Hgb Hmin _ _ _ _ _ _ R Hr) as (Wt & It & Bt).
    pose proof (src_bucket C Hgb Hmin _ _ _ _ _ (fun n => n = Tmp) _ _ _ R Hmb Eb ltac:(congruence)) as Sb.
    specialize (S (fun n => n = Tmp) ltac:(congruence)). pose proof (r_lay _ _ _ _ _ _ R) as L.
    destruct (merge_ok lt eqv dedup C _ _ _ _ m _ _ mtmp Hg (proj1 S) (proj1 Sb) It Bt) as (m' & -> & F & Hm');
      [eapply src_clear; eauto; reflexivity|eapply src_clear; eauto; reflexivity|].
    cbn [bind]. rewrite Eb1. cbn [bind]. rewrite vset_ok by auto. cbn [bind]. rewrite Eb2. cbn [bind].
    assert (R1 : Rep m' mbs mtmpN mtmp (g_bs g)).
    { destruct (Rep_scratch _ _ _ _ _ _ Tmp _ _ _ R F Wt ltac:(congruence)) as [Q1 Q2 Q3]. split; auto.
      eapply lay_swap with (n1 := Tmp) (n2 := TmpN); [exact Q2|reflexivity|reflexivity|].
      intros n. destruct (name_dec n Tmp) as [->|N1]; [|destruct (name_dec n TmpN) as [->|N2]].
      - rewrite swap_l. simpl. now rewrite Hp.
      - rewrite swap_r. simpl. now rewrite Hp.
      - rewrite swap_other by auto. destruct n; simpl; auto; congruence. }
    pose proof (Rep_clear C Hgb Hmin _ _ _ _ _ _ _ _ R1 Hmb Eb) as R2.
    match goal with |- exists mg', mcarry_loop _ _ _ _ _ _ ?mg1 _ _ = _ /\ _ => set (mg1' := mg1) end.
    change mtmp with (mg_tmpNP E mg1'). refine (IH mg1' _ _ _ _ _ Hm' _ H); [split; [exact R2|]; split; reflexivity|]. simpl. rewrite largest_upd with (b := a); auto.
  Qed.

  Lemma carry_first_ok fuel mg g b l g' : premerge C = false -> rep mg g ->
    carry E lt eqv dedup C (carry_loop E lt eqv dedup C fuel) g b l = Ok g' ->
    exists mg', mcarry_first E lt eqv dedup C fuel mg b l = Ok mg' /\ rep mg' g'.
  Proof.
    intros Hp R H. unfold carry in H. unfold mcarry_first.
    assert (S : forall bad : name -> Prop, src C (mg_mem E mg) (mg_bs E mg) (mg_tmp E mg) (mg_tmpNP E mg) bad (Ext E l) l) by (intros; split; simpl; auto).
    binv H. destruct (rep_nth _ _ _ _ R Eb) as (mb & -> & Br & Hmb & Hi). cbn [bind].
    binv H. destruct (rep_nth _ _ _ _ R Eb0) as (mn & -> & Brn & _). cbn [bind]. rewrite (mb_empty_ok _ _ _ Brn). destruct (b_empty E a0).
    { eapply mergeToEmpty_ok; eauto. }
    destruct (gb_merge E lt eqv dedup C l (b_ents a)) as [r k] eqn:Hg. binv H.
    destruct (Nat.ltb_spec (largest E (g_bs g)) (length r)) as [|Hr]; [discriminate|]. binv H. apply vset_inv in Eb2 as (Hi' & ->). binv H.
    destruct mg as [m mbs mtmp mtmpN cnt f]. destruct R as (R & Rc & Rf). simpl in R, Rc, Rf, S. subst cnt f. cbn [mg_bs mg_mem mg_tmp mg_tmpNP mg_count mg_front].
    apply vget_inv in Eb. cbn [mg_bs mg_mem] in Br, Hmb, Hi.
    destruct (within_tmpN C Hgb Hmin _ _ _ _ _ _ Hp R Hr) as (Wt & It & Bt).
    pose proof (src_bucket C Hgb Hmin _ _ _ _ _ (fun n => n = TmpN) _ _ _ R Hmb Eb ltac:(congruence)) as Sb.
    specialize (S (fun n => n = TmpN)). pose proof (r_lay _ _ _ _ _ _ R) as L.
    destruct (merge_ok lt eqv dedup C _ _ _ _ m _ _ mtmpN Hg (proj1 S) (proj1 Sb) It Bt) as (m' & -> & F & Hm');
      [eapply src_clear; eauto; reflexivity|eapply src_clear; eauto; reflexivity|].
    cbn [bind]. rewrite Eb1. cbn [bind]. rewrite vset_ok by auto. cbn [bind]. rewrite Eb2. cbn [bind].
    pose proof (Rep_scratch _ _ _ _ _ _ TmpN _ _ _ R F Wt ltac:(congruence)) as R1.
    pose proof (Rep_clear C Hgb Hmin _ _ _ _ _ _ _ _ R1 Hmb Eb) as R2.
    match goal with |- exists mg', mcarry_loop _ _ _ _ _ _ ?mg1 _ _ = _ /\ _ => set (mg1' := mg1) end.
    change mtmpN with (mg_tmpNP E mg1'). refine (carry_loop_ok Hp fuel mg1' _ _ _ _ _ Hm' _ H); [split; [exact R2|]; split; reflexivity|]. simpl. rewrite largest_upd with (b := a); auto.
  Qed.

  Lemma insert_nopremerge_ok mg g b l g' : premerge C = false -> rep mg g -> gb_insert_nopremerge E lt eqv dedup C g b l = Ok g' ->
    exists mg', mg_insert_nopremerge E lt eqv dedup C mg b l = Ok mg' /\ rep mg' g'.
  Proof.
    intros Hp R H. unfold gb_insert_nopremerge in H. unfold mg_insert_nopremerge.
    binv H. destruct (rep_nth _ _ _ _ R Eb) as (mb & -> & Br & Hmb & Hi). cbn [bind]. rewrite (mb_empty_ok _ _ _ Br).
    destruct (b_empty E a); [eapply assign_ok; eauto|]. rewrite (br_size _ _ _ Br), (br_cap _ _ _ Br). fold (b_size E a).
    destruct (b_size E a + length l <=? b_cap a).
    { destruct (mergeRange_ok lt eqv dedup C Hgb Hmin mg g b (Ext E l) l g' R) as (mg' & -> & R' & _); eauto. split; simpl; auto. }
    binv H. rewrite (rep_len _ _ R). destruct (grow_ok _ _ _ _ _ _ R Eb0) as (mg1 & -> & R1). cbn [bind]. rewrite (rep_len _ _ R1).
    eapply carry_first_ok; eauto.
  Qed.

  Lemma pre_range_ok : forall fuel mg g rb inc g' rb', rep mg g -> pre_range E C fuel g rb inc = Ok (g', rb') ->
    exists mg', mpre_range E C fuel mg rb inc = Ok (mg', rb') /\ rep mg' g'.
  Proof.
    induction fuel as [|fuel IH]; intros mg g rb inc g' rb' R H; cbn [pre_range mpre_range] in *; [discriminate|].
    binv H. destruct (rep_nth _ _ _ _ R Eb) as (mb & -> & Br & Hmb & Hi). cbn [bind]. rewrite (br_size _ _ _ Br), (br_cap _ _ _ Br), (rep_len _ _ R).
    fold (b_size E a). destruct (b_size E a + inc <=? b_cap a); [injection H as <- <-; eauto|].
    destruct (S rb =? length (g_bs g)); [|eauto]. binv H. injection H as <- <-. destruct (addBucket_ok C Hgb Hmin _ _ _ R Eb0) as (mg1 & -> & R1). cbn [bind]. eauto.
  Qed.
  Lemma pre_moves_ok : forall k mg g rit g', k <= rit -> rep mg g -> pre_moves E C k g rit = Ok g' ->
    exists mg', mpre_moves E C k mg rit = Ok mg' /\ rep mg' g'.
  Proof.
    induction k as [|k IH]; intros mg g rit g' Hk R H; cbn [pre_moves mpre_moves] in *; [injection H as <-; eauto|].
    binv H. destruct (moveToEmpty_ok C Hgb Hmin mg g rit (rit - 1) _ ltac:(lia) R Eb) as (mg1 & -> & R1). cbn [bind]. eapply IH; eauto. lia.
  Qed.
  Lemma pre_range_ge : forall fuel g rb inc g' rb', pre_range E C fuel g rb inc = Ok (g', rb') -> rb <= rb'.
  Proof.
    induction fuel as [|fuel IH]; intros g rb inc g' rb' H; cbn [pre_range] in *; [discriminate|].
    binv H. destruct (b_size E a + inc <=? b_cap a); [injection H as <- <-; lia|].
    destruct (S rb =? length (g_bs g)); [binv H; injection H as <- <-; lia|]. apply IH in H. lia.
  Qed.
  Lemma insert_premerge_ok mg g b l g' : rep mg g -> gb_insert_premerge E lt eqv dedup C g b l = Ok g' ->
    exists mg', mg_insert_premerge E lt eqv dedup C mg b l = Ok mg' /\ rep mg' g'.
  Proof.
    intros R H. unfold gb_insert_premerge in H. unfold mg_insert_premerge. rewrite (rep_len _ _ R).
    binv H. destruct a as [g1 rb]. pose proof (pre_range_ge _ _ _ _ _ _ Eb) as Hge.
    destruct (pre_range_ok _ _ _ _ _ _ _ R Eb) as (mg1 & -> & R1). cbn [bind]. clear R Eb.
    binv H.
    assert (H2 : exists mg2, (if b =? rb then Ok mg1 else
       let* r := vget (mg_bs E mg1) rb in
       if mb_empty E r then mpre_moves E C (rb - b) mg1 rb
       else let* g' := mg_mergeToNonEmpty E lt eqv dedup C mg1 rb (rb - 1) in mpre_moves E C (rb - 1 - b) g' (rb - 1)) = Ok mg2 /\ rep mg2 a).
    { destruct (Nat.eqb_spec b rb) as [->|Hne]; [injection Eb as <-; eauto|].
      binv Eb. destruct (rep_nth _ _ _ _ R1 Eb0) as (mb & -> & Br & Hmb & Hi). cbn [bind]. rewrite (mb_empty_ok _ _ _ Br). destruct (b_empty E a0).
      - eapply pre_moves_ok; eauto. lia.
      - binv Eb. destruct (mergeToNonEmpty_ok lt eqv dedup C Hgb Hmin mg1 g1 rb (rb - 1) _ ltac:(lia) R1 Eb1) as (mg2 & -> & R2). cbn [bind].
        eapply pre_moves_ok; eauto. lia. }
    destruct H2 as (mg2 & -> & R2). cbn [bind]. binv H. destruct (rep_nth _ _ _ _ R2 Eb0) as (mb & -> & Br & Hmb & Hi). cbn [bind].
    rewrite (mb_empty_ok _ _ _ Br). destruct (b_empty E a0); [eapply assign_ok; eauto|].
    destruct (mergeRange_ok lt eqv dedup C Hgb Hmin mg2 a b (Ext E l) l g' R2) as (mg' & -> & R' & _); eauto. split; simpl; auto.
  Qed.
  Lemma insert_ok mg g b l g' : rep mg g -> gb_insert E lt eqv dedup C g b l = Ok g' ->
    exists mg', mg_insert E lt eqv dedup C mg b l = Ok mg' /\ rep mg' g'.
  Proof.
    unfold gb_insert, mg_insert. destruct (premerge C) eqn:Hp; [apply insert_premerge_ok|now apply insert_nopremerge_ok].
  Qed.

  (** * The calls *)
  Lemma bin_ok m p l x : holds m p l -> forall fuel begin range r, bin_search E lt eqv C fuel l x begin range = Ok r ->
    mbin_search E lt eqv C fuel m p (length l) x begin range = Ok r.
  Proof.
    intros Hh. induction fuel as [|fuel IH]; intros begin range r H; cbn [bin_search mbin_search] in *; [discriminate|].
    destruct (range =? 0); auto. binv H. apply vget_inv in Eb. rewrite (holds_rd _ _ _ _ _ Hh Eb). cbn [bind].
    destruct (lt x a); auto. destruct (negb (supportDeduplication C) || negb (eqv x a)); auto.
  Qed.
  Lemma lin_ok m p l0 x : holds m p l0 -> forall l pos pre, l0 = pre ++ l -> length pre = pos ->
    mlin_search E lt eqv C (length l) m p x pos = Ok (lin_search E lt eqv C l x pos).
  Proof.
    intros Hh. induction l as [|y l IH]; intros pos pre He Hp; cbn [lin_search mlin_search length]; auto.
    rewrite (holds_rd _ _ _ _ y Hh). 2:{ subst l0 pos. now rewrite nth_error_app2, Nat.sub_diag by lia. }
    cbn [bind]. destruct (lt x y); auto. destruct (supportDeduplication C && eqv x y); auto.
    apply IH with (pre := pre ++ [y]); [now rewrite <- app_assoc|]. rewrite app_length. simpl. lia.
  Qed.

  Lemma push_ok mg g x g' : rep mg g -> gb_push E lt eqv dedup C g x = Ok g' -> exists mg', mg_push E lt eqv dedup C mg x = Ok mg' /\ rep mg' g'.
  Proof.
    intros R0 H. unfold gb_push in H. unfold mg_push. binv H. rename a into b.
    destruct R0 as (R & Rc & Rf). apply vget_inv in Eb.
    destruct (Rep_nth _ _ _ _ _ _ _ _ R Eb) as (mb & Hmb & -> & Br & W & Hid & Hbd & Hi & Hfit). cbn [bind]. cbv zeta.
    rewrite Rc, Rf, (mb_empty_ok _ _ _ Br), (br_size _ _ _ Br), (br_cap _ _ _ Br). fold (b_size E b).
    assert (Hcap : forall mb' b', brep (mg_mem E mg) mb b -> forall m', brep m' mb' b' -> b_cap b' = b_cap b -> mb_cap E mb' = mb_cap E mb).
    { intros mb' b' H1 m' H2 Hc. rewrite (br_cap _ _ _ H1), (br_cap _ _ _ H2). auto. }
    destruct (b_size E b =? b_cap b).
    { eapply insert_ok; [|exact H]. split; [exact R|]. split; reflexivity. }
    assert (put : forall m' mb' b' lo hi, brep m' mb' b' -> frame lo hi (mg_mem E mg) m' -> snd (mb_begin E mb) <= lo -> hi <= snd (mb_begin E mb) + area (g_bs g) b ->
      mb_begin E mb' = mb_begin E mb -> mb_other E mb' = mb_other E mb -> b_cap b' = b_cap b -> length (b_ents b') <= area (g_bs g) b ->
      Rep m' (upd (mg_bs E mg) 0 mb') (mg_tmp E mg) (mg_tmpNP E mg) (upd (g_bs g) 0 b')).
    { intros m' mb' b' lo hi B F Hlo Hhi P1 P2 P3 P4. eapply Rep_put with (n0 := Buf 0); eauto.
      - eapply within_sub; [| |exact W]; lia.
      - intros j Hj He. congruence.
      - eapply lay_upd; eauto. eapply lay_mem; eauto. apply R. }
    destruct (b_empty E b).
    { binv H. destruct (mb_push_back_ok C _ _ _ _ _ _ Br Hbd Eb0) as (m' & mb' & -> & Br' & F & P1 & P2 & P3 & P4). cbn [bind].
      binv H. apply vset_inv in Eb1 as (_ & ->). rewrite vset_ok by auto. cbn [bind]. binv H. injection H as <-.
      assert (R' := put _ _ _ _ _ Br' F ltac:(lia) ltac:(lia) P1 P2 P3 P4).
      rewrite (mf_insert_ok lt C _ _ _ _ _ _ (r_bs _ _ _ _ _ _ R') Eb1). cbn [bind]. eexists; split; [reflexivity|]. split; [exact R'|]. split; reflexivity. }
    binv H. rename a into pl.
    assert (Hpl : (if minBucketBinarySearch C then mbin_search E lt eqv C (S (b_size E b)) (mg_mem E mg) (mb_begin E mb) (b_size E b) x 0 (b_size E b)
      else mlin_search E lt eqv C (b_size E b) (mg_mem E mg) (mb_begin E mb) x 0) = Ok pl).
    { destruct (minBucketBinarySearch C); [eapply bin_ok; eauto; apply Br|]. injection Eb0 as <-. eapply lin_ok with (pre := []); eauto. apply Br. }
    rewrite Hpl. cbn [bind]. destruct pl as [i| |i].
    - binv H. destruct (mb_insert_ok _ _ _ _ _ _ _ Br Hbd Eb1) as (m' & mb' & -> & Br' & F & P1 & P2 & P3 & P4). cbn [bind].
      binv H. apply vset_inv in Eb2 as (_ & ->). rewrite vset_ok by auto. cbn [bind]. injection H as <-.
      assert (R' := put _ _ _ _ _ Br' F ltac:(lia) ltac:(lia) P1 P2 P3 P4).
      eexists; split; [reflexivity|]. split; [exact R'|]. split; reflexivity.
    - binv H. destruct (mb_push_back_ok C _ _ _ _ _ _ Br Hbd Eb1) as (m' & mb' & -> & Br' & F & P1 & P2 & P3 & P4). cbn [bind].
      binv H. apply vset_inv in Eb2 as (_ & ->). rewrite vset_ok by auto. cbn [bind]. binv H. injection H as <-.
      assert (R' := put _ _ _ _ _ Br' F ltac:(lia) ltac:(lia) P1 P2 P3 P4).
      rewrite (mf_inc_ok lt C _ _ _ _ _ _ (r_bs _ _ _ _ _ _ R') Eb2). cbn [bind]. eexists; split; [reflexivity|]. split; [exact R'|]. split; reflexivity.
    - binv H. apply vget_inv in Eb1. rewrite (holds_rd _ _ _ _ _ (br_holds _ _ _ Br) Eb1). cbn [bind]. binv H.
      destruct (mb_setEntry_ok C _ _ _ _ _ _ Br ltac:(lia) Eb2) as (m' & mb' & -> & Br' & F & P1 & P2 & P3 & P4). cbn [bind].
      binv H. apply vset_inv in Eb3 as (_ & ->). rewrite vset_ok by auto. cbn [bind]. binv H. injection H as <-.
      assert (R' := put _ _ _ _ _ Br' F ltac:(lia) ltac:(lia) P1 P2 P3 ltac:(lia)).
      eexists; split; [reflexivity|]. split; [exact R'|]. split; reflexivity.
  Qed.

  Lemma add_loop_ok : forall fuel mg g adj g', rep mg g -> add_loop E C fuel g adj = Ok g' -> exists mg', madd_loop E C fuel mg adj = Ok mg' /\ rep mg' g'.
  Proof.
    induction fuel as [|fuel IH]; intros mg g adj g' R H; cbn [add_loop madd_loop] in *; [discriminate|].
    rewrite (F2_mlargest _ _ _ (r_bs _ _ _ _ _ _ (proj1 R))). destruct (largest E (g_bs g) <? adj); [|injection H as <-; eauto].
    binv H. destruct (addBucket_ok C Hgb Hmin _ _ _ R Eb) as (mg1 & -> & R1). cbn [bind]. eauto.
  Qed.
  Lemma find_ok m mbs bs adj : Forall2 (brep m) mbs bs -> forall i, mfind_bucket E mbs adj i = find_bucket E bs adj i.
  Proof. induction 1 as [|mb b mbs bs Br HF IH]; intros i; simpl; auto. rewrite (br_cap _ _ _ Br), IH. reflexivity. Qed.
  Lemma pushRange_ok mg g xs g' : rep mg g -> gb_pushRange E lt eqv dedup C g xs = Ok g' ->
    exists mg', mg_pushRange E lt eqv dedup C mg xs = Ok mg' /\ rep mg' g'.
  Proof.
    intros R H. unfold gb_pushRange in H. unfold mg_pushRange. binv H.
    assert (R0 : rep (mk_mgb E (mg_mem E mg) (mg_bs E mg) (mg_tmp E mg) (mg_tmpNP E mg) (mg_count E mg + length xs) (mg_front E mg))
      (mk_gb (g_bs g) (g_count g + length xs) (g_front g))).
    { destruct R as (R & Rc & Rf). split; [exact R|]. simpl. now rewrite Rc, Rf. }
    destruct (add_loop_ok _ _ _ _ _ R0 Eb) as (mg1 & -> & R1). cbn [bind].
    rewrite (find_ok _ _ _ _ (r_bs _ _ _ _ _ _ (proj1 R1))). binv H. eapply insert_ok; eauto.
  Qed.

  Lemma clear_ok mg g : rep mg g -> rep (mg_clear E mg) (gb_clear E g).
  Proof.
    intros ([HF L Hfit] & Rc & Rf). unfold mg_clear, gb_clear. rewrite Rf.
    assert (Hcaps : caps (map (mb_clear E) (mg_bs E mg)) = caps (mg_bs E mg)) by (rewrite map_map; now apply map_ext).
    split; [|split; reflexivity]. simpl. split.
    - apply F2_intro; [rewrite !map_length; eapply F2_length; eauto|]. intros i x y Hx Hy. rewrite nth_error_map in Hx, Hy.
      destruct (nth_error (mg_bs E mg) i) as [mb|] eqn:Hmb; [|discriminate]. destruct (nth_error (g_bs g) i) as [b|] eqn:Hb; [|discriminate].
      injection Hx as <-. injection Hy as <-. destruct (F2_nth _ _ _ HF _ _ Hb) as (mb' & Hmb' & Br). assert (mb' = mb) by congruence. subst mb'.
      split; simpl; auto; try apply Br. apply holds_nil. apply Br.
    - eapply lay_tr with (tr := fun n => n) (bs := mg_bs E mg); eauto. intros n p Hp. split; auto. rewrite <- Hp.
      destruct n as [i|i| |]; simpl; auto; rewrite nth_error_map; destruct (nth_error (mg_bs E mg) i); reflexivity.
    - intros i b Hi. rewrite nth_error_map in Hi. destruct (nth_error (g_bs g) i); [|discriminate]. injection Hi as <-. simpl. lia.
  Qed.

  Lemma pop_ok mg g g' x : rep mg g -> gb_pop E lt eqv dedup C g = Ok (g', x) -> exists mg', mg_pop E lt eqv dedup C mg = Ok (mg', x) /\ rep mg' g'.
  Proof.
    intros R H. unfold gb_pop in H. unfold mg_pop. binv H. destruct a as [g1 i].
    destruct (getMax_ok lt eqv dedup C Hgb Hmin _ _ _ _ R Eb) as (mg1 & -> & (R1 & Rc1 & Rf1)). cbn [bind].
    binv H. binv H. binv H. apply vget_inv in Eb0. destruct (Rep_pop C Hgb Hmin _ _ _ _ _ _ _ _ R1 Eb0 Eb2) as (mb & mb' & -> & Hpop & Br & _ & Hvs & R2). cbn [bind].
    rewrite (mb_back_ok _ _ _ _ _ Br Eb1). cbn [bind]. rewrite Hpop. cbn [bind]. rewrite Hvs. cbn [bind].
    binv H. apply vset_inv in Eb3 as (_ & ->). binv H. rewrite Rc1, Rf1, Eb3. cbn [bind]. binv H. destruct a3 as [[bs' cnt'] f'].
    injection H as <- <-. destruct (keyDecreased_ok lt eqv dedup C Hgb Hmin _ _ _ _ _ _ _ _ _ _ _ R2 Eb4) as (m' & mbs' & -> & R3). cbn [bind].
    eexists; split; [reflexivity|]. split; [exact R3|]. split; reflexivity.
  Qed.
  Lemma top_ok mg g g' x : rep mg g -> gb_top E lt eqv dedup C g = Ok (g', x) -> exists mg', mg_top E lt eqv dedup C mg = Ok (mg', x) /\ rep mg' g'.
  Proof.
    intros R H. unfold gb_top in H. unfold mg_top. binv H. destruct a as [g1 i].
    destruct (getMax_ok lt eqv dedup C Hgb Hmin _ _ _ _ R Eb) as (mg1 & -> & R1). cbn [bind]. binv H. injection H as <- <-.
    rewrite (mkey_ok C _ _ _ _ _ (r_bs _ _ _ _ _ _ (proj1 R1)) Eb0). cbn [bind]. eauto.
  Qed.

  Lemma forAll_loop_ok m mbs bs : Forall2 (brep m) mbs bs -> mforAll_loop E m mbs = Ok (flat_map (@b_ents E) bs).
  Proof.
    induction 1 as [|mb b mbs bs Br HF IH]; auto. cbn [mforAll_loop flat_map]. rewrite (br_size _ _ _ Br), (rd_range_ok _ _ _ (br_holds _ _ _ Br)). cbn [bind].
    rewrite IH. reflexivity.
  Qed.
  Lemma forAll_ok mg g : rep mg g -> mg_forAll E mg = Ok (gb_forAll E g).
  Proof. intros (R & _). apply forAll_loop_ok. apply R. Qed.

  Theorem step_ok mg g o g' r : rep mg g -> gb_step E lt eqv dedup C g o = Ok (g', r) ->
    exists mg', mg_step E lt eqv dedup C mg o = Ok (mg', r) /\ rep mg' g'.
  Proof.
    intros R H. destruct o as [x|xs| | |x| | | |]; cbn [gb_step mg_step] in *.
    - binv H. injection H as <- <-. destruct (push_ok _ _ _ _ R Eb) as (mg' & -> & R'). cbn [bind]. eauto.
    - binv H. injection H as <- <-. destruct (pushRange_ok _ _ _ _ R Eb) as (mg' & -> & R'). cbn [bind]. eauto.
    - binv H. destruct a as [g1 x]. injection H as <- <-. destruct (pop_ok _ _ _ _ R Eb) as (mg' & -> & R'). cbn [bind]. eauto.
    - binv H. destruct a as [g1 x]. injection H as <- <-. destruct (top_ok _ _ _ _ R Eb) as (mg' & -> & R'). cbn [bind]. eauto.
    - binv H. injection H as <- <-. unfold gb_decreaseTop in Eb. unfold mg_decreaseTop. binv Eb. destruct a0 as [g1 y].
      destruct (pop_ok _ _ _ _ R Eb0) as (mg1 & -> & R1). cbn [bind]. destruct (push_ok _ _ _ _ R1 Eb) as (mg' & -> & R'). cbn [bind]. eauto.
    - injection H as <- <-. eexists; split; [reflexivity|]. now apply clear_ok.
    - injection H as <- <-. exists mg. split; auto. unfold gb_size. now rewrite (proj1 (proj2 R)).
    - injection H as <- <-. exists mg. split; auto. unfold gb_empty, gb_size. now rewrite (proj1 (proj2 R)).
    - injection H as <- <-. rewrite (forAll_ok _ _ R). cbn [bind]. eauto.
  Qed.

  (** On an empty queue the calls that need an entry are undefined here too *)
  Lemma all_empty mg g : rep mg g -> gb_forAll E g = [] -> forall mb, In mb (mg_bs E mg) -> mb_size E mb = 0.
  Proof.
    intros (R & _) He mb Hin. apply In_nth_error in Hin as (i & Hi). destruct (F2_nth_l _ _ _ (r_bs _ _ _ _ _ _ R) _ _ Hi) as (b & Hb & Br).
    rewrite (br_size _ _ _ Br). destruct (b_ents b) as [|x l] eqn:Hl; auto. exfalso.
    assert (Hx : In x (gb_forAll E g)) by (unfold gb_forAll; apply in_flat_map; exists b; split; [eapply nth_error_In; eauto|rewrite Hl; now left]).
    rewrite He in Hx. contradiction.
  Qed.
  Lemma first_empty mbs : (forall mb, In mb mbs -> mb_size E mb = 0) -> forall i, mfirst_nonempty E mbs i = UB.
  Proof.
    induction mbs as [|mb mbs IH]; intros H i; simpl; auto. unfold mb_empty. rewrite (H mb (or_introl eq_refl)). simpl. apply IH.
    intros mb' Hin. apply H. now right.
  Qed.
  Lemma getMax_empty mg : (forall mb, In mb (mg_bs E mg) -> mb_size E mb = 0) ->
    mg_getMax E lt eqv dedup C mg = UB \/ exists i, mg_getMax E lt eqv dedup C mg = Ok (mg, i).
  Proof.
    intros H. unfold mg_getMax. destruct (mg_front E mg) as [[c|]|a slots n toks]; eauto.
    - rewrite first_empty by auto. auto.
    - destruct (n =? 0); auto. unfold slot, vget. destruct (nth_error slots 0) as [[i|]|]; cbn [bind of_option]; eauto.
  Qed.
  Lemma step_empty mg o : (forall mb, In mb (mg_bs E mg) -> mb_size E mb = 0) -> needs_nonempty o = true ->
    mg_step E lt eqv dedup C mg o = UB.
  Proof.
    intros H Hn.
    assert (Hk : forall i, mkey E C (mg_mem E mg) (mg_bs E mg) i = UB).
    { intros i. unfold mkey, vget. destruct (nth_error (mg_bs E mg) i) as [mb|] eqn:Hi; auto. cbn [of_option bind]. unfold mb_getBack, mb_empty.
      rewrite (H mb); auto. eapply nth_error_In; eauto. }
    assert (Hp : mg_pop E lt eqv dedup C mg = UB).
    { unfold mg_pop. destruct (getMax_empty mg H) as [->|(i & ->)]; auto. cbn [bind]. specialize (Hk i). unfold mkey in Hk.
      destruct (vget (mg_bs E mg) i); cbn [bind] in *; try congruence. now rewrite Hk. }
    destruct o; try discriminate; cbn [mg_step].
    - now rewrite Hp.
    - unfold mg_top. destruct (getMax_empty mg H) as [->|(i & ->)]; auto. cbn [bind]. now rewrite Hk.
    - unfold mg_decreaseTop. now rewrite Hp.
  Qed.

  Theorem run_ok ops : forall mg g g' rs, rep mg g -> run (gb_step E lt eqv dedup C) g ops = Ok (g', rs) ->
    exists mg', run (mg_step E lt eqv dedup C) mg ops = Ok (mg', rs) /\ rep mg' g'.
  Proof.
    induction ops as [|o ops IH]; intros mg g g' rs R H; cbn [run] in *; [injection H as <- <-; eauto|].
    binv H. destruct a as [g1 r]. binv H. destruct a as [g2 rs']. injection H as <- <-.
    destruct (step_ok _ _ _ _ _ R Eb) as (mg1 & -> & R1). cbn [bind]. destruct (IH _ _ _ _ R1 Eb0) as (mg2 & -> & R2). cbn [bind]. eauto.
  Qed.

  Lemma new_ok : exists mg, mg_new E C = Ok mg /\ rep mg (gb_new E C).
  Proof.
    unfold mg_new. apply addBucket_ok with (g := mk_gb [] 0 (if trackFront C then FOrder 0 [] 0 [] else FCache None)); auto.
    - split; [|split; reflexivity]. simpl. split; [constructor| |intros [|i]; discriminate]. split; simpl; auto.
      + intros [i|i| |] p; simpl; try (destruct i; discriminate).
        * destruct (double C); destruct i; discriminate.
        * intros H. injection H as <-. auto.
        * destruct (premerge C); [discriminate|]. intros H. injection H as <-. auto.
      + intros n n' p p' Hn Hn' _.
        assert (Hz : forall n p, loc ([] : list mbucket) null null n = Some p -> snd p = 0 /\ len [] n = 0).
        { intros [i|i| |] q Hq; simpl in *; try (destruct i; discriminate).
          - destruct (double C); destruct i; discriminate.
          - injection Hq as <-. auto.
          - destruct (premerge C); [discriminate|]. injection Hq as <-. auto. }
        apply Hz in Hn as (-> & ->). apply Hz in Hn' as (-> & ->). auto.
      + unfold RepProofs.total. simpl. lia.
    - unfold gb_addBucket, gb_new. simpl. destruct (trackFront C); reflexivity.
  Qed.

  (** A priority queue on lists is one on memory *)
  Theorem memory_correct dd api : pq_correct lt dd (gb_step E lt eqv dedup C) (gb_new E C) (gb_forAll E) api ->
    exists mg, mg_new E C = Ok mg /\ pq_correct lt dd (mg_step E lt eqv dedup C) mg mg_held api.
  Proof.
    intros Hpq. destruct new_ok as (mg & Hnew & R). exists mg. split; auto. intros ops Hapi. specialize (Hpq ops Hapi).
    destruct (run (gb_step E lt eqv dedup C) (gb_new E C) ops) as [[g rs]| | |] eqn:Hr; try contradiction.
    - destruct (run_ok _ _ _ _ _ R Hr) as (mg' & -> & R'). unfold mg_held. now rewrite (forAll_ok _ _ R').
    - destruct Hpq as (pre & o & post & g & rs & -> & Hn & Hpre & He & Ht). destruct (run_ok _ _ _ _ _ R Hpre) as (mg' & Hrun & R').
      rewrite run_app, Hrun. cbn [bind run]. rewrite (step_empty mg' o) by (eauto using all_empty). cbn [bind].
      exists pre, o, post, mg', rs. unfold mg_held. rewrite (forAll_ok _ _ R'), He. auto 6.
  Qed.
End StepProofs.
