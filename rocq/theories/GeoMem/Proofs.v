(** Proofs about GeoMem/Model.v: every function does on the memory what the function of Geobucket/Model.v does on lists. *)
From Coq Require Import List Arith Bool Lia.
From Verif.Base Require Import Res Arr.
From Verif.Spec Require Import PQ.
From Verif.Geobucket Require Import Model.
From Verif.GeoMem Require Import Model MemProofs RepProofs.
Import ListNotations.

Section Proofs.
  Context {E : Type}.
  Variable lt eqv : E -> E -> bool.
  Variable dedup : E -> E -> E.
  Variable C : config.
  Hypothesis Hgb : 1 <= geoBase C.
  Hypothesis Hmin : 1 <= minBucketSize C.
  Notation mem := (mem E).
  Notation mbucket := (mbucket E).
  Notation bucket := (bucket E).
  Notation cells := (m_cells E).
  Notation mkey := (mkey E C).
  Notation key := (key E C).
  Notation mgb := (mgb E).
  Notation geobucket := (geobucket E).
  Notation caps := (map (mb_cap E)).
  Notation Rep := (Rep C).
  Notation lay := (lay C).
  Notation loc := (loc C).
  Notation len := (len C).
  Notation within := (within C).
  Notation area := (area E C).

  Definition rep (mg : mgb) (g : geobucket) : Prop :=
    Rep (mg_mem E mg) (mg_bs E mg) (mg_tmp E mg) (mg_tmpNP E mg) (g_bs g) /\ mg_count E mg = g_count g /\ mg_front E mg = g_front g.

  (** * The front *)
  Lemma mkey_ok m mbs bs i x : Forall2 (brep m) mbs bs -> key bs i = Ok x -> mkey m mbs i = Ok x.
  Proof.
    intros H. unfold Model.key, GeoMem.Model.mkey, vget. destruct (nth_error bs i) as [b|] eqn:Hb; [|discriminate].
    destruct (F2_nth _ _ _ H _ _ Hb) as (mb & -> & Br). cbn [of_option bind]. apply mb_back_ok; auto.
  Qed.
  Lemma mki_ok m mbs bs a : Forall2 (brep m) mbs bs -> forall pos slots toks b r,
    ki_loop E lt C bs a slots toks b pos = Ok r -> mki_loop E lt C m mbs a slots toks b pos = Ok r.
  Proof.
    intros HF. induction pos as [|p IH]; intros slots toks b r H; cbn [ki_loop mki_loop] in *; auto.
    binv H. binv H. binv H. rewrite (mkey_ok _ _ _ _ _ HF Eb0), (mkey_ok _ _ _ _ _ HF Eb1). cbn [bind].
    destruct (lt a1 a2); auto. binv H. binv H. cbn [bind]. auto.
  Qed.
  Lemma mf_inc_ok m mbs bs f b f' : Forall2 (brep m) mbs bs -> f_keyIncreased E lt C bs f b = Ok f' ->
    mf_keyIncreased E lt C m mbs f b = Ok f'.
  Proof.
    intros HF H. destruct f as [c|a slots n toks]; auto. cbn [f_keyIncreased mf_keyIncreased] in *.
    binv H. binv H. binv H. rewrite (mki_ok _ _ _ _ HF _ _ _ _ _ Eb1). cbn [bind]. auto.
  Qed.
  Lemma mf_insert_ok m mbs bs f b f' : Forall2 (brep m) mbs bs -> f_insert E lt C bs f b = Ok f' -> mf_insert E lt C m mbs f b = Ok f'.
  Proof.
    intros HF H. destruct f as [c|a slots n toks]; auto. cbn [f_insert mf_insert] in *.
    binv H. destruct a0 as [[a0 s0] t0]. binv H. binv H. cbn [bind]. eapply mf_inc_ok; eauto.
  Qed.

  Lemma vget_inv {A} (l : list A) i x : vget l i = Ok x -> nth_error l i = Some x.
  Proof. apply vget_ok. Qed.
  Lemma vset_inv {A} (l : list A) i x l' : vset l i x = Ok l' -> i < length l /\ l' = upd l i x.
  Proof. unfold vset. destruct (Nat.ltb_spec i (length l)); [|discriminate]. intros H1. injection H1 as <-. auto. Qed.

  (** setEntry and pop_back of bucket [i] *)
  Lemma Rep_setEntry m mbs tmp tmpN bs i b pos x b' : Rep m mbs tmp tmpN bs -> nth_error bs i = Some b -> bk_setEntry E C b pos x = Ok b' ->
    exists mb m' mb', vget mbs i = Ok mb /\ mb_size E mb = b_size E b /\ mb_setEntry E C m mb pos x = Ok (m', mb') /\
      vset mbs i mb' = Ok (upd mbs i mb') /\ Rep m' (upd mbs i mb') tmp tmpN (upd bs i b').
  Proof.
    intros R Hb Hs. destruct (Rep_nth _ _ _ _ _ _ _ _ R Hb) as (mb & Hmb & Hg & Br & W & Hid & Hbd & Hi & Hfit).
    destruct (mb_setEntry_ok C m mb b pos x b' Br ltac:(lia) Hs) as (m' & mb' & Hm & Br' & F & P1 & P2 & P3 & P4).
    exists mb, m', mb'. split; auto. split; [apply Br|]. split; auto. split; [now apply vset_ok|].
    eapply Rep_put with (n0 := Buf i); eauto.
    - eapply within_sub; [| |exact W]; lia.
    - intros j Hj He. congruence.
    - lia.
    - eapply lay_upd; eauto; [eapply lay_mem; eauto; apply R|]. rewrite (br_cap _ _ _ Br), (br_cap _ _ _ Br'). auto.
  Qed.
  Lemma Rep_pop m mbs tmp tmpN bs i b b' : Rep m mbs tmp tmpN bs -> nth_error bs i = Some b -> bk_pop_back E C b = Ok b' ->
    exists mb mb', vget mbs i = Ok mb /\ mb_pop_back E C m mb = Ok mb' /\ brep m mb b /\ mb_empty E mb' = b_empty E b' /\
      vset mbs i mb' = Ok (upd mbs i mb') /\ Rep m (upd mbs i mb') tmp tmpN (upd bs i b').
  Proof.
    intros R Hb Hs. destruct (Rep_nth _ _ _ _ _ _ _ _ R Hb) as (mb & Hmb & Hg & Br & W & Hid & Hbd & Hi & Hfit).
    destruct (mb_pop_ok C m mb b b' Br Hs) as (mb' & Hm & Br' & P1 & P2 & P3 & P4).
    exists mb, mb'. split; auto. split; auto. split; auto. split; [eapply mb_empty_ok; eauto|]. split; [now apply vset_ok|].
    eapply Rep_put with (n0 := Buf i) (lo := snd (mb_begin E mb)) (hi := snd (mb_begin E mb)); eauto.
    - apply frame_refl.
    - eapply within_sub; [| |exact W]; lia.
    - intros j Hj He. congruence.
    - lia.
    - eapply lay_upd; eauto; [apply R|]. rewrite (br_cap _ _ _ Br), (br_cap _ _ _ Br'). auto.
  Qed.

  Lemma kd_ok tmp tmpN a n b : forall k m mbs bs cnt slots toks pos bs' cnt' f', Rep m mbs tmp tmpN bs ->
    kd_loop E lt eqv dedup C k bs cnt a slots n toks b pos = Ok (bs', cnt', f') ->
    exists m' mbs', mkd_loop E lt eqv dedup C k m mbs cnt a slots n toks b pos = Ok (m', mbs', cnt', f') /\ Rep m' mbs' tmp tmpN bs'.
  Proof.
    induction k as [|k IH]; intros m mbs bs cnt slots toks pos bs' cnt' f' R H; cbn [kd_loop mkd_loop] in *.
    - binv H. binv H. cbn [bind]. injection H as <- <- <-. eauto.
    - pose proof (r_bs _ _ _ _ _ _ R) as HF. binv H. binv H. binv H.
      rewrite (mkey_ok _ _ _ _ _ HF Eb0), (mkey_ok _ _ _ _ _ HF Eb1). cbn [bind].
      destruct (lt a1 a2). { binv H. binv H. cbn [bind]. eauto. }
      destruct (negb (supportDeduplication C) || negb (eqv a1 a2)).
      { binv H. binv H. cbn [bind]. injection H as <- <- <-. eauto. }
      binv H. binv H. apply vget_inv in Eb2.
      destruct (Rep_setEntry _ _ _ _ _ _ _ _ _ _ R Eb2 Eb3) as (ob & m1 & ob' & -> & Hsz & Hse & Hvs & R1). cbn [bind]. rewrite Hsz, Hse.
      cbn [bind]. rewrite Hvs. cbn [bind].
      binv H. apply vset_inv in Eb4 as (_ & ->). binv H. binv H. apply vget_inv in Eb4.
      destruct (Rep_pop _ _ _ _ _ _ _ _ R1 Eb4 Eb5) as (bb & bb' & -> & Hp & _ & Hem & Hvs2 & R2). cbn [bind]. rewrite Hp. cbn [bind].
      rewrite Hvs2. cbn [bind]. binv H. apply vset_inv in Eb6 as (_ & ->). binv H. rewrite Hem. cbn [bind].
      destruct (b_empty E _).
      + binv H. binv H. cbn [bind]. injection H as <- <- <-. eauto.
      + binv H. binv H. cbn [bind]. eauto.
  Qed.
  Lemma keyDecreased_ok tmp tmpN m mbs bs cnt f b bs' cnt' f' : Rep m mbs tmp tmpN bs ->
    f_keyDecreased E lt eqv dedup C bs cnt f b = Ok (bs', cnt', f') ->
    exists m' mbs', mf_keyDecreased E lt eqv dedup C m mbs cnt f b = Ok (m', mbs', cnt', f') /\ Rep m' mbs' tmp tmpN bs'.
  Proof.
    intros R H. destruct f as [c|a slots n toks]; cbn [f_keyDecreased mf_keyDecreased] in *; [injection H as <- <- <-; eauto|].
    binv H. apply vget_inv in Eb. destruct (Rep_nth _ _ _ _ _ _ _ _ R Eb) as (mb & Hmb & -> & Br & _). cbn [bind].
    rewrite (mb_empty_ok _ _ _ Br). destruct (b_empty E a0).
    - binv H. cbn [bind]. injection H as <- <- <-. eauto.
    - binv H. binv H. cbn [bind]. destruct (n <=? a2); [discriminate|]. eapply kd_ok; eauto.
  Qed.

  Lemma first_ok m mbs bs : Forall2 (brep m) mbs bs -> forall i, mfirst_nonempty E mbs i = first_nonempty E bs i.
  Proof.
    induction 1 as [|mb b mbs bs Br HF IH]; intros i; simpl; auto. rewrite (mb_empty_ok _ _ _ Br), IH. reflexivity.
  Qed.
  Lemma cm_ok tmp tmpN : forall k m mbs bs cnt mx it bs' cnt' i', Rep m mbs tmp tmpN bs ->
    cm_loop E lt eqv dedup C k bs cnt mx it = Ok (bs', cnt', i') ->
    exists m' mbs', mcm_loop E lt eqv dedup C k m mbs cnt mx it = Ok (m', mbs', cnt', i') /\ Rep m' mbs' tmp tmpN bs'.
  Proof.
    induction k as [|k IH]; intros m mbs bs cnt mx it bs' cnt' i' R H; cbn [cm_loop mcm_loop] in *.
    - injection H as <- <- <-. eauto.
    - pose proof (r_bs _ _ _ _ _ _ R) as HF. binv H. apply vget_inv in Eb.
      destruct (Rep_nth _ _ _ _ _ _ _ _ R Eb) as (mb & Hmb & -> & Br & _). cbn [bind]. rewrite (mb_empty_ok _ _ _ Br).
      destruct (b_empty E a); [eauto|]. binv H. rewrite (mb_back_ok _ _ _ _ _ Br Eb0). cbn [bind].
      binv H. rewrite (mkey_ok _ _ _ _ _ HF Eb1). cbn [bind]. destruct (lt a0 a1); [eauto|].
      destruct (supportDeduplication C && eqv a0 a1); [|eauto].
      binv H. binv H. apply vget_inv in Eb2.
      destruct (Rep_setEntry _ _ _ _ _ _ _ _ _ _ R Eb2 Eb3) as (ob & m1 & ob' & -> & Hsz & Hse & Hvs & R1). cbn [bind]. rewrite Hsz, Hse.
      cbn [bind]. rewrite Hvs. cbn [bind].
      binv H. apply vset_inv in Eb4 as (_ & ->). binv H. binv H. apply vget_inv in Eb4.
      destruct (Rep_pop _ _ _ _ _ _ _ _ R1 Eb4 Eb5) as (bb & bb' & -> & Hp & _ & Hem & Hvs2 & R2). cbn [bind]. rewrite Hp. cbn [bind].
      rewrite Hvs2. cbn [bind]. binv H. apply vset_inv in Eb6 as (_ & ->). binv H. cbn [bind]. eauto.
  Qed.
  Lemma getMax_ok mg g g' i : rep mg g -> gb_getMax E lt eqv dedup C g = Ok (g', i) ->
    exists mg', mg_getMax E lt eqv dedup C mg = Ok (mg', i) /\ rep mg' g'.
  Proof.
    intros (R & Rc & Rf) H. unfold gb_getMax in H. unfold mg_getMax. rewrite Rf. destruct (g_front g) as [[c|]|a slots n toks] eqn:Hf.
    - injection H as <- <-. exists mg. split; auto. split; auto. split; congruence.
    - pose proof (r_bs _ _ _ _ _ _ R) as HF. rewrite (first_ok _ _ _ HF). binv H. binv H. destruct a0 as [[bs cnt] j].
      injection H as <- <-. rewrite (F2_length _ _ _ HF), Rc.
      destruct (cm_ok _ _ _ _ _ _ _ _ _ _ _ _ R Eb0) as (m' & mbs' & -> & R'). cbn [bind]. eexists; split; [reflexivity|].
      split; [exact R'|]. split; reflexivity.
    - destruct (n =? 0); [discriminate|]. binv H. injection H as <- <-. cbn [bind]. exists mg. split; auto. split; auto. split; congruence.
  Qed.

  (** * Moving entries *)

  (** The range [s] holds [l] and lies in an area other than those that [bad] allows *)
  Definition src (m : mem) (mbs : list mbucket) (tmp tmpN : ptr) (bad : name -> Prop) (s : iter E) (l : list E) : Prop :=
    denotes m s l /\ match s with Ext _ _ => True | Int _ p q => exists n, ~ bad n /\ within mbs tmp tmpN n (snd p) (snd q) end.
  Lemma src_clear m mbs tmp tmpN (bad : name -> Prop) s l n lo hi : lay m mbs tmp tmpN -> src m mbs tmp tmpN bad s l -> bad n ->
    within mbs tmp tmpN n lo hi -> clear_of s lo hi.
  Proof.
    intros L (_ & Hs) Hb W. destruct s as [l'|p q]; simpl; auto. destruct Hs as (n' & Hn' & W').
    eapply within_dis; eauto. intros ->. contradiction.
  Qed.
  Lemma src_frame m mbs tmp tmpN (bad : name -> Prop) s l n lo hi m' : lay m mbs tmp tmpN -> src m mbs tmp tmpN bad s l -> bad n ->
    within mbs tmp tmpN n lo hi -> frame lo hi m m' -> src m' mbs tmp tmpN bad s l.
  Proof.
    intros L Hs Hb W F. split; [|apply Hs]. eapply denotes_frame; [exact F| |apply Hs]. eapply src_clear; eauto.
  Qed.
  Lemma src_bucket m mbs tmp tmpN bs (bad : name -> Prop) i mb b : Rep m mbs tmp tmpN bs -> nth_error mbs i = Some mb ->
    nth_error bs i = Some b -> ~ bad (Buf i) -> src m mbs tmp tmpN bad (mb_range E mb) (b_ents b).
  Proof.
    intros R Hmb Hb Hn. destruct (Rep_nth _ _ _ _ _ _ _ _ R Hb) as (mb' & Hmb' & _ & Br & W & _ & _ & _ & Hf).
    rewrite Hmb in Hmb'. injection Hmb' as <-. split.
    - simpl. split; [apply Br|]. now rewrite (br_size _ _ _ Br).
    - simpl. exists (Buf i). split; auto. rewrite (br_size _ _ _ Br). eapply within_sub; [| |exact W]; lia.
  Qed.
  Lemma within_tmp m mbs tmp tmpN bs n : Rep m mbs tmp tmpN bs -> n <= largest E bs -> within mbs tmp tmpN Tmp (snd tmp) (snd tmp + n) /\
    fst tmp = m_id E m /\ snd tmp + n <= length (cells m).
  Proof.
    intros R Hn. destruct (lay_in _ _ _ _ _ (r_lay _ _ _ _ _ _ R) Tmp tmp eq_refl) as (H1 & H2).
    pose proof (len_tmp C _ _ _ (r_bs _ _ _ _ _ _ R)) as Hl. split; [|split; auto; lia].
    exists tmp. simpl loc. rewrite Hl. split; auto. lia.
  Qed.
  Lemma within_tmpN m mbs tmp tmpN bs n : premerge C = false -> Rep m mbs tmp tmpN bs -> n <= largest E bs ->
    within mbs tmp tmpN TmpN (snd tmpN) (snd tmpN + n) /\ fst tmpN = m_id E m /\ snd tmpN + n <= length (cells m).
  Proof.
    intros Hp R Hn. assert (HL : loc mbs tmp tmpN TmpN = Some tmpN) by (simpl; now rewrite Hp).
    destruct (lay_in _ _ _ _ _ (r_lay _ _ _ _ _ _ R) TmpN tmpN HL) as (H1 & H2).
    assert (Hl : len (caps mbs) TmpN = largest E bs) by apply (len_tmp C _ _ _ (r_bs _ _ _ _ _ _ R)). split; [|split; auto; lia].
    exists tmpN. rewrite Hl. split; auto. lia.
  Qed.
  Lemma within_oth m mbs tmp tmpN bs i mb b n : bucketStorage C = DoubleBuffer -> Rep m mbs tmp tmpN bs -> nth_error mbs i = Some mb ->
    nth_error bs i = Some b -> n <= b_cap b -> within mbs tmp tmpN (Oth i) (snd (mb_other E mb)) (snd (mb_other E mb) + n) /\
    fst (mb_other E mb) = m_id E m /\ snd (mb_other E mb) + n <= length (cells m).
  Proof.
    intros Hd R Hmb Hb Hn. assert (HL : loc mbs tmp tmpN (Oth i) = Some (mb_other E mb)).
    { simpl. unfold double. rewrite Hd, Hmb. reflexivity. }
    destruct (lay_in _ _ _ _ _ (r_lay _ _ _ _ _ _ R) _ _ HL) as (H1 & H2).
    assert (Hl : len (caps mbs) (Oth i) = b_cap b).
    { unfold RepProofs.len. rewrite (F2_caps _ _ _ (r_bs _ _ _ _ _ _ R)). now apply nth_caps. }
    split; [|split; auto; lia]. exists (mb_other E mb). rewrite Hl. split; auto. lia.
  Qed.

  (** [merge] into a bucket whose area is not a source *)
  Lemma mb_merge_ok m mbs tmp tmpN bs i mb b b' s1 s2 l1 l2 r k (bad1 bad2 : name -> Prop) : Rep m mbs tmp tmpN bs ->
    nth_error mbs i = Some mb -> nth_error bs i = Some b -> bad1 (Buf i) -> bad2 (Buf i) ->
    src m mbs tmp tmpN bad1 s1 l1 -> src m mbs tmp tmpN bad2 s2 l2 -> gb_merge E lt eqv dedup C l1 l2 = (r, k) ->
    bk_hold E (area bs b) b r = Ok b' ->
    exists m' mb', mb_merge E lt eqv dedup C m mb s1 s2 = Ok (m', mb', k) /\ Rep m' (upd mbs i mb') tmp tmpN (upd bs i b') /\
      frame (snd (mb_begin E mb)) (snd (mb_begin E mb) + length r) m m'.
  Proof.
    intros R Hmb Hb B1 B2 S1 S2 Hg Hh. apply bk_hold_inv in Hh as (Hlen & ->).
    destruct (Rep_nth _ _ _ _ _ _ _ _ R Hb) as (mb0 & Hmb0 & _ & Br & W & Hid & Hbd & Hi & Hfit).
    rewrite Hmb in Hmb0. injection Hmb0 as <-. pose proof (r_lay _ _ _ _ _ _ R) as L.
    assert (W' : within mbs tmp tmpN (Buf i) (snd (mb_begin E mb)) (snd (mb_begin E mb) + length r)) by (eapply within_sub; [| |exact W]; lia).
    destruct (merge_ok lt eqv dedup C l1 l2 r k m s1 s2 (mb_begin E mb) Hg (proj1 S1) (proj1 S2) Hid ltac:(lia)) as (m' & Hm & F & Hr);
      [eapply src_clear; eauto|eapply src_clear; eauto|].
    unfold mb_merge. rewrite Hm. cbn [bind]. replace (snd (padd (mb_begin E mb) (length r)) - snd (mb_begin E mb)) with (length r) by (simpl; lia).
    destruct (mb_setBack_ok m' (mk_mb E (mb_cap E mb) (mb_begin E mb) (mb_other E mb) (length r) (mb_back E mb)) r (b_back b))
      as (mb' & -> & P1 & P2 & P3 & P4 & P5); simpl; auto; [apply Br|]. simpl in *. cbn [bind]. exists m', mb'. split; auto. split; auto.
    assert (Hcap : mb_cap E mb' = b_cap b) by (rewrite P1; apply Br).
    eapply Rep_put with (n0 := Buf i); eauto.
    - intros j Hj He. congruence.
    - split; simpl; auto. now rewrite P2.
    - eapply lay_upd; eauto. eapply lay_mem; eauto.
  Qed.

  Lemma loc_upd_same mbs i mb mb' tmp tmpN n : nth_error mbs i = Some mb -> mb_begin E mb' = mb_begin E mb -> mb_other E mb' = mb_other E mb ->
    loc (upd mbs i mb') tmp tmpN n = loc mbs tmp tmpN n.
  Proof.
    intros Hn Hb Ho. pose proof (nth_error_some_lt _ _ _ Hn). destruct n as [j|j| |]; simpl; auto; rewrite nth_upd by auto;
      destruct (Nat.eqb_spec j i) as [->|]; auto; rewrite Hn; simpl; now rewrite ?Hb, ?Ho.
  Qed.

  Lemma double_area bs b : bucketStorage C = DoubleBuffer -> area bs b = b_cap b.
  Proof. unfold Model.area. now intros ->. Qed.
  Lemma same_area bs b : bucketStorage C = SameSizeBuffer -> area bs b = largest E bs.
  Proof. unfold Model.area. now intros ->. Qed.

  Lemma mergeRange_ok mg g into s l g' :
    rep mg g -> src (mg_mem E mg) (mg_bs E mg) (mg_tmp E mg) (mg_tmpNP E mg) (fun n => n = Buf into \/ n = Oth into \/ n = Tmp) s l ->
    gb_mergeRange E lt eqv dedup C g into l = Ok g' ->
    exists mg', mg_mergeRange E lt eqv dedup C mg into s = Ok mg' /\ rep mg' g' /\
      forall j, j <> into -> nth_error (mg_bs E mg') j = nth_error (mg_bs E mg) j.
  Proof.
    destruct mg as [m mbs tmp tmpN cnt f]. intros (R & Rc & Rf) S H. simpl in R, S, Rc, Rf. subst cnt f.
    unfold gb_mergeRange in H. unfold mg_mergeRange. cbn [mg_bs mg_mem mg_tmp mg_tmpNP mg_count mg_front].
    binv H. apply vget_inv in Eb. rename a into b.
    destruct (Rep_nth _ _ _ _ _ _ _ _ R Eb) as (mb & Hmb & -> & Br & W & Hid & Hbd & Hi & Hfit). cbn [bind].
    pose proof (r_lay _ _ _ _ _ _ R) as L.
    destruct (bucketStorage C) eqn:Hst.
    - (* Plain *)
      destruct (gb_merge E lt eqv dedup C l (b_ents b)) as [r k] eqn:Hg. binv H.
      destruct (Nat.ltb_spec (largest E (g_bs g)) (b_size E b)) as [|Hsz]; [discriminate|]. unfold b_size in Hsz.
      destruct (within_tmp _ _ _ _ _ _ R Hsz) as (Wt & It & Bt).
      pose proof (src_bucket _ _ _ _ _ (fun n => n = Tmp) _ _ _ R Hmb Eb ltac:(congruence)) as Sb.
      destruct (copy_ok (b_ents b) m (mb_range E mb) tmp (proj1 Sb) It Bt) as (m1 & -> & F1 & H1); [eapply src_clear; eauto; reflexivity|].
      cbn [bind]. binv H. binv H. binv H. injection H as <-.
      assert (R1 : Rep m1 mbs tmp tmpN (g_bs g)) by (eapply Rep_scratch with (n0 := Tmp); eauto; congruence).
      assert (S1 : src m1 mbs tmp tmpN (fun n => n = Buf into \/ n = Oth into \/ n = Tmp) s l) by (eapply src_frame with (n := Tmp); eauto).
      assert (S2 : src m1 mbs tmp tmpN (fun n => n = Buf into) (Int E tmp (padd tmp (length (b_ents b)))) (b_ents b)).
      { split; [split; auto|]. exists Tmp. split; [congruence|]. auto. }
      destruct (mb_merge_ok _ _ _ _ _ _ _ _ _ _ _ _ _ _ _ _ _ R1 Hmb Eb (or_introl eq_refl) eq_refl S1 S2 Hg Eb1)
        as (m' & mb' & -> & R' & F'). cbn [bind]. rewrite Eb0. cbn [bind]. rewrite vset_ok by auto. cbn [bind].
      apply vset_inv in Eb2 as (_ & ->). rewrite (mf_inc_ok _ _ _ _ _ _ (r_bs _ _ _ _ _ _ R') Eb3). cbn [bind].
      eexists; split; [reflexivity|]. split; [split; auto|]. intros j Hj. simpl. now rewrite nth_upd_other by auto.
    - (* DoubleBuffer *)
      destruct (gb_merge E lt eqv dedup C (b_ents b) l) as [r k] eqn:Hg. binv H. binv H. binv H. binv H. injection H as <-.
      apply vset_inv in Eb2 as (_ & ->). apply bk_hold_inv in Eb1 as (Hlen & ->). pose proof Hlen as Hlen'. rewrite double_area in Hlen' by auto.
      destruct (within_oth _ _ _ _ _ _ _ _ _ Hst R Hmb Eb Hlen') as (Wo & Io & Bo).
      pose proof (src_bucket _ _ _ _ _ (fun n => n = Oth into) _ _ _ R Hmb Eb ltac:(congruence)) as Sb.
      destruct (merge_ok lt eqv dedup C _ _ _ _ m (mb_range E mb) s (mb_other E mb) Hg (proj1 Sb) (proj1 S) Io Bo) as (m' & -> & F & Hr);
        [eapply src_clear; eauto; reflexivity|eapply src_clear; [exact L|exact S| |exact Wo]; simpl; auto|].
      cbn [bind]. replace (snd (padd (mb_other E mb) (length r)) - snd (mb_other E mb)) with (length r) by (simpl; lia).
      unfold mb_switchToOtherBuffer.
      destruct (mb_setBack_ok m' (mk_mb E (mb_cap E mb) (mb_other E mb) (mb_begin E mb) (length r) (mb_back E mb)) r (b_back b))
        as (mb' & -> & P1 & P2 & P3 & P4 & P5); simpl; auto; [apply Br|]. simpl in *. rewrite Eb0. cbn [bind]. rewrite vset_ok by auto. cbn [bind].
      assert (Hcap : mb_cap E mb' = b_cap b) by (rewrite P1; apply Br).
      assert (R' : Rep m' (upd mbs into mb') tmp tmpN (upd (g_bs g) into (mk_b (b_cap b) r (new_back E r (b_back b))))).
      { eapply Rep_put with (n0 := Oth into); eauto.
        - congruence.
        - split; simpl; auto. now rewrite P2.
        - eapply lay_swap with (n1 := Buf into) (n2 := Oth into) (bs := mbs); [eapply lay_mem; eauto|eapply caps_upd; eauto| |].
          + unfold RepProofs.len. now rewrite Hst.
          + intros n. destruct (name_dec n (Buf into)) as [->|N1]; [|destruct (name_dec n (Oth into)) as [->|N2]].
            * rewrite swap_l. simpl. unfold double. rewrite Hst, Hmb, nth_upd_same by auto. simpl. now rewrite P2.
            * rewrite swap_r. simpl. unfold double. rewrite Hst, Hmb, nth_upd_same by auto. simpl. now rewrite P3.
            * rewrite swap_other by auto. destruct n as [j|j| |]; simpl; auto; rewrite nth_upd_other by congruence; auto. }
      rewrite (mf_inc_ok _ _ _ _ _ _ (r_bs _ _ _ _ _ _ R') Eb3). cbn [bind].
      eexists; split; [reflexivity|]. split; [split; auto|]. intros j Hj. simpl. now rewrite nth_upd_other by auto.
    - (* SameSizeBuffer *)
      destruct (gb_merge E lt eqv dedup C (b_ents b) l) as [r k] eqn:Hg. binv H. binv H. binv H. binv H. injection H as <-.
      apply vset_inv in Eb2 as (_ & ->). apply bk_hold_inv in Eb1 as (Hlen & ->). pose proof Hlen as Hlen'. rewrite same_area in Hlen' by auto.
      destruct (within_tmp _ _ _ _ _ _ R Hlen') as (Wo & Io & Bo).
      pose proof (src_bucket _ _ _ _ _ (fun n => n = Tmp) _ _ _ R Hmb Eb ltac:(congruence)) as Sb.
      destruct (merge_ok lt eqv dedup C _ _ _ _ m (mb_range E mb) s tmp Hg (proj1 Sb) (proj1 S) Io Bo) as (m' & -> & F & Hr);
        [eapply src_clear; eauto; reflexivity|eapply src_clear; [exact L|exact S| |exact Wo]; simpl; auto|].
      cbn [bind]. replace (snd (padd tmp (length r)) - snd tmp) with (length r) by (simpl; lia).
      unfold mb_setBufferWithNewEntries.
      destruct (mb_setBack_ok m' (mk_mb E (mb_cap E mb) tmp (mb_other E mb) (length r) (mb_back E mb)) r (b_back b))
        as (mb' & -> & P1 & P2 & P3 & P4 & P5); simpl; auto; [apply Br|]. simpl in *. rewrite Eb0. cbn [bind]. rewrite vset_ok by auto. cbn [bind].
      assert (Hcap : mb_cap E mb' = b_cap b) by (rewrite P1; apply Br).
      assert (R' : Rep m' (upd mbs into mb') (mb_begin E mb) tmpN (upd (g_bs g) into (mk_b (b_cap b) r (new_back E r (b_back b))))).
      { eapply Rep_put with (n0 := Tmp); eauto.
        - congruence.
        - split; simpl; auto. now rewrite P2.
        - eapply lay_swap with (n1 := Buf into) (n2 := Tmp) (bs := mbs); [eapply lay_mem; eauto|eapply caps_upd; eauto| |].
          + unfold RepProofs.len. now rewrite Hst.
          + intros n. destruct (name_dec n (Buf into)) as [->|N1]; [|destruct (name_dec n Tmp) as [->|N2]].
            * rewrite swap_l. simpl. rewrite nth_upd_same by auto. simpl. now rewrite P2.
            * rewrite swap_r. simpl. now rewrite Hmb.
            * rewrite swap_other by auto. destruct n as [j|j| |]; simpl; auto; [rewrite nth_upd_other by congruence; auto| |congruence].
              unfold double. now rewrite Hst. }
      rewrite (mf_inc_ok _ _ _ _ _ _ (r_bs _ _ _ _ _ _ R') Eb3). cbn [bind].
      eexists; split; [reflexivity|]. split; [split; auto|]. intros j Hj. simpl. now rewrite nth_upd_other by auto.
  Qed.

  Lemma Rep_clear m mbs tmp tmpN bs i mb b : Rep m mbs tmp tmpN bs -> nth_error mbs i = Some mb -> nth_error bs i = Some b ->
    Rep m (upd mbs i (mb_clear E mb)) tmp tmpN (upd bs i (bk_clear E b)).
  Proof.
    intros R Hmb Hb. destruct (Rep_nth _ _ _ _ _ _ _ _ R Hb) as (mb0 & Hmb0 & _ & Br & W & Hid & Hbd & Hi & Hfit).
    rewrite Hmb in Hmb0. injection Hmb0 as <-.
    eapply Rep_put with (n0 := Buf i) (lo := snd (mb_begin E mb)) (hi := snd (mb_begin E mb)); eauto.
    - apply frame_refl.
    - eapply within_sub; [| |exact W]; lia.
    - intros j Hj He. congruence.
    - split; simpl; auto; try apply Br. now apply holds_nil.
    - simpl. lia.
    - eapply lay_upd; eauto. apply R.
  Qed.

  Lemma mergeToNonEmpty_ok mg g to from g' : to <> from -> rep mg g -> gb_mergeToNonEmpty E lt eqv dedup C g to from = Ok g' ->
    exists mg', mg_mergeToNonEmpty E lt eqv dedup C mg to from = Ok mg' /\ rep mg' g'.
  Proof.
    intros Hne (R & Rc & Rf) H. unfold gb_mergeToNonEmpty in H. unfold mg_mergeToNonEmpty. rewrite Rf, Rc.
    binv H. binv H. binv H. apply vget_inv in Eb1. destruct (Rep_nth _ _ _ _ _ _ _ _ R Eb1) as (mb & Hmb & -> & _). cbn [bind].
    binv H. match goal with Hq : gb_mergeRange _ _ _ _ _ _ _ _ = Ok ?g1 |- _ => rename Hq into Hq1; rename g1 into g1' end.
    match type of Hq1 with gb_mergeRange _ _ _ _ _ ?g0 _ _ = _ => set (g0' := g0) in * end.
    assert (S : src (mg_mem E mg) (mg_bs E mg) (mg_tmp E mg) (mg_tmpNP E mg) (fun n => n = Buf to \/ n = Oth to \/ n = Tmp) (mb_range E mb) (b_ents a1)).
    { eapply src_bucket; eauto. intros [He|[He|He]]; congruence. }
    destruct (mergeRange_ok (mk_mgb E (mg_mem E mg) (mg_bs E mg) (mg_tmp E mg) (mg_tmpNP E mg) (g_count g) (g_front g0')) g0' to (mb_range E mb)
      _ _ (conj R (conj eq_refl eq_refl)) S Hq1)
      as (mg1 & Hm1 & (R1 & Rc1 & Rf1) & Hoth). unfold g0' in Hm1. simpl g_front in Hm1. rewrite Hm1. cbn [bind]. simpl in Hoth.
    binv H. apply vget_inv in Eb2. destruct (Rep_nth _ _ _ _ _ _ _ _ R1 Eb2) as (mb1 & Hmb1 & -> & Br1 & _ & _ & _ & Hi1 & _). cbn [bind].
    binv H. apply vset_inv in Eb3 as (_ & ->). rewrite vset_ok by auto. cbn [bind]. binv H. injection H as <-. rewrite Rf1, Eb3. cbn [bind].
    eexists; split; [reflexivity|]. split; [|split; auto]. simpl. eapply Rep_clear; eauto.
  Qed.

  Lemma mergeToEmpty_ok mg g to from s l g' : to <> from -> rep mg g ->
    src (mg_mem E mg) (mg_bs E mg) (mg_tmp E mg) (mg_tmpNP E mg) (fun n => n = Buf to) s l ->
    gb_mergeToEmpty E lt eqv dedup C g to from l = Ok g' ->
    exists mg', mg_mergeToEmpty E lt eqv dedup C mg to from s = Ok mg' /\ rep mg' g'.
  Proof.
    intros Hne (R & Rc & Rf) S H. unfold gb_mergeToEmpty in H. unfold mg_mergeToEmpty. rewrite Rf, Rc.
    binv H. apply vget_inv in Eb. destruct (Rep_nth _ _ _ _ _ _ _ _ R Eb) as (mt & Hmt & -> & _ & _ & _ & _ & Hit & _). cbn [bind].
    binv H. apply vget_inv in Eb0. destruct (Rep_nth _ _ _ _ _ _ _ _ R Eb0) as (mf & Hmf & -> & _ & _ & _ & _ & Hif & _). cbn [bind].
    destruct (gb_merge E lt eqv dedup C l (b_ents a0)) as [r k] eqn:Hg. binv H. binv H.
    destruct (mb_merge_ok _ _ _ _ _ _ _ _ _ _ _ _ _ _ _ (fun n => n = Buf to) (fun n => n = Buf to) R Hmt Eb eq_refl eq_refl S
      (src_bucket _ _ _ _ _ (fun n => n = Buf to) _ _ _ R Hmf Eb0 ltac:(congruence)) Hg Eb2) as (m' & mt' & -> & R' & F'). cbn [bind]. rewrite Eb1. cbn [bind].
    binv H. apply vset_inv in Eb3 as (_ & ->). rewrite vset_ok by auto. cbn [bind]. binv H. apply vset_inv in Eb3 as (_ & ->).
    rewrite vset_ok by (rewrite upd_length; auto). cbn [bind]. binv H. binv H. injection H as <-. cbn [bind].
    assert (R2 : Rep m' (upd (upd (mg_bs E mg) to mt') from (mb_clear E mf)) (mg_tmp E mg) (mg_tmpNP E mg)
      (upd (upd (g_bs g) to a2) from (bk_clear E a0))).
    { eapply Rep_clear; eauto; now rewrite nth_upd_other by auto. }
    rewrite (mf_inc_ok _ _ _ _ _ _ (r_bs _ _ _ _ _ _ R2) Eb4). cbn [bind]. eexists; split; [reflexivity|]. split; auto.
  Qed.

  (** assign *)
  Lemma mb_assign_ok m mbs tmp tmpN bs i mb b b' s l (bad : name -> Prop) : Rep m mbs tmp tmpN bs ->
    nth_error mbs i = Some mb -> nth_error bs i = Some b -> bad (Buf i) -> src m mbs tmp tmpN bad s l -> bk_hold E (area bs b) b l = Ok b' ->
    exists m' mb', mb_assign E m mb s (length l) = Ok (m', mb') /\ Rep m' (upd mbs i mb') tmp tmpN (upd bs i b').
  Proof.
    intros R Hmb Hb B S Hh. apply bk_hold_inv in Hh as (Hlen & ->).
    destruct (Rep_nth _ _ _ _ _ _ _ _ R Hb) as (mb0 & Hmb0 & _ & Br & W & Hid & Hbd & Hi & Hfit).
    rewrite Hmb in Hmb0. injection Hmb0 as <-. pose proof (r_lay _ _ _ _ _ _ R) as L.
    assert (W' : within mbs tmp tmpN (Buf i) (snd (mb_begin E mb)) (snd (mb_begin E mb) + length l)) by (eapply within_sub; [| |exact W]; lia).
    destruct (copy_ok l m s (mb_begin E mb) (proj1 S) Hid ltac:(lia)) as (m' & Hm & F & Hr); [eapply src_clear; eauto; reflexivity|].
    unfold mb_assign. rewrite Hm. cbn [bind].
    pose proof (src_frame _ _ _ _ _ _ _ _ _ _ _ L S B W' F) as (S' & _).
    assert (Hback : (if 0 <? length l then let* x := it_last E m' s in Ok (Some x) else Ok (mb_back E mb)) = Ok (new_back E l (b_back b))).
    { unfold new_back. destruct (last_entry E l) as [x|] eqn:Hl.
      - pose proof (nth_error_some_lt _ _ _ Hl). destruct (Nat.ltb_spec 0 (length l)); [|lia]. rewrite (it_last_ok _ _ _ _ S' Hl). reflexivity.
      - rewrite (last_entry_nil_inv _ Hl). simpl. f_equal. apply Br. }
    rewrite Hback. cbn [bind]. eexists; eexists; split; [reflexivity|].
    assert (Hcap : mb_cap E mb = b_cap b) by apply Br.
    eapply Rep_put with (n0 := Buf i); eauto.
    - intros j Hj He. congruence.
    - split; simpl; auto.
    - eapply lay_upd; eauto. eapply lay_mem; eauto.
  Qed.

  Lemma moveToEmpty_ok mg g to from g' : to <> from -> rep mg g -> gb_moveToEmpty E C g to from = Ok g' ->
    exists mg', mg_moveToEmpty E C mg to from = Ok mg' /\ rep mg' g'.
  Proof.
    intros Hne (R & Rc & Rf) H. unfold gb_moveToEmpty in H. unfold mg_moveToEmpty. rewrite Rf, Rc.
    binv H. apply vget_inv in Eb. destruct (Rep_nth _ _ _ _ _ _ _ _ R Eb) as (mt & Hmt & -> & Brt & Wt & Idt & Bdt & Hit & Ft). cbn [bind].
    binv H. apply vget_inv in Eb0. destruct (Rep_nth _ _ _ _ _ _ _ _ R Eb0) as (mf & Hmf & -> & Brf & Wf & Idf & Bdf & Hif & Ff). cbn [bind].
    binv H. binv H. apply vset_inv in Eb2 as (_ & ->). binv H. apply vset_inv in Eb2 as (_ & ->). binv H. injection H as <-.
    assert (Hcase : exists m' mt' mf',
      match bucketStorage C with
      | SameSizeBuffer =>
          let* bt' := mb_setBufferWithNewEntries E (mg_mem E mg) mt (mb_begin E mf) (mb_size E mf) in
          let* bf' := mb_setBufferWithNewEntries E (mg_mem E mg) mf (mb_begin E mt) 0 in
          Ok (mg_mem E mg, bt', bf')
      | _ => let* (m', bt') := mb_assign E (mg_mem E mg) mt (mb_range E mf) (mb_size E mf) in Ok (m', bt', mb_clear E mf)
      end = Ok (m', mt', mf') /\
      Rep m' (upd (upd (mg_bs E mg) to mt') from mf') (mg_tmp E mg) (mg_tmpNP E mg) (upd (upd (g_bs g) to a1) from (bk_clear E a0))).
    { assert (Hcopy : exists m' mt', mb_assign E (mg_mem E mg) mt (mb_range E mf) (mb_size E mf) = Ok (m', mt') /\
        Rep m' (upd (upd (mg_bs E mg) to mt') from (mb_clear E mf)) (mg_tmp E mg) (mg_tmpNP E mg) (upd (upd (g_bs g) to a1) from (bk_clear E a0))).
      { rewrite (br_size _ _ _ Brf).
        destruct (mb_assign_ok _ _ _ _ _ _ _ _ _ _ _ (fun n => n = Buf to) R Hmt Eb eq_refl
          (src_bucket _ _ _ _ _ (fun n => n = Buf to) _ _ _ R Hmf Eb0 ltac:(congruence)) Eb1) as (m' & mt' & Hm & R'). exists m', mt'. split; auto.
        eapply Rep_clear; eauto; now rewrite nth_upd_other by auto. }
      destruct (bucketStorage C) eqn:Hst; try (destruct Hcopy as (m' & mt' & -> & R'); cbn [bind]; eauto).
      clear Hcopy. apply bk_hold_inv in Eb1 as (Hl & ->). unfold mb_setBufferWithNewEntries. rewrite (br_size _ _ _ Brf).
      destruct (mb_setBack_ok (mg_mem E mg) (mk_mb E (mb_cap E mt) (mb_begin E mf) (mb_other E mt) (length (b_ents a0)) (mb_back E mt))
        (b_ents a0) (b_back a)) as (mt' & -> & P1 & P2 & P3 & P4 & P5); simpl; auto; [apply Brf|apply Brt|]. cbn [bind]. simpl in *.
      unfold mb_setBack. simpl. cbn [bind]. eexists; eexists; eexists; split; [reflexivity|].
      set (mf' := mk_mb E (mb_cap E mf) (mb_begin E mt) (mb_other E mf) 0 (mb_back E mf)).
      assert (Hlen : length (mg_bs E mg) = length (g_bs g)) by (eapply F2_length; apply R).
      split.
      - apply F2_intro; [now rewrite !upd_length|]. intros j x y Hx Hy.
        rewrite nth_upd in Hx by (rewrite upd_length; auto). rewrite nth_upd in Hy by (rewrite upd_length; lia).
        destruct (Nat.eqb_spec j from) as [->|N1].
        + injection Hx as <-. injection Hy as <-. split; simpl; auto; try apply Brf. now apply holds_nil.
        + rewrite nth_upd in Hx by auto. rewrite nth_upd in Hy by lia. destruct (Nat.eqb_spec j to) as [->|N2].
          * injection Hx as <-. injection Hy as <-. split; simpl; auto; [rewrite P1; apply Brt|rewrite P2; apply Brf].
          * destruct (F2_nth _ _ _ (r_bs _ _ _ _ _ _ R) _ _ Hy) as (z & Hz & Brz). congruence.
      - eapply lay_swap with (n1 := Buf to) (n2 := Buf from) (bs := mg_bs E mg); [apply R| | |].
        + rewrite (caps_upd _ from mf), (caps_upd _ to mt); auto. now rewrite nth_upd_other by auto.
        + unfold RepProofs.len. now rewrite Hst.
        + intros n. destruct (name_dec n (Buf to)) as [->|N1]; [|destruct (name_dec n (Buf from)) as [->|N2]].
          * rewrite swap_l. simpl. rewrite nth_upd_other, nth_upd_same, Hmf by auto. simpl. now rewrite P2.
          * rewrite swap_r. simpl. rewrite nth_upd_same, Hmt by (rewrite upd_length; auto). reflexivity.
          * rewrite swap_other by auto. destruct n as [j|j| |]; simpl; auto.
            -- now rewrite !nth_upd_other by congruence.
            -- unfold double. now rewrite Hst.
      - eapply fit_upd with (b := a0); [|now rewrite nth_upd_other by auto|reflexivity|simpl; lia].
        eapply fit_upd; eauto; apply R. }
    destruct Hcase as (m' & mt' & mf' & -> & R'). cbn [bind]. rewrite vset_ok by auto. cbn [bind]. rewrite vset_ok by (rewrite upd_length; auto).
    cbn [bind]. eexists; split; [reflexivity|]. split; auto.
  Qed.

  Lemma assign_ok mg g i l g' : rep mg g -> gb_assign E lt C g i l = Ok g' -> exists mg', mg_assign E lt C mg i l = Ok mg' /\ rep mg' g'.
  Proof.
    intros (R & Rc & Rf) H. unfold gb_assign in H. unfold mg_assign. rewrite Rf, Rc.
    binv H. apply vget_inv in Eb. destruct (Rep_nth _ _ _ _ _ _ _ _ R Eb) as (mt & Hmt & -> & _ & _ & _ & _ & Hit & _). cbn [bind].
    binv H. assert (S : src (mg_mem E mg) (mg_bs E mg) (mg_tmp E mg) (mg_tmpNP E mg) (fun n => n = Buf i) (Ext E l) l) by (split; simpl; auto).
    destruct (mb_assign_ok _ _ _ _ _ _ _ _ _ _ _ _ R Hmt Eb eq_refl S Eb0) as (m' & mb' & -> & R'). cbn [bind].
    binv H. apply vset_inv in Eb1 as (_ & ->). rewrite vset_ok by auto. cbn [bind]. binv H. injection H as <-.
    rewrite (mf_insert_ok _ _ _ _ _ _ (r_bs _ _ _ _ _ _ R') Eb1). cbn [bind]. eexists; split; [reflexivity|]. split; auto.
  Qed.
End Proofs.
