(** Proofs about GeoMem/Model.v: addBucket. *)
From Coq Require Import List Arith Bool Lia.
From Verif.Base Require Import Res Arr.
From Verif.Spec Require Import PQ.
From Verif.Geobucket Require Import Model.
From Verif.GeoMem Require Import Model MemProofs RepProofs Proofs.
Import ListNotations.

Section GrowProofs.
  Context {E : Type}.
  Variable C : config.
  Hypothesis Hgb : 1 <= geoBase C.
  Hypothesis Hmin : 1 <= minBucketSize C.
  Notation mem := (mem E).
  Notation mbucket := (mbucket E).
  Notation bucket := (bucket E).
  Notation cells := (m_cells E).
  Notation caps := (map (mb_cap E)).
  Notation Rep := (Rep C).
  Notation lay := (lay C).
  Notation loc := (loc C).
  Notation len := (len C).
  Notation need := (need C).
  Notation total := (total C).
  Notation area := (area E C).
  Notation rep := (rep C).

  Lemma required_ok nb (mbs : list mbucket) : forall r, required_loop E C nb mbs r = r + total nb (caps mbs).
  Proof.
    unfold RepProofs.total. induction mbs as [|b mbs IH]; intros r; simpl; [lia|]. rewrite IH.
    unfold RepProofs.need, stride, double. destruct (bucketStorage C); lia.
  Qed.

  Definition room (nb : nat) (b : bucket) : nat := match bucketStorage C with SameSizeBuffer => nb | _ => b_cap b end.

  Lemma addr_ok (m : mem) off : off < length (cells m) -> addr E m off = Ok (m_id E m, off).
  Proof. unfold addr. intros H. apply Nat.ltb_lt in H. now rewrite H. Qed.

  Lemma total_cons nb c cs : total nb (c :: cs) = need nb c + total nb cs.
  Proof. reflexivity. Qed.
  Lemma total_app nb cs cs' : total nb (cs ++ cs') = total nb cs + total nb cs'.
  Proof. unfold RepProofs.total. now rewrite map_app, list_sum_app. Qed.
  Lemma total_firstn nb cs : forall i, i < length cs -> total nb (firstn (S i) cs) = total nb (firstn i cs) + need nb (nth i cs 0).
  Proof.
    induction cs as [|c cs IH]; intros [|i] Hi; simpl in Hi; try lia.
    - unfold RepProofs.total. simpl. lia.
    - cbn [firstn nth]. rewrite !total_cons. rewrite <- Nat.add_assoc, <- IH by lia. reflexivity.
  Qed.
  Lemma total_mono nb cs i j : i <= j -> total nb (firstn i cs) <= total nb (firstn j cs).
  Proof.
    intros H. rewrite <- (firstn_skipn i (firstn j cs)). rewrite firstn_firstn, Nat.min_l by auto. rewrite total_app. lia.
  Qed.
  Lemma total_le nb cs i : total nb (firstn i cs) <= total nb cs.
  Proof. rewrite <- (firstn_skipn i cs) at 2. rewrite total_app. lia. Qed.

  Lemma brep_mem_back (m : mem) mb b : brep m mb b -> mb_back E mb = b_back b.
  Proof. apply br_back. Qed.

  Lemma place_ok nb old : forall mbs bs new off, Forall2 (brep old) mbs bs -> (forall b, In b bs -> length (b_ents b) <= room nb b) ->
    off + total nb (caps mbs) < length (cells new) ->
    exists mbs' new', place_loop E C nb old mbs new off = Ok (mbs', new', off + total nb (caps mbs)) /\
      frame off (off + total nb (caps mbs)) new new' /\ Forall2 (brep new') mbs' bs /\
      forall i mb, nth_error mbs' i = Some mb -> mb_begin E mb = (m_id E new, off + total nb (firstn i (caps mbs))) /\
        (double C = true -> mb_other E mb = (m_id E new, off + total nb (firstn i (caps mbs)) + nth i (caps mbs) 0)).
  Proof.
    induction mbs as [|mb mbs IH]; intros bs new off HF Hr Hb.
    - inversion HF; subst. exists [], new. simpl in *. rewrite Nat.add_0_r. split; auto. split; [apply frame_refl|]. split; [constructor|].
      intros [|i]; discriminate.
    - inversion HF as [|? b ? bs0 Br HF0]; subst. cbn [map] in *. rewrite total_cons in *. cbn [place_loop].
      assert (Hneed : length (b_ents b) <= stride E C nb mb /\ need nb (mb_cap E mb) = stride E C nb mb + (if double C then mb_cap E mb else 0)).
      { specialize (Hr b (or_introl eq_refl)). unfold room in Hr. unfold stride, RepProofs.need, double. rewrite (br_cap _ _ _ Br).
        destruct (bucketStorage C); split; auto; lia. }
      destruct Hneed as (Hlen & Hneed). rewrite addr_ok by lia. cbn [bind]. rewrite (br_size _ _ _ Br), (rd_range_ok _ _ _ (br_holds _ _ _ Br)). cbn [bind].
      destruct (copy_ok (b_ents b) new (Ext E (b_ents b)) (m_id E new, off)) as (new1 & -> & F1 & H1); simpl; auto; [lia|]. cbn [bind]. simpl in F1.
      assert (Hq : exists q, (if double C then let* q := addr E new1 (off + stride E C nb mb) in Ok (q, off + stride E C nb mb + mb_cap E mb)
        else Ok (mb_other E mb, off + stride E C nb mb)) = Ok (q, off + need nb (mb_cap E mb)) /\
        (double C = true -> q = (m_id E new, off + stride E C nb mb))).
      { destruct (double C) eqn:Hd.
        - exists (m_id E new, off + stride E C nb mb). rewrite addr_ok by (rewrite (fr_len _ _ _ _ F1); lia). cbn [bind].
          rewrite (fr_id _ _ _ _ F1). split; auto. do 2 f_equal. lia.
        - exists (mb_other E mb). split; [|discriminate]. do 2 f_equal. lia. }
      destruct Hq as (q & -> & Hq). cbn [bind].
      destruct (IH bs0 new1 (off + need nb (mb_cap E mb)) HF0) as (mbs' & new' & -> & F2 & HF' & Hpos).
      { intros b' Hin. apply Hr. now right. } { rewrite (fr_len _ _ _ _ F1). lia. }
      cbn [bind]. rewrite (fr_id _ _ _ _ F1) in Hpos. eexists; exists new'. split; [rewrite <- Nat.add_assoc; reflexivity|].
      split; [eapply frame_trans; [eapply frame_weaken; [| |exact F1]; lia|eapply frame_weaken; [| |exact F2]; lia]|].
      split.
      + constructor; auto. split; simpl; auto; try apply Br. eapply holds_frame; [exact F2| |exact H1]. simpl. lia.
      + intros [|i] mb' Hmb'; simpl in Hmb'.
        * injection Hmb' as <-. simpl. unfold RepProofs.total. simpl. rewrite Nat.add_0_r. split; auto. intros Hd. rewrite (Hq Hd).
          unfold stride. unfold double in Hd. destruct (bucketStorage C); try discriminate. reflexivity.
        * destruct (Hpos i mb' Hmb') as (P1 & P2). cbn [firstn nth]. rewrite total_cons. split; [rewrite P1; f_equal; lia|].
          intros Hd. rewrite (P2 Hd). f_equal. lia.
  Qed.

  Lemma last_snoc {A} (l : list A) x d : last (l ++ [x]) d = x.
  Proof. apply last_last. Qed.
  Lemma in_last (cs : list nat) : cs <> [] -> In (last cs 0) cs.
  Proof. intros H. rewrite (app_removelast_last 0 H) at 2. apply in_or_app. right. now left. Qed.

  (** The areas laid out one after the other *)
  Lemma lay_fresh (m : mem) (mbs : list mbucket) tmp tmpN nb id :
    last (caps mbs) 0 = nb -> (forall c, In c (caps mbs) -> 1 <= c) -> m_id E m = id -> length (cells m) = total nb (caps mbs) + tmps C * nb ->
    (forall i mb, nth_error mbs i = Some mb -> mb_begin E mb = (id, total nb (firstn i (caps mbs))) /\
       (double C = true -> mb_other E mb = (id, total nb (firstn i (caps mbs)) + nth i (caps mbs) 0))) ->
    tmp = (id, total nb (caps mbs)) -> (premerge C = false -> tmpN = (id, total nb (caps mbs) + nb)) ->
    lay m mbs tmp tmpN.
  Proof.
    intros Hlast Hpos Hid Hlen Hloc Ht HtN. subst id.
    set (pos := fun n => match n with
      | Buf i => total nb (firstn i (caps mbs))
      | Oth i => total nb (firstn i (caps mbs)) + nth i (caps mbs) 0
      | Tmp => total nb (caps mbs)
      | TmpN => total nb (caps mbs) + nb end).
    set (valid := fun n => match n with
      | Buf i => i < length (caps mbs)
      | Oth i => i < length (caps mbs) /\ double C = true
      | Tmp => True
      | TmpN => premerge C = false end).
    assert (HL : forall n p, loc mbs tmp tmpN n = Some p -> p = (m_id E m, pos n) /\ valid n).
    { intros [i|i| |] p Hp; simpl in *.
      - destruct (nth_error mbs i) as [mb|] eqn:Hn; [|discriminate]. injection Hp as <-. rewrite map_length. split; [now apply Hloc|].
        eapply nth_error_some_lt; eauto.
      - destruct (double C) eqn:Hd; [|discriminate]. destruct (nth_error mbs i) as [mb|] eqn:Hn; [|discriminate]. injection Hp as <-.
        rewrite map_length. split; [now apply Hloc|]. split; auto. eapply nth_error_some_lt; eauto.
      - injection Hp as <-. auto.
      - destruct (premerge C) eqn:Hp'; [discriminate|]. injection Hp as <-. auto. }
    (* every area of a bucket ends before the next bucket *)
    assert (Hb : forall i, i < length (caps mbs) -> pos (Buf i) + len (caps mbs) (Buf i) <= total nb (firstn (S i) (caps mbs)) /\
      (double C = true -> pos (Buf i) + len (caps mbs) (Buf i) <= pos (Oth i) /\ pos (Oth i) + len (caps mbs) (Oth i) <= total nb (firstn (S i) (caps mbs)))).
    { intros i Hi. rewrite total_firstn by auto. unfold pos, RepProofs.len, RepProofs.need, double. rewrite Hlast.
      destruct (bucketStorage C); split; try discriminate; lia. }
    assert (Hn : forall i j, i < length (caps mbs) -> i < j -> total nb (firstn (S i) (caps mbs)) <= total nb (firstn j (caps mbs))).
    { intros. apply total_mono. lia. }
    assert (Hle : forall i, total nb (firstn i (caps mbs)) <= total nb (caps mbs)) by (intros; apply total_le).
    assert (Htm : premerge C = false -> tmps C = 2) by (unfold tmps; now intros ->).
    assert (Htm1 : 1 <= tmps C) by (unfold tmps; destruct (premerge C); lia).
    split; auto.
    - intros n p Hp. apply HL in Hp as (-> & Hv). simpl. split; auto. rewrite Hlen. destruct n as [i|i| |]; simpl in Hv.
      + specialize (Hb i Hv) as (Hb & _). specialize (Hle (S i)). lia.
      + destruct Hv as (Hv & Hd). specialize (Hb i Hv) as (_ & Hb). specialize (Hb Hd). specialize (Hle (S i)). lia.
      + simpl. rewrite Hlast. nia.
      + simpl. rewrite Hlast. rewrite (Htm Hv). lia.
    - intros n n' p p' Hp Hp' Hne. apply HL in Hp as (-> & Hv). apply HL in Hp' as (-> & Hv'). simpl snd.
      assert (sym : forall n n', valid n -> valid n' -> n <> n' ->
        match n, n' with
        | Buf i, Buf j => i < j | Oth i, Oth j => i < j | Buf i, Oth j => i <= j | Oth i, Buf j => i < j
        | Buf _, _ => True | Oth _, _ => True | Tmp, TmpN => True | _, _ => False end ->
        pos n + len (caps mbs) n <= pos n').
      { clear n n' Hv Hv' Hne. intros n n' Hv Hv' Hne Ho.
        assert (H1 : forall i, valid (Buf i) -> pos (Buf i) + len (caps mbs) (Buf i) <= total nb (caps mbs)).
        { intros i Hi. simpl in Hi. specialize (Hb i Hi) as (Hb & _). specialize (Hle (S i)). lia. }
        assert (H2 : forall i, valid (Oth i) -> pos (Oth i) + len (caps mbs) (Oth i) <= total nb (caps mbs)).
        { intros i (Hi & Hd). specialize (Hb i Hi) as (_ & Hb). specialize (Hb Hd). specialize (Hle (S i)). lia. }
        destruct n as [i|i| |], n' as [j|j| |]; try contradiction; try (specialize (H1 _ Hv)); try (specialize (H2 _ Hv)).
        - simpl in Hv. specialize (Hb i Hv) as (Hb & _). specialize (Hn i j Hv Ho). simpl pos at 2. lia.
        - simpl in Hv. destruct Hv' as (Hv' & Hd). destruct (Nat.eq_dec i j) as [->|Hij].
          + specialize (Hb j Hv) as (_ & Hb). specialize (Hb Hd). lia.
          + specialize (Hb i Hv) as (Hb & _). specialize (Hn i j Hv ltac:(lia)). simpl pos at 2. lia.
        - simpl pos at 2. lia.
        - simpl pos at 2. lia.
        - destruct Hv as (Hv & Hd). specialize (Hb i Hv) as (_ & Hb). specialize (Hb Hd). specialize (Hn i j Hv ltac:(lia)). simpl pos at 2. lia.
        - destruct Hv as (Hv & Hd). specialize (Hb i Hv) as (_ & Hb). specialize (Hb Hd). specialize (Hn i j Hv ltac:(lia)). simpl pos at 2. lia.
        - simpl pos at 2. lia.
        - simpl pos at 2. lia.
        - simpl. rewrite Hlast. lia. }
      destruct n as [i|i| |], n' as [j|j| |].
      + destruct (Nat.lt_trichotomy i j) as [H|[->|H]]; [left|congruence|right]; apply sym; auto.
      + destruct (Nat.le_gt_cases i j); [left|right]; apply sym; auto.
      + left; apply sym; simpl; auto.
      + left; apply sym; simpl; auto.
      + destruct (Nat.le_gt_cases j i); [right|left]; apply sym; auto.
      + destruct (Nat.lt_trichotomy i j) as [H|[->|H]]; [left|congruence|right]; apply sym; auto.
      + left; apply sym; simpl; auto.
      + left; apply sym; simpl; auto.
      + right; apply sym; simpl; auto.
      + right; apply sym; simpl; auto.
      + congruence.
      + left; apply sym; simpl; auto.
      + right; apply sym; simpl; auto.
      + right; apply sym; simpl; auto.
      + right; apply sym; simpl; auto.
      + congruence.
    - now rewrite Hlast.
  Qed.

  Lemma total_nb_mono nb nb' cs : nb <= nb' -> total nb cs <= total nb' cs.
  Proof.
    intros H. unfold RepProofs.total. induction cs as [|c cs IH]; simpl; auto. apply Nat.add_le_mono; auto. unfold RepProofs.need. destruct (bucketStorage C); lia.
  Qed.

  Lemma addBucket_ok mg g g' : rep mg g -> gb_addBucket E C g = Ok g' -> exists mg', mg_addBucket E C mg = Ok mg' /\ rep mg' g'.
  Proof.
    destruct mg as [m mbs tmp tmpN cnt f]. intros ([HF L Hfit] & Rc & Rf) H. simpl in HF, L, Rc, Rf. subst cnt f.
    unfold gb_addBucket in H. unfold mg_addBucket. cbn [mg_bs mg_mem mg_tmpNP mg_count mg_front].
    set (nb := match g_bs g with [] => minBucketSize C | _ => largest E (g_bs g) * geoBase C end) in *.
    assert (Hnb : match mbs with [] => minBucketSize C | _ => mlargest E mbs * geoBase C end = nb).
    { unfold nb. inversion HF; subst; auto. rewrite (F2_mlargest m (x :: l)) with (bs := y :: l') by (constructor; auto). reflexivity. }
    rewrite Hnb. clear Hnb. pose proof (F2_mlargest _ _ _ HF) as Hml. rewrite <- last_mlargest in Hml.
    assert (Hlb : last (caps mbs) 0 <= nb /\ 1 <= nb).
    { unfold nb. destruct (g_bs g) as [|b bs] eqn:Hbs.
      - inversion HF; subst. simpl. lia.
      - assert (1 <= last (caps mbs) 0). { apply (lay_pos _ _ _ _ _ L). apply in_last. inversion HF; subst. discriminate. }
        rewrite Hml in *. nia. }
    destruct Hlb as (Hlb & Hnb1). rewrite required_ok. rewrite Nat.add_0_l.
    set (required := if premerge C then _ else _).
    assert (Ht1 : total nb [nb] = nb + (if double C then nb else 0)).
    { unfold RepProofs.total, RepProofs.need, double. simpl. destruct (bucketStorage C); lia. }
    assert (Hreq : required = total nb (caps mbs ++ [nb]) + tmps C * nb).
    { rewrite total_app, Ht1. unfold required, tmps. destruct (premerge C), (double C); lia. }
    clearbody required.
    assert (Hold : length (cells m) <= required).
    { rewrite (lay_len _ _ _ _ _ L), Hreq, total_app. pose proof (total_nb_mono _ nb (caps mbs) Hlb). unfold tmps. destruct (premerge C); lia. }
    destruct (Nat.ltb_spec required (length (cells m))) as [|_]; [lia|].
    set (new0 := mk_mem E _ _). assert (Hn0 : length (cells new0) = required).
    { unfold new0. simpl. rewrite app_length, repeat_length. lia. }
    rewrite total_app in Hreq.
    assert (Htm1 : 1 <= tmps C) by (unfold tmps; destruct (premerge C); lia).
    destruct (place_ok nb m mbs (g_bs g) new0 0 HF) as (mbs' & new' & -> & F & HF' & Hpos).
    { intros b Hin. apply In_nth_error in Hin as (i & Hi). specialize (Hfit _ _ Hi). unfold room. unfold Model.area in Hfit.
      destruct (bucketStorage C); auto. lia. }
    { rewrite Hn0. nia. }
    cbn [bind]. rewrite Nat.add_0_l in *. simpl in Hpos.
    assert (Hn' : length (cells new') = required) by (rewrite (fr_len _ _ _ _ F); auto).
    rewrite (addr_ok new') by (rewrite Hn'; nia). cbn [bind].
    assert (Hq : exists q, (if double C then let* q := addr E new' (total nb (caps mbs) + nb) in Ok (q, total nb (caps mbs) + nb + nb)
        else Ok (null, total nb (caps mbs) + nb)) = Ok (q, total nb (caps mbs) + total nb [nb]) /\
        (double C = true -> q = (m_id E new', total nb (caps mbs) + nb))).
    { rewrite Ht1 in *. destruct (double C) eqn:Hd.
      - rewrite addr_ok by (rewrite Hn'; nia). cbn [bind]. eexists; split; [do 2 f_equal; lia|auto].
      - eexists; split; [do 2 f_equal; lia|discriminate]. }
    destruct Hq as (q & -> & Hq). cbn [bind].
    set (bs' := mbs' ++ [mk_mb E nb (m_id E new', total nb (caps mbs)) q 0 None]).
    assert (Hlen : length bs' = length (g_bs g ++ [mk_b nb [] None])).
    { unfold bs'. rewrite !app_length. f_equal; auto. eapply F2_length; eauto. }
    rewrite Hlen.
    assert (Hfront : exists f, g' = mk_gb (g_bs g ++ [mk_b nb [] None]) (g_count g) f /\
      match g_front g with
      | FCache _ => Ok (FCache None)
      | FOrder a slots n toks =>
          let* (a', slots', toks') := fo_reserve a slots n (toks ++ [None]) (length (g_bs g ++ [mk_b nb [] None])) in
          Ok (FOrder a' slots' n toks')
      end = Ok f).
    { destruct (g_front g) as [c|a slots n toks]; [injection H as <-; eauto|]. binv H. destruct a0 as [[a' s'] t']. injection H as <-. eauto. }
    destruct Hfront as (f & -> & ->). cbn [bind].
    rewrite (addr_ok new') by (rewrite Hn', Hreq; nia). cbn [bind].
    assert (HtN : exists q, (if premerge C then Ok (tmpN, total nb (caps mbs) + total nb [nb] + nb)
        else let* q0 := addr E new' (total nb (caps mbs) + total nb [nb] + nb) in Ok (q0, total nb (caps mbs) + total nb [nb] + nb + nb))
        = Ok (q, required) /\ (premerge C = false -> q = (m_id E new', total nb (caps mbs) + total nb [nb] + nb))).
    { rewrite Hreq in *. unfold tmps in *. destruct (premerge C) eqn:Hp.
      - eexists; split; [do 2 f_equal; lia|discriminate].
      - rewrite addr_ok by (rewrite Hn'; lia). cbn [bind]. eexists; split; [do 2 f_equal; lia|auto]. }
    destruct HtN as (tN & -> & HtN). cbn [bind]. rewrite Nat.eqb_refl. eexists; split; [reflexivity|].
    assert (Hcaps : caps mbs' = caps mbs) by (rewrite (F2_caps _ _ _ HF'), (F2_caps _ _ _ HF); auto).
    assert (Hcaps' : caps bs' = caps mbs ++ [nb]) by (unfold bs'; rewrite map_app, Hcaps; auto).
    split; [|split; reflexivity]. simpl. split.
    - unfold bs'. apply Forall2_app; auto. constructor; auto. split; simpl; auto. apply holds_nil. reflexivity.
    - eapply lay_fresh with (nb := nb); [rewrite Hcaps'; apply last_last| |reflexivity| | |rewrite Hcaps', total_app; reflexivity|].
      + rewrite Hcaps'. intros c Hc. apply in_app_or in Hc as [Hc|[<-|[]]]; auto. eapply lay_pos; eauto.
      + rewrite Hcaps', total_app. lia.
      + intros i mb Hi. rewrite Hcaps'. unfold bs' in Hi. destruct (Nat.lt_ge_cases i (length mbs')) as [Hlt|Hge].
        * rewrite nth_error_app1 in Hi by auto. rewrite firstn_app, app_nth1 by (rewrite map_length; apply F2_length in HF; apply F2_length in HF'; lia).
          rewrite map_length. replace (i - length mbs) with 0 by (apply F2_length in HF; apply F2_length in HF'; lia). simpl firstn. rewrite app_nil_r, (fr_id _ _ _ _ F). auto.
        * rewrite nth_error_app2 in Hi by auto. destruct (i - length mbs') as [|k] eqn:Hk; [|destruct k; discriminate]. simpl in Hi. injection Hi as <-.
          simpl. assert (Hi : i = length (caps mbs)) by (rewrite map_length; apply F2_length in HF; apply F2_length in HF'; lia).
          rewrite firstn_app. replace (i - length (caps mbs)) with 0 by lia. simpl firstn. rewrite app_nil_r, firstn_all2 by lia.
          rewrite app_nth2 by lia. replace (i - length (caps mbs)) with 0 by lia. simpl nth. auto.
      + intros Hp. rewrite (HtN Hp), Hcaps', total_app. reflexivity.
    - intros i b Hi. destruct (Nat.lt_ge_cases i (length (g_bs g))) as [Hlt|Hge].
      + rewrite nth_error_app1 in Hi by auto. specialize (Hfit _ _ Hi). unfold Model.area in *. destruct (bucketStorage C); auto.
        rewrite <- last_largest, map_app. simpl. rewrite last_last. lia.
      + rewrite nth_error_app2 in Hi by auto. destruct (i - length (g_bs g)) as [|k]; [|destruct k; discriminate]. injection Hi as <-. simpl. lia.
  Qed.
End GrowProofs.
