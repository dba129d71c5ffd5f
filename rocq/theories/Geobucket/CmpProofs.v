(** Proofs about Geobucket: the invariant and the operations that move entries between buckets. *)
From Coq Require Import List Arith Bool Lia Permutation Sorting.Sorted.
From Verif.Base Require Import Res Arr Order.
From Verif.Spec Require Import PQ PQFacts.
From Verif.Geobucket Require Import Model FrontProofs CmpListProofs.
Import ListNotations.

Section Proofs.
  Context {E : Type}.
  Variable lt cmp eqv : E -> E -> bool.
  Variable dedup : E -> E -> E.
  Variable C : config.
  Hypothesis Hsw : strict_weak lt.
  Hypothesis cmp_f : forall a b, cmp a b = false -> lt a b = false.
  Hypothesis cmp_t : forall a b, cmp a b = true -> lt b a = false.
  Hypothesis Heq : supportDeduplication C = true -> forall a b, cmp a b = false -> eqv a b = true -> equivalent lt a b.
  Hypothesis Hdd : supportDeduplication C = true -> forall a b, (eqv a b || eqv b a) = true -> equivalent lt (dedup a b) a.
  Hypothesis Hg : 2 <= geoBase C.
  Hypothesis Hm : 1 <= minBucketSize C.

  Notation dd := (dedup_dd (supportDeduplication C) (fun a b => eqv a b || eqv b a) dedup).
  Notation "a <== b" := (lt b a = false) (at level 70).
  Notation asc := (asc lt).
  Notation bucket := (bucket E).
  Notation key := (key E C).
  Notation flat := (flat_map (@b_ents E)).
  Notation geobucket := (geobucket E).
  Notation last_entry := (last_entry E).

  (** * Buckets *)
  Record bgood (b : bucket) : Prop := {
    bg_asc : asc (b_ents b);
    bg_len : length (b_ents b) <= b_cap b;
    bg_back : collectMax C = true -> b_ents b <> [] -> b_back b = last_entry (b_ents b)
  }.
  Record wf (bs : list bucket) : Prop := {
    wf_ne : bs <> [];
    wf_cap : forall i b, nth_error bs i = Some b -> b_cap b = minBucketSize C * geoBase C ^ i;
    wf_good : forall i b, nth_error bs i = Some b -> bgood b
  }.

  Definition ko (bs : list bucket) (i : nat) : option E :=
    match nth_error bs i with Some b => last_entry (b_ents b) | None => None end.

  Lemma b_empty_spec (b : bucket) : reflect (b_ents b = []) (b_empty E b).
  Proof. unfold b_empty. destruct (b_ents b); constructor; congruence. Qed.

  Lemma last_entry_none (l : list E) : last_entry l = None <-> l = [].
  Proof.
    split; [|now intros ->]. intros H. destruct l as [|a l]; auto. exfalso.
    destruct (@last_entry_some E (a :: l)) as (l' & x & _ & Hx); [discriminate|]. congruence.
  Qed.

  Lemma ko_some bs i b : nth_error bs i = Some b -> ko bs i = last_entry (b_ents b).
  Proof. unfold ko. now intros ->. Qed.

  Lemma ko_inv bs i x : ko bs i = Some x -> exists b, nth_error bs i = Some b /\ last_entry (b_ents b) = Some x.
  Proof. unfold ko. destruct (nth_error bs i) as [b|]; [eauto|discriminate]. Qed.

  Lemma bk_back_ok b x : bgood b -> last_entry (b_ents b) = Some x -> bk_back E C b = Ok x.
  Proof.
    intros [_ _ Hb] Hl. unfold bk_back. destruct (b_empty_spec b) as [He|He]; [rewrite He in Hl; discriminate|].
    destruct (collectMax C); [rewrite Hb by auto|]; now rewrite Hl.
  Qed.

  Lemma key_ok bs i x : wf bs -> ko bs i = Some x -> key bs i = Ok x.
  Proof.
    intros Hw Hk. apply ko_inv in Hk as (b & Hb & Hx). unfold Model.key, vget. rewrite Hb. cbn [of_option bind].
    apply bk_back_ok; auto. eapply wf_good; eauto.
  Qed.

  Lemma ko_upd bs i b j : i < length bs -> ko (upd bs i b) j = if j =? i then last_entry (b_ents b) else ko bs j.
  Proof.
    intros Hi. unfold ko. destruct (Nat.eqb_spec j i) as [->|Hn]; [now rewrite nth_upd_same by auto|].
    now rewrite nth_upd_other by auto.
  Qed.

  Lemma wf_upd bs i b b' : wf bs -> nth_error bs i = Some b -> b_cap b' = b_cap b -> bgood b' -> wf (upd bs i b').
  Proof.
    intros [W1 W2 W3] Hb Hc Hgd. pose proof (nth_error_some_lt _ _ _ Hb) as Hi. split.
    - intros H. apply W1. apply length_zero_iff_nil. rewrite <- (upd_length bs i b'). now rewrite H.
    - intros j c Hj. destruct (Nat.eq_dec j i) as [->|Hn].
      + rewrite nth_upd_same in Hj by auto. injection Hj as <-. rewrite Hc. auto.
      + rewrite nth_upd_other in Hj by auto. auto.
    - intros j c Hj. destruct (Nat.eq_dec j i) as [->|Hn].
      + rewrite nth_upd_same in Hj by auto. now injection Hj as <-.
      + rewrite nth_upd_other in Hj by auto. eauto.
  Qed.

  Lemma flat_upd bs i b b' : nth_error bs i = Some b -> Permutation (b_ents b ++ flat (upd bs i b')) (b_ents b' ++ flat bs).
  Proof.
    revert i; induction bs as [|c bs IH]; intros [|i] H; simpl in *; try discriminate.
    - injection H as ->. rewrite !app_assoc. apply Permutation_app_tail, Permutation_app_comm.
    - specialize (IH i H). rewrite !app_assoc. rewrite (Permutation_app_comm (b_ents b)), (Permutation_app_comm (b_ents b')).
      rewrite <- !app_assoc. now apply Permutation_app_head.
  Qed.

  (** * Capacities *)
  Lemma cap_pos bs i b : wf bs -> nth_error bs i = Some b -> 1 <= b_cap b.
  Proof.
    intros Hw Hb. rewrite (wf_cap _ Hw i b Hb). assert (geoBase C ^ i <> 0) by (apply Nat.pow_nonzero; lia). nia.
  Qed.
  Lemma cap_mono bs i j b c : wf bs -> nth_error bs i = Some b -> nth_error bs j = Some c -> i <= j -> b_cap b <= b_cap c.
  Proof.
    intros Hw Hb Hc Hij. rewrite (wf_cap _ Hw i b Hb), (wf_cap _ Hw j c Hc). apply Nat.mul_le_mono_l. apply Nat.pow_le_mono_r; lia.
  Qed.
  Lemma cap_double bs i b c : wf bs -> nth_error bs i = Some b -> nth_error bs (S i) = Some c -> 2 * b_cap b <= b_cap c.
  Proof.
    intros Hw Hb Hc. rewrite (wf_cap _ Hw i b Hb), (wf_cap _ Hw (S i) c Hc). rewrite Nat.pow_succ_r'.
    replace (minBucketSize C * (geoBase C * geoBase C ^ i)) with (geoBase C * (minBucketSize C * geoBase C ^ i)) by ring.
    apply Nat.mul_le_mono_r. lia.
  Qed.
  Lemma largest_snoc bs (b : bucket) : largest E (bs ++ [b]) = b_cap b.
  Proof. unfold largest. now rewrite rev_app_distr. Qed.
  Lemma largest_ok bs : wf bs -> exists bs' b, bs = bs' ++ [b] /\ largest E bs = b_cap b /\ nth_error bs (length bs - 1) = Some b.
  Proof.
    intros Hw. destruct (exists_last (wf_ne _ Hw)) as (bs' & b & ->). exists bs', b. split; auto. split; [apply largest_snoc|].
    rewrite app_length, Nat.add_1_r. simpl. rewrite Nat.sub_0_r. apply nth_middle.
  Qed.
  Lemma cap_largest bs i b : wf bs -> nth_error bs i = Some b -> b_cap b <= largest E bs.
  Proof.
    intros Hw Hb. destruct (largest_ok bs Hw) as (bs' & c & _ & -> & Hc). eapply cap_mono; eauto.
    apply nth_error_some_lt in Hb. lia.
  Qed.
  Lemma cap_area bs i b : wf bs -> nth_error bs i = Some b -> b_cap b <= area E C bs b.
  Proof. intros Hw Hb. unfold area. destruct (bucketStorage C); auto. eapply cap_largest; eauto. Qed.

  Lemma bk_hold_ok fits b l : length l <= b_cap b -> b_cap b <= fits -> asc l ->
    exists b', bk_hold E fits b l = Ok b' /\ b_ents b' = l /\ b_cap b' = b_cap b /\ bgood b'.
  Proof.
    intros Hl Hf Ha. unfold bk_hold. destruct (Nat.leb_spec (length l) fits); [|lia]. eexists; split; [reflexivity|].
    split; auto. split; auto. split; auto. simpl. intros _ Hne. unfold new_back.
    destruct (@last_entry_some E l Hne) as (l' & x & _ & ->). auto.
  Qed.

  Lemma bk_clear_good b : bgood (bk_clear E b).
  Proof. split; simpl; [constructor|lia|congruence]. Qed.

  Lemma bk_pop_good b : bgood b -> b_ents b <> [] ->
    exists b', bk_pop_back E C b = Ok b' /\ b_ents b' = removelast (b_ents b) /\ b_cap b' = b_cap b /\ bgood b'.
  Proof.
    intros [A L B] Hne. unfold bk_pop_back. destruct (b_empty_spec b) as [He|_]; [contradiction|]. eexists; split; [reflexivity|].
    split; auto. split; auto. split; simpl.
    - now apply asc_removelast.
    - rewrite removelast_length. lia.
    - intros Hc Hn. rewrite Hc. unfold new_back. destruct (@last_entry_some E _ Hn) as (l' & x & _ & ->). auto.
  Qed.

  Lemma bk_set_good b i x y : bgood b -> nth_error (b_ents b) i = Some x -> equivalent lt y x ->
    exists b', bk_setEntry E C b i y = Ok b' /\ b_ents b' = upd (b_ents b) i y /\ b_cap b' = b_cap b /\ bgood b'.
  Proof.
    intros [A L B] Hx He. unfold bk_setEntry. pose proof (nth_error_some_lt _ _ _ Hx) as Hi. rewrite vset_ok by auto. cbn [bind].
    eexists; split; [reflexivity|]. split; auto. split; auto. split; cbn [b_ents b_cap b_back].
    - eapply asc_upd; eauto.
    - now rewrite upd_length.
    - intros Hc Hn. rewrite Hc, upd_length. cbn [andb]. unfold Model.last_entry. rewrite upd_length.
      destruct (Nat.eqb_spec i (length (b_ents b) - 1)) as [<-|Hne]; [symmetry; now apply nth_upd_same|].
      rewrite nth_upd_other by auto. apply B; auto. intros H. rewrite H in Hx. destruct i; discriminate.
  Qed.

  (** * The front *)
  Definition kle (k : nat -> option E) (i j : nat) : Prop := forall x y, k i = Some x -> k j = Some y -> lt x y = false.
  Definition fdesc (k : nat -> option E) (F : list nat) : Prop := StronglySorted (kle k) F.

  Lemma kle_trans k i j l : k j <> None -> kle k i j -> kle k j l -> kle k i l.
  Proof.
    intros Hj H1 H2 x y Hx Hy. destruct (k j) as [z|] eqn:Hz; [|congruence]. eapply (sw_neg_trans lt Hsw); [apply H1|apply H2]; eauto.
  Qed.

  Lemma fdesc_ext k k' F : (forall i, In i F -> k i = k' i) -> fdesc k F -> fdesc k' F.
  Proof.
    intros He H. unfold fdesc. induction H as [|a l Hs IH Hf]; constructor.
    - apply IH. intros i Hi. apply He. now right.
    - rewrite Forall_forall in *. intros j Hj x y Hx Hy. rewrite <- He in Hx, Hy by (simpl; auto). eapply Hf; eauto.
  Qed.

  Definition oequiv (o o' : option E) : Prop :=
    match o, o' with Some x, Some y => equivalent lt x y | None, None => True | _, _ => False end.
  Lemma oequiv_refl o : oequiv o o.
  Proof. destruct o; simpl; auto. now apply equivalent_refl. Qed.
  Lemma fdesc_equiv k k' F : (forall i, In i F -> oequiv (k i) (k' i)) -> fdesc k F -> fdesc k' F.
  Proof.
    intros He H. unfold fdesc. induction H as [|a l Hs IH Hf]; constructor.
    - apply IH. intros i Hi. apply He. now right.
    - rewrite Forall_forall in *. intros j Hj x y Hx Hy. specialize (Hf j Hj).
      pose proof (He a (or_introl eq_refl)) as Ea. pose proof (He j (or_intror Hj)) as Ej. rewrite Hx in Ea. rewrite Hy in Ej. unfold kle in Hf.
      destruct (k a) as [x0|]; simpl in Ea; [|contradiction]. destruct (k j) as [y0|]; simpl in Ej; [|contradiction].
      specialize (Hf x0 y0 eq_refl eq_refl). destruct Ea as [Ea1 Ea2], Ej as [Ej1 Ej2].
      eapply (sw_neg_trans lt Hsw); [exact Ea2|]. eapply (sw_neg_trans lt Hsw); [exact Hf|exact Ej1].
  Qed.

  Lemma fdesc_remove k pre b post : fdesc k (pre ++ b :: post) -> fdesc k (pre ++ post).
  Proof.
    unfold fdesc. rewrite !ss_app. intros (H1 & H2 & H3). inversion H2; subst. split; auto. split; auto.
    intros x y Hx Hy. apply H3; auto. now right.
  Qed.

  (** [pre] sorted with [b] moved up to its place *)
  Lemma fdesc_up k pre1 pre2 b : fdesc k (pre1 ++ pre2) -> (forall i, In i (b :: pre1 ++ pre2) -> k i <> None) ->
    (forall x, In x pre2 -> kle k b x) -> (forall y p, pre1 = p ++ [y] -> kle k y b) -> fdesc k (pre1 ++ b :: pre2).
  Proof.
    unfold fdesc. intros H Hn H2 H1. apply ss_app in H as (A & B & D). apply ss_app. split; auto. split.
    - constructor; auto. now apply Forall_forall.
    - intros i j Hi [<-|Hj]; auto. destruct (exists_last (l := pre1)) as (p & y & ->); [intros ->; destruct Hi|].
      apply in_app_or in Hi as [Hi|[<-|[]]]; [|now apply (H1 y p)].
      apply kle_trans with y; [apply Hn; right; apply in_or_app; left; apply in_or_app; right; now left| |now apply (H1 y p)].
      apply ss_snoc in A as [_ A]. auto.
  Qed.

  Lemma ki_front bs' k a slots n toks pre b post z x x' :
    rep a slots n toks (pre ++ b :: post) -> fdesc k (pre ++ b :: post) -> wf bs' ->
    (forall i, In i (pre ++ b :: post) -> i <> b -> i <> z -> ko bs' i = k i) -> z <> b -> ~ In z pre ->
    (forall i, In i (b :: pre) -> ko bs' i <> None) -> k b = Some x -> ko bs' b = Some x' -> lt x' x = false ->
    exists slots' toks' F', f_keyIncreased E cmp C bs' (FOrder a slots n toks) b = Ok (FOrder a slots' n toks') /\
      rep a slots' n toks' F' /\ length toks' = length toks /\ Permutation (pre ++ b :: post) F' /\ fdesc (ko bs') (remove Nat.eq_dec z F').
  Proof.
    intros Hr Hf Hw Hk Hzb Hzp Hn Hx Hx' Hle.
    set (K := fun i => match ko bs' i with Some y => y | None => x' end).
    assert (HK : forall i, In i (b :: pre) -> ko bs' i = Some (K i)).
    { intros i Hi. unfold K. destruct (ko bs' i) eqn:Hi2; auto. now apply Hn in Hi2. }
    destruct (keyIncreased_spec cmp C bs' a slots n toks b pre post K Hr) as (p1 & p2 & s' & t' & -> & Hki & Hr' & Hl & H2 & H1).
    { intros i Hi. apply key_ok; auto. }
    exists s', t', (p1 ++ b :: p2 ++ post). split; auto. split; auto. split; auto. split.
    { rewrite <- app_assoc. apply Permutation_app_head. symmetry. apply Permutation_middle. }
    assert (Hnd : NoDup ((p1 ++ p2) ++ b :: post)) by (eapply r_nodup; eauto).
    assert (Hbn : ~ In b ((p1 ++ p2) ++ post)) by (now apply NoDup_remove_2 in Hnd).
    assert (Hrm : remove Nat.eq_dec z (p1 ++ b :: p2 ++ post) = (p1 ++ b :: p2) ++ remove Nat.eq_dec z post).
    { rewrite app_comm_cons, app_assoc, remove_app. f_equal. apply notin_remove. intros Hin.
      apply in_app_or in Hin as [Hin|[Hin|Hin]]; [apply Hzp; apply in_or_app; auto|congruence|apply Hzp; apply in_or_app; auto]. }
    rewrite Hrm. apply ss_app in Hf as (F1 & F2 & F3). inversion F2 as [|? ? F4 F5]; subst.
    assert (Hpre : fdesc (ko bs') (p1 ++ p2)).
    { eapply fdesc_ext; [|exact F1]. intros i Hi. symmetry. apply Hk; [apply in_or_app; now left| |].
      - intros ->. apply Hbn. apply in_or_app; now left.
      - intros ->. contradiction. }
    apply ss_app. split; [|split].
    - apply fdesc_up; auto.
      + intros y Hy u v Hu Hv. rewrite Hx' in Hu. injection Hu as <-. rewrite HK in Hv by (right; apply in_or_app; now right).
        injection Hv as <-. specialize (H2 y Hy). apply cmp_t.
        assert (HKb : K b = x') by (unfold K; now rewrite Hx'). now rewrite HKb in H2.
      + intros y p Hp u v Hu Hv. rewrite HK in Hu by (right; rewrite Hp; apply in_or_app; left; apply in_or_app; right; now left).
        rewrite HK in Hv by now left. injection Hu as <-. injection Hv as <-. apply cmp_f. eapply H1; eauto.
    - assert (Hsub : forall l, fdesc k l -> (forall i, In i l -> In i post) -> fdesc (ko bs') (remove Nat.eq_dec z l)).
      { intros l Hl2. induction Hl2 as [|c l Hs IH Hff]; intros Hin; cbn [remove]; [constructor|].
        destruct (Nat.eq_dec z c) as [->|Hzc]; [apply IH; intros; apply Hin; now right|]. constructor; [apply IH; intros; apply Hin; now right|].
        rewrite Forall_forall in *. intros d Hd u v Hu Hv. apply in_remove in Hd as [Hd Hdz].
        rewrite Hk in Hu, Hv; auto.
        - eapply Hff; eauto.
        - apply in_or_app; right; right. apply Hin. now right.
        - intros ->. apply Hbn. apply in_or_app; right. apply Hin. now right.
        - apply in_or_app; right; right. apply Hin. now left.
        - intros ->. apply Hbn. apply in_or_app; right. apply Hin. now left. }
      apply Hsub; auto.
    - intros i j Hi Hj. apply in_remove in Hj as [Hj Hjz].
      assert (Hkj : ko bs' j = k j).
      { apply Hk; auto; [apply in_or_app; right; now right|]. intros ->. apply Hbn. apply in_or_app; now right. }
      assert (Hi' : i = b \/ In i (p1 ++ p2)).
      { apply in_app_or in Hi as [Hi|[Hi|Hi]]; auto; right; apply in_or_app; auto. }
      destruct Hi' as [->|Hi'].
      + intros u v Hu Hv. rewrite Hkj in Hv. rewrite Hx' in Hu. injection Hu as <-. rewrite Forall_forall in F5. specialize (F5 j Hj x v Hx Hv).
        eapply (sw_neg_trans lt Hsw); eauto.
      + intros u v Hu Hv. rewrite Hkj in Hv. rewrite Hk in Hu.
        * eapply F3; eauto. now right.
        * apply in_or_app; now left.
        * intros ->. apply Hbn. apply in_or_app; now left.
        * intros ->. contradiction.
  Qed.

  Lemma ins_front bs' k a slots n toks F b x' :
    rep a slots n toks F -> fdesc k F -> wf bs' -> ~ In b F -> b < length toks -> (forall i, In i F -> ko bs' i = k i) ->
    (forall i, In i F -> ko bs' i <> None) -> ko bs' b = Some x' ->
    exists a' slots' toks' F', f_insert E cmp C bs' (FOrder a slots n toks) b = Ok (FOrder a' slots' (S n) toks') /\
      rep a' slots' (S n) toks' F' /\ length toks' = length toks /\ Permutation (b :: F) F' /\ fdesc (ko bs') F'.
  Proof.
    intros Hr Hf Hw Hni Hb Hk Hn Hx'.
    set (K := fun i => match ko bs' i with Some y => y | None => x' end).
    assert (HK : forall i, In i (b :: F) -> ko bs' i = Some (K i)).
    { intros i Hi. unfold K. destruct (ko bs' i) eqn:Hi2; auto. destruct Hi as [<-|Hi]; [congruence|]. now apply Hn in Hi2. }
    destruct (insert_spec cmp C bs' a slots n toks F b K Hr Hni Hb) as (p1 & p2 & a' & s' & t' & -> & Hki & Hr' & Hl & H2 & H1).
    { intros i Hi. apply key_ok; auto. }
    exists a', s', t', (p1 ++ b :: p2). split; auto. split; auto. split; auto. split; [apply Permutation_middle|].
    apply fdesc_up; auto.
    - eapply fdesc_ext; [|exact Hf]. intros i Hi. symmetry. auto.
    - intros i Hi. rewrite HK by auto. discriminate.
    - intros y Hy u v Hu Hv. rewrite HK in Hu by now left. rewrite HK in Hv by (right; apply in_or_app; now right).
      injection Hu as <-. injection Hv as <-. apply cmp_t; auto.
    - intros y p Hp u v Hu Hv. rewrite HK in Hu by (right; rewrite Hp; apply in_or_app; left; apply in_or_app; right; now left).
      rewrite HK in Hv by now left. injection Hu as <-. injection Hv as <-. apply cmp_f. eapply H1; eauto.
  Qed.

  Definition front_ok (bs : list bucket) (f : front) : Prop :=
    match f with
    | FCache _ => trackFront C = false
    | FOrder a slots n toks => trackFront C = true /\
        exists F, rep a slots n toks F /\ length toks = length bs /\ (forall i, In i F <-> ko bs i <> None) /\ fdesc (ko bs) F
    end.
  Definition cache_ok (bs : list bucket) (f : front) : Prop :=
    match f with
    | FCache (Some m) => exists x, ko bs m = Some x /\ forall i y, ko bs i = Some y -> y <== x
    | _ => True
    end.

  Lemma in_perm_iff {A} (l l' : list A) i : Permutation l l' -> (In i l <-> In i l').
  Proof. intros H. split; apply Permutation_in; auto. now symmetry. Qed.

  Lemma fo_increase bs bs' f i x x' : front_ok bs f -> wf bs' -> length bs' = length bs -> ko bs i = Some x -> ko bs' i = Some x' ->
    x <== x' -> (forall j, j <> i -> ko bs' j = ko bs j) ->
    exists f', f_keyIncreased E cmp C bs' f i = Ok f' /\ front_ok bs' f' /\ cache_ok bs' f'.
  Proof.
    intros Hf Hw Hl Hx Hx' Hle Ho. destruct f as [c|a slots n toks]; simpl in Hf.
    - exists (FCache None). simpl. auto.
    - destruct Hf as (Ht & F & Hr & Hlt & Hin & Hd).
      assert (Hi : In i F) by (apply Hin; congruence). apply in_split in Hi as (pre & post & ->).
      assert (Hz : ~ In (length toks) (pre ++ i :: post)).
      { intros Hz. apply (r_bound _ _ _ _ _ Hr) in Hz. lia. }
      destruct (ki_front bs' (ko bs) a slots n toks pre i post (length toks) x x') as (s' & t' & F' & Hk & Hr' & Hl' & Hp & Hd'); auto.
      + intros <-. apply Hz. apply in_or_app; right; now left.
      + intros H. apply Hz. apply in_or_app; now left.
      + intros j [<-|Hj]; [congruence|]. destruct (Nat.eq_dec j i) as [->|Hji]; [congruence|]. rewrite Ho by auto. apply Hin.
        apply in_or_app; now left.
      + rewrite notin_remove in Hd' by (rewrite <- (in_perm_iff _ _ _ Hp); auto).
        exists (FOrder a s' n t'). split; auto. split; simpl; auto. split; auto. exists F'. split; auto. split; [congruence|]. split; auto.
        intros j. rewrite <- (in_perm_iff _ _ _ Hp), Hin. destruct (Nat.eq_dec j i) as [->|Hji]; [|now rewrite Ho by auto].
        split; congruence.
  Qed.

  Lemma fo_insert bs bs' f i x' : front_ok bs f -> wf bs' -> length bs' = length bs -> i < length bs -> ko bs i = None ->
    ko bs' i = Some x' -> (forall j, j <> i -> ko bs' j = ko bs j) ->
    exists f', f_insert E cmp C bs' f i = Ok f' /\ front_ok bs' f' /\ cache_ok bs' f'.
  Proof.
    intros Hf Hw Hl Hi Hx Hx' Ho. destruct f as [c|a slots n toks]; simpl in Hf.
    - exists (FCache None). simpl. auto.
    - destruct Hf as (Ht & F & Hr & Hlt & Hin & Hd).
      assert (Hni : ~ In i F) by (rewrite Hin; congruence).
      assert (Hoi : forall j, In j F -> ko bs' j = ko bs j) by (intros j Hj; apply Ho; intros ->; contradiction).
      destruct (ins_front bs' (ko bs) a slots n toks F i x') as (a' & s' & t' & F' & Hk & Hr' & Hl' & Hp & Hd'); auto.
      + lia.
      + intros j Hj. rewrite Hoi by auto. now apply Hin.
      + exists (FOrder a' s' (S n) t'). split; auto. split; simpl; auto. split; auto. exists F'. split; auto. split; [congruence|]. split; auto.
        intros j. rewrite <- (in_perm_iff _ _ _ Hp). cbn [In]. rewrite Hin. destruct (Nat.eq_dec j i) as [->|Hji].
        * split; [congruence|auto].
        * rewrite Ho by auto. split; [intros [H|H]; [congruence|auto]|auto].
  Qed.

  Lemma fo_rm bs bs' f i : front_ok bs f -> length bs' = length bs -> ko bs i <> None -> ko bs' i = None ->
    (forall j, j <> i -> ko bs' j = ko bs j) -> exists f', f_remove f i = Ok f' /\ front_ok bs' f' /\ cache_ok bs' f'.
  Proof.
    intros Hf Hl Hx Hx' Ho. destruct f as [c|a slots n toks]; simpl in Hf.
    - exists (FCache None). simpl. auto.
    - destruct Hf as (Ht & F & Hr & Hlt & Hin & Hd). apply Hin in Hx as Hi. apply in_split in Hi as (pre & post & ->).
      destruct (fo_remove_spec a slots n toks i pre post Hr) as (s' & t' & Hrm & Hr' & Hl'). simpl. rewrite Hrm.
      eexists; split; [reflexivity|]. split; simpl; auto. split; auto. exists (pre ++ post). split; auto. split; [congruence|].
      assert (Hnot : ~ In i (pre ++ post)) by (apply NoDup_remove_2; eapply r_nodup; eauto).
      split.
      + intros j. destruct (Nat.eq_dec j i) as [->|Hji]; [split; [contradiction|congruence]|]. rewrite Ho by auto. rewrite <- Hin.
        rewrite !in_app_iff. simpl. split; [tauto|]. intros [H|[H|H]]; auto; congruence.
      + apply fdesc_remove in Hd. eapply fdesc_ext; [|exact Hd]. intros j Hj. symmetry. apply Ho. intros ->. contradiction.
  Qed.

  Lemma fdesc_map k k' (s : nat -> nat) F : (forall i, In i F -> k' (s i) = k i) -> fdesc k F -> fdesc k' (map s F).
  Proof.
    intros He H. unfold fdesc. induction H as [|a l Hs IH Hf]; simpl; constructor.
    - apply IH. intros i Hi. apply He. now right.
    - rewrite Forall_forall in *. intros j Hj u v Hu Hv. apply in_map_iff in Hj as (i & <- & Hi).
      rewrite He in Hu, Hv by (simpl; auto). eapply Hf; eauto.
  Qed.

  Lemma fo_swap bs bs' f x y : front_ok bs f -> length bs' = length bs -> x <> y -> x < length bs -> y < length bs ->
    (forall j, ko bs' (sw x y j) = ko bs j) -> exists f', f_swapKeys f x y = Ok f' /\ front_ok bs' f'.
  Proof.
    intros Hf Hl Hxy Hx Hy Ho. destruct f as [c|a slots n toks]; simpl in Hf.
    - exists (FCache c). simpl. auto.
    - destruct Hf as (Ht & F & Hr & Hlt & Hin & Hd).
      destruct (swapKeys_spec a slots n toks F x y Hr Hxy) as (s' & t' & Hs & Hr' & Hl'); try lia.
      exists (FOrder a s' n t'). split; auto. simpl. split; auto. exists (map (sw x y) F). split; auto. split; [congruence|]. split.
      + intros j. rewrite <- (sw_invol x y j), Ho, <- Hin. rewrite in_map_iff. split.
        * intros (i & Hi & Hi2). apply sw_inj in Hi as <-. auto.
        * intros H. eauto.
      + eapply fdesc_map; [|exact Hd]. auto.
  Qed.

  Lemma fo_same bs bs' f : front_ok bs f -> length bs' = length bs -> (forall j, oequiv (ko bs j) (ko bs' j)) -> front_ok bs' f.
  Proof.
    intros Hf Hl Ho. destruct f as [c|a slots n toks]; simpl in *; auto.
    destruct Hf as (Ht & F & Hr & Hlt & Hin & Hd). split; auto. exists F. split; auto. split; [congruence|]. split.
    - intros j. rewrite Hin. specialize (Ho j). destruct (ko bs j), (ko bs' j); simpl in Ho; try contradiction; split; congruence.
    - eapply fdesc_equiv; eauto.
  Qed.
  Lemma cache_same bs bs' f : cache_ok bs f -> (forall j, oequiv (ko bs j) (ko bs' j)) -> cache_ok bs' f.
  Proof.
    intros Hf Ho. destruct f as [[m|]|a slots n toks]; simpl in *; auto. destruct Hf as (x & Hx & Hmax).
    pose proof (Ho m) as Hom. rewrite Hx in Hom. destruct (ko bs' m) as [x'|] eqn:Hx'; simpl in Hom; [|contradiction].
    exists x'. split; auto. intros i y Hy. specialize (Ho i). rewrite Hy in Ho. destruct (ko bs i) as [y0|] eqn:Hy0; simpl in Ho; [|contradiction].
    specialize (Hmax i y0 Hy0). destruct Hom as [_ Hom], Ho as [Ho _].
    eapply (sw_neg_trans lt Hsw); [exact Hom|]. eapply (sw_neg_trans lt Hsw); [exact Hmax|exact Ho].
  Qed.

  (** * The invariant *)
  Record inv (p : nat) (g : geobucket) : Prop := {
    i_wf : wf (g_bs g);
    i_cnt : g_count g = p + length (flat (g_bs g));
    i_front : front_ok (g_bs g) (g_front g)
  }.

  Lemma perm_len {A} (l l' : list A) : Permutation l l' -> length l = length l'.
  Proof. apply Permutation_length. Qed.

  Lemma flat_upd_len bs i b b' : nth_error bs i = Some b ->
    length (b_ents b) + length (flat (upd bs i b')) = length (b_ents b') + length (flat bs).
  Proof. intros H. pose proof (perm_len _ _ (flat_upd bs i b b' H)) as Hp. rewrite !app_length in Hp. auto. Qed.

  Lemma ko_none bs i b : nth_error bs i = Some b -> (ko bs i = None <-> b_ents b = []).
  Proof. intros H. rewrite (ko_some _ _ _ H). apply last_entry_none. Qed.

  Lemma assign_ok p g i b l : inv (length l + p) g -> nth_error (g_bs g) i = Some b -> b_ents b = [] -> l <> [] -> asc l ->
    length l <= b_cap b ->
    exists g', gb_assign E cmp C g i l = Ok g' /\ inv p g' /\ cache_ok (g_bs g') (g_front g') /\ Permutation (l ++ flat (g_bs g)) (flat (g_bs g')).
  Proof.
    intros [Hw Hc Hf] Hb He Hne Ha Hl. unfold gb_assign, vget. rewrite Hb. cbn [of_option bind].
    pose proof (nth_error_some_lt _ _ _ Hb) as Hi.
    destruct (bk_hold_ok (area E C (g_bs g) b) b l) as (b' & -> & Hb' & Hcap & Hgd); auto; [eapply cap_area; eauto|]. cbn [bind].
    rewrite vset_ok by auto. cbn [bind].
    assert (Hw' : wf (upd (g_bs g) i b')) by (eapply wf_upd; eauto).
    destruct (@last_entry_some E l Hne) as (l' & x & _ & Hx).
    destruct (fo_insert (g_bs g) (upd (g_bs g) i b') (g_front g) i x) as (f' & -> & Hf' & Hcf); auto.
    - apply upd_length.
    - now apply (ko_none _ _ b).
    - rewrite ko_upd, Nat.eqb_refl by auto. now rewrite Hb'.
    - intros j Hj. rewrite ko_upd by auto. destruct (Nat.eqb_spec j i); congruence.
    - cbn [bind]. eexists; split; [reflexivity|]. pose proof (flat_upd _ _ _ b' Hb) as Hp. rewrite He, Hb' in Hp. simpl in Hp.
      split; [split; cbn [g_bs g_count g_front]; auto|split; auto; now symmetry].
      rewrite Hc, (perm_len _ _ Hp), app_length. lia.
  Qed.

  Lemma mergeRange_raw g i b l : wf (g_bs g) -> nth_error (g_bs g) i = Some b -> asc l -> length l + length (b_ents b) <= b_cap b ->
    length l + length (b_ents b) <= g_count g ->
    exists r k b', merged lt eqv dedup C l (b_ents b) r k /\ b_ents b' = r /\ b_cap b' = b_cap b /\ bgood b' /\
      forall f', f_keyIncreased E cmp C (upd (g_bs g) i b') (g_front g) i = Ok f' ->
      gb_mergeRange E cmp eqv dedup C g i l = Ok (mk_gb (upd (g_bs g) i b') (g_count g - k) f').
  Proof.
    intros Hw Hb Ha Hl Hcnt. pose proof (nth_error_some_lt _ _ _ Hb) as Hi. pose proof (wf_good _ Hw _ _ Hb) as [Hba Hbl _].
    assert (Hex : exists r k, (match bucketStorage C with Plain => gb_merge E cmp eqv dedup C l (b_ents b) | _ => gb_merge E cmp eqv dedup C (b_ents b) l end) = (r, k)
                  /\ merged lt eqv dedup C l (b_ents b) r k).
    { destruct (bucketStorage C).
      - destruct (gb_merge E cmp eqv dedup C l (b_ents b)) as [r k] eqn:Hmg. exists r, k. split; auto. eapply gb_merge_ok; eauto.
      - destruct (gb_merge E cmp eqv dedup C (b_ents b) l) as [r k] eqn:Hmg. exists r, k. split; auto. apply merged_swap. eapply gb_merge_ok; eauto.
      - destruct (gb_merge E cmp eqv dedup C (b_ents b) l) as [r k] eqn:Hmg. exists r, k. split; auto. apply merged_swap. eapply gb_merge_ok; eauto. }
    destruct Hex as (r & k & Hmg & Hmr). exists r, k.
    destruct (bk_hold_ok (area E C (g_bs g) b) b r) as (b' & Hh & Hb' & Hcap & Hgd).
    { pose proof (m_len _ _ _ _ _ _ _ _ Hmr). lia. }
    { eapply cap_area; eauto. }
    { apply Hmr. }
    exists b'. split; auto. split; auto. split; auto. split; auto. intros f' Hf'.
    unfold gb_mergeRange, vget. rewrite Hb. cbn [of_option bind]. rewrite Hmg. unfold dec.
    pose proof (m_len _ _ _ _ _ _ _ _ Hmr) as Hml.
    destruct (Nat.leb_spec k (g_count g)); [|lia]. cbn [bind].
    assert (Htmp : (match bucketStorage C with Plain => largest E (g_bs g) <? b_size E b | _ => false end) = false).
    { destruct (bucketStorage C); auto. apply Nat.ltb_ge. unfold b_size. pose proof (cap_largest _ _ _ Hw Hb). lia. }
    rewrite Htmp, Hh. cbn [bind]. rewrite vset_ok by auto. cbn [bind]. rewrite Hf'. reflexivity.
  Qed.

  Lemma flat_ge bs i b : nth_error bs i = Some b -> length (b_ents b) <= length (flat bs).
  Proof. intros H. pose proof (flat_upd_len bs i b (bk_clear E b) H). simpl in *. lia. Qed.

  Lemma mergeRange_ok p g i b l : inv (length l + p) g -> nth_error (g_bs g) i = Some b -> b_ents b <> [] -> asc l ->
    length l + length (b_ents b) <= b_cap b ->
    exists g', gb_mergeRange E cmp eqv dedup C g i l = Ok g' /\ inv p g' /\ cache_ok (g_bs g') (g_front g') /\
      merges dd (l ++ flat (g_bs g)) (flat (g_bs g')).
  Proof.
    intros [Hw Hc Hf] Hb Hne Ha Hl. pose proof (nth_error_some_lt _ _ _ Hb) as Hi. pose proof (flat_ge _ _ _ Hb).
    destruct (mergeRange_raw g i b l) as (r & k & b' & Hmr & Hb' & Hcap & Hgd & Hres); auto; [lia|].
    assert (Hw' : wf (upd (g_bs g) i b')) by (eapply wf_upd; eauto).
    destruct (@last_entry_some E _ Hne) as (l' & x & Hxl & Hx).
    destruct (merged_last lt eqv dedup C Hsw l (b_ents b) r k x Hmr) as (y & Hy & Hxy).
    { apply in_or_app; right. rewrite Hxl. apply in_or_app; right; now left. }
    destruct (fo_increase (g_bs g) (upd (g_bs g) i b') (g_front g) i x y) as (f' & Hki & Hf' & Hcf); auto.
    - apply upd_length.
    - now rewrite (ko_some _ _ _ Hb).
    - rewrite ko_upd, Nat.eqb_refl by auto. now rewrite Hb'.
    - intros j Hj. rewrite ko_upd by auto. destruct (Nat.eqb_spec j i); congruence.
    - rewrite (Hres _ Hki). eexists; split; [reflexivity|].
      pose proof (flat_upd_len _ _ _ b' Hb) as Hfl. pose proof (m_len _ _ _ _ _ _ _ _ Hmr) as Hml. rewrite Hb' in Hfl.
      split; [split; cbn [g_bs g_count g_front]; auto; lia|]. split; auto. cbn [g_bs].
      pose proof (flat_upd _ _ _ (bk_clear E b) Hb) as P1. simpl in P1.
      pose proof (flat_upd _ _ _ b' (nth_upd_same _ i (bk_clear E b) Hi)) as P2. rewrite upd_upd in P2. simpl in P2. rewrite Hb' in P2.
      eapply merges_perm_l; [apply Permutation_app_head; symmetry; exact P1|]. rewrite app_assoc.
      eapply merges_trans; [apply merges_app; apply Hmr|]. apply merges_perm. now symmetry.
  Qed.

  Lemma sw_case x y j (P : nat -> Prop) : x <> y -> (j = x -> P y) -> (j = y -> P x) -> (j <> x -> j <> y -> P j) -> P (sw x y j).
  Proof.
    intros Hxy H1 H2 H3. destruct (Nat.eq_dec j x) as [->|Hx]; [rewrite sw_l; auto|].
    destruct (Nat.eq_dec j y) as [->|Hy]; [rewrite sw_r; auto|]. rewrite sw_o; auto.
  Qed.

  Lemma ko_upd2 bs i j b c l : i < length bs -> j < length bs -> i <> j ->
    ko (upd (upd bs i b) j c) l = if l =? j then last_entry (b_ents c) else if l =? i then last_entry (b_ents b) else ko bs l.
  Proof. intros Hi Hj Hij. rewrite ko_upd by (now rewrite upd_length). destruct (l =? j); auto. now rewrite ko_upd. Qed.

  (** Exchanging the contents of two buckets, as far as the front sees it *)
  Lemma ko_swap bs i j b c l : nth_error bs i = Some b -> nth_error bs j = Some c -> i <> j ->
    ko (upd (upd bs i c) j b) (sw i j l) = ko bs l.
  Proof.
    intros Hb Hc Hij. pose proof (nth_error_some_lt _ _ _ Hb). pose proof (nth_error_some_lt _ _ _ Hc). rewrite ko_upd2 by auto.
    apply (sw_case i j l (fun m => (if m =? j then last_entry (b_ents b) else if m =? i then last_entry (b_ents c) else ko bs m) = ko bs l)); auto.
    - intros ->. rewrite Nat.eqb_refl. now rewrite (ko_some _ _ _ Hb).
    - intros ->. destruct (Nat.eqb_spec i j); [congruence|]. rewrite Nat.eqb_refl. now rewrite (ko_some _ _ _ Hc).
    - intros H1 H2. destruct (Nat.eqb_spec l j); [congruence|]. destruct (Nat.eqb_spec l i); congruence.
  Qed.

  Lemma flat_upd2 bs i j b c b' c' : nth_error bs i = Some b -> nth_error bs j = Some c -> i <> j ->
    Permutation (b_ents b ++ b_ents c ++ flat (upd (upd bs i b') j c')) (b_ents b' ++ b_ents c' ++ flat bs).
  Proof.
    intros Hb Hc Hij. pose proof (flat_upd bs i b b' Hb) as P1.
    assert (Hc' : nth_error (upd bs i b') j = Some c) by (rewrite nth_upd_other; auto). pose proof (flat_upd _ _ _ c' Hc') as P2.
    rewrite P2. rewrite (Permutation_app_swap_app (b_ents b)). rewrite P1. apply Permutation_app_swap_app.
  Qed.

  Lemma moveToEmpty_ok p g to from bt bf : inv p g -> nth_error (g_bs g) to = Some bt -> nth_error (g_bs g) from = Some bf -> to <> from ->
    b_ents bt = [] -> b_ents bf <> [] -> length (b_ents bf) <= b_cap bt ->
    exists g' bt', gb_moveToEmpty E C g to from = Ok g' /\ inv p g' /\ g_bs g' = upd (upd (g_bs g) to bt') from (bk_clear E bf) /\
      b_ents bt' = b_ents bf /\ b_cap bt' = b_cap bt /\ Permutation (flat (g_bs g)) (flat (g_bs g')).
  Proof.
    intros [Hw Hc Hf] Hbt Hbf Hne Het Hef Hl. unfold gb_moveToEmpty, vget. rewrite Hbt, Hbf. cbn [of_option bind].
    pose proof (nth_error_some_lt _ _ _ Hbt) as Hto. pose proof (nth_error_some_lt _ _ _ Hbf) as Hfrom.
    destruct (bk_hold_ok (area E C (g_bs g) bt) bt (b_ents bf)) as (bt' & -> & Hb' & Hcap & Hgd); auto.
    { eapply cap_area; eauto. } { eapply wf_good; eauto. }
    cbn [bind]. rewrite vset_ok by auto. cbn [bind]. rewrite vset_ok by (now rewrite upd_length). cbn [bind].
    set (bs2 := upd (upd (g_bs g) to bt') from (bk_clear E bf)).
    destruct (fo_swap (g_bs g) bs2 (g_front g) from to) as (f' & -> & Hf'); auto.
    - unfold bs2. now rewrite !upd_length.
    - intros j. unfold bs2. rewrite ko_upd2 by auto.
      apply (sw_case from to j (fun m => (if m =? from then last_entry (b_ents (bk_clear E bf)) else if m =? to then last_entry (b_ents bt') else ko (g_bs g) m) = ko (g_bs g) j)); auto.
      + intros ->. destruct (Nat.eqb_spec to from); [congruence|]. rewrite Nat.eqb_refl, Hb'. now rewrite (ko_some _ _ _ Hbf).
      + intros ->. rewrite Nat.eqb_refl. rewrite (ko_some _ _ _ Hbt), Het. reflexivity.
      + intros H1 H2. destruct (Nat.eqb_spec j from); [congruence|]. destruct (Nat.eqb_spec j to); congruence.
    - cbn [bind]. eexists; exists bt'; split; [reflexivity|]. cbn [g_bs].
      assert (Hp : Permutation (flat (g_bs g)) (flat bs2)).
      { pose proof (flat_upd2 _ _ _ _ _ bt' (bk_clear E bf) Hbt Hbf Hne) as Hp. rewrite Het, Hb' in Hp. simpl in Hp.
        apply Permutation_app_inv_l in Hp. now symmetry. }
      split; [|auto]. split; cbn [g_bs g_count g_front]; auto.
      + assert (Hbf' : nth_error (upd (g_bs g) to bt') from = Some bf) by (rewrite nth_upd_other; auto).
        eapply wf_upd with (b := bf); [eapply wf_upd; eauto|exact Hbf'|auto|apply bk_clear_good].
      + rewrite Hc. now rewrite (perm_len _ _ Hp).
  Qed.

  Lemma mergeToEmpty_ok p g to from bt bf l : inv (length l + p) g -> nth_error (g_bs g) to = Some bt -> nth_error (g_bs g) from = Some bf ->
    to <> from -> b_ents bt = [] -> b_ents bf <> [] -> asc l -> length l + length (b_ents bf) <= b_cap bt ->
    exists g', gb_mergeToEmpty E cmp eqv dedup C g to from l = Ok g' /\ inv p g' /\ cache_ok (g_bs g') (g_front g') /\
      merges dd (l ++ flat (g_bs g)) (flat (g_bs g')).
  Proof.
    intros [Hw Hc Hf] Hbt Hbf Hne Het Hef Ha Hl. unfold gb_mergeToEmpty, vget. rewrite Hbt, Hbf. cbn [of_option bind].
    pose proof (nth_error_some_lt _ _ _ Hbt) as Hto. pose proof (nth_error_some_lt _ _ _ Hbf) as Hfrom.
    destruct (gb_merge E cmp eqv dedup C l (b_ents bf)) as [r k] eqn:Hmg.
    assert (Hmr : merged lt eqv dedup C l (b_ents bf) r k) by (eapply gb_merge_ok; eauto; eapply wf_good; eauto).
    pose proof (m_len _ _ _ _ _ _ _ _ Hmr) as Hml. pose proof (flat_ge _ _ _ Hbf) as Hfg.
    unfold dec. destruct (Nat.leb_spec k (g_count g)); [|lia]. cbn [bind].
    destruct (bk_hold_ok (area E C (g_bs g) bt) bt r) as (bt' & -> & Hb' & Hcap & Hgd).
    { lia. } { eapply cap_area; eauto. } { apply Hmr. }
    cbn [bind]. rewrite vset_ok by auto. cbn [bind]. rewrite vset_ok by (now rewrite upd_length). cbn [bind].
    set (bs2 := upd (upd (g_bs g) to bt') from (bk_clear E bf)).
    destruct (@last_entry_some E _ Hef) as (l' & x & Hxl & Hx).
    destruct (merged_last lt eqv dedup C Hsw l (b_ents bf) r k x Hmr) as (y & Hy & Hxy).
    { apply in_or_app; right. rewrite Hxl. apply in_or_app; right; now left. }
    set (bsv := upd (upd (g_bs g) from bt) to bf).
    assert (Hkv : forall j, ko bsv j = if j =? to then Some x else if j =? from then None else ko (g_bs g) j).
    { intros j. unfold bsv. rewrite ko_upd2 by auto. now rewrite Hx, Het. }
    assert (Hk2 : forall j, ko bs2 j = if j =? from then None else if j =? to then Some y else ko (g_bs g) j).
    { intros j. unfold bs2. rewrite ko_upd2 by auto. now rewrite Hb', Hy. }
    destruct (fo_swap (g_bs g) bsv (g_front g) from to) as (f' & -> & Hf'); auto.
    { unfold bsv. now rewrite !upd_length. }
    { intros j. unfold bsv. apply ko_swap; auto. }
    cbn [bind].
    assert (Hw2 : wf bs2).
    { assert (Hbf' : nth_error (upd (g_bs g) to bt') from = Some bf) by (rewrite nth_upd_other; auto).
      eapply wf_upd with (b := bf); [eapply wf_upd; eauto|exact Hbf'|auto|apply bk_clear_good]. }
    destruct (fo_increase bsv bs2 f' to x y) as (f1 & -> & Hf1 & Hcf); auto.
    - unfold bsv, bs2. now rewrite !upd_length.
    - rewrite Hkv, Nat.eqb_refl. auto.
    - rewrite Hk2. destruct (Nat.eqb_spec to from); [congruence|]. now rewrite Nat.eqb_refl.
    - intros j Hj. rewrite Hkv, Hk2. destruct (Nat.eqb_spec j to); [congruence|]. auto.
    - cbn [bind]. eexists; split; [reflexivity|]. cbn [g_bs].
      pose proof (flat_upd2 _ _ _ _ _ bt' (bk_clear E bf) Hbt Hbf Hne) as Hp. rewrite Het, Hb' in Hp. simpl in Hp. fold bs2 in Hp.
      pose proof (perm_len _ _ Hp) as Hpl. rewrite !app_length in Hpl.
      split; [split; cbn [g_bs g_count g_front]; auto; lia|]. split; auto.
      (* bf ++ flat bs2 ~ r ++ flat bs *)
      pose proof (flat_upd _ _ _ (bk_clear E bf) Hbf) as P1. simpl in P1.
      assert (P2 : Permutation (flat bs2) (r ++ flat (upd (g_bs g) from (bk_clear E bf)))).
      { apply (Permutation_app_inv_l (b_ents bf)). rewrite Hp. rewrite <- P1. apply Permutation_app_swap_app. }
      eapply merges_perm_l; [apply Permutation_app_head; symmetry; exact P1|]. rewrite app_assoc.
      eapply merges_trans; [apply merges_app; apply Hmr|]. apply merges_perm. now symmetry.
  Qed.

  Lemma nth_two (F : list nat) p q x y : p < q -> nth_error F p = Some x -> nth_error F q = Some y ->
    exists pre post, F = pre ++ x :: post /\ In y post.
  Proof.
    intros Hpq Hp Hq. apply nth_error_split in Hp as (pre & post & -> & <-). exists pre, post. split; auto.
    rewrite nth_error_app2 in Hq by lia. destruct (q - length pre) as [|k] eqn:Hk; [lia|]. simpl in Hq. now apply nth_error_In in Hq.
  Qed.

  Lemma remove_split z pre post : NoDup (pre ++ z :: post) -> remove Nat.eq_dec z (pre ++ z :: post) = pre ++ post.
  Proof.
    intros Hn. apply NoDup_remove_2 in Hn. rewrite remove_app. cbn [remove]. destruct (Nat.eq_dec z z); [|congruence].
    rewrite !notin_remove; auto; intros H; apply Hn; apply in_or_app; auto.
  Qed.

  Lemma mergeToNonEmpty_ok p g to from bt bf : inv p g -> nth_error (g_bs g) to = Some bt -> nth_error (g_bs g) from = Some bf -> to <> from ->
    b_ents bt <> [] -> b_ents bf <> [] -> length (b_ents bf) + length (b_ents bt) <= b_cap bt ->
    exists g' bt', gb_mergeToNonEmpty E cmp eqv dedup C g to from = Ok g' /\ inv p g' /\
      g_bs g' = upd (upd (g_bs g) to bt') from (bk_clear E bf) /\ b_cap bt' = b_cap bt /\ merges dd (flat (g_bs g)) (flat (g_bs g')).
  Proof.
    intros [Hw Hc Hf] Hbt Hbf Hne Het Hef Hl.
    pose proof (nth_error_some_lt _ _ _ Hbt) as Hto. pose proof (nth_error_some_lt _ _ _ Hbf) as Hfrom.
    destruct (@last_entry_some E _ Het) as (lt' & xt & Hxtl & Hxt). destruct (@last_entry_some E _ Hef) as (lf' & xf & Hxfl & Hxf).
    assert (Hkt : ko (g_bs g) to = Some xt) by (rewrite (ko_some _ _ _ Hbt); auto).
    assert (Hkf : ko (g_bs g) from = Some xf) by (rewrite (ko_some _ _ _ Hbf); auto).
    (* the two entry lists are disjoint parts of the contents *)
    assert (Hcnt : length (b_ents bf) + length (b_ents bt) <= length (flat (g_bs g))).
    { pose proof (flat_upd2 _ _ _ _ _ (bk_clear E bt) (bk_clear E bf) Hbt Hbf Hne) as Hp. apply perm_len in Hp. rewrite !app_length in Hp. simpl in Hp. lia. }
    set (fin bt' := upd (upd (g_bs g) to bt') from (bk_clear E bf)).
    assert (Hfin : forall bt' r k cnt f', merged lt eqv dedup C (b_ents bf) (b_ents bt) r k -> b_ents bt' = r -> b_cap bt' = b_cap bt -> bgood bt' ->
              cnt = g_count g - k -> front_ok (fin bt') f' ->
              inv p (mk_gb (fin bt') cnt f') /\ merges dd (flat (g_bs g)) (flat (fin bt'))).
    { intros bt' r k cnt f' Hmr Hb' Hcap Hgd -> Hf'.
      pose proof (flat_upd2 _ _ _ _ _ bt' (bk_clear E bf) Hbt Hbf Hne) as Hp. fold (fin bt') in Hp. rewrite Hb' in Hp. simpl in Hp.
      pose proof (perm_len _ _ Hp) as Hpl. rewrite !app_length in Hpl. pose proof (m_len _ _ _ _ _ _ _ _ Hmr) as Hml.
      split; [split; cbn [g_bs g_count g_front]; auto; [|lia]|].
      - assert (Hbf' : nth_error (upd (g_bs g) to bt') from = Some bf) by (rewrite nth_upd_other; auto).
        eapply wf_upd with (b := bf); [eapply wf_upd; eauto|exact Hbf'|auto|apply bk_clear_good].
      - pose proof (flat_upd2 _ _ _ _ _ (bk_clear E bt) (bk_clear E bf) Hbt Hbf Hne) as P1. simpl in P1.
        set (rest := flat (upd (upd (g_bs g) to (bk_clear E bt)) from (bk_clear E bf))) in *.
        assert (P2 : Permutation (flat (fin bt')) (r ++ rest)).
        { apply (Permutation_app_inv_l (b_ents bt ++ b_ents bf)). rewrite <- !app_assoc. rewrite Hp, <- P1.
          rewrite (Permutation_app_swap_app r (b_ents bt)). apply Permutation_app_head. apply Permutation_app_swap_app. }
        eapply merges_perm_l; [symmetry; exact P1|]. rewrite app_assoc.
        eapply merges_perm_l; [apply Permutation_app_tail; apply Permutation_app_comm|].
        eapply merges_trans; [apply merges_app; apply Hmr|]. apply merges_perm. now symmetry. }
    unfold gb_mergeToNonEmpty. destruct (g_front g) as [c|a slots n toks] eqn:Hfr; simpl in Hf.
    - rewrite Hf. cbn [negb bind f_swapKeys]. unfold vget at 1. rewrite Hbf. cbn [of_option bind].
      destruct (mergeRange_raw (mk_gb (g_bs g) (g_count g) (FCache c)) to bt (b_ents bf)) as (r & k & bt' & Hmr & Hb' & Hcap & Hgd & Hres); auto.
      { apply (wf_good _ Hw _ _ Hbf). } { cbn [g_count]. lia. }
      cbn [g_bs g_count g_front] in Hres. rewrite (Hres (FCache None) eq_refl). cbn [bind g_bs g_count g_front].
      unfold vget. rewrite nth_upd_other by auto. rewrite Hbf. cbn [of_option bind]. rewrite vset_ok by (now rewrite upd_length). cbn [bind f_remove].
      destruct (Hfin bt' r k (g_count g - k) (FCache None)) as [Hi Hmg]; auto.
      eexists; exists bt'; split; [reflexivity|]. split; [exact Hi|]. cbn [g_bs]. auto.
    - destruct Hf as (Ht & F & Hr & Hlt & Hin & Hd). rewrite Ht. cbn [negb].
      assert (Hpt : exists pt, nth_error F pt = Some to) by (apply In_nth_error; apply Hin; congruence). destruct Hpt as [pt Hpt].
      assert (Hpf : exists pf, nth_error F pf = Some from) by (apply In_nth_error; apply Hin; congruence). destruct Hpf as [pf Hpf].
      assert (Hptf : pt <> pf) by (intros ->; congruence).
      assert (Hlarger : f_larger (FOrder a slots n toks) from to = Ok (pf <? pt)).
      { unfold f_larger, vget. rewrite (rep_tok _ _ _ _ _ _ _ Hr Hpf), (rep_tok _ _ _ _ _ _ _ Hr Hpt). cbn [of_option bind tok_pos].
        now rewrite Nat.eqb_refl. }
      rewrite Hlarger. cbn [bind].
      assert (Hswap : exists s1 t1 F1 k1 x pre post,
        (if pf <? pt then f_swapKeys (FOrder a slots n toks) to from else Ok (FOrder a slots n toks)) = Ok (FOrder a s1 n t1) /\
        rep a s1 n t1 F1 /\ length t1 = length toks /\ fdesc k1 F1 /\ F1 = pre ++ to :: post /\ In from post /\
        (forall i, i <> to -> i <> from -> k1 i = ko (g_bs g) i) /\ k1 to = Some x /\ (x = xt \/ x = xf) /\
        (forall i, In i F1 <-> In i F)).
      { destruct (Nat.ltb_spec pf pt) as [Hlt2|Hge].
        - destruct (swapKeys_spec a slots n toks F to from Hr Hne) as (s1 & t1 & Hs & Hr1 & Hl1); try lia.
          destruct (nth_two (map (sw to from) F) pf pt to from) as (pre & post & HF1 & Hin1); auto.
          { rewrite nth_error_map, Hpf. simpl. now rewrite sw_r. } { rewrite nth_error_map, Hpt. simpl. now rewrite sw_l. }
          exists s1, t1, (map (sw to from) F), (fun i => ko (g_bs g) (sw to from i)), xf, pre, post.
          split; auto. split; auto. split; auto. split.
          { eapply fdesc_map; [|exact Hd]. intros i _. now rewrite sw_invol. }
          split; auto. split; auto. split; [intros i H1 H2; now rewrite sw_o|]. split; [now rewrite sw_l|]. split; auto.
          intros i. rewrite in_map_iff. split.
          + intros (j & <- & Hj). apply (sw_case to from j (fun m => In m F)); auto; intros; eapply nth_error_In; eauto.
          + intros Hi. exists (sw to from i). rewrite sw_invol. split; auto.
            apply (sw_case to from i (fun m => In m F)); auto; intros; eapply nth_error_In; eauto.
        - destruct (nth_two F pt pf to from) as (pre & post & HF1 & Hin1); auto; [lia|].
          exists slots, toks, F, (ko (g_bs g)), xt, pre, post.
          split; auto. split; auto. split; auto. split; auto. split; auto. split; auto. split; auto. split; auto. split; auto. tauto. }
      destruct Hswap as (s1 & t1 & F1 & k1 & x & pre & post & Hsw1 & Hr1 & Hl1 & Hd1 & HF1 & Hin1 & Hk1 & Hkx & Hx & HinF).
      rewrite Hsw1. cbn [bind]. unfold vget at 1. rewrite Hbf. cbn [of_option bind].
      destruct (mergeRange_raw (mk_gb (g_bs g) (g_count g) (FOrder a s1 n t1)) to bt (b_ents bf)) as (r & k & bt' & Hmr & Hb' & Hcap & Hgd & Hres); auto.
      { apply (wf_good _ Hw _ _ Hbf). } { cbn [g_count]. lia. }
      cbn [g_bs g_count g_front] in Hres.
      assert (Hxin : In x (b_ents bf ++ b_ents bt)).
      { destruct Hx as [-> | ->]; apply in_or_app; [right; rewrite Hxtl|left; rewrite Hxfl]; apply in_or_app; right; now left. }
      destruct (merged_last lt eqv dedup C Hsw (b_ents bf) (b_ents bt) r k x Hmr Hxin) as (y & Hy & Hxy).
      assert (Hnd : NoDup (pre ++ to :: post)) by (rewrite <- HF1; eapply r_nodup; eauto).
      assert (Hw1 : wf (upd (g_bs g) to bt')) by (eapply wf_upd; eauto).
      assert (Hko1 : forall j, ko (upd (g_bs g) to bt') j = if j =? to then Some y else ko (g_bs g) j).
      { intros j. rewrite ko_upd by auto. now rewrite Hb', Hy. }
      rewrite HF1 in Hr1, Hd1.
      assert (Hfp : ~ In from pre).
      { intros Hfp. apply NoDup_remove_1 in Hnd. apply in_split in Hfp as (q1 & q2 & ->). rewrite <- app_assoc in Hnd. simpl in Hnd.
        apply NoDup_remove_2 in Hnd. apply Hnd. apply in_or_app; right. apply in_or_app; now right. }
      destruct (ki_front (upd (g_bs g) to bt') k1 a s1 n t1 pre to post from x y) as (s2 & t2 & F2 & Hki & Hr2 & Hl2 & Hp2 & Hd2); auto.
      { intros i _ H1 H2. rewrite Hko1. destruct (Nat.eqb_spec i to); [congruence|]. symmetry; auto. }
      { intros i Hi. rewrite Hko1. destruct (Nat.eqb_spec i to); [congruence|]. apply Hin. apply HinF. rewrite HF1.
        destruct Hi as [Hi|Hi]; [congruence|]. apply in_or_app; now left. }
      { rewrite Hko1, Nat.eqb_refl. auto. }
      rewrite (Hres _ Hki). cbn [bind g_bs g_count g_front].
      unfold vget. rewrite nth_upd_other by auto. rewrite Hbf. cbn [of_option bind]. rewrite vset_ok by (now rewrite upd_length). cbn [bind f_remove].
      assert (Hin2 : In from F2) by (apply (in_perm_iff _ _ _ Hp2); apply in_or_app; right; now right).
      apply in_split in Hin2 as (q1 & q2 & ->). rewrite remove_split in Hd2 by (eapply r_nodup; eauto).
      destruct (fo_remove_spec a s2 n t2 from q1 q2 Hr2) as (s3 & t3 & Hrm & Hr3 & Hl3). rewrite Hrm. cbn [bind].
      assert (Hfo : front_ok (fin bt') (FOrder a s3 (length (q1 ++ q2)) t3)).
      { simpl. split; auto. exists (q1 ++ q2). split; auto. split; [unfold fin; rewrite !upd_length; congruence|].
        assert (Hkf2 : forall j, ko (fin bt') j = if j =? from then None else ko (upd (g_bs g) to bt') j).
        { intros j. unfold fin. rewrite ko_upd by (now rewrite upd_length). reflexivity. }
        assert (Hnf : ~ In from (q1 ++ q2)) by (apply NoDup_remove_2; eapply r_nodup; eauto).
        split.
        - intros j. rewrite Hkf2. destruct (Nat.eqb_spec j from) as [->|Hj]; [split; [contradiction|congruence]|].
          rewrite Hko1. assert (HinF2 : In j (q1 ++ q2) <-> In j F).
          { rewrite <- HinF, HF1. rewrite (in_perm_iff _ _ j Hp2). rewrite !in_app_iff. simpl. split; [tauto|]. intros [H|[H|H]]; auto; congruence. }
          rewrite HinF2. destruct (Nat.eqb_spec j to) as [->|Hjt]; [|apply Hin]. split; [congruence|]. intros _. eapply nth_error_In; eauto.
        - eapply fdesc_ext; [|exact Hd2]. intros j Hj. rewrite Hkf2. destruct (Nat.eqb_spec j from) as [->|]; auto. contradiction. }
      destruct (Hfin bt' r k (g_count g - k) (FOrder a s3 (length (q1 ++ q2)) t3)) as [Hi Hmg]; auto.
      eexists; exists bt'; split; [reflexivity|]. split; [exact Hi|]. cbn [g_bs]. auto.
  Qed.

  (** * addBucket *)
  Lemma addBucket_ok p g : inv p g ->
    exists g' c, gb_addBucket E C g = Ok g' /\ inv p g' /\ g_bs g' = g_bs g ++ [c] /\ b_ents c = [] /\ cache_ok (g_bs g') (g_front g').
  Proof.
    intros [Hw Hc Hf]. unfold gb_addBucket.
    set (nb := match g_bs g with [] => minBucketSize C | _ => largest E (g_bs g) * geoBase C end).
    assert (Hnb : nb = minBucketSize C * geoBase C ^ length (g_bs g)).
    { destruct (largest_ok _ Hw) as (bs' & b & Hbs & Hlb & Hnth). assert (Hnb : nb = largest E (g_bs g) * geoBase C).
      { unfold nb. destruct (g_bs g); auto. now apply (wf_ne _ Hw) in Hbs || (destruct bs'; discriminate). }
      rewrite Hnb, Hlb, (wf_cap _ Hw _ _ Hnth). rewrite <- Nat.mul_assoc, (Nat.mul_comm (geoBase C ^ _)), <- Nat.pow_succ_r'.
      do 2 f_equal. rewrite Hbs, app_length. simpl. lia. }
    assert (Hko : forall c j, b_ents c = [] -> ko (g_bs g ++ [c]) j = ko (g_bs g) j).
    { intros c j Hce. unfold ko. destruct (lt_dec j (length (g_bs g))) as [Hj|Hj]; [now rewrite nth_error_app1|].
      rewrite nth_error_app2 by lia. assert (Hnone : nth_error (g_bs g) j = None) by (apply nth_error_None; lia). rewrite Hnone.
      destruct (j - length (g_bs g)) as [|[|q]]; simpl; auto. now rewrite Hce. }
    set (c := mk_b nb [] None).
    assert (Hw' : wf (g_bs g ++ [c])).
    { assert (Hcase : forall i b, nth_error (g_bs g ++ [c]) i = Some b -> nth_error (g_bs g) i = Some b \/ (i = length (g_bs g) /\ b = c)).
      { intros i b Hi. destruct (lt_dec i (length (g_bs g))) as [Hj|Hj]; [left; now rewrite nth_error_app1 in Hi|]. right.
        rewrite nth_error_app2 in Hi by lia. destruct (i - length (g_bs g)) as [|[|q]] eqn:Hq; simpl in Hi; try discriminate.
        injection Hi as <-. split; auto. lia. }
      split.
      - destruct (g_bs g); discriminate.
      - intros i b Hi. apply Hcase in Hi as [Hi|[-> ->]]; [eapply wf_cap; eauto|exact Hnb].
      - intros i b Hi. apply Hcase in Hi as [Hi|[-> ->]]; [eapply wf_good; eauto|]. split; simpl; [constructor|lia|congruence]. }
    assert (Hfl : flat (g_bs g ++ [c]) = flat (g_bs g)) by (rewrite flat_map_app; simpl; apply app_nil_r).
    destruct (g_front g) as [ca|a slots n toks] eqn:Hfr; simpl in Hf.
    - eexists; exists c; split; [reflexivity|]. split; [split; cbn [g_bs g_count g_front]; auto; now rewrite Hfl|]. simpl. auto.
    - destruct Hf as (Ht & F & Hr & Hlt & Hin & Hd).
      destruct (reserve_spec a slots n (toks ++ [None]) F (length (g_bs g ++ [c])) (rep_new _ _ _ _ _ Hr)) as (s' & t' & Hres & Hr' & _ & Hl').
      { rewrite (r_n _ _ _ _ _ Hr). pose proof (rep_length _ _ _ _ _ Hr). rewrite app_length. simpl. lia. }
      fold c. rewrite Hres. cbn [bind]. eexists; exists c; split; [reflexivity|]. split; [|simpl; auto].
      split; cbn [g_bs g_count g_front]; auto; [now rewrite Hfl|]. simpl. split; auto. exists F. split; auto. split.
      + rewrite Hl', !app_length. simpl. lia.
      + split; [intros i; rewrite Hko by auto; auto|]. eapply fdesc_ext; [|exact Hd]. intros i _. symmetry. now apply Hko.
  Qed.

  (** * insert without premerge *)

  (** Entries arriving at bucket [b] with [t] others find a bucket they fit in. *)
  Inductive room (bs : list bucket) : nat -> nat -> Prop :=
  | room_here b t c : nth_error bs b = Some c -> t + length (b_ents c) <= b_cap c -> room bs b t
  | room_next b t c : nth_error bs b = Some c -> room bs (S b) (t + length (b_ents c)) -> room bs b t.

  Lemma room_mono bs b t t' : room bs b t -> t' <= t -> room bs b t'.
  Proof.
    intros H. revert t'. induction H as [b t c Hc Hl|b t c Hc Hr IH]; intros t' Hle.
    - eapply room_here; eauto. lia.
    - eapply room_next; eauto. apply IH. lia.
  Qed.
  Lemma room_upd bs b t i c : room bs b t -> i < b -> room (upd bs i c) b t.
  Proof.
    intros H Hi. induction H as [b t d Hc Hl|b t d Hc Hr IH].
    - eapply room_here; eauto. now rewrite nth_upd_other by lia.
    - eapply room_next; [rewrite nth_upd_other by lia; eauto|]. apply IH. lia.
  Qed.
  Lemma room_nth bs b t : room bs b t -> exists c, nth_error bs b = Some c.
  Proof. intros H. inversion H; subst; eauto. Qed.

  Lemma double_pow i : 2 * (minBucketSize C * geoBase C ^ i) <= minBucketSize C * geoBase C ^ S i.
  Proof.
    rewrite Nat.pow_succ_r'. replace (minBucketSize C * (geoBase C * geoBase C ^ i)) with (geoBase C * (minBucketSize C * geoBase C ^ i)) by ring.
    apply Nat.mul_le_mono_r. lia.
  Qed.

  Lemma grow_ok p : forall fuel g i acc, inv p g -> i <= length (g_bs g) -> length (g_bs g) - i < fuel ->
    acc <= minBucketSize C * geoBase C ^ i ->
    exists g' ext, grow_loop E C fuel g i acc = Ok g' /\ inv p g' /\ g_bs g' = g_bs g ++ ext /\ flat ext = [] /\ room (g_bs g') i acc.
  Proof.
    induction fuel as [|fuel IH]; intros g i acc Hi Hil Hfu Hacc; [lia|]. cbn [grow_loop].
    destruct (Nat.eqb_spec i (length (g_bs g))) as [He|Hne].
    - destruct (addBucket_ok p g Hi) as (g' & c & -> & Hi' & Hbs & Hce & _). cbn [bind].
      assert (Hn : nth_error (g_bs g') i = Some c) by (rewrite Hbs, He; apply nth_middle).
      unfold vget. rewrite Hn. cbn [of_option bind]. unfold b_size. rewrite Hce. cbn [length]. rewrite Nat.add_0_r.
      rewrite (wf_cap _ (i_wf _ _ Hi') _ _ Hn). destruct (Nat.leb_spec acc (minBucketSize C * geoBase C ^ i)); [|lia].
      exists g', [c]. split; auto. split; auto. split; auto. split; [simpl; now rewrite Hce|].
      eapply room_here; eauto. rewrite Hce. simpl. rewrite (wf_cap _ (i_wf _ _ Hi') _ _ Hn). lia.
    - cbn [bind]. destruct (nth_error_lt (g_bs g) i) as [b Hb]; [lia|]. unfold vget. rewrite Hb. cbn [of_option bind]. unfold b_size.
      destruct (Nat.leb_spec (acc + length (b_ents b)) (b_cap b)) as [Hle|Hgt].
      + exists g, []. split; auto. split; auto. split; [now rewrite app_nil_r|]. split; auto. eapply room_here; eauto.
      + destruct (IH g (S i) (acc + length (b_ents b))) as (g' & ext & Hgl & Hi' & Hbs & Hext & Hroom); auto; try lia.
        { pose proof (double_pow i). pose proof (bg_len _ (wf_good _ (i_wf _ _ Hi) _ _ Hb)). rewrite (wf_cap _ (i_wf _ _ Hi) _ _ Hb) in *. lia. }
        exists g', ext. split; auto. split; auto. split; auto. split; auto. eapply room_next; eauto.
        rewrite Hbs. rewrite nth_error_app1; auto. now apply nth_error_some_lt in Hb.
  Qed.

  Definition fits_insert (p : nat) (l : list E) (g : geobucket) (m : res geobucket) : Prop :=
    exists g', m = Ok g' /\ inv p g' /\ cache_ok (g_bs g') (g_front g') /\ merges dd (l ++ flat (g_bs g)) (flat (g_bs g')).

  Lemma carry_ok p go_on g b l cur : inv (length l + p) g -> nth_error (g_bs g) b = Some cur -> b_ents cur <> [] -> asc l ->
    length l <= b_cap cur -> room (g_bs g) (S b) (length l + length (b_ents cur)) ->
    (forall g' r nx, inv (length r + p) g' -> nth_error (g_bs g') (S b) = Some nx -> b_ents nx <> [] -> asc r -> length r <= b_cap nx ->
       room (g_bs g') (S b) (length r) -> length (g_bs g') = length (g_bs g) -> fits_insert p r g' (go_on g' (S b) r)) ->
    fits_insert p l g (carry E cmp eqv dedup C go_on g b l).
  Proof.
    intros Hi Hcur Hne Ha Hl Hroom Hgo. pose proof Hi as [Hw Hc Hf]. destruct (room_nth _ _ _ Hroom) as [nx Hnx].
    unfold carry, vget. rewrite Hcur, Hnx. cbn [of_option bind].
    pose proof (wf_good _ Hw _ _ Hcur) as [Hca Hcl _]. pose proof (cap_double _ _ _ _ Hw Hcur Hnx) as Hdbl.
    destruct (b_empty_spec nx) as [He|Hnne].
    - apply mergeToEmpty_ok with (bt := nx) (bf := cur); auto; lia.
    - destruct (gb_merge E cmp eqv dedup C l (b_ents cur)) as [r k] eqn:Hmg.
      assert (Hmr : merged lt eqv dedup C l (b_ents cur) r k) by (eapply gb_merge_ok; eauto).
      pose proof (m_len _ _ _ _ _ _ _ _ Hmr) as Hml. pose proof (flat_ge _ _ _ Hcur) as Hfg. pose proof (nth_error_some_lt _ _ _ Hcur) as Hb.
      unfold dec. destruct (Nat.leb_spec k (g_count g)); [|lia]. cbn [bind].
      pose proof (cap_largest _ _ _ Hw Hnx) as Hlg. destruct (Nat.ltb_spec (largest E (g_bs g)) (length r)); [lia|].
      rewrite vset_ok by auto. cbn [bind].
      destruct (fo_rm (g_bs g) (upd (g_bs g) b (bk_clear E cur)) (g_front g) b) as (f' & -> & Hf' & _); auto.
      { apply upd_length. } { rewrite (ko_none _ _ _ Hcur). auto. } { rewrite ko_upd, Nat.eqb_refl by auto. reflexivity. }
      { intros j Hj. rewrite ko_upd by auto. destruct (Nat.eqb_spec j b); congruence. }
      cbn [bind]. pose proof (flat_upd _ _ _ (bk_clear E cur) Hcur) as P1. simpl in P1. pose proof (perm_len _ _ P1) as Hpl. rewrite app_length in Hpl.
      destruct (Hgo (mk_gb (upd (g_bs g) b (bk_clear E cur)) (g_count g - k) f') r nx) as (g' & Hg' & Hi' & Hcf & Hmgs).
      + split; cbn [g_bs g_count g_front]; auto; [|lia]. eapply wf_upd; eauto. apply bk_clear_good.
      + cbn [g_bs]. rewrite nth_upd_other by lia. auto.
      + auto.
      + apply Hmr.
      + lia.
      + cbn [g_bs]. apply room_upd; [|lia]. eapply room_mono; eauto. lia.
      + cbn [g_bs]. apply upd_length.
      + exists g'. split; auto. split; auto. split; auto. cbn [g_bs] in Hmgs.
        eapply merges_perm_l; [apply Permutation_app_head; symmetry; exact P1|]. rewrite app_assoc.
        eapply merges_trans; [apply merges_app; apply Hmr|]. auto.
  Qed.

  Lemma carry_loop_ok p : forall fuel g b tmp cur, inv (length tmp + p) g -> nth_error (g_bs g) b = Some cur -> b_ents cur <> [] -> asc tmp ->
    length tmp <= b_cap cur -> room (g_bs g) b (length tmp) -> length (g_bs g) - b <= fuel ->
    fits_insert p tmp g (carry_loop E cmp eqv dedup C fuel g b tmp).
  Proof.
    induction fuel as [|fuel IH]; intros g b tmp cur Hi Hcur Hne Ha Hl Hroom Hfu.
    { apply nth_error_some_lt in Hcur. lia. }
    cbn [carry_loop]. unfold vget. rewrite Hcur. cbn [of_option bind]. unfold b_size.
    destruct (Nat.leb_spec (length tmp + length (b_ents cur)) (b_cap cur)) as [Hle|Hgt].
    - apply mergeRange_ok with (b := cur); auto.
    - apply carry_ok with (cur := cur); auto.
      + inversion Hroom as [? ? c Hc Hle|? ? c Hc Hr]; subst; rewrite Hcur in Hc; injection Hc as <-; [lia|auto].
      + intros g' r nx Hi' Hnx Hnne Har Hlr Hroom' Hlen. eapply IH; eauto. lia.
  Qed.

  Lemma nopremerge_ok p g b l bb : inv (length l + p) g -> nth_error (g_bs g) b = Some bb -> asc l -> l <> [] -> length l <= b_cap bb ->
    fits_insert p l g (gb_insert_nopremerge E cmp eqv dedup C g b l).
  Proof.
    intros Hi Hb Ha Hne Hl. pose proof Hi as [Hw Hc Hf]. pose proof (nth_error_some_lt _ _ _ Hb) as Hbl.
    unfold gb_insert_nopremerge. unfold vget. rewrite Hb. cbn [of_option bind].
    destruct (b_empty_spec bb) as [He|Hnne].
    - destruct (assign_ok p g b bb l) as (g' & Hg' & Hi' & Hcf & Hp); auto. exists g'. split; auto. split; auto. split; auto. now apply merges_perm.
    - unfold b_size. destruct (Nat.leb_spec (length (b_ents bb) + length l) (b_cap bb)) as [Hle|Hgt].
      + apply mergeRange_ok with (b := bb); auto. lia.
      + destruct (grow_ok (length l + p) (S (length (g_bs g))) g (S b) (length (b_ents bb) + length l)) as (g1 & ext & -> & Hi1 & Hbs & Hext & Hroom); auto; try lia.
        { pose proof (double_pow b). pose proof (bg_len _ (wf_good _ Hw _ _ Hb)). rewrite (wf_cap _ Hw _ _ Hb) in *. lia. }
        cbn [bind].
        assert (Hb1 : nth_error (g_bs g1) b = Some bb) by (rewrite Hbs; rewrite nth_error_app1; auto).
        assert (Hfl : flat (g_bs g1) = flat (g_bs g)) by (rewrite Hbs, flat_map_app, Hext; apply app_nil_r).
        destruct (carry_ok p (carry_loop E cmp eqv dedup C (length (g_bs g1))) g1 b l bb) as (g' & Hg' & Hi' & Hcf & Hmg); auto.
        * eapply room_mono; eauto. lia.
        * intros g' r nx Hi' Hnx Hnne' Har Hlr Hroom' Hlen. eapply carry_loop_ok; eauto. lia.
        * exists g'. split; auto. split; auto. split; auto. now rewrite <- Hfl.
  Qed.

  (** * insert with premerge *)
  Lemma pre_range_ok p : forall fuel g r inc rb, inv p g -> nth_error (g_bs g) r = Some rb -> inc <= b_cap rb -> length (g_bs g) - r <= fuel ->
    exists g' ext r' rb', pre_range E C fuel g r inc = Ok (g', r') /\ inv p g' /\ g_bs g' = g_bs g ++ ext /\ flat ext = [] /\
      r <= r' /\ nth_error (g_bs g') r' = Some rb' /\
      (forall i, r <= i < r' -> exists b, nth_error (g_bs g') i = Some b /\ b_ents b <> []) /\
      (r' = r -> length (b_ents rb') + inc <= b_cap rb') /\
      (r < r' -> exists pb, nth_error (g_bs g') (r' - 1) = Some pb /\ length (b_ents rb') + length (b_ents pb) <= b_cap rb').
  Proof.
    induction fuel as [|fuel IH]; intros g r inc rb Hi Hr Hinc Hfu.
    { apply nth_error_some_lt in Hr. lia. }
    cbn [pre_range]. unfold vget. rewrite Hr. cbn [of_option bind]. unfold b_size.
    pose proof Hi as [Hw _ _]. pose proof (nth_error_some_lt _ _ _ Hr) as Hrl. pose proof (bg_len _ (wf_good _ Hw _ _ Hr)) as Hrbl.
    destruct (Nat.leb_spec (length (b_ents rb) + inc) (b_cap rb)) as [Hle|Hgt].
    - exists g, [], r, rb. split; auto. split; auto. split; [now rewrite app_nil_r|]. split; auto. split; auto. split; auto.
      split; [intros i Hlt; lia|]. split; auto. lia.
    - assert (Hrne : b_ents rb <> []) by (intros H; rewrite H in Hgt; simpl in Hgt; lia).
      destruct (Nat.eqb_spec (S r) (length (g_bs g))) as [He|Hn].
      + destruct (addBucket_ok p g Hi) as (g' & c & -> & Hi' & Hbs & Hce & _). cbn [bind].
        assert (Hn : nth_error (g_bs g') (S r) = Some c) by (rewrite Hbs, He; apply nth_middle).
        assert (Hr' : nth_error (g_bs g') r = Some rb) by (rewrite Hbs; rewrite nth_error_app1; auto).
        exists g', [c], (S r), c. split; auto. split; auto. split; auto. split; [simpl; now rewrite Hce|]. split; [lia|]. split; auto. split.
        { intros i Hlt. assert (i = r) as -> by lia. eauto. }
        split; [lia|]. intros _. exists rb. replace (S r - 1) with r by lia. split; auto. rewrite Hce. simpl.
        pose proof (cap_mono _ r (S r) _ _ (i_wf _ _ Hi') Hr' Hn). lia.
      + destruct (nth_error_lt (g_bs g) (S r)) as [rb2 Hr2]; [lia|].
        destruct (IH g (S r) (length (b_ents rb)) rb2) as (g' & ext & r' & rb' & Heq' & Hi' & Hbs & Hext & Hle & Hnth & Hall & Hsame & Hlt); auto; try lia.
        { pose proof (cap_mono _ r (S r) _ _ Hw Hr Hr2). lia. }
        assert (Hr' : nth_error (g_bs g') r = Some rb) by (rewrite Hbs; rewrite nth_error_app1; auto).
        exists g', ext, r', rb'. split; auto. split; auto. split; auto. split; auto. split; [lia|]. split; auto. split.
        { intros i Hlt'. destruct (Nat.eq_dec i r) as [->|Hir]; [eauto|]. apply Hall. lia. }
        split; [lia|]. intros _. destruct (Nat.eq_dec r' (S r)) as [->|Hr'n].
        * exists rb. replace (S r - 1) with r by lia. split; auto.
        * apply Hlt. lia.
  Qed.

  Lemma pre_moves_ok p : forall k g rit bt, inv p g -> k <= rit -> nth_error (g_bs g) rit = Some bt -> b_ents bt = [] ->
    (forall i, rit - k <= i < rit -> exists b, nth_error (g_bs g) i = Some b /\ b_ents b <> []) ->
    exists g' b', pre_moves E C k g rit = Ok g' /\ inv p g' /\ nth_error (g_bs g') (rit - k) = Some b' /\ b_ents b' = [] /\
      Permutation (flat (g_bs g)) (flat (g_bs g')).
  Proof.
    induction k as [|k IH]; intros g rit bt Hi Hk Hbt Het Hall; cbn [pre_moves].
    - exists g, bt. rewrite Nat.sub_0_r. auto.
    - destruct (Hall (rit - 1)) as (bf & Hbf & Hfe); [lia|]. pose proof Hi as [Hw _ _].
      destruct (moveToEmpty_ok p g rit (rit - 1) bt bf) as (g1 & bt' & -> & Hi1 & Hbs & Hbt' & Hcap & Hp); auto; try lia.
      { pose proof (cap_mono _ (rit - 1) rit _ _ Hw Hbf Hbt). pose proof (bg_len _ (wf_good _ Hw _ _ Hbf)). lia. }
      cbn [bind]. pose proof (nth_error_some_lt _ _ _ Hbf). pose proof (nth_error_some_lt _ _ _ Hbt).
      destruct (IH g1 (rit - 1) (bk_clear E bf)) as (g' & b' & Hpm & Hi' & Hb' & He' & Hp'); auto; try lia.
      + rewrite Hbs. apply nth_upd_same. now rewrite upd_length.
      + intros i Hir. destruct (Hall i) as (b & Hb & Hbne); [lia|]. exists b. split; auto. rewrite Hbs. rewrite !nth_upd_other by lia. auto.
      + exists g', b'. split; auto. split; auto. split; [now replace (rit - S k) with (rit - 1 - k) by lia|]. split; auto. etransitivity; eauto.
  Qed.

  Lemma premerge_ok p g b l bb : inv (length l + p) g -> nth_error (g_bs g) b = Some bb -> asc l -> l <> [] -> length l <= b_cap bb ->
    fits_insert p l g (gb_insert_premerge E cmp eqv dedup C g b l).
  Proof.
    intros Hi Hb Ha Hne Hl. pose proof Hi as [Hw Hc Hf]. pose proof (nth_error_some_lt _ _ _ Hb) as Hbl.
    unfold gb_insert_premerge.
    destruct (pre_range_ok (length l + p) (S (length (g_bs g))) g b (length l) bb) as (g1 & ext & r & rb & -> & Hi1 & Hbs & Hext & Hle & Hr & Hall & Hsame & Hlt); auto; [lia|].
    cbn [bind]. pose proof Hi1 as [Hw1 _ _].
    assert (Hb1 : nth_error (g_bs g1) b = Some bb) by (rewrite Hbs; rewrite nth_error_app1; auto).
    assert (Hfl : flat (g_bs g1) = flat (g_bs g)) by (rewrite Hbs, flat_map_app, Hext; apply app_nil_r).
    destruct (Nat.eqb_spec b r) as [<-|Hbr].
    - cbn [bind]. assert (rb = bb) as -> by congruence. unfold vget. rewrite Hb1. cbn [of_option bind]. specialize (Hsame eq_refl).
      destruct (b_empty_spec bb) as [He|Hnne].
      + destruct (assign_ok p g1 b bb l) as (g' & Hg' & Hi' & Hcf & Hp); auto. exists g'. split; auto. split; auto. split; auto.
        rewrite <- Hfl. now apply merges_perm.
      + destruct (mergeRange_ok p g1 b bb l) as (g' & Hg' & Hi' & Hcf & Hp); auto; [lia|]. exists g'. split; auto. split; auto. split; auto.
        now rewrite <- Hfl.
    - destruct (Hlt ltac:(lia)) as (pb & Hpb & Hpl). destruct (Hall (r - 1)) as (pb' & Hpb' & Hpne); [lia|].
      assert (pb' = pb) as -> by congruence.
      assert (Hmid : exists g2 b2,
        (let* rr := vget (g_bs g1) r in
         if b_empty E rr then pre_moves E C (r - b) g1 r
         else let* g' := gb_mergeToNonEmpty E cmp eqv dedup C g1 r (r - 1) in pre_moves E C (r - 1 - b) g' (r - 1)) = Ok g2 /\
        inv (length l + p) g2 /\ nth_error (g_bs g2) b = Some b2 /\ b_ents b2 = [] /\ merges dd (flat (g_bs g1)) (flat (g_bs g2))).
      { unfold vget. rewrite Hr. cbn [of_option bind]. destruct (b_empty_spec rb) as [He|Hnne].
        - destruct (pre_moves_ok (length l + p) (r - b) g1 r rb) as (g2 & b2 & Hpm & Hi2 & Hb2 & He2 & Hp2); auto; try lia.
          { intros i Hir. apply Hall. lia. }
          replace (r - (r - b)) with b in Hb2 by lia. exists g2, b2. split; auto. split; auto. split; auto. split; auto. now apply merges_perm.
        - destruct (mergeToNonEmpty_ok (length l + p) g1 r (r - 1) rb pb) as (g' & bt' & -> & Hi' & Hbs' & Hcap' & Hmg); auto; try lia.
          cbn [bind]. pose proof (nth_error_some_lt _ _ _ Hpb).
          destruct (pre_moves_ok (length l + p) (r - 1 - b) g' (r - 1) (bk_clear E pb)) as (g2 & b2 & Hpm & Hi2 & Hb2 & He2 & Hp2); auto; try lia.
          { rewrite Hbs'. apply nth_upd_same. now rewrite upd_length. }
          { intros i Hir. destruct (Hall i) as (c & Hcn & Hcne); [lia|]. exists c. split; auto. rewrite Hbs'. rewrite !nth_upd_other by lia. auto. }
          replace (r - 1 - (r - 1 - b)) with b in Hb2 by lia. exists g2, b2. split; auto. split; auto. split; auto. split; auto.
          eapply merges_trans; [exact Hmg|]. now apply merges_perm. }
      destruct Hmid as (g2 & b2 & -> & Hi2 & Hb2 & He2 & Hmg2). cbn [bind]. unfold vget. rewrite Hb2. cbn [of_option bind].
      destruct (b_empty_spec b2) as [_|Hno]; [|contradiction].
      destruct (assign_ok p g2 b b2 l) as (g' & Hg' & Hi' & Hcf & Hp); auto.
      { rewrite (wf_cap _ (i_wf _ _ Hi2) _ _ Hb2), <- (wf_cap _ Hw _ _ Hb). auto. }
      exists g'. split; auto. split; auto. split; auto. rewrite <- Hfl.
      eapply merges_trans; [apply merges_app_both; [apply merges_refl|exact Hmg2]|]. now apply merges_perm.
  Qed.

  Lemma insert_ok p g b l bb : inv (length l + p) g -> nth_error (g_bs g) b = Some bb -> asc l -> l <> [] -> length l <= b_cap bb ->
    fits_insert p l g (gb_insert E cmp eqv dedup C g b l).
  Proof. intros. unfold gb_insert. destruct (premerge C); [eapply premerge_ok|eapply nopremerge_ok]; eauto. Qed.

  (** * push *)
  Definition Inv (g : geobucket) : Prop := inv 0 g /\ cache_ok (g_bs g) (g_front g).

  Lemma bk_push_good fits b x : bgood b -> length (b_ents b) < b_cap b -> b_cap b <= fits -> (forall y, In y (b_ents b) -> y <== x) ->
    exists b', bk_push_back E C fits b x = Ok b' /\ b_ents b' = b_ents b ++ [x] /\ b_cap b' = b_cap b /\ bgood b'.
  Proof.
    intros [A L B] Hl Hf Hx. unfold bk_push_back, b_size. destruct (Nat.ltb_spec (length (b_ents b)) fits); [|lia].
    eexists; split; [reflexivity|]. split; auto. split; auto. split; cbn [b_ents b_cap b_back].
    - apply asc_snoc; auto.
    - rewrite app_length. simpl. lia.
    - intros Hc _. rewrite Hc. now rewrite last_entry_snoc.
  Qed.

  Lemma push_ok g x : Inv g ->
    exists g', gb_push E cmp eqv dedup C g x = Ok g' /\ Inv g' /\ merges dd (x :: flat (g_bs g)) (flat (g_bs g')).
  Proof.
    intros [[Hw Hc Hf] Hcf]. unfold gb_push. simpl in Hc.
    destruct (nth_error_lt (g_bs g) 0) as [b Hb].
    { destruct (g_bs g) eqn:Hbs; [exfalso; now apply (wf_ne _ Hw)|simpl; lia]. }
    pose proof (nth_error_some_lt _ _ _ Hb) as H0. pose proof (wf_good _ Hw _ _ Hb) as Hbg. pose proof (cap_pos _ _ _ Hw Hb) as Hcap1.
    pose proof (cap_area _ _ _ Hw Hb) as Harea.
    unfold vget at 1. rewrite Hb. cbn [of_option bind]. unfold b_size at 1.
    destruct (Nat.eqb_spec (length (b_ents b)) (b_cap b)) as [Hfull|Hnf].
    - destruct (insert_ok 0 (mk_gb (g_bs g) (S (g_count g)) (g_front g)) 0 [x] b) as (g' & -> & Hi' & Hcf' & Hmg); auto.
      + split; cbn [g_bs g_count g_front]; auto; try (simpl; lia).
      + repeat constructor.
      + discriminate.
      + exists g'. split; auto. split; [split; auto|]. exact Hmg.
    - pose proof (bg_len _ Hbg) as Hbl. destruct (b_empty_spec b) as [He|Hne].
      + destruct (bk_push_good (area E C (g_bs g) b) b x) as (b' & -> & Hb' & Hcap & Hgd); auto; [lia|rewrite He; intros y []|].
        cbn [bind]. rewrite vset_ok by auto. cbn [bind].
        assert (Hw' : wf (upd (g_bs g) 0 b')) by (eapply wf_upd; eauto).
        destruct (fo_insert (g_bs g) (upd (g_bs g) 0 b') (g_front g) 0 x) as (f' & -> & Hf' & Hcf'); auto.
        * apply upd_length.
        * now apply (ko_none _ _ b).
        * rewrite ko_upd, Nat.eqb_refl by auto. rewrite Hb'. apply last_entry_snoc.
        * intros j Hj. rewrite ko_upd by auto. destruct (Nat.eqb_spec j 0); congruence.
        * cbn [bind]. eexists; split; [reflexivity|]. pose proof (flat_upd _ _ _ b' Hb) as Hp. rewrite Hb', He in Hp. simpl in Hp.
          split; [split; cbn [g_bs g_count g_front]; auto; split; cbn [g_bs g_count g_front]; auto|].
          -- rewrite (perm_len _ _ Hp). simpl. lia.
          -- cbn [g_bs]. apply merges_perm. now symmetry.
      + assert (Hpl : exists pl, (if minBucketBinarySearch C then bin_search E cmp eqv C (S (b_size E b)) (b_ents b) x 0 (b_size E b)
                  else Ok (lin_search E cmp eqv C (b_ents b) x 0)) = Ok pl /\ place_ok lt cmp eqv C (b_ents b) x pl).
        { destruct (minBucketBinarySearch C).
          - apply bin_search_ok; unfold b_size; auto; try lia; [apply Hbg|].
            intros i y Hi Hy. apply nth_error_some_lt in Hy. lia.
          - eexists; split; [reflexivity|]. apply (lin_search_ok lt cmp eqv C Hsw cmp_f cmp_t x (b_ents b) []); [apply Hbg|intros y []]. }
        destruct Hpl as (pl & -> & Hplo). cbn [bind].
        destruct (@last_entry_some E _ Hne) as (bl & z & Hbz & Hz). destruct pl as [i| |i]; cbn [place_ok] in Hplo.
        * unfold bk_insertAtNotEnd. destruct Hplo as (Hi & Hlo & Hhi) eqn:Hplo_eq. clear Hplo_eq.
          assert (Hcond : (i <? b_size E b) && (b_size E b <? area E C (g_bs g) b) = true).
          { unfold b_size. apply andb_true_iff. split; apply Nat.ltb_lt; lia. }
          rewrite Hcond. cbn [bind]. rewrite vset_ok by auto. cbn [bind].
          set (b' := mk_b (b_cap b) (firstn i (b_ents b) ++ x :: skipn i (b_ents b)) (b_back b)).
          assert (Hpb : Permutation (b_ents b') (x :: b_ents b)).
          { unfold b'. cbn [b_ents]. rewrite <- (firstn_skipn i (b_ents b)) at 3. symmetry. apply Permutation_middle. }
          assert (Hlast : last_entry (b_ents b') = last_entry (b_ents b)) by (unfold b'; cbn [b_ents]; now apply last_insert_at).
          assert (Hgd : bgood b').
          { split; cbn [b_cap b_back].
            - apply (asc_insert_at lt cmp eqv C); [apply Hbg|]. split; auto.
            - rewrite (perm_len _ _ Hpb). simpl. lia.
            - intros Hcm _. rewrite Hlast. apply Hbg; auto. }
          assert (Hsame : forall j, oequiv (ko (g_bs g) j) (ko (upd (g_bs g) 0 b') j)).
          { intros j. rewrite ko_upd by auto. destruct (Nat.eqb_spec j 0) as [->|]; [rewrite Hlast, (ko_some _ _ _ Hb)|]; apply oequiv_refl. }
          eexists; split; [reflexivity|]. pose proof (flat_upd _ _ _ b' Hb) as Hp. rewrite Hpb in Hp. simpl in Hp.
          rewrite Permutation_middle in Hp. apply Permutation_app_inv_l in Hp.
          split; [split; cbn [g_bs g_count g_front]|].
          -- split; cbn [g_bs g_count g_front]; [eapply wf_upd; eauto|rewrite (perm_len _ _ Hp); simpl; lia|].
             eapply fo_same; eauto. apply upd_length.
          -- eapply cache_same; eauto.
          -- cbn [g_bs]. apply merges_perm. now symmetry.
        * destruct (bk_push_good (area E C (g_bs g) b) b x) as (b' & -> & Hb' & Hcap & Hgd); auto; [lia|].
          cbn [bind]. rewrite vset_ok by auto. cbn [bind].
          assert (Hw' : wf (upd (g_bs g) 0 b')) by (eapply wf_upd; eauto).
          destruct (fo_increase (g_bs g) (upd (g_bs g) 0 b') (g_front g) 0 z x) as (f' & -> & Hf' & Hcf'); auto.
          -- apply upd_length.
          -- now rewrite (ko_some _ _ _ Hb).
          -- rewrite ko_upd, Nat.eqb_refl by auto. rewrite Hb'. apply last_entry_snoc.
          -- apply Hplo. rewrite Hbz. apply in_or_app; right; now left.
          -- intros j Hj. rewrite ko_upd by auto. destruct (Nat.eqb_spec j 0); congruence.
          -- cbn [bind]. eexists; split; [reflexivity|]. pose proof (flat_upd _ _ _ b' Hb) as Hp. rewrite Hb' in Hp.
             rewrite <- app_assoc in Hp. apply Permutation_app_inv_l in Hp. simpl in Hp.
             split; [split; cbn [g_bs g_count g_front]; auto; split; cbn [g_bs g_count g_front]; auto|].
             ++ rewrite (perm_len _ _ Hp). simpl. lia.
             ++ cbn [g_bs]. apply merges_perm. now symmetry.
        * destruct Hplo as (y & Hy & Hs & Hxy & Hev). unfold vget. rewrite Hy. cbn [of_option bind].
          destruct (eqv_both lt cmp eqv dedup C Heq Hdd x y Hs Hxy Hev) as (_ & _ & Hdy & _ & Hddyx).
          destruct (bk_set_good b i y (dedup y x) Hbg Hy Hdy) as (b' & -> & Hb' & Hcap & Hgd). cbn [bind].
          rewrite vset_ok by auto. cbn [bind]. unfold dec. cbn [Nat.leb bind].
          assert (Hsame : forall j, oequiv (ko (g_bs g) j) (ko (upd (g_bs g) 0 b') j)).
          { intros j. rewrite ko_upd by auto. destruct (Nat.eqb_spec j 0) as [->|]; [|apply oequiv_refl].
            rewrite (ko_some _ _ _ Hb), Hb'. unfold Model.last_entry. rewrite upd_length.
            destruct (Nat.eq_dec (length (b_ents b) - 1) i) as [<-|Hni].
            - rewrite nth_upd_same by (now apply nth_error_some_lt in Hy). rewrite Hy. simpl. now apply equivalent_sym.
            - rewrite nth_upd_other by auto. apply oequiv_refl. }
          pose proof (flat_upd _ _ _ b' Hb) as Hp. rewrite Hb' in Hp. pose proof (perm_len _ _ Hp) as Hpl. rewrite !app_length, upd_length in Hpl.
          eexists; split; [reflexivity|]. split; [split; cbn [g_bs g_count g_front]|].
          -- split; cbn [g_bs g_count g_front]; [eapply wf_upd; eauto|lia|]. eapply fo_same; eauto. apply upd_length.
          -- eapply cache_same; eauto.
          -- cbn [g_bs]. pose proof (upd_perm (b_ents b) i y (dedup y x) Hy) as Hu.
             (* y :: flat' ~ dedup y x :: flat *)
             assert (HQ : Permutation (y :: flat (upd (g_bs g) 0 b')) (dedup y x :: flat (g_bs g))).
             { apply (Permutation_app_inv_l (b_ents b)). rewrite <- Permutation_middle. rewrite Hp.
               rewrite app_comm_cons, Hu. simpl. now rewrite Permutation_middle. }
             assert (Hyin : In y (flat (g_bs g))).
             { apply in_flat_map. exists b. split; eapply nth_error_In; eauto. }
             apply in_split in Hyin as (f1 & f2 & Hff). rewrite Hff in *.
             eapply merges_dd with (a := y) (b := x) (c := dedup y x) (m := f1 ++ f2); auto.
             ++ rewrite perm_swap. constructor. now rewrite Permutation_middle.
             ++ apply merges_perm. apply (Permutation_cons_inv (a := y)). rewrite HQ. rewrite perm_swap. constructor. apply Permutation_middle.
  Qed.

  Lemma add_loop_ok p adj : forall fuel g, inv p g -> adj - largest E (g_bs g) < fuel ->
    exists g' ext, add_loop E C fuel g adj = Ok g' /\ inv p g' /\ g_bs g' = g_bs g ++ ext /\ flat ext = [] /\ adj <= largest E (g_bs g').
  Proof.
    induction fuel as [|fuel IH]; intros g Hi Hfu; [lia|]. cbn [add_loop].
    destruct (Nat.ltb_spec (largest E (g_bs g)) adj) as [Hlt|Hge].
    - destruct (addBucket_ok p g Hi) as (g1 & c & -> & Hi1 & Hbs & Hce & _). cbn [bind].
      assert (Hgrow : largest E (g_bs g) < largest E (g_bs g1)).
      { rewrite Hbs, largest_snoc. destruct (largest_ok _ (i_wf _ _ Hi)) as (bs' & b & Hbs' & -> & Hnth).
        assert (Hb1 : nth_error (g_bs g1) (length (g_bs g) - 1) = Some b).
        { rewrite Hbs. rewrite nth_error_app1; auto. now apply nth_error_some_lt in Hnth. }
        assert (Hc1 : nth_error (g_bs g1) (S (length (g_bs g) - 1)) = Some c).
        { rewrite Hbs. replace (S (length (g_bs g) - 1)) with (length (g_bs g)); [apply nth_middle|]. apply nth_error_some_lt in Hnth. lia. }
        pose proof (cap_double _ _ _ _ (i_wf _ _ Hi1) Hb1 Hc1). pose proof (cap_pos _ _ _ (i_wf _ _ Hi1) Hb1). lia. }
      destruct (IH g1 Hi1) as (g' & ext & Hal & Hi' & Hbs' & Hext & Hle); [lia|].
      exists g', (c :: ext). split; auto. split; auto. split; [rewrite Hbs', Hbs, <- app_assoc; auto|]. split; auto. simpl. now rewrite Hce.
    - exists g, []. split; auto. split; auto. split; [now rewrite app_nil_r|]. split; auto.
  Qed.

  Lemma find_bucket_ok adj : forall (bs : list bucket) i, (exists b, In b bs /\ adj <= b_cap b) ->
    exists j b, find_bucket E bs adj i = Ok (i + j) /\ nth_error bs j = Some b /\ adj <= b_cap b.
  Proof.
    induction bs as [|c bs IH]; intros i (b & Hb & Hle); [destruct Hb|]. cbn [find_bucket].
    destruct (Nat.leb_spec adj (b_cap c)) as [Hc|Hc].
    - exists 0, c. rewrite Nat.add_0_r. auto.
    - destruct (IH (S i)) as (j & b' & Hf & Hn & Hl); [destruct Hb as [->|Hb]; [lia|eauto]|].
      exists (S j), b'. rewrite Nat.add_succ_r. auto.
  Qed.

  Hypothesis Hif : 1 <= insertFactor C.

  Lemma pushRange_ok g xs : Inv g -> xs <> [] -> asc (rev xs) ->
    exists g', gb_pushRange E cmp eqv dedup C g xs = Ok g' /\ Inv g' /\ merges dd (xs ++ flat (g_bs g)) (flat (g_bs g')).
  Proof.
    intros [[Hw Hc Hf] Hcf] Hne Ha. unfold gb_pushRange.
    destruct (add_loop_ok (length xs) (length xs * insertFactor C) (S (length xs * insertFactor C)) (mk_gb (g_bs g) (g_count g + length xs) (g_front g)))
      as (g1 & ext & -> & Hi1 & Hbs & Hext & Hle); [split; cbn [g_bs g_count g_front]; auto; simpl in Hc; lia|lia|].
    cbn [bind g_bs] in *.
    destruct (find_bucket_ok (length xs * insertFactor C) (g_bs g1) 0) as (j & b & -> & Hj & Hcap).
    { destruct (largest_ok _ (i_wf _ _ Hi1)) as (bs' & b & Hbs' & Hl & Hnth). exists b. split; [eapply nth_error_In; eauto|lia]. }
    cbn [bind]. rewrite Nat.add_0_l.
    destruct (insert_ok 0 g1 j (rev xs) b) as (g' & -> & Hi' & Hcf' & Hmg); auto.
    - now rewrite rev_length, Nat.add_0_r.
    - intros H. apply Hne. apply (f_equal (@rev E)) in H. now rewrite rev_involutive in H.
    - rewrite rev_length. nia.
    - exists g'. split; auto. split; [split; auto|]. eapply merges_perm_l; [|exact Hmg].
      rewrite Hbs, flat_map_app, Hext, app_nil_r. apply Permutation_app_tail, Permutation_rev.
  Qed.

  (** * getMax *)
  Lemma absorb bs i j x y d : wf bs -> i <> j -> ko bs i = Some x -> ko bs j = Some y -> equivalent lt d x -> (dd x y d \/ dd y x d) ->
    exists bi bi' bj bj', nth_error bs i = Some bi /\ bk_setEntry E C bi (b_size E bi - 1) d = Ok bi' /\ nth_error bs j = Some bj /\
      bk_pop_back E C bj = Ok bj' /\ i < length bs /\ j < length bs /\
      wf (upd (upd bs i bi') j bj') /\ ko (upd (upd bs i bi') j bj') i = Some d /\
      (forall z, ko (upd (upd bs i bi') j bj') j = Some z -> z <== y) /\
      (forall l, l <> i -> l <> j -> ko (upd (upd bs i bi') j bj') l = ko bs l) /\
      merges dd (flat bs) (flat (upd (upd bs i bi') j bj')) /\ length (flat bs) = S (length (flat (upd (upd bs i bi') j bj'))).
  Proof.
    intros Hw Hij Hx Hy Hd Hdxy. apply ko_inv in Hx as (bi & Hbi & Hxi). apply ko_inv in Hy as (bj & Hbj & Hyj).
    pose proof (nth_error_some_lt _ _ _ Hbi) as Hil. pose proof (nth_error_some_lt _ _ _ Hbj) as Hjl.
    destruct (bk_set_good bi (length (b_ents bi) - 1) x d (wf_good _ Hw _ _ Hbi) Hxi Hd) as (bi' & Hset & Hbi' & Hci & Hgi).
    destruct (bk_pop_good bj (wf_good _ Hw _ _ Hbj)) as (bj' & Hpop & Hbj' & Hcj & Hgj).
    { intros H. rewrite H in Hyj. discriminate. }
    destruct (@last_entry_inv E _ _ Hxi) as (li & Hli). destruct (@last_entry_inv E _ _ Hyj) as (lj & Hlj).
    assert (Hei : b_ents bi' = li ++ [d]).
    { rewrite Hbi', Hli, app_length, Nat.add_1_r. simpl. rewrite Nat.sub_0_r. apply upd_middle. }
    assert (Hej : b_ents bj' = lj) by (rewrite Hbj', Hlj; apply removelast_snoc).
    assert (Hbj2 : nth_error (upd bs i bi') j = Some bj) by (rewrite nth_upd_other; auto).
    exists bi, bi', bj, bj'. unfold b_size. split; auto. split; auto. split; auto. split; auto. split; auto. split; auto. split.
    { eapply wf_upd with (b := bj); [eapply wf_upd; eauto|exact Hbj2|auto|auto]. }
    split. { rewrite ko_upd2 by auto. destruct (Nat.eqb_spec i j); [congruence|]. rewrite Nat.eqb_refl, Hei. apply last_entry_snoc. }
    split. { intros z. rewrite ko_upd2, Nat.eqb_refl by auto. rewrite Hej. intros Hz. apply last_entry_inv in Hz as (l' & ->).
      pose proof (bg_asc _ (wf_good _ Hw _ _ Hbj)) as Ha. rewrite Hlj in Ha. apply ss_snoc in Ha as [_ Ha]. apply Ha. apply in_or_app; right; now left. }
    split. { intros l H1 H2. rewrite ko_upd2 by auto. destruct (Nat.eqb_spec l j); [congruence|]. destruct (Nat.eqb_spec l i); congruence. }
    pose proof (flat_upd2 _ _ _ _ _ bi' bj' Hbi Hbj Hij) as P2.
    pose proof (flat_upd2 _ _ _ _ _ (bk_clear E bi) (bk_clear E bj) Hbi Hbj Hij) as P1. simpl in P1.
    set (rest := flat (upd (upd bs i (bk_clear E bi)) j (bk_clear E bj))) in *. set (fin := flat (upd (upd bs i bi') j bj')) in *.
    assert (P3 : Permutation fin (b_ents bi' ++ b_ents bj' ++ rest)).
    { apply (Permutation_app_inv_l (b_ents bi ++ b_ents bj)). rewrite <- !app_assoc. rewrite P2, <- P1.
      rewrite (Permutation_app_swap_app (b_ents bj) (b_ents bi')), (Permutation_app_swap_app (b_ents bi) (b_ents bi')).
      apply Permutation_app_head. rewrite (Permutation_app_swap_app (b_ents bj) (b_ents bj')), (Permutation_app_swap_app (b_ents bi) (b_ents bj')).
      reflexivity. }
    split; [|pose proof (perm_len _ _ P2) as Hl; rewrite !app_length, Hei, Hej, Hli, Hlj, !app_length in Hl; simpl in Hl; lia].
    rewrite Hei, Hej, <- app_assoc in P3. rewrite Hli, Hlj, <- !app_assoc in P1. simpl in P1, P3.
    assert (P1' : Permutation (flat bs) (x :: y :: li ++ lj ++ rest)).
    { rewrite <- P1. rewrite <- Permutation_middle. constructor. rewrite <- (Permutation_middle lj rest y). rewrite <- Permutation_middle. reflexivity. }
    assert (P3' : Permutation (d :: li ++ lj ++ rest) fin) by (rewrite P3; now rewrite Permutation_middle).
    destruct Hdxy as [Hdxy|Hdxy].
    - eapply merges_dd; [exact P1'|exact Hdxy|]. now apply merges_perm.
    - eapply merges_dd; [rewrite perm_swap in P1'; exact P1'|exact Hdxy|]. now apply merges_perm.
  Qed.

  Lemma cm_ok : forall k bs cnt m it x, it + k = length bs -> wf bs -> cnt = length (flat bs) -> m < it -> ko bs m = Some x ->
    (forall i y, i < it -> ko bs i = Some y -> y <== x) ->
    exists bs' cnt' m' x', cm_loop E cmp eqv dedup C k bs cnt m it = Ok (bs', cnt', m') /\ wf bs' /\ length bs' = length bs /\
      cnt' = length (flat bs') /\ ko bs' m' = Some x' /\ (forall i y, ko bs' i = Some y -> y <== x') /\ merges dd (flat bs) (flat bs').
  Proof.
    induction k as [|k IH]; intros bs cnt m it x Hk Hw Hc Hmi Hx Hmax; cbn [cm_loop].
    - exists bs, cnt, m, x. split; auto. split; auto. split; auto. split; auto. split; auto. split; [|apply merges_refl].
      intros i y Hy. apply (Hmax i); auto. apply ko_inv in Hy as (b & Hb & _). apply nth_error_some_lt in Hb. lia.
    - destruct (nth_error_lt bs it) as [b Hb]; [lia|]. unfold vget at 1. rewrite Hb. cbn [of_option bind].
      destruct (b_empty_spec b) as [He|Hne].
      + apply (IH bs cnt m (S it) x); auto; try lia. intros i y Hi Hy. destruct (Nat.eq_dec i it) as [->|Hne].
        * rewrite (ko_some _ _ _ Hb), He in Hy. discriminate.
        * apply (Hmax i); auto. lia.
      + destruct (@last_entry_some E _ Hne) as (bl & y & Hbl & Hy). rewrite (bk_back_ok b y) by (auto; eapply wf_good; eauto). cbn [bind].
        rewrite (key_ok bs m x Hw Hx). cbn [bind].
        assert (Hkit : ko bs it = Some y) by (rewrite (ko_some _ _ _ Hb); auto).
        destruct (cmp y x) eqn:Hlt.
        * apply (IH bs cnt m (S it) x); auto; try lia. intros i z Hi Hz. destruct (Nat.eq_dec i it) as [->|Hn].
          -- rewrite Hkit in Hz. injection Hz as <-. now apply cmp_t.
          -- apply (Hmax i); auto. lia.
        * destruct (supportDeduplication C && eqv y x) eqn:Hd.
          -- apply andb_true_iff in Hd as [Hs Hev]. destruct (eqv_both lt cmp eqv dedup C Heq Hdd y x Hs Hlt Hev) as (Exy & _ & Hdx & _ & Hddxy).
             destruct (absorb bs m it x y (dedup x y)) as (bi & bi' & bj & bj' & Hbi & Hset & Hbj & Hpop & Hil & Hjl & Hw' & Hki & Hkj & Hko & Hmg & Hlen); auto; [lia|].
             unfold vget at 1. rewrite Hbi. cbn [of_option bind]. rewrite Hset. cbn [bind]. rewrite vset_ok by auto. cbn [bind].
             unfold vget at 1. rewrite nth_upd_other by lia. rewrite Hbj. cbn [of_option bind]. rewrite Hpop. cbn [bind].
             rewrite vset_ok by (now rewrite upd_length). cbn [bind]. unfold dec. destruct (Nat.leb_spec 1 cnt); [|lia]. cbn [bind].
             destruct (IH (upd (upd bs m bi') it bj') (cnt - 1) m (S it) (dedup x y)) as (bs' & cnt' & m' & x' & Hcm & W & L & Cn & Kx & Mx & Mg); auto.
             ++ rewrite !upd_length. lia.
             ++ lia.
             ++ intros i z Hi Hz. destruct (Nat.eq_dec i it) as [->|Hn1].
                { eapply (sw_neg_trans lt Hsw); [apply Hdx|]. eapply (sw_neg_trans lt Hsw); [apply Exy|]. apply Hkj; auto. }
                destruct (Nat.eq_dec i m) as [->|Hn2]; [rewrite Hki in Hz; injection Hz as <-; apply (sw_irrefl lt Hsw)|].
                rewrite Hko in Hz by auto. eapply (sw_neg_trans lt Hsw); [apply Hdx|]. apply (Hmax i); auto. lia.
             ++ exists bs', cnt', m', x'. split; auto. split; auto. split; [rewrite L, !upd_length; auto|]. split; auto. split; auto. split; auto.
                eapply merges_trans; eauto.
          -- apply (IH bs cnt it (S it) y); auto; try lia. intros i z Hi Hz. destruct (Nat.eq_dec i it) as [->|Hn].
             ++ rewrite Hkit in Hz. injection Hz as <-. apply (sw_irrefl lt Hsw).
             ++ eapply (sw_neg_trans lt Hsw); [apply cmp_f; exact Hlt|]. apply (Hmax i); auto. lia.
  Qed.

  Lemma first_nonempty_ok : forall (bs : list bucket) i,
    match first_nonempty E bs i with
    | Ok m => i <= m /\ (exists b, nth_error bs (m - i) = Some b /\ b_ents b <> []) /\ forall j b, j < m - i -> nth_error bs j = Some b -> b_ents b = []
    | UB => flat bs = []
    | _ => False
    end.
  Proof.
    induction bs as [|b bs IH]; intros i; cbn [first_nonempty]; auto. destruct (b_empty_spec b) as [He|Hne].
    - specialize (IH (S i)). destruct (first_nonempty E bs (S i)) as [m| | |]; try contradiction.
      + destruct IH as (Hle & (c & Hc & Hcn) & Hall). split; [lia|]. replace (m - i) with (S (m - S i)) by lia. split; [eauto|].
        intros [|j] d Hj Hd; simpl in Hd; [congruence|]. apply (Hall j d); auto. lia.
      + simpl. now rewrite He, IH.
    - rewrite Nat.sub_diag. split; auto. split; [exists b; auto|]. lia.
  Qed.

  Lemma flat_nil_ko bs : flat bs = [] -> forall i, ko bs i = None.
  Proof.
    intros Hf i. unfold ko. destruct (nth_error bs i) as [b|] eqn:Hb; auto. apply last_entry_none.
    destruct (b_ents b) as [|x l] eqn:He; auto. exfalso. assert (Hin : In x (flat bs)).
    { apply in_flat_map. exists b. split; [eapply nth_error_In; eauto|]. rewrite He. now left. }
    rewrite Hf in Hin. destruct Hin.
  Qed.

  Definition got (g g' : geobucket) (m : nat) : Prop :=
    Inv g' /\ merges dd (flat (g_bs g)) (flat (g_bs g')) /\
    exists x, ko (g_bs g') m = Some x /\ forall i y, ko (g_bs g') i = Some y -> y <== x.

  Lemma getMax_ok g : Inv g ->
    match gb_getMax E cmp eqv dedup C g with
    | Ok (g', m) => got g g' m
    | UB => flat (g_bs g) = []
    | _ => False
    end.
  Proof.
    intros [[Hw Hc Hf] Hcf]. unfold gb_getMax. destruct (g_front g) as [[m|]|a slots n toks] eqn:Hfr; simpl in Hf.
    - simpl in Hcf. split; [split; [split; auto|]; now rewrite Hfr|]. split; [apply merges_refl|]. auto.
    - pose proof (first_nonempty_ok (g_bs g) 0) as Hfn. destruct (first_nonempty E (g_bs g) 0) as [m| | |]; try contradiction; auto.
      cbn [bind]. rewrite Nat.sub_0_r in Hfn. destruct Hfn as (_ & (b & Hb & Hbn) & Hlow). pose proof (nth_error_some_lt _ _ _ Hb) as Hml.
      destruct (@last_entry_some E _ Hbn) as (bl & x & Hbl & Hx).
      destruct (cm_ok (length (g_bs g) - S m) (g_bs g) (g_count g) m (S m) x) as (bs' & cnt' & m' & x' & -> & W & L & Cn & Kx & Mx & Mg); auto.
      + lia.
      + rewrite (ko_some _ _ _ Hb). auto.
      + intros i y Hi Hy. destruct (Nat.eq_dec i m) as [->|Hn].
        * rewrite (ko_some _ _ _ Hb), Hx in Hy. injection Hy as <-. apply (sw_irrefl lt Hsw).
        * apply ko_inv in Hy as (c & Hcn & Hy). rewrite (Hlow i c) in Hy; auto; [discriminate|lia].
      + cbn [bind]. split; [split; [split; cbn [g_bs g_count g_front]; auto|cbn [g_bs g_front]; simpl; eauto]|]. cbn [g_bs]. eauto.
    - destruct Hf as (Ht & F & Hr & Hlt & Hin & Hd). destruct (Nat.eqb_spec n 0) as [Hn|Hn].
      + assert (HF : F = []) by (apply length_zero_iff_nil; rewrite <- (r_n _ _ _ _ _ Hr); auto). subst F.
        destruct (flat (g_bs g)) as [|x l] eqn:Hfl; auto. exfalso. assert (Hx : In x (flat (g_bs g))) by (rewrite Hfl; now left).
        apply in_flat_map in Hx as (b & Hb & Hxb). apply In_nth_error in Hb as [i Hi]. apply (proj2 (Hin i)).
        rewrite (ko_some _ _ _ Hi), last_entry_none. intros H. rewrite H in Hxb. destruct Hxb.
      + destruct F as [|m F']; [rewrite (r_n _ _ _ _ _ Hr) in Hn; simpl in Hn; congruence|].
        rewrite (rep_slot _ _ _ _ _ 0 m Hr eq_refl). cbn [bind].
        split; [split; [split; auto|]; rewrite Hfr; simpl; auto; split; auto; exists (m :: F'); auto|]. split; [apply merges_refl|].
        destruct (ko (g_bs g) m) as [x|] eqn:Hx; [|exfalso; apply (proj1 (Hin m)); [now left|auto]].
        exists x. split; auto. intros i y Hy. assert (Hi : In i (m :: F')) by (apply Hin; congruence). destruct Hi as [<-|Hi].
        * rewrite Hx in Hy. injection Hy as <-. apply (sw_irrefl lt Hsw).
        * inversion Hd as [|? ? _ Hff]; subst. rewrite Forall_forall in Hff. eapply Hff; eauto.
  Qed.

  Lemma flat_max g m x : inv 0 g -> ko (g_bs g) m = Some x -> (forall i y, ko (g_bs g) i = Some y -> y <== x) ->
    is_max lt x (flat (g_bs g)).
  Proof.
    intros [Hw _ _] Hx Hmax. split.
    - apply ko_inv in Hx as (b & Hb & Hx). apply last_entry_inv in Hx as (l & Hl). apply in_flat_map. exists b.
      split; [eapply nth_error_In; eauto|]. rewrite Hl. apply in_or_app; right; now left.
    - intros y Hy. apply in_flat_map in Hy as (b & Hb & Hyb). apply In_nth_error in Hb as [i Hi].
      destruct (@last_entry_some E (b_ents b)) as (l & z & Hl & Hz); [intros H; rewrite H in Hyb; destruct Hyb|].
      eapply (sw_neg_trans lt Hsw); [apply (Hmax i z); rewrite (ko_some _ _ _ Hi); auto|].
      eapply asc_last; eauto. eapply bg_asc; eapply wf_good; eauto.
  Qed.

  (** * keyDecreased *)
  Lemma kd_ok a n b : trackFront C = true -> forall post pre bs cnt slots toks, hole a slots toks b pre post -> n = length (pre ++ b :: post) ->
    wf bs -> cnt = length (flat bs) -> length toks = length bs -> (forall i, In i (pre ++ b :: post) <-> ko bs i <> None) ->
    fdesc (ko bs) (pre ++ post) -> (forall i, In i pre -> kle (ko bs) i b) ->
    exists bs' cnt' f', kd_loop E cmp eqv dedup C (length post) bs cnt a slots n toks b (length pre) = Ok (bs', cnt', f') /\
      wf bs' /\ length bs' = length bs /\ cnt' = length (flat bs') /\ front_ok bs' f' /\ cache_ok bs' f' /\ merges dd (flat bs) (flat bs').
  Proof.
    intros Htf. induction post as [|o post IH]; intros pre bs cnt slots toks Hh Hn Hw Hc Hlt Hin Hd Hpre.
    - destruct (hole_put _ _ _ _ _ _ n Hh Hn) as (s' & Hs & Ht & Hr). cbn [length kd_loop]. rewrite Hs. cbn [bind]. rewrite Ht. cbn [bind].
      eexists; eexists; eexists; split; [reflexivity|]. split; auto. split; auto. split; auto. split; [|split; [simpl; auto|apply merges_refl]].
      simpl. split; auto. exists (pre ++ [b]). split; auto. split; [now rewrite upd_length|]. split; auto.
      rewrite app_nil_r in Hd. apply ss_snoc. auto.
    - destruct (hole_down _ _ _ _ _ _ _ Hh) as (Hslot & s1 & Hs1 & Ht1 & Hh1 & _).
      assert (Hnd : NoDup (pre ++ b :: o :: post)) by (apply (h_nodup _ _ _ _ _ _ Hh)).
      assert (Hob : o <> b).
      { intros ->. apply NoDup_remove_2 in Hnd. apply Hnd. apply in_or_app; right; now left. }
      destruct (ko bs b) as [kb|] eqn:Hkb; [|exfalso; apply (proj1 (Hin b)); [apply in_or_app; right; now left|auto]].
      destruct (ko bs o) as [kx|] eqn:Hkx; [|exfalso; apply (proj1 (Hin o)); [apply in_or_app; right; right; now left|auto]].
      cbn [length kd_loop]. rewrite Hslot. cbn [bind]. rewrite (key_ok _ _ _ Hw Hkb), (key_ok _ _ _ Hw Hkx). cbn [bind].
      assert (Hlen1 : S (length pre) = length (pre ++ [o])) by (rewrite app_length; simpl; lia).
      assert (Hn1 : n = length ((pre ++ [o]) ++ b :: post)) by (rewrite Hn, !app_length; simpl; lia).
      destruct (cmp kb kx) eqn:Hlt1; [|destruct (negb (supportDeduplication C) || negb (eqv kb kx)) eqn:Hdu].
      + rewrite Hs1. cbn [bind]. rewrite Ht1. cbn [bind]. rewrite Hlen1. apply IH; auto.
        * now rewrite upd_length.
        * intros i. rewrite <- Hin. rewrite <- app_assoc. simpl. apply in_perm_iff. apply Permutation_app_head, perm_swap.
        * rewrite <- app_assoc. exact Hd.
        * intros i Hi. apply in_app_or in Hi as [Hi|[<-|[]]]; auto. intros u v Hu Hv. rewrite Hkx in Hu. rewrite Hkb in Hv.
          injection Hu as <-. injection Hv as <-. now apply cmp_t.
      + destruct (hole_put _ _ _ _ _ _ n Hh Hn) as (s' & Hs & Ht & Hr). rewrite Hs. cbn [bind]. rewrite Ht. cbn [bind].
        eexists; eexists; eexists; split; [reflexivity|]. split; auto. split; auto. split; auto. split; [|split; [simpl; auto|apply merges_refl]].
        simpl. split; auto. exists (pre ++ b :: o :: post). split; auto. split; [now rewrite upd_length|]. split; auto.
        apply ss_app in Hd as (D1 & D2 & D3). apply ss_app. split; auto. split.
        * constructor; auto. inversion D2 as [|? ? _ D4]; subst. rewrite Forall_forall in *. intros i [<-|Hi].
          -- intros u v Hu Hv. apply cmp_f. congruence.
          -- apply kle_trans with o; [congruence| |auto]. intros u v Hu Hv. apply cmp_f. congruence.
        * intros i j Hi [<-|Hj]; auto.
      + apply orb_false_iff in Hdu as [Hs Hev]. apply negb_false_iff in Hs. apply negb_false_iff in Hev.
        destruct (eqv_both lt cmp eqv dedup C Heq Hdd kb kx Hs Hlt1 Hev) as (Exy & Hdb & _ & Hddxy & _).
        assert (Hdo : equivalent lt (dedup kb kx) kx) by (eapply equivalent_trans; eauto).
        destruct (absorb bs o b kx kb (dedup kb kx)) as (bi & bi' & bj & bj' & Hbi & Hset & Hbj & Hpop & Hil & Hjl & Hw' & Hki & Hkj & Hko & Hmg & Hlen); auto.
        unfold vget at 1. rewrite Hbi. cbn [of_option bind]. rewrite Hset. cbn [bind]. rewrite vset_ok by auto. cbn [bind].
        unfold vget at 1. rewrite nth_upd_other by auto. rewrite Hbj. cbn [of_option bind]. rewrite Hpop. cbn [bind].
        rewrite vset_ok by (now rewrite upd_length). cbn [bind]. unfold dec. destruct (Nat.leb_spec 1 cnt); [|lia]. cbn [bind].
        set (bs2 := upd (upd bs o bi') b bj') in *.
        assert (Hl2 : length bs2 = length bs) by (unfold bs2; now rewrite !upd_length).
        assert (Hkb2 : ko bs2 b = last_entry (b_ents bj')).
        { unfold bs2. rewrite ko_upd by (now rewrite upd_length). now rewrite Nat.eqb_refl. }
        assert (Hbno : ~ In b (pre ++ o :: post)) by (now apply NoDup_remove_2).
        assert (Heqv : forall i, In i (pre ++ o :: post) -> oequiv (ko bs i) (ko bs2 i)).
        { intros i Hi. destruct (Nat.eq_dec i o) as [->|Hio]; [rewrite Hkx, Hki; simpl; now apply equivalent_sym|].
          rewrite Hko; [apply oequiv_refl|auto|]. intros ->. contradiction. }
        assert (Hd2 : fdesc (ko bs2) (pre ++ o :: post)) by (eapply fdesc_equiv; eauto).
        destruct (b_empty_spec bj') as [He|Hne].
        * rewrite He in Hkb2.
          assert (Hbt : b < length toks) by lia. rewrite vset_ok by auto. cbn [bind].
          assert (Hhb : hole a slots (upd toks b (Some (a, length pre))) b pre (o :: post)).
          { destruct Hh as [H1 H2 H3 H4]. split; auto.
            - intros i t Hi Hti. rewrite nth_upd_other in Hti by auto. auto.
            - intros i Hi. rewrite upd_length. auto. }
          destruct (fo_remove_hole a slots _ b pre (o :: post) Hhb) as (f & Hrm & s' & t' & -> & Hr & Hlr).
          { now apply nth_upd_same. }
          rewrite <- Hn in Hrm. rewrite Hrm. cbn [bind]. eexists; eexists; eexists; split; [reflexivity|].
          split; auto. split; auto. split; [lia|]. split; [|split; [simpl; auto|auto]].
          simpl. split; auto. exists (pre ++ o :: post). split; auto. split; [rewrite Hlr, upd_length; lia|]. split; auto.
          intros i. destruct (Nat.eq_dec i b) as [->|Hib]; [rewrite Hkb2; split; [contradiction|intros H0; now elim H0]|].
          assert (Hii : In i (pre ++ o :: post) <-> In i (pre ++ b :: o :: post)).
          { rewrite !in_app_iff. simpl. split; [tauto|]. intros [H0|[H0|H0]]; auto. congruence. }
          rewrite Hii, Hin. destruct (Nat.eq_dec i o) as [->|Hio]; [split; congruence|]. rewrite Hko by auto. tauto.
        * rewrite Hs1. cbn [bind]. rewrite Ht1. cbn [bind]. rewrite Hlen1.
          destruct (@last_entry_some E _ Hne) as (lj & kb' & _ & Hkb'). rewrite Hkb' in Hkb2. specialize (Hkj kb' Hkb2).
          destruct (IH (pre ++ [o]) bs2 (cnt - 1) s1 (upd toks o (Some (a, length pre)))) as (bs' & cnt' & f' & Hkd & W & L & Cn & Fo & Co & Mg); auto.
          -- lia.
          -- rewrite upd_length. lia.
          -- intros i. rewrite <- app_assoc. simpl. rewrite (in_perm_iff (pre ++ o :: b :: post) (pre ++ b :: o :: post)) by (apply Permutation_app_head, perm_swap).
             rewrite Hin. destruct (Nat.eq_dec i b) as [->|Hib]; [split; congruence|].
             destruct (Nat.eq_dec i o) as [->|Hio]; [split; congruence|]. rewrite Hko by auto. tauto.
          -- rewrite <- app_assoc. exact Hd2.
          -- intros i Hi u v Hu Hv. rewrite Hkb2 in Hv. injection Hv as <-. apply in_app_or in Hi as [Hi|[<-|[]]].
             ++ assert (Hio : i <> o).
                { intros ->. apply in_split in Hi as (q1 & q2 & ->). rewrite <- app_assoc in Hnd. simpl in Hnd. apply NoDup_remove_2 in Hnd.
                  apply Hnd. apply in_or_app; right. apply in_or_app; right; right; now left. }
                rewrite Hko in Hu; [|auto|intros ->; apply Hbno; apply in_or_app; now left].
                eapply (sw_neg_trans lt Hsw); [eapply Hpre; eauto|auto].
             ++ rewrite Hki in Hu. injection Hu as <-. eapply (sw_neg_trans lt Hsw); [apply Hdb|auto].
          -- exists bs', cnt', f'. split; auto. split; auto. split; [lia|]. split; auto. split; auto. split; auto. eapply merges_trans; eauto.
  Qed.

  (** What is left of pop once the maximal entry is gone from its bucket *)
  Lemma pop_rest g1 m b x b' : Inv g1 -> nth_error (g_bs g1) m = Some b -> last_entry (b_ents b) = Some x ->
    b_ents b' = removelast (b_ents b) -> b_cap b' = b_cap b -> bgood b' ->
    let bs := upd (g_bs g1) m b' in
    dec (g_count g1) 1 = Ok (g_count g1 - 1) /\ Permutation (flat (g_bs g1)) (x :: flat bs) /\
    exists bs' cnt' f', f_keyDecreased E cmp eqv dedup C bs (g_count g1 - 1) (g_front g1) m = Ok (bs', cnt', f') /\
      Inv (mk_gb bs' cnt' f') /\ merges dd (flat bs) (flat bs').
  Proof.
    intros [[Hw Hc Hf] Hcf] Hb Hx Hb' Hcap Hgd bs. pose proof (wf_good _ Hw _ _ Hb) as Hbg. pose proof (nth_error_some_lt _ _ _ Hb) as Hml.
    assert (Hx0 : ko (g_bs g1) m = Some x) by (unfold ko; now rewrite Hb).
    unfold dec. simpl in Hc. pose proof (flat_upd_len _ _ _ b' Hb) as Hfl. fold bs in Hfl.
    destruct (@last_entry_inv E _ _ Hx) as (bl & Hbl). rewrite Hbl, removelast_snoc in Hb'. rewrite Hb', Hbl, app_length in Hfl. simpl in Hfl.
    destruct (Nat.leb_spec 1 (g_count g1)); [|lia]. split; auto.
    assert (Hp : Permutation (flat (g_bs g1)) (x :: flat bs)).
    { pose proof (flat_upd _ _ _ b' Hb) as Hp. rewrite Hb', Hbl, <- app_assoc in Hp. apply Permutation_app_inv_l in Hp. now symmetry. }
    split; auto.
    assert (Hwb : wf bs) by (eapply wf_upd; eauto).
    assert (Hlb : length bs = length (g_bs g1)) by (apply upd_length).
    assert (Hkm : ko bs m = last_entry bl) by (unfold bs; rewrite ko_upd, Nat.eqb_refl by auto; now rewrite Hb').
    assert (Hko : forall j, j <> m -> ko bs j = ko (g_bs g1) j).
    { intros j Hj. unfold bs. rewrite ko_upd by auto. destruct (Nat.eqb_spec j m); congruence. }
    assert (Hfin : exists bs' cnt' f', f_keyDecreased E cmp eqv dedup C bs (g_count g1 - 1) (g_front g1) m = Ok (bs', cnt', f') /\
              wf bs' /\ cnt' = length (flat bs') /\ front_ok bs' f' /\ cache_ok bs' f' /\ merges dd (flat bs) (flat bs')).
    { destruct (g_front g1) as [c|a slots n toks] eqn:Hfr; simpl in Hf.
      - exists bs, (g_count g1 - 1), (FCache None). split; auto. split; auto. split; [lia|]. simpl. split; auto. split; auto. apply merges_refl.
      - destruct Hf as (Ht & F & Hr & Hlt & Hin & Hd). cbn [f_keyDecreased]. unfold vget.
        assert (Hbn : nth_error bs m = Some b') by (unfold bs; now apply nth_upd_same). rewrite Hbn. cbn [of_option bind].
        assert (HmF : In m F) by (apply Hin; congruence). apply in_split in HmF as (pre & post & ->).
        assert (Hnot : ~ In m (pre ++ post)) by (apply NoDup_remove_2; eapply r_nodup; eauto).
        pose proof (fdesc_remove _ _ _ _ Hd) as Hd'.
        assert (Hd2 : fdesc (ko bs) (pre ++ post)).
        { eapply fdesc_ext; [|exact Hd']. intros i Hi. symmetry. apply Hko. intros ->. contradiction. }
        destruct (b_empty_spec b') as [He|Hne].
        + destruct (fo_remove_spec _ _ _ _ _ _ _ Hr) as (s' & t' & -> & Hr' & Hl'). cbn [bind].
          eexists; eexists; eexists; split; [reflexivity|]. split; auto. split; [lia|]. split; [|split; [simpl; auto|apply merges_refl]].
          simpl. split; auto. exists (pre ++ post). split; auto. split; [congruence|]. split; auto.
          rewrite Hb' in He. rewrite He in Hkm. intros i. destruct (Nat.eq_dec i m) as [->|Him]; [rewrite Hkm; split; [contradiction|intros H0; now elim H0]|].
          rewrite Hko by auto. rewrite <- Hin. rewrite !in_app_iff. simpl. split; [tauto|]. intros [H0|[H0|H0]]; auto. congruence.
        + rewrite (rep_tok _ _ _ _ _ (length pre) m Hr (nth_middle _ _ _)). cbn [of_option bind tok_pos]. rewrite Nat.eqb_refl. cbn [bind].
          pose proof (r_n _ _ _ _ _ Hr) as Hn. rewrite app_length in Hn. simpl in Hn.
          destruct (Nat.leb_spec n (length pre)); [lia|]. replace (n - 1 - length pre) with (length post) by lia.
          rewrite Hb' in Hne. destruct (@last_entry_some E _ Hne) as (bl' & y & _ & Hy). rewrite Hy in Hkm.
          destruct (kd_ok a n m Ht post pre bs (g_count g1 - 1) slots toks) as (bs' & cnt' & f' & Hkd & W & L & Cn & Fo & Co & Mg); auto.
          * eapply rep_hole; eauto.
          * rewrite app_length. simpl. lia.
          * lia.
          * lia.
          * intros i. rewrite Hin. destruct (Nat.eq_dec i m) as [->|Him]; [split; congruence|]. rewrite Hko by auto. tauto.
          * intros i Hi u v Hu Hv. rewrite Hkm in Hv. injection Hv as <-. rewrite Hko in Hu by (intros ->; apply Hnot; apply in_or_app; now left).
            apply ss_app in Hd as (_ & _ & Hd). eapply (sw_neg_trans lt Hsw); [eapply (Hd i m); eauto; now left|].
            pose proof (bg_asc _ Hbg) as Hba. eapply asc_last; eauto. rewrite Hbl. apply in_or_app; left.
            apply last_entry_inv in Hy as (q & ->). apply in_or_app; right; now left.
          * exists bs', cnt', f'. auto 10. }
    destruct Hfin as (bs' & cnt' & f' & Hk & W & Cn & Fo & Co & Mg). exists bs', cnt', f'. split; auto. split; auto.
    split; [split; cbn [g_bs g_count g_front]; auto|auto].
  Qed.

  (** pop removes what getMax finds. *)
  Lemma pop_top g : Inv g ->
    match gb_pop E cmp eqv dedup C g with
    | Ok (g', x) => Inv g' /\ exists g1 i m, gb_getMax E cmp eqv dedup C g = Ok (g1, i) /\ key (g_bs g1) i = Ok x /\
                      merges dd (flat (g_bs g)) (flat (g_bs g1)) /\ Permutation (flat (g_bs g1)) (x :: m) /\
                      is_max lt x (x :: m) /\ merges dd m (flat (g_bs g'))
    | UB => flat (g_bs g) = []
    | _ => False
    end.
  Proof.
    intros Hinv. unfold gb_pop. pose proof (getMax_ok g Hinv) as Hgm.
    destruct (gb_getMax E cmp eqv dedup C g) as [[g1 m]| | |]; auto. cbn [bind].
    destruct Hgm as (Hi1 & Hmg & x & Hx & Hmax). pose proof (i_wf _ _ (proj1 Hi1)) as Hw. pose proof Hx as Hx0. apply ko_inv in Hx as (b & Hb & Hx).
    assert (Hbm : is_max lt x (flat (g_bs g1))) by (eapply flat_max; eauto; apply Hi1).
    unfold vget. rewrite Hb. cbn [of_option bind]. pose proof (wf_good _ Hw _ _ Hb) as Hbg. rewrite (bk_back_ok b x Hbg Hx). cbn [bind].
    pose proof (nth_error_some_lt _ _ _ Hb) as Hml.
    destruct (bk_pop_good b Hbg) as (b' & -> & Hb' & Hcap & Hgd); [intros H; rewrite H in Hx; discriminate|]. cbn [bind].
    rewrite vset_ok by auto. cbn [bind]. destruct (pop_rest g1 m b x b' Hi1 Hb Hx Hb' Hcap Hgd) as (-> & Hp & bs' & cnt' & f' & Hk & Hi' & Mg).
    cbn [bind]. rewrite Hk. cbn [bind g_bs]. split; auto. exists g1, m, (flat (upd (g_bs g1) m b')).
    split; auto. split; [|split; [auto|split; [auto|split; auto]]].
    - unfold key, vget. rewrite Hb. cbn [of_option bind]. now apply bk_back_ok.
    - eapply is_max_perm; eauto.
  Qed.

  Lemma pop_ok g : Inv g ->
    match gb_pop E cmp eqv dedup C g with
    | Ok (g', x) => Inv g' /\ exists m, merges dd (flat (g_bs g)) (x :: m) /\ is_max lt x (x :: m) /\ merges dd m (flat (g_bs g'))
    | UB => flat (g_bs g) = []
    | _ => False
    end.
  Proof.
    intros Hinv. pose proof (pop_top g Hinv) as H. destruct (gb_pop E cmp eqv dedup C g) as [[g' x]| | |]; auto.
    destruct H as (Hi & g1 & i & m & _ & _ & Hmg & Hp & Hmax & Hm0). split; auto. exists m. split; [|split; auto].
    eapply merges_trans; [exact Hmg|]. now apply merges_perm.
  Qed.

  Lemma getMax_again g g1 m : gb_getMax E cmp eqv dedup C g = Ok (g1, m) -> gb_getMax E cmp eqv dedup C g1 = Ok (g1, m).
  Proof.
    unfold gb_getMax. destruct (g_front g) as [[i|]|a slots n toks] eqn:Hf.
    - intros H. injection H as <- <-. now rewrite Hf.
    - destruct (first_nonempty E (g_bs g) 0) as [i| | |]; try discriminate. cbn [bind].
      destruct (cm_loop _ _ _ _ _ _ _ _ _) as [[[bs cnt] j]| | |]; try discriminate. cbn [bind]. intros H. injection H as <- <-. reflexivity.
    - destruct (n =? 0) eqn:Hn; [discriminate|]. destruct (slot slots 0) as [i| | |] eqn:Hs; try discriminate. cbn [bind]. intros H. injection H as <- <-.
      rewrite Hf, Hn, Hs. reflexivity.
  Qed.

  (** * The queue *)
  Notation descb := (non_increasing lt).
  Notation gb_api := (range_calls lt (negb (trackFront C))).

  Lemma descb_asc l : descb l = true -> asc (rev l).
  Proof.
    intros H. assert (Hs : StronglySorted (fun x y => y <== x) l).
    { induction l as [|x l IH]; [constructor|]. simpl in H. apply andb_true_iff in H as [H1 H2]. specialize (IH H2). constructor; auto.
      destruct l as [|y l]; [constructor|]. apply negb_true_iff in H1. inversion IH as [|? ? _ Hf]; subst. constructor; auto.
      rewrite Forall_forall in *. intros z Hz. eapply (sw_neg_trans lt Hsw); eauto. }
    clear H. induction Hs as [|x l Hs IH Hf]; simpl; [constructor|]. apply ss_snoc. split; auto.
    intros y Hy. apply in_rev in Hy. rewrite Forall_forall in Hf. auto.
  Qed.

  Lemma clear_ok g : Inv g -> trackFront C = false -> Inv (gb_clear E g) /\ flat (g_bs (gb_clear E g)) = [].
  Proof.
    intros [[Hw Hc Hf] Hcf] Ht. unfold gb_clear. cbn [g_bs].
    assert (Hfl : flat (map (bk_clear E) (g_bs g)) = []) by (clear; induction (g_bs g) as [|b l IHl]; simpl; auto).
    split; auto. destruct (g_front g) as [c|a slots n toks]; simpl in Hf; [|destruct Hf; congruence].
    split; [split; cbn [g_bs g_count g_front]|simpl; auto]; auto.
    - split.
      + intros H. apply map_eq_nil in H. now apply (wf_ne _ Hw).
      + intros i b Hi. rewrite nth_error_map in Hi. destruct (nth_error (g_bs g) i) as [b0|] eqn:H0; [|discriminate]. injection Hi as <-. simpl.
        eapply wf_cap; eauto.
      + intros i b Hi. rewrite nth_error_map in Hi. destruct (nth_error (g_bs g) i) as [b0|]; [|discriminate]. injection Hi as <-. apply bk_clear_good.
    - now rewrite Hfl.
  Qed.

  Lemma gb_step_ok g o : Inv g -> gb_api o = true ->
    match gb_step E cmp eqv dedup C g o with
    | Ok (g', r) => Inv g' /\ sstep lt dd (gb_forAll E g) o r (gb_forAll E g')
    | UB => gb_forAll E g = [] /\ needs_nonempty o = true
    | Throw _ => False
    | NoFuel => False
    end.
  Proof.
    intros Hi Hapi. unfold gb_forAll. destruct o as [x|xs| | |x| | | |]; cbn [gb_step].
    - destruct (push_ok g x Hi) as (g' & -> & Hi' & Hmg). cbn [bind]. split; auto. constructor; auto.
    - simpl in Hapi. destruct xs as [|x xs]; [discriminate|].
      destruct (pushRange_ok g (x :: xs) Hi) as (g' & -> & Hi' & Hmg); [discriminate|now apply descb_asc|]. cbn [bind]. split; auto. constructor; auto.
    - pose proof (pop_ok g Hi) as Hp. destruct (gb_pop E cmp eqv dedup C g) as [[g' x]| | |]; cbn [bind]; auto.
      destruct Hp as (Hi' & m & H1 & H2 & H3). split; auto. econstructor; eauto.
    - unfold gb_top. pose proof (getMax_ok g Hi) as Hgm. destruct (gb_getMax E cmp eqv dedup C g) as [[g1 m]| | |]; cbn [bind]; auto.
      destruct Hgm as ([Hin Hcf] & Hmg & x & Hx & Hmax). rewrite (key_ok _ _ _ (i_wf _ _ Hin) Hx). cbn [bind]. split; [split; auto|].
      constructor; auto. eapply flat_max; eauto.
    - unfold gb_decreaseTop. pose proof (pop_ok g Hi) as Hp. destruct (gb_pop E cmp eqv dedup C g) as [[g1 t]| | |]; cbn [bind]; auto.
      destruct Hp as (Hi1 & m & H1 & H2 & H3). destruct (push_ok g1 x Hi1) as (g' & -> & Hi' & Hmg). cbn [bind]. split; auto.
      econstructor; eauto. eapply merges_trans; [apply merges_cons; exact H3|auto].
    - simpl in Hapi. apply negb_true_iff in Hapi. destruct (clear_ok g Hi Hapi) as [Hi' Hfl]. split; auto. rewrite Hfl. constructor.
    - split; auto. pose proof (i_cnt _ _ (proj1 Hi)) as Hc. simpl in Hc. unfold gb_size. rewrite Hc. constructor. auto.
    - split; auto. unfold gb_empty, gb_size. rewrite (i_cnt _ _ (proj1 Hi)). simpl.
      assert (Heb : (length (flat (g_bs g)) =? 0) = match flat (g_bs g) with [] => true | _ => false end) by (destruct (flat (g_bs g)); auto).
      rewrite Heb. constructor. auto.
    - split; auto. constructor; auto.
  Qed.

  Lemma gb_new_inv : Inv (gb_new E C).
  Proof.
    unfold gb_new. split; [split; cbn [g_bs g_count g_front]|]; auto.
    - split; [discriminate|..]; intros [|[|i]] b Hb; simpl in Hb; try discriminate; injection Hb as <-; simpl; [lia|].
      split; simpl; [constructor|lia|congruence].
    - destruct (trackFront C) eqn:Ht; simpl; auto. split; auto. exists []. split; [|split; [auto|split; [|constructor]]].
      + split; simpl; auto; [exists [None]; auto|constructor| |intros i []]. intros [|[|i]] t Hi; simpl in Hi; try discriminate.
        injection Hi as <-. simpl. auto.
      + intros i. simpl. split; [tauto|]. unfold ko. destruct i as [|[|i]]; simpl; intros H; exact (H eq_refl).
    - cbn [g_bs g_front]. destruct (trackFront C); simpl; auto.
  Qed.

  (** The constructor, which calls addBucket on no buckets (Geobucket.h:303-317) *)
  Lemma gb_new_ok : gb_addBucket E C (mk_gb [] 0 (if trackFront C then FOrder 0 [] 0 [] else FCache None)) = Ok (gb_new E C).
  Proof. unfold gb_addBucket, gb_new. simpl. destruct (trackFront C); reflexivity. Qed.

  Theorem gb_pq_correct : pq_correct lt dd (gb_step E cmp eqv dedup C) (gb_new E C) (gb_forAll E) gb_api.
  Proof. apply pq_correct_lift with (Inv := Inv); [apply gb_step_ok|apply gb_new_inv|reflexivity]. Qed.

  (** * isValid *)
  Lemma fold_slots (F : list nat) : fold_right (fun (o : option nat) (acc : option (list nat)) => match o, acc with Some i, Some l => Some (i :: l) | _, _ => None end) (Some []) (map Some F) = Some F.
  Proof. induction F as [|i F IH]; simpl; auto. rewrite IH. auto. Qed.

  Lemma tokens_valid_ok bs0 a slots n toks0 F : rep a slots n toks0 F -> (forall i, In i F <-> ko bs0 i <> None) ->
    forall bs toks pre pret, bs0 = pre ++ bs -> toks0 = pret ++ toks -> length pre = length pret -> length bs = length toks ->
    tokens_validb E bs a slots toks (length pre) = true.
  Proof.
    intros Hr Hin. induction bs as [|b bs IH]; intros [|t toks] pre pret Hb Ht Hl Hl2; simpl in Hl2; try discriminate; auto.
    cbn [tokens_validb]. apply andb_true_iff. split.
    - assert (Hbn : nth_error bs0 (length pre) = Some b) by (rewrite Hb; apply nth_middle).
      assert (Htn : nth_error toks0 (length pre) = Some t) by (rewrite Ht, Hl; apply nth_middle).
      destruct (b_empty_spec b) as [He|Hne].
      + destruct t as [[a' q]|]; auto. exfalso. pose proof (r_tok _ _ _ _ _ Hr _ _ Htn) as [_ Hq]. apply nth_error_In in Hq.
        apply Hin in Hq. apply Hq. now apply (ko_none _ _ b).
      + assert (HF : In (length pre) F) by (apply Hin; rewrite (ko_none _ _ _ Hbn); auto). apply In_nth_error in HF as [q Hq].
        rewrite (rep_tok _ _ _ _ _ _ _ Hr Hq) in Htn. injection Htn as <-. cbn [tok_pos]. rewrite Nat.eqb_refl.
        rewrite (rep_slot _ _ _ _ _ _ _ Hr Hq). apply Nat.eqb_refl.
    - replace (S (length pre)) with (length (pre ++ [b])) by (rewrite app_length; simpl; lia).
      apply (IH toks (pre ++ [b]) (pret ++ [t])); auto; try (now rewrite <- app_assoc). rewrite !app_length. simpl. lia.
  Qed.

  Lemma filter_seq {A} (l : list A) (f : nat -> bool) (q : A -> bool) : forall s, (forall i b, nth_error l i = Some b -> f (s + i) = q b) ->
    length (filter f (seq s (length l))) = length (filter q l).
  Proof.
    induction l as [|b l IH]; intros s H; auto. cbn [length seq filter].
    assert (Hs : f s = q b) by (rewrite <- (Nat.add_0_r s); now apply H). rewrite Hs.
    assert (Hl : length (filter f (seq (S s) (length l))) = length (filter q l)).
    { apply IH. intros i c Hi. rewrite Nat.add_succ_comm. now apply H. }
    destruct (q b); simpl; lia.
  Qed.

  Lemma count_nonempty bs F : NoDup F -> (forall i, In i F <-> ko bs i <> None) ->
    length F = length (filter (fun b => negb (b_empty E b)) bs).
  Proof.
    intros Hn Hin. rewrite <- (filter_seq bs (fun i => match ko bs i with Some _ => true | None => false end) _ 0).
    - apply perm_len. apply NoDup_Permutation; [auto|apply NoDup_filter, seq_NoDup|]. intros i. rewrite filter_In, in_seq, Hin.
      destruct (ko bs i) as [x|] eqn:Hx; [|split; [congruence|intros [_ H]; discriminate]].
      apply ko_inv in Hx as (b & Hb & _). apply nth_error_some_lt in Hb. split; [intros _; split; [lia|auto]|congruence].
    - intros i b Hi. simpl. rewrite (ko_some _ _ _ Hi). destruct (b_empty_spec b) as [He|He].
      + now rewrite He.
      + destruct (@last_entry_some E _ He) as (? & ? & _ & ->). reflexivity.
  Qed.

  Lemma front_desc_ok bs F : wf bs -> (forall i, In i F -> ko bs i <> None) -> fdesc (ko bs) F -> front_descendingb E lt C bs F = true.
  Proof.
    intros Hw Hin Hd. induction Hd as [|i F Hd IH Hf]; auto. cbn [front_descendingb]. apply andb_true_iff. split.
    - destruct F as [|j F]; auto. destruct (ko bs i) as [x|] eqn:Hx; [|exfalso; apply (Hin i); [now left|auto]].
      destruct (ko bs j) as [y|] eqn:Hy; [|exfalso; apply (Hin j); [right; now left|auto]].
      rewrite (key_ok _ _ _ Hw Hx), (key_ok _ _ _ Hw Hy). inversion Hf as [|? ? H _]; subst. apply negb_true_iff. eapply H; eauto.
    - apply IH. intros j Hj. apply Hin. now right.
  Qed.

  Lemma inv_valid g : Inv g -> gb_isValid E lt C g = true.
  Proof.
    intros [[Hw Hc Hf] Hcf]. simpl in Hc. unfold gb_isValid.
    destruct (g_bs g) as [|b0 bs0] eqn:Hbs; [exfalso; now apply (wf_ne _ Hw)|]. rewrite <- Hbs in *.
    assert (Hcap0 : 1 <= b_cap b0) by (apply (cap_pos (g_bs g) 0); rewrite ?Hbs; auto; now rewrite <- Hbs).
    assert (H1 : (2 <=? geoBase C) = true) by (now apply Nat.leb_le).
    assert (H2 : negb (length (g_bs g) =? 0) = true) by (rewrite Hbs; auto).
    assert (H3 : (1 <=? b_cap b0) = true) by (now apply Nat.leb_le).
    assert (H4 : forallb (fun b => ascendingb E lt (b_ents b)) (g_bs g) = true).
    { apply forallb_forall. intros b Hb. apply In_nth_error in Hb as [i Hi]. apply ascendingb_ok. eapply bg_asc; eapply wf_good; eauto. }
    rewrite H1, H2, H3, H4, Hc, Nat.eqb_refl. cbn [andb]. destruct (g_front g) as [[m|]|a slots n toks]; cbn [f_isValid]; auto.
    - simpl in Hcf. destruct Hcf as (x & Hx & Hmax). rewrite (key_ok _ _ _ Hw Hx). apply forallb_forall. intros b Hb.
      apply In_nth_error in Hb as [i Hi]. destruct (b_empty_spec b) as [He|Hne]; auto. simpl.
      destruct (@last_entry_some E _ Hne) as (l & y & _ & Hy). rewrite (bk_back_ok b y); [|eapply wf_good; eauto|auto].
      apply negb_true_iff. apply (Hmax i). rewrite (ko_some _ _ _ Hi). auto.
    - simpl in Hf. destruct Hf as (Ht & F & Hr & Hlt & Hin & Hd). apply andb_true_iff. split; [apply andb_true_iff; split|].
      + apply (tokens_valid_ok (g_bs g) a slots n toks F Hr Hin (g_bs g) toks [] []); auto.
      + apply Nat.eqb_eq. rewrite (r_n _ _ _ _ _ Hr). apply count_nonempty; auto. eapply r_nodup; eauto.
      + rewrite (r_n _ _ _ _ _ Hr). destruct (r_slots _ _ _ _ _ Hr) as (rest & ->).
        rewrite <- (map_length (@Some nat) F), firstn_app, firstn_all, Nat.sub_diag. simpl. rewrite app_nil_r, fold_slots.
        apply front_desc_ok; auto. intros i Hi. now apply Hin.
  Qed.

  Theorem gb_valid ops : forallb gb_api ops = true -> forall g outs, run (gb_step E cmp eqv dedup C) (gb_new E C) ops = Ok (g, outs) ->
    gb_isValid E lt C g = true.
  Proof.
    intros Ha g outs Hr. apply inv_valid. eapply inv_lift with (Inv := Inv); eauto using gb_new_inv. apply gb_step_ok.
  Qed.
End Proofs.

