(** Proofs about the depth of the trees. *)
From Coq Require Import List Arith Bool ZArith NArith Lia Permutation.
From Verif.Base Require Import Res Arr ResList StdAlg Order Sort.
From Verif.DivMask Require Import Model.
From Verif.Spec Require Import Reach DivFinder DivFinderFacts.
From Verif.KD Require Import EntryArray Tree Model Legal ArrayProofs TreeProofs Proofs CountedProofs Depth.
Import ListNotations.
Local Notation length := List.length.

(** The number of halvings that leave one of [n] values *)
Definition halvings (lo hi : Z) : nat := Z.to_nat (Z.log2_up (hi - lo + 1)).

Lemma halve (n : Z) : (2 <= n)%Z -> (1 + Z.log2_up ((n + 1) / 2) <= Z.log2_up n)%Z.
Proof.
  intros H. pose proof (Z.log2_up_pos n ltac:(lia)) as Hp.
  assert (Hn : (n <= 2 ^ Z.log2_up n)%Z) by (pose proof (Z.log2_up_spec n ltac:(lia)); lia).
  assert (He : (2 ^ Z.log2_up n = 2 * 2 ^ (Z.log2_up n - 1))%Z).
  { rewrite <- Z.pow_succ_r by lia. f_equal. lia. }
  assert (Hd : ((n + 1) / 2 <= 2 ^ (Z.log2_up n - 1))%Z).
  { pose proof (Z.div_mod (n + 1) 2 ltac:(lia)). pose proof (Z.mod_pos_bound (n + 1) 2 ltac:(lia)). lia. }
  assert (H1 : (0 < (n + 1) / 2)%Z) by (apply Z.div_str_pos; lia). apply (Z.log2_up_le_pow2 _ _ H1) in Hd. lia.
Qed.
Lemma halvings_mono lo hi lo' hi' : (lo <= lo')%Z -> (lo' <= hi')%Z -> (hi' <= hi)%Z -> halvings lo' hi' <= halvings lo hi.
Proof.
  intros H1 H2 H3. unfold halvings. assert (H : (Z.log2_up (hi' - lo' + 1) <= Z.log2_up (hi - lo + 1))%Z) by (apply Z.log2_up_le_mono; lia). lia.
Qed.
Lemma halvings_split lo hi mn mx : (lo <= mn)%Z -> (mn < mx)%Z -> (mx <= hi)%Z ->
  S (halvings mn (mn + (mx - mn) / 2)) <= halvings lo hi /\ S (halvings (mn + (mx - mn) / 2 + 1) mx) <= halvings lo hi.
Proof.
  intros H1 H2 H3. set (n := (mx - mn + 1)%Z). assert (Hn := halve n ltac:(unfold n; lia)).
  assert (Hd : ((mx - mn) / 2 + 1 = (n + 1) / 2)%Z).
  { unfold n. replace (mx - mn + 1 + 1)%Z with (mx - mn + 1 * 2)%Z by lia. now rewrite Z.div_add by lia. }
  assert (Hb : (2 * ((mx - mn) / 2) <= mx - mn < 2 * ((mx - mn) / 2) + 2)%Z).
  { pose proof (Z.div_mod (mx - mn) 2 ltac:(lia)). pose proof (Z.mod_pos_bound (mx - mn) 2 ltac:(lia)). lia. }
  assert (Hw := halvings_mono lo hi mn mx ltac:(lia) ltac:(lia) ltac:(lia)).
  assert (Hs : S (Z.to_nat (Z.log2_up ((n + 1) / 2))) <= halvings mn mx).
  { unfold halvings. fold n. pose proof (Z.log2_up_nonneg ((n + 1) / 2)). lia. }
  split.
  - unfold halvings at 1. replace (mn + (mx - mn) / 2 - mn + 1)%Z with ((n + 1) / 2)%Z by lia. lia.
  - assert (Hg : halvings (mn + (mx - mn) / 2 + 1) mx <= Z.to_nat (Z.log2_up ((n + 1) / 2))); [|lia].
    unfold halvings. assert (Hm : (Z.log2_up (mx - (mn + (mx - mn) / 2 + 1) + 1) <= Z.log2_up ((n + 1) / 2))%Z) by (apply Z.log2_up_le_mono; lia). lia.
Qed.

Section Skeleton.
  Context {M : Type}.
  Lemma depth_skeleton (t : tree M) : depth (skeleton t) = depth t.
  Proof. induction t; cbn [skeleton depth]; congruence. Qed.
  Lemma depth_in_skeleton w (t : tree M) : depth_in w (skeleton t) = depth_in w t.
  Proof. induction t; cbn [skeleton depth_in]; congruence. Qed.
  Lemma kdepth_skeleton (s : kd M) : kdepth s = depth (root_skeleton (k_tree s)).
  Proof. unfold kdepth, root_skeleton. destruct (k_tree s); auto. now rewrite depth_skeleton. Qed.
  Lemma kdepth_in_skeleton w (s : kd M) : kdepth_in w s = depth_in w (root_skeleton (k_tree s)).
  Proof. unfold kdepth_in, root_skeleton. destruct (k_tree s); auto. now rewrite depth_in_skeleton. Qed.
End Skeleton.

Section Depth.
  Context {M : Type}.
  Variable C : kconf M.
  Variable valid : M -> bool.
  Hypothesis HL : klegal C valid.
  Variable packed : bool.
  Notation ext := (ext M).
  Notation tree := (tree M).
  Notation kd := (kd M).
  Notation ex := (c_ex C).
  Notation nvars := (c_nvars C).
  Notation tree_inv := (tree_inv C valid).
  Notation inv := (inv C valid false).
  Notation same := (same_exps (c_ex C) (c_nvars C)).

  (** ** The split *)
  Lemma choose_mid first l : (forall a, In a (first :: l) -> valid a = true) -> forall k var v x, k <= nvars ->
    choose C first l k var = Ok (v, x) ->
    v < nvars /\ exists mn mx, (mn < mx)%Z /\ (forall a, In a (first :: l) -> (mn <= ex a v <= mx)%Z) /\
      (exists a, In a (first :: l) /\ ex a v = mn) /\ (exists a, In a (first :: l) /\ ex a v = mx) /\ x = (mn + (mx - mn) / 2)%Z.
  Proof using HL.
    intros Hv. induction k as [|k IH]; intros var v x Hk H; cbn [choose] in H; [discriminate|].
    assert (Hn : nvars <> 0) by lia. assert (Hnv : next_var C var < nvars).
    { destruct var; cbn [next_var]; [now apply Nat.mod_upper_bound|lia]. }
    pose proof (bounds_ok C first l (next_var C var)) as Hb. destruct (bounds C first l (next_var C var)) as [mn mx].
    destruct Hb as (H1 & (a & Ha & <-) & (b & Hb & <-)). destruct (Z.eqb_spec (ex a (next_var C var)) (ex b (next_var C var))) as [He|He]; [eapply IH; eauto; lia|].
    assert (Hle : (ex a (next_var C var) < ex b (next_var C var))%Z) by (pose proof (H1 a Ha); lia).
    destruct (kl_arith C valid HL a b (next_var C var)) as [E Hz]; auto; [lia|]. rewrite E in H. cbn [bind] in H.
    rewrite Z.quot_div_nonneg in H by lia.
    pose proof (Z.div_mod (ex b (next_var C var) - ex a (next_var C var)) 2 ltac:(lia)) as D1.
    pose proof (Z.mod_pos_bound (ex b (next_var C var) - ex a (next_var C var)) 2 ltac:(lia)) as D2.
    rewrite Hz in H by lia. cbn [bind] in H. injection H as <- <-. split; auto.
    exists (ex a (next_var C var)), (ex b (next_var C var)). repeat split; auto; try (now apply H1); eauto.
  Qed.
  Lemma split_range_mid l var v x le gt : (forall a, In a l -> valid a = true) -> split_range C l var = Ok (v, x, le, gt) ->
    v < nvars /\ exists mn mx, (mn < mx)%Z /\ (forall a, In a l -> (mn <= ex a v <= mx)%Z) /\
      (exists a, In a l /\ ex a v = mn) /\ (exists a, In a l /\ ex a v = mx) /\ x = (mn + (mx - mn) / 2)%Z.
  Proof using HL.
    intros Hv H. destruct l as [|first l]; [cbn in H; destruct (nvars =? 0); discriminate|]. cbn [split_range] in H.
    destruct (choose C first (first :: l) nvars var) as [[v1 x1]| | |] eqn:Hc; cbn [bind] in H; try discriminate.
    destruct (c_part C _ (first :: l)) as [le1 gt1]. injection H as -> -> -> ->.
    apply choose_mid in Hc as (H1 & mn & mx & H2 & H3 & (a & Ha & Ea) & (b & Hb & Eb) & H4); [| |lia].
    - split; auto. exists mn, mx. split; auto. split; [intros y Hy; apply H3; now right|]. split; [|split; auto].
      + exists a. split; auto. destruct Ha as [<-|Ha]; auto. now left.
      + exists b. split; auto. destruct Hb as [<-|Hb]; auto. now left.
    - intros a [<-|Ha]; apply Hv; auto. now left.
  Qed.

  (** ** Construction *)
  Lemma build_depth w lo hi bits : forall fuel l var t, l <> [] -> (forall a, In a l -> valid a = true) -> (forall e, copies same e l <= c_leaf C) ->
    (forall a, In a l -> (lo <= ex a w <= hi)%Z) -> build C fuel bits l var = Ok t -> depth_in w t <= halvings lo hi.
  Proof using HL.
    intros fuel. revert lo hi. induction fuel as [|f IH]; intros lo hi l var t Hn Hv Hc Hb H; cbn [build] in H; [discriminate|].
    destruct (Nat.leb_spec (length l) (c_leaf C)) as [Hl|Hl].
    - destruct (arr_of C (map (kext C bits) l)); cbn [bind] in H; try discriminate. injection H as <-. cbn [depth_in]. lia.
    - destruct (split_range_ok C valid HL l var Hv Hc Hl) as (v & x & le & gt & E & H1 & H2 & H3 & H4 & H5 & H6).
      destruct (split_range_mid _ _ _ _ _ _ Hv E) as (_ & mn & mx & G1 & G2 & (a & Ga & Ea) & (b & Gb & Eb) & Ex). rewrite E in H. cbn [bind] in H.
      assert (Hin : forall y, In y (le ++ gt) -> In y l) by (intros y; apply (Permutation_in _ H2)).
      assert (Hcc : forall e, copies same e le + copies same e gt <= c_leaf C).
      { intros e. rewrite <- copies_app, (copies_perm C e _ _ H2). apply Hc. }
      destruct (build C f bits le (Some v)) as [tl| | |] eqn:Bl; cbn [bind] in H; try discriminate.
      destruct (build C f bits gt (Some v)) as [tg| | |] eqn:Bg; cbn [bind] in H; try discriminate. injection H as <-.
      assert (Sl : forall lo hi, (forall a, In a le -> (lo <= ex a w <= hi)%Z) -> depth_in w tl <= halvings lo hi).
      { intros lo' hi' Hb'. eapply (IH lo' hi' le (Some v)); eauto; [intros y Hy; apply Hv, Hin, in_or_app; auto|intros e; specialize (Hcc e); lia]. }
      assert (Sg : forall lo hi, (forall a, In a gt -> (lo <= ex a w <= hi)%Z) -> depth_in w tg <= halvings lo hi).
      { intros lo' hi' Hb'. eapply (IH lo' hi' gt (Some v)); eauto; [intros y Hy; apply Hv, Hin, in_or_app; auto|intros e; specialize (Hcc e); lia]. }
      cbn [depth_in]. destruct (Nat.eqb_spec v w) as [->|Hvw].
      + pose proof (Hb a Ga) as Ba. pose proof (Hb b Gb) as Bb.
        destruct (halvings_split lo hi mn mx) as [S1 S2]; try lia.
        assert (D1 := Sl mn (mn + (mx - mn) / 2)%Z). assert (D2 := Sg (mn + (mx - mn) / 2 + 1)%Z mx).
        assert (D1' : depth_in w tl <= halvings mn (mn + (mx - mn) / 2)).
        { apply D1. intros y Hy. pose proof (G2 y (Hin y (in_or_app _ _ _ (or_introl Hy)))). specialize (H5 y Hy). unfold above in H5. apply Z.ltb_ge in H5. lia. }
        assert (D2' : depth_in w tg <= halvings (mn + (mx - mn) / 2 + 1) mx).
        { apply D2. intros y Hy. pose proof (G2 y (Hin y (in_or_app _ _ _ (or_intror Hy)))). specialize (H6 y Hy). unfold above in H6. apply Z.ltb_lt in H6. lia. }
        lia.
      + assert (D1 : depth_in w tl <= halvings lo hi) by (apply Sl; intros y Hy; apply Hb, Hin, in_or_app; auto).
        assert (D2 : depth_in w tg <= halvings lo hi) by (apply Sg; intros y Hy; apply Hb, Hin, in_or_app; auto). lia.
  Qed.

  (** ** Splits between the least and the greatest exponent *)
  Fixpoint framed (w : nat) (lo hi : Z) (t : tree) : Prop :=
    match t with
    | Leaf _ => True
    | Split v x _ le gt =>
        if v =? w then (lo <= x < hi)%Z /\ framed w lo x le /\ framed w (x + 1) hi gt else framed w lo hi le /\ framed w lo hi gt
    end.
  Lemma framed_skeleton w t : forall lo hi, framed w lo hi (skeleton t) <-> framed w lo hi t.
  Proof.
    induction t as [a|v x mask le IHl gt IHg]; intros lo hi; cbn [skeleton framed]; [tauto|]. destruct (v =? w); rewrite IHl, IHg; tauto.
  Qed.
  Lemma framed_depth w t : forall lo hi, (lo <= hi)%Z -> framed w lo hi t -> depth_in w t <= Z.to_nat (hi - lo).
  Proof.
    induction t as [a|v x mask le IHl gt IHg]; intros lo hi Hb H; cbn [framed depth_in] in *; [lia|]. destruct (v =? w).
    - destruct H as (H1 & H2 & H3). apply IHl in H2; [|lia]. apply IHg in H3; [|lia]. lia.
    - destruct H as (H2 & H3). apply IHl in H2; [|lia]. apply IHg in H3; [|lia]. lia.
  Qed.

  Lemma split_node_framed w lo hi v x mask le gt e t : split_node C v x mask le gt e = Ok t -> (v = w -> lo <= x < hi)%Z -> framed w lo hi t.
  Proof.
    unfold split_node. intros H Hx. destruct (above C v x (x_t e)); [destruct (arr_insert C gt e)|destruct (arr_insert C le e)]; cbn [bind] in H; try discriminate;
      injection H as <-; cbn [framed]; destruct (Nat.eqb_spec v w); auto.
  Qed.
  Lemma split_for_between w lo hi e l var v x le gt : (forall y, In y (e :: l) -> valid (x_t y) = true /\ (lo <= ex (x_t y) w <= hi)%Z) ->
    split_for C e l var = Ok (v, x, le, gt) -> (v = w -> lo <= x < hi)%Z.
  Proof using HL.
    intros Hl H Hw. unfold split_for in H. destruct (choose C (x_t e) (map x_t l) nvars var) as [[v1 x1]| | |] eqn:Hc; cbn [bind] in H; try discriminate.
    destruct (c_part_ext C _ l) as [l1 g1]. injection H as -> -> -> ->.
    assert (Hm : forall a, In a (x_t e :: map x_t l) -> valid a = true /\ (lo <= ex a w <= hi)%Z).
    { intros a Ha. change (x_t e :: map x_t l) with (map x_t (e :: l)) in Ha. apply in_map_iff in Ha as (y & <- & Hy). auto. }
    apply choose_mid in Hc as (H1 & mn & mx & H2 & H3 & (a & Ha & Ea) & (b & Hb & Eb) & ->); [|intros a Ha; now apply Hm|lia]. subst w.
    pose proof (proj2 (Hm a Ha)). pose proof (proj2 (Hm b Hb)).
    pose proof (Z.div_mod (mx - mn) 2 ltac:(lia)). pose proof (Z.mod_pos_bound (mx - mn) 2 ltac:(lia)). lia.
  Qed.
  Lemma insert_tree_framed w bits e : valid (x_t e) = true -> forall t var t' lo hi, tree_inv bits t ->
    (forall y, In y (e :: tree_entries t) -> (lo <= ex (x_t y) w <= hi)%Z) -> framed w lo hi t ->
    insert_tree C packed t e var = Ok t' -> framed w lo hi t'.
  Proof using HL.
    intros Hv. induction t as [a|v x mask le IHl gt IHg]; intros var t' lo hi Hi Hb Hf H; cbn [insert_tree] in H.
    - destruct (length (a_list a) =? c_leaf C).
      + assert (Hl : forall y, In y (e :: a_list a) -> valid (x_t y) = true /\ (lo <= ex (x_t y) w <= hi)%Z).
        { intros y Hy. split; auto. destruct Hy as [<-|Hy]; auto. now apply (tree_valid C valid bits (Leaf a) Hi). }
        destruct packed.
        * unfold split_insert_packed in H. destruct (split_for C e (a_list a) var) as [[[[v x] l] g]| | |] eqn:Hs; cbn [bind] in H; try discriminate.
          destruct (arr_of C l); cbn [bind] in H; try discriminate. eapply split_node_framed; eauto. eapply split_for_between; eauto.
        * unfold split_insert_binary in H. destruct (split_for C e (a_list a) var) as [[[[v x] l] g]| | |] eqn:Hs; cbn [bind] in H; try discriminate.
          destruct (arr_of C g); cbn [bind] in H; try discriminate. eapply split_node_framed; eauto. eapply split_for_between; eauto.
      + destruct (arr_insert C a e); cbn [bind] in H; try discriminate. now injection H as <-.
    - cbn [TreeProofs.tree_inv] in Hi. destruct Hi as (Hvn & Hm & Hle & Hgt & Hil & Hig). cbn [tree_entries] in Hb.
      assert (Hbl : forall y, In y (tree_entries le) -> (lo <= ex (x_t y) w <= hi)%Z) by (intros y Hy; apply Hb; right; apply in_or_app; auto).
      assert (Hbg : forall y, In y (tree_entries gt) -> (lo <= ex (x_t y) w <= hi)%Z) by (intros y Hy; apply Hb; right; apply in_or_app; auto).
      assert (Hbe : (lo <= ex (x_t e) w <= hi)%Z) by (apply Hb; now left).
      cbn [framed] in Hf. destruct (above C v x (x_t e)) eqn:Ha.
      + destruct (insert_tree C packed gt e (Some v)) as [g| | |] eqn:Hg; cbn [bind] in H; try discriminate. injection H as <-. cbn [framed].
        destruct (Nat.eqb_spec v w) as [->|Hw]; [destruct Hf as (F1 & F2 & F3)|destruct Hf as (F2 & F3)].
        * split; auto. split; auto. eapply (IHg (Some w) g (x + 1)%Z hi); eauto. intros y [<-|Hy].
          { unfold above in Ha. apply Z.ltb_lt in Ha. lia. }
          { specialize (Hbg y Hy). specialize (Hgt y Hy). unfold above in Hgt. apply Z.ltb_lt in Hgt. lia. }
        * split; auto. eapply (IHg (Some v) g lo hi); eauto. intros y [<-|Hy]; auto.
      + destruct (insert_tree C packed le e (Some v)) as [l| | |] eqn:Hl; cbn [bind] in H; try discriminate. injection H as <-. cbn [framed].
        destruct (Nat.eqb_spec v w) as [->|Hw]; [destruct Hf as (F1 & F2 & F3)|destruct Hf as (F2 & F3)].
        * split; auto. split; auto. eapply (IHl (Some w) l lo x); eauto. intros y [<-|Hy].
          { unfold above in Ha. apply Z.ltb_ge in Ha. lia. }
          { specialize (Hbl y Hy). specialize (Hle y Hy). unfold above in Hle. apply Z.ltb_ge in Hle. lia. }
        * split; auto. eapply (IHl (Some v) l lo hi); eauto. intros y [<-|Hy]; auto.
  Qed.
  Lemma build_framed w bits : forall fuel l var t lo hi, l <> [] -> (forall a, In a l -> valid a = true) -> (forall e, copies same e l <= c_leaf C) ->
    (forall a, In a l -> (lo <= ex a w <= hi)%Z) -> build C fuel bits l var = Ok t -> framed w lo hi t.
  Proof using HL.
    induction fuel as [|f IH]; intros l var t lo hi Hn Hv Hc Hb H; cbn [build] in H; [discriminate|].
    destruct (Nat.leb_spec (length l) (c_leaf C)) as [Hl|Hl].
    - destruct (arr_of C (map (kext C bits) l)); cbn [bind] in H; try discriminate. injection H as <-. exact I.
    - destruct (split_range_ok C valid HL l var Hv Hc Hl) as (v & x & le & gt & E & H1 & H2 & H3 & H4 & H5 & H6).
      destruct (split_range_mid _ _ _ _ _ _ Hv E) as (_ & mn & mx & G1 & G2 & (a & Ga & Ea) & (b & Gb & Eb) & Ex). rewrite E in H. cbn [bind] in H.
      assert (Hin : forall y, In y (le ++ gt) -> In y l) by (intros y; apply (Permutation_in _ H2)).
      assert (Hcc : forall e, copies same e le + copies same e gt <= c_leaf C).
      { intros e. rewrite <- copies_app, (copies_perm C e _ _ H2). apply Hc. }
      destruct (build C f bits le (Some v)) as [tl| | |] eqn:Bl; cbn [bind] in H; try discriminate.
      destruct (build C f bits gt (Some v)) as [tg| | |] eqn:Bg; cbn [bind] in H; try discriminate. injection H as <-.
      assert (Sl : forall lo hi, (forall a, In a le -> (lo <= ex a w <= hi)%Z) -> framed w lo hi tl).
      { intros lo' hi' Hb'. eapply (IH le (Some v)); eauto; [intros y Hy; apply Hv, Hin, in_or_app; auto|intros e; specialize (Hcc e); lia]. }
      assert (Sg : forall lo hi, (forall a, In a gt -> (lo <= ex a w <= hi)%Z) -> framed w lo hi tg).
      { intros lo' hi' Hb'. eapply (IH gt (Some v)); eauto; [intros y Hy; apply Hv, Hin, in_or_app; auto|intros e; specialize (Hcc e); lia]. }
      cbn [framed]. destruct (Nat.eqb_spec v w) as [->|Hvw].
      + pose proof (Hb a Ga) as Ba. pose proof (Hb b Gb) as Bb.
        pose proof (Z.div_mod (mx - mn) 2 ltac:(lia)). pose proof (Z.mod_pos_bound (mx - mn) 2 ltac:(lia)). split; [lia|].
        split; [apply Sl|apply Sg]; intros y Hy.
        * pose proof (Hb y (Hin y (in_or_app _ _ _ (or_introl Hy)))). specialize (H5 y Hy). unfold above in H5. apply Z.ltb_ge in H5. lia.
        * pose proof (Hb y (Hin y (in_or_app _ _ _ (or_intror Hy)))). specialize (H6 y Hy). unfold above in H6. apply Z.ltb_lt in H6. lia.
      + split; [apply Sl|apply Sg]; intros y Hy; apply Hb, Hin, in_or_app; auto.
  Qed.

  (** ** One insertion adds at most one level *)
  Lemma split_node_depth v x mask le gt e t : split_node C v x mask le gt e = Ok t -> depth t = 1.
  Proof.
    unfold split_node. intros H. destruct (above C v x (x_t e)); [destruct (arr_insert C gt e)|destruct (arr_insert C le e)]; cbn [bind] in H; try discriminate;
      now injection H as <-.
  Qed.
  Lemma insert_tree_depth e : forall t var t', insert_tree C packed t e var = Ok t' -> depth t' <= S (depth t).
  Proof.
    induction t as [a|v x mask le IHl gt IHg]; intros var t' H; cbn [insert_tree] in H.
    - destruct (length (a_list a) =? c_leaf C).
      + assert (Hd : depth t' = 1); [|cbn [depth]; lia].
        destruct packed; [unfold split_insert_packed in H|unfold split_insert_binary in H];
          (destruct (split_for C e (a_list a) var) as [[[[v x] l] g]| | |]; cbn [bind] in H; try discriminate);
          [destruct (arr_of C l)|destruct (arr_of C g)]; cbn [bind] in H; try discriminate; eapply split_node_depth; eauto.
      + destruct (arr_insert C a e); cbn [bind] in H; try discriminate. injection H as <-. cbn [depth]. lia.
    - destruct (above C v x (x_t e)).
      + destruct (insert_tree C packed gt e (Some v)) as [g| | |] eqn:Hg; cbn [bind] in H; try discriminate. injection H as <-. apply IHg in Hg. cbn [depth]. lia.
      + destruct (insert_tree C packed le e (Some v)) as [l| | |] eqn:Hl; cbn [bind] in H; try discriminate. injection H as <-. apply IHl in Hl. cbn [depth]. lia.
  Qed.
  (** ** The variables *)
  Fixpoint proper (t : tree) : Prop := match t with Leaf _ => True | Split v _ _ le gt => v < nvars /\ proper le /\ proper gt end.
  Lemma proper_inv bits t : tree_inv bits t -> proper t.
  Proof. induction t as [a|v x mask le IHl gt IHg]; cbn [TreeProofs.tree_inv proper]; tauto. Qed.
  Lemma sum_max (f g : nat -> nat) l : list_sum (map f l) <= list_sum (map (fun w => Nat.max (f w) (g w)) l) /\ list_sum (map g l) <= list_sum (map (fun w => Nat.max (f w) (g w)) l).
  Proof.
    induction l as [|x l IH]; [cbn; lia|]. cbn [map list_sum fold_right]. fold (list_sum (map f l)). fold (list_sum (map g l)).
    fold (list_sum (map (fun w => Nat.max (f w) (g w)) l)). lia.
  Qed.
  Lemma sum_one v (f : nat -> nat) n k : list_sum (map (fun w => (if v =? w then 1 else 0) + f w) (seq k n)) =
    (if (k <=? v) && (v <? k + n) then 1 else 0) + list_sum (map f (seq k n)).
  Proof.
    revert k. induction n as [|n IH]; intros k.
    - cbn [seq map list_sum fold_right]. destruct (Nat.leb_spec k v), (Nat.ltb_spec v (k + 0)); cbn [andb]; lia.
    - cbn [seq map list_sum fold_right]. fold (list_sum (map (fun w => (if v =? w then 1 else 0) + f w) (seq (S k) n))).
      fold (list_sum (map f (seq (S k) n))). rewrite IH. destruct (Nat.eqb_spec v k), (Nat.leb_spec k v), (Nat.ltb_spec v (k + S n)), (Nat.leb_spec (S k) v), (Nat.ltb_spec v (S k + n)); cbn [andb]; lia.
  Qed.
  Lemma depth_sum t : proper t -> depth t <= list_sum (map (fun w => depth_in w t) (seq 0 nvars)).
  Proof.
    induction t as [a|v x mask le IHl gt IHg]; cbn [proper depth depth_in]; [lia|]. intros (H1 & H2 & H3).
    rewrite sum_one. cbn [Nat.leb andb]. destruct (Nat.ltb_spec v (0 + nvars)); [|lia].
    destruct (sum_max (fun w => depth_in w le) (fun w => depth_in w gt) (seq 0 nvars)). specialize (IHl H2). specialize (IHg H3). lia.
  Qed.
  Lemma sum_le (f g : nat -> nat) n : (forall w, w < n -> f w <= g w) -> list_sum (map f (seq 0 n)) <= list_sum (map g (seq 0 n)).
  Proof.
    intros H. assert (Hs : forall k m, k + m <= n -> list_sum (map f (seq k m)) <= list_sum (map g (seq k m))); [|apply Hs; lia].
    intros k m. revert k. induction m as [|m IH]; intros k Hk; cbn; [lia|]. fold (list_sum (map f (seq (S k) m))). fold (list_sum (map g (seq (S k) m))).
    specialize (IH (S k) ltac:(lia)). specialize (H k ltac:(lia)). lia.
  Qed.

  (** ** Removal keeps the nodes *)
  Lemma remove_binary_skeleton m : forall t t' out n, remove_binary C t m = Ok (t', out, n) -> skeleton t' = skeleton t.
  Proof.
    induction t as [a|v x mask le IHl gt IHg]; intros t' out n H; cbn [remove_binary] in H.
    - destruct (arr_remove C a m) as [[[a1 o1] n1]| | |]; cbn [bind] in H; try discriminate. now injection H as <- <- <-.
    - destruct (remove_binary C gt m) as [[[g o] k]| | |] eqn:Hg; cbn [bind] in H; try discriminate. specialize (IHg _ _ _ eq_refl).
      destruct (negb (above C v x (x_t m))); [|injection H as <- <- <-; cbn [skeleton]; congruence].
      destruct (remove_binary C le m) as [[[l o2] k2]| | |] eqn:Hl; cbn [bind] in H; try discriminate. specialize (IHl _ _ _ eq_refl). injection H as <- <- <-.
      cbn [skeleton]. congruence.
  Qed.
  Lemma remove_packed_skeleton m : forall t t' out n, remove_packed C t m = Ok (t', out, n) -> skeleton t' = skeleton t.
  Proof.
    induction t as [a|v x mask le IHl gt IHg]; intros t' out n H; cbn [remove_packed] in H.
    - destruct (arr_remove C a m) as [[[a1 o1] n1]| | |]; cbn [bind] in H; try discriminate. now injection H as <- <- <-.
    - destruct (above C v x (x_t m)).
      + destruct (remove_packed C gt m) as [[[g o] k]| | |] eqn:Hg; cbn [bind] in H; try discriminate. specialize (IHg _ _ _ eq_refl). injection H as <- <- <-.
        cbn [skeleton]. congruence.
      + destruct (remove_packed C le m) as [[[l o2] k2]| | |] eqn:Hl; cbn [bind] in H; try discriminate. specialize (IHl _ _ _ eq_refl).
        destruct (remove_packed C gt m) as [[[g o] k]| | |] eqn:Hg; cbn [bind] in H; try discriminate. specialize (IHg _ _ _ eq_refl). injection H as <- <- <-.
        cbn [skeleton]. congruence.
  Qed.
  Lemma tree_remove_skeleton root m root' out n : tree_remove C packed root m = Ok (root', out, n) -> root_skeleton root' = root_skeleton root.
  Proof.
    destruct root as [t|]; cbn [tree_remove]; [|intros H; now injection H as <- <- <-].
    destruct (if packed then remove_packed C t m else remove_binary C t m) as [[[t2 o2] n2]| | |] eqn:E; cbn [bind]; intros H; try discriminate. injection H as <- <- <-.
    cbn [root_skeleton]. destruct packed; [eapply remove_packed_skeleton|eapply remove_binary_skeleton]; eauto.
  Qed.

  (** ** What one call does to the nodes *)
  Definition remade (s s' : kd) : Prop :=
    k_rebuilds s' = S (k_rebuilds s) /\ (c_auto C = true -> k_left s' = Nat.max (c_ratio C (k_size s')) (c_min C)) /\
    exists bits l, tree_reset C l bits = Ok (k_tree s') /\ Permutation l (kcontents s') /\ (forall a, In a l -> valid a = true) /\ (forall e, copies same e l <= c_leaf C).
  Definition kept (n : nat) (s s' : kd) (root : option tree) : Prop :=
    k_rebuilds s' = k_rebuilds s /\ root_skeleton (k_tree s') = root_skeleton root /\ (c_auto C = true -> k_left s' + n <= k_left s).

  Lemma rebuild_remade s s' : root_inv C valid (k_bits s) (k_tree s) -> k_size s = length (kcontents s) -> rebuild_kd C packed s = Ok s' -> remade s s'.
  Proof using HL.
    intros Hr Hz H. unfold rebuild_kd in H. destruct (for_all_root C valid packed (k_bits s) (k_tree s) recorder Hr) as (l & E & Hl). rewrite E in H. cbn [bind] in H.
    apply reported_all in Hl; [|reflexivity]. destruct (kcalc C l) as [bits| | |]; cbn [bind] in H; try discriminate.
    destruct (tree_reset C l bits) as [root| | |] eqn:Ht; cbn [bind] in H; try discriminate. injection H as <-.
    assert (Hv : forall a, In a l -> valid a = true).
    { pose proof (root_valid C valid _ _ Hr) as Hv. rewrite forallb_forall in Hv. intros x Hx. apply Hv. now apply (Permutation_in _ Hl). }
    assert (Hc : forall e, copies same e l <= c_leaf C).
    { intros e. rewrite (copies_perm C e _ _ Hl). now apply (root_copies C valid (k_bits s)). }
    destruct (tree_reset_ok C valid HL bits l Hv Hc) as (root' & E' & _ & R2). rewrite Ht in E'. injection E' as <-.
    unfold remade, reset_changes. destruct (c_auto C) eqn:Hau; cbn [negb k_rebuilds k_left k_tree k_size]; (split; [reflexivity|]); (split; [intros; try discriminate; auto|]);
      exists bits, l; (split; [exact Ht|]); (split; [|auto]); rewrite kcontents_root; cbn [k_tree]; now symmetry.
  Qed.
  Lemma report_remade s s' i j : root_inv C valid (k_bits s) (k_tree s) -> k_size s + i = length (kcontents s) + j -> report_changes C packed s i j = Ok s' ->
    kept (i + j) s s' (k_tree s) \/ remade s s'.
  Proof using HL.
    intros Hr Hz H. unfold report_changes in H. destruct (Nat.ltb_spec (k_size s + i) j); [discriminate|]. unfold kept.
    destruct (c_auto C) eqn:Hau; cbn [negb] in H; [|injection H as <-; left; cbn; repeat split; auto; discriminate].
    destruct (Nat.ltb_spec (i + j) (k_left s)); [injection H as <-; left; cbn; repeat split; auto; intros; lia|].
    right. apply rebuild_remade in H; auto. unfold kcontents in *. cbn [k_size k_tree]. lia.
  Qed.

  Lemma step_nodes s o s' r : inv s -> kpre C valid packed false (kcontents s) o = true -> step C packed s o = Ok (s', r) ->
    remade s s' \/
    kept 0 s s' (k_tree s) \/
    exists e root, o = DInsert e /\ valid e = true /\ tree_insert C packed (k_tree s) (kext C (k_bits s) e) = Ok root /\ kept 1 s s' root.
  Proof using HL.
    intros Hi Hp E. pose proof (i_root _ _ _ _ Hi) as Hr. pose proof (i_size _ _ _ _ Hi) as Hz. cbn in Hz.
    assert (Hself : kept 0 s s (k_tree s)) by (unfold kept; repeat split; auto; intros; lia).
    destruct o as [e|es|m|m|m|m cb|m cb|cb|m| |]; cbn [kpre] in Hp; try discriminate.
    - cbn [step] in E. apply andb_prop in Hp as [Hv Hcp]. unfold insert in E.
      pose proof (tree_insert_ok C valid HL packed (k_bits s) (kext C (k_bits s) e) (k_tree s) (kext_is_ext C (k_bits s) e) Hv Hr) as H.
      rewrite x_t_kext, <- kcontents_root, Hcp in H. destruct H as (root & Et & R1 & R2). rewrite Et in E. cbn [bind] in E.
      destruct (report_changes C packed _ 1 0) as [s2| | |] eqn:Hrep; cbn [bind] in E; try discriminate. injection E as -> <-.
      apply report_remade in Hrep; auto.
      + destruct Hrep as [H|H]; [right; right|left; exact H]. exists e, root. auto.
      + cbn [k_size]. rewrite Hz, !kcontents_root, !map_length. cbn [k_tree]. rewrite (Permutation_length R2). cbn [length]. lia.
    - cbn [step] in E. unfold remove_multiples in E. rewrite Hp in E. cbn [negb] in E.
      destruct (tree_remove C packed (k_tree s) (kext C (k_bits s) m)) as [[[root out] k]| | |] eqn:Ht; cbn [bind] in E; try discriminate.
      destruct (report_changes C packed _ 0 k) as [s2| | |] eqn:Hrep; cbn [bind] in E; try discriminate. injection E as -> <-.
      pose proof (tree_remove_skeleton _ _ _ _ _ Ht) as Hsk.
      assert (Hroot : root_inv C valid (k_bits s) root /\ length (root_entries root) + k = length (root_entries (k_tree s))).
      { destruct (k_tree s) as [t|]; cbn [tree_remove] in Ht; [|injection Ht as <- <- <-; auto].
        destruct (tree_remove_ok C valid HL packed (k_bits s) t (kext C (k_bits s) m) Hp Hr) as (t' & out' & Et & H1 & H2 & H3 & H4).
        unfold tree_remove in Ht. unfold tree_remove in Et.
        destruct (if packed then remove_packed C t (kext C (k_bits s) m) else remove_binary C t (kext C (k_bits s) m)) as [[[t2 o2] k2]| | |]; cbn [bind] in Ht, Et; try discriminate.
        injection Ht as <- <- <-. injection Et as -> -> ->. split; auto. cbn [root_entries]. rewrite H2.
        pose proof (Permutation_length (filter_split (kdiv C (kext C (k_bits s) m)) (tree_entries t))) as Hl. rewrite app_length in Hl.
        apply Permutation_length in H3. rewrite map_length in H3.
        lia. }
      destruct Hroot as [R1 R2]. apply report_remade in Hrep; auto.
      + destruct Hrep as [(G1 & G2 & G3)|H]; [right; left|left; exact H]. unfold kept. cbn [k_rebuilds k_tree k_left] in *. rewrite G2, Hsk.
        repeat split; auto. intros Ha. specialize (G3 Ha). lia.
      + cbn [k_size]. rewrite Hz, !kcontents_root, !map_length. cbn [k_tree]. lia.
    - right. left. cbn [step] in E. destruct (find_divisor C s m) as [[s2 p]| | |] eqn:Hf; cbn [bind] in E; try discriminate.
      assert (Hk : kept 0 s s2 (k_tree s)).
      { unfold find_divisor in Hf.
        assert (Hg : forall x, (let* r := tree_find C (k_tree s) (kext C (k_bits s) m) in
          Ok (match r with Some _ => if c_cache C then mk_kd (k_tree s) (k_bits s) (k_size s) (k_left s) r (k_rebuilds s) else s | None => s end, r)) = Ok x ->
          kept 0 s (fst x) (k_tree s)).
        { intros x Hx. destruct (tree_find C (k_tree s) (kext C (k_bits s) m)) as [[q|]| | |]; cbn [bind] in Hx; try discriminate; injection Hx as <-; cbn [fst]; auto.
          now destruct (c_cache C). }
        destruct (c_cache C); [|apply (Hg _ Hf)]. destruct (k_cache s) as [q|]; [|apply (Hg _ Hf)].
        destruct (entry_at s q); cbn [bind] in Hf; try discriminate. destruct (c_divides C a m); [now injection Hf as <- <-|apply (Hg _ Hf)]. }
      assert (s' = s2) as ->; auto.
      destruct p as [q|]; [destruct (entry_at s2 q); cbn [bind] in E; try discriminate|]; now injection E as <- <-.
    - cbn [step] in E. destruct (tree_divisors C (k_tree s) (kext C (k_bits s) m) cb); cbn [bind] in E; try discriminate. injection E as <- <-. auto.
    - cbn [step] in E. destruct (tree_multiples C packed (k_tree s) (kext C (k_bits s) m) cb); cbn [bind] in E; try discriminate. injection E as <- <-. auto.
    - cbn [step] in E. destruct (tree_for_all C packed (k_tree s) cb); cbn [bind] in E; try discriminate. injection E as <- <-. auto.
    - left. cbn [step] in E. destruct (rebuild_kd C packed s) as [s2| | |] eqn:Hb; cbn [bind] in E; try discriminate. injection E as -> <-.
      now apply rebuild_remade in Hb.
    - cbn [step] in E. injection E as <- <-. auto.
  Qed.
End Depth.

(** ** Histories *)
Section Histories.
  Context {M : Type}.
  Variable C : kconf M.
  Variable valid : M -> bool.
  Hypothesis HL : klegal C valid.
  Variable packed : bool.
  Notation kd := (kd M).
  Notation ex := (c_ex C).
  Notation nvars := (c_nvars C).
  Notation inv := (inv C valid false).
  Notation hist := (reached (step C packed) (fun s o => kpre C valid packed false (kcontents s) o = true)).
  Notation inserts := (@inserts M).

  (** The exponents of [l] lie between [lo] and [hi]. *)
  Definition between (lo hi : nat -> Z) (l : list M) : Prop := forall w, w < nvars -> forall e, In e l -> (lo w <= ex e w <= hi w)%Z.
  (** The entries that [ops] insert *)
  Definition inserted (ops : list (dop M)) : list M := flat_map (fun o => match o with DInsert e => [e] | _ => [] end) ops.
  Lemma inserted_snoc ops o : inserted (ops ++ [o]) = inserted ops ++ match o with DInsert e => [e] | _ => [] end.
  Proof. unfold inserted. rewrite flat_map_app. cbn [flat_map]. now rewrite app_nil_r. Qed.

  Lemma reset_depth lo hi bits l root : (forall a, In a l -> valid a = true) -> (forall e, copies (same_exps ex nvars) e l <= c_leaf C) -> between lo hi l ->
    tree_reset C l bits = Ok root -> forall w, w < nvars -> depth_in w (root_skeleton root) <= halvings (lo w) (hi w).
  Proof using HL.
    intros Hv Hc Hb H w Hw. unfold tree_reset in H. destruct l as [|y l]; [injection H as <-; cbn; lia|].
    destruct (build C (length (y :: l)) bits (y :: l) None) as [t| | |] eqn:Ht; cbn [bind] in H; try discriminate. injection H as <-.
    cbn [root_skeleton]. rewrite depth_in_skeleton. eapply build_depth; eauto. discriminate.
  Qed.
  Lemma reset_framed lo hi bits l root : (forall a, In a l -> valid a = true) -> (forall e, copies (same_exps ex nvars) e l <= c_leaf C) -> between lo hi l ->
    tree_reset C l bits = Ok root -> forall w, w < nvars -> framed w (lo w) (hi w) (root_skeleton root).
  Proof using HL.
    intros Hv Hc Hb H w Hw. unfold tree_reset in H. destruct l as [|y l]; [injection H as <-; exact I|].
    destruct (build C (length (y :: l)) bits (y :: l) None) as [t| | |] eqn:Ht; cbn [bind] in H; try discriminate. injection H as <-.
    cbn [root_skeleton]. apply framed_skeleton. eapply build_framed; eauto. discriminate.
  Qed.
  Lemma between_perm lo hi l l' : Permutation l l' -> between lo hi l' -> between lo hi l.
  Proof. intros Hp H w Hw e He. apply H; auto. now apply (Permutation_in _ Hp). Qed.

  Lemma hist_inv s0 ops s rs : construct C = Ok s0 -> hist s0 ops s rs -> inv s /\ forall e, In e (kcontents s) -> In e (inserted ops).
  Proof using HL.
    intros H0 Hr. induction Hr as [|ops s rs o s1 r1 Hr [IH1 IH2] Hp Hs].
    - destruct (construct_ok C valid HL false (fun E => False_ind _ (diff_false_true E))) as (s1 & E & H1 & H2). rewrite H0 in E. injection E as <-.
      split; auto. now rewrite H2.
    - destruct (step_ok C valid HL packed false (fun E => False_ind _ (diff_false_true E)) s o IH1 Hp) as (s2 & r2 & E & Hi' & Hd).
      rewrite E in Hs. injection Hs as -> ->. split; auto. rewrite inserted_snoc. intros e He.
      assert (Hin : In e (kcontents s) \/ exists x, o = DInsert x /\ e = x).
      { revert He. destruct Hd as [x l' H| |m xs l' _ H| | |m r l' _ H|m cb xs l' _ H|m cb xs l' _ H|cb xs l' _ H| |l' H|l' H]; intros He;
          cbn [kpre] in Hp; try discriminate; apply (Permutation_in _ H) in He; auto.
        - destruct He as [<-|He]; eauto.
        - apply filter_In in He. tauto. }
      apply in_or_app. destruct Hin as [H|(x & -> & ->)]; [left; auto|right; now left].
  Qed.

  (** The depth of a tree of which all variables are legal *)
  Lemma kdepth_sum s : inv s -> kdepth s <= list_sum (map (fun w => kdepth_in w s) (seq 0 nvars)).
  Proof.
    intros Hi. pose proof (i_root _ _ _ _ Hi) as Hr. unfold kdepth, kdepth_in. destruct (k_tree s) as [t|]; [|lia]. apply depth_sum. eapply proper_inv; eauto.
  Qed.

  (** After a rebuild *)
  Lemma remade_depth lo hi s s' : remade C valid s s' -> between lo hi (kcontents s') -> forall w, w < nvars -> kdepth_in w s' <= halvings (lo w) (hi w).
  Proof using HL.
    intros (_ & _ & bits & l & H1 & H2 & H3 & H4) Hb w Hw. rewrite kdepth_in_skeleton. eapply reset_depth; eauto. eapply between_perm; eauto.
  Qed.

  (** Without one *)
  Lemma kept_depth n s s' root : kept C n s s' root -> kdepth s' = depth (root_skeleton root).
  Proof. intros (_ & H & _). now rewrite kdepth_skeleton, H. Qed.
  Lemma insert_depth root e root' : tree_insert C packed root e = Ok root' -> depth (root_skeleton root') <= S (depth (root_skeleton root)).
  Proof.
    unfold tree_insert. intros H. destruct (insert_tree C packed _ e None) as [t'| | |] eqn:Ht; cbn [bind] in H; try discriminate. injection H as <-.
    apply insert_tree_depth in Ht. cbn [root_skeleton]. rewrite depth_skeleton. destruct root as [t|]; cbn [root_skeleton]; [now rewrite depth_skeleton|exact Ht].
  Qed.
  Lemma step_depth s o s' r : inv s -> kpre C valid packed false (kcontents s) o = true -> step C packed s o = Ok (s', r) -> k_rebuilds s' = k_rebuilds s ->
    (forall e, o <> DInsert e) /\ kdepth s' = kdepth s \/ (exists e, o = DInsert e) /\ kdepth s' <= S (kdepth s).
  Proof using HL.
    intros Hi Hp Hs Hb. destruct (step_nodes C valid HL packed s o s' r Hi Hp Hs) as [(H & _)|[H|(e & root & -> & _ & H1 & H2)]].
    - lia.
    - apply kept_depth in H. rewrite <- kdepth_skeleton in H. destruct o; try (left; split; [intros ? E; discriminate E|exact H]). right. split; eauto. lia.
    - right. split; eauto. rewrite (kept_depth _ _ _ _ H2), (kdepth_skeleton s). eapply insert_depth; eauto.
  Qed.

  Lemma hist_framed lo hi s0 ops s rs : construct C = Ok s0 -> hist s0 ops s rs -> between lo hi (inserted ops) ->
    forall w, w < nvars -> framed w (lo w) (hi w) (root_skeleton (k_tree s)).
  Proof using HL.
    intros H0 Hr. induction Hr as [|ops s rs o s1 r1 Hr IH Hp Hs]; intros Hb w Hw.
    - unfold construct in H0. destruct (kcalc C []); cbn [bind] in H0; try discriminate. injection H0 as <-. unfold reset_changes. now destruct (negb (c_auto C)).
    - destruct (hist_inv _ _ _ _ H0 Hr) as [Hi Hin].
      destruct (hist_inv s0 (ops ++ [o]) s1 (rs ++ [r1]) H0 (r_snoc _ _ _ _ _ _ _ _ _ Hr Hp Hs)) as [Hi1 Hin1].
      assert (Hb0 : between lo hi (inserted ops)).
      { intros v Hv e He. apply Hb; auto. rewrite inserted_snoc. apply in_or_app. auto. }
      specialize (IH Hb0 w Hw).
      destruct (step_nodes C valid HL packed s o s1 r1 Hi Hp Hs) as [(_ & _ & bits & l & H1 & H2 & H3 & H4)|[(_ & H & _)|(e & root & -> & Hv & H1 & (_ & H2 & _))]].
      + eapply reset_framed; eauto. eapply between_perm; [exact H2|]. intros v Hv e He. apply Hb; auto.
      + now rewrite H.
      + rewrite H2. unfold tree_insert in H1. destruct (insert_tree C packed _ _ None) as [t'| | |] eqn:Ht; cbn [bind] in H1; try discriminate. injection H1 as <-.
        cbn [root_skeleton]. apply framed_skeleton.
        assert (He : (lo w <= ex e w <= hi w)%Z) by (apply Hb; auto; rewrite inserted_snoc; apply in_or_app; right; now left).
        pose proof (i_root _ _ _ _ Hi) as Hroot. destruct (k_tree s) as [t|] eqn:Hk.
        * eapply (insert_tree_framed C valid HL packed w (k_bits s) (kext C (k_bits s) e)); [exact Hv|exact Hroot| | |exact Ht].
          { intros y [<-|Hy]; [exact He|]. apply Hb0; auto. apply Hin. rewrite kcontents_root, Hk. now apply in_map. }
          { now apply framed_skeleton. }
        * apply insert_empty_splits with (C := C) (valid := valid) in Ht; auto. destruct t'; [exact I|discriminate Ht].
  Qed.

  Lemma hist_auto lo hi s0 ops s rs : c_auto C = true -> construct C = Ok s0 -> hist s0 ops s rs -> between lo hi (inserted ops) ->
    exists n m, n <= inserts ops /\ kdepth s <= list_sum (map (fun w => halvings (lo w) (hi w)) (seq 0 nvars)) + m /\
      k_left s + m <= Nat.max (c_ratio C n) (c_min C).
  Proof using HL.
    intros Ha H0 Hr. induction Hr as [|ops s rs o s1 r1 Hr IH Hp Hs]; intros Hb.
    - exists 0, 0. split; [apply Nat.le_0_l|]. unfold construct in H0. destruct (kcalc C []); cbn [bind] in H0; try discriminate. injection H0 as <-. unfold reset_changes.
      rewrite Ha. cbn [negb]. unfold kdepth. cbn [k_tree k_left k_size]. lia.
    - destruct (hist_inv _ _ _ _ H0 Hr) as [Hi Hin].
      assert (Hr1 : hist s0 (ops ++ [o]) s1 (rs ++ [r1])) by (econstructor; eauto).
      destruct (hist_inv s0 (ops ++ [o]) s1 (rs ++ [r1]) H0 Hr1) as [Hi1 Hin1].
      destruct (counted_reached C valid HL packed s0 _ _ _ H0 Hr1) as (_ & Hc & _).
      assert (Hb0 : between lo hi (inserted ops)).
      { intros v Hv e He. apply Hb; auto. rewrite inserted_snoc. apply in_or_app. auto. }
      destruct (IH Hb0) as (n & m & I1 & I2 & I3).
      destruct (step_nodes C valid HL packed s o s1 r1 Hi Hp Hs) as [H|[H|(e & root & -> & Hv & H1 & H2)]].
      + exists (k_size s1), 0. pose proof (i_size _ _ _ _ Hi1) as Hz. cbn in Hz. split; [lia|]. destruct H as (E1 & E2 & E3). rewrite E2 by auto. split; [|lia].
        rewrite Nat.add_0_r. etransitivity; [now apply kdepth_sum|]. apply sum_le. intros w Hw.
        eapply (remade_depth lo hi s s1); eauto; [split; [exact E1|split; assumption]|]. intros v Hv e He. apply Hb; auto.
      + exists n, m. rewrite inserts_snoc. pose proof (kept_depth _ _ _ _ H) as Hd. rewrite <- kdepth_skeleton in Hd. destruct H as (_ & _ & H). specialize (H Ha).
        split; [lia|]. split; lia.
      + exists n, (S m). rewrite inserts_snoc. pose proof (kept_depth _ _ _ _ H2) as Hd. destruct H2 as (_ & _ & H). specialize (H Ha).
        apply insert_depth in H1. rewrite <- (kdepth_skeleton s) in H1. split; [lia|]. split; lia.
  Qed.
End Histories.
