(** Proofs that rebuild prefers the variables that split the entries best, and about the thresholds it and rebuildDefault choose. *)
From Coq Require Import List Arith Bool ZArith NArith Lia Permutation Sorted.
From Verif.Base Require Import Res Arr ResList Sort Order.
From Verif.Spec Require Import Split.
From Verif.DivMask Require Import Model Proofs.
Import ListNotations.

Section Split.
  Context {M : Type} (ex : M -> nat -> Z).
  Variable nvars : nat.
  Variable T : exptype.

  (** The operations on the exponents of [l] are exact if the exponents are in the range of the type. *)
  Definition in_type (l : list M) : Prop :=
    match T with Unsigned b => forall y var, In y l -> var < nvars -> (0 <= ex y var < 2 ^ Z.of_N b)%Z | _ => True end.

  Lemma in_type_intro l : (forall b, T = Unsigned b -> forall y v, In y l -> v < nvars -> (0 <= ex y v < 2 ^ Z.of_N b)%Z) -> in_type l.
  Proof. unfold in_type. intros H. destruct T; auto. Qed.

  Lemma min_max_eq l first var : min_max M ex l first var = (lowest first (map (fun y => ex y var) l), highest first (map (fun y => ex y var) l)).
  Proof.
    unfold min_max. assert (H : forall a b, fold_left (fun mm x => let e := ex x var in
      ((if e <? fst mm then e else fst mm), (if snd mm <? e then e else snd mm))%Z) l (a, b) =
      (Z.min a (lowest a (map (fun y => ex y var) l)), Z.max b (highest b (map (fun y => ex y var) l)))).
    { induction l as [|x l IH]; intros a b; cbn [fold_left]; [unfold lowest, highest; simpl; f_equal; lia|]. cbv zeta. cbn [fst snd]. rewrite IH.
      unfold lowest, highest. cbn [map fold_right].
      replace (if ex x var <? a then ex x var else a)%Z with (Z.min (ex x var) a) by (destruct (Z.ltb_spec (ex x var) a); lia).
      replace (if b <? ex x var then ex x var else b)%Z with (Z.max (ex x var) b) by (destruct (Z.ltb_spec b (ex x var)); lia).
      set (l' := map _ l). f_equal.
      - clear. induction l' as [|e l' IH]; simpl; lia.
      - clear. induction l' as [|e l' IH]; simpl; lia. }
    rewrite H. clear H. unfold lowest, highest. f_equal.
    - induction (map _ l) as [|e es IH]; cbn [fold_right]; lia.
    - induction (map _ l) as [|e es IH]; cbn [fold_right]; lia.
  Qed.

  Lemma lowest_highest first l : (lowest first l <= first <= highest first l)%Z.
  Proof. unfold lowest, highest. induction l; simpl; lia. Qed.
  Lemma lowest_range lo hi first l : (lo <= first < hi)%Z -> (forall e, In e l -> (lo <= e < hi)%Z) -> (lo <= lowest first l /\ highest first l < hi)%Z.
  Proof.
    intros Hf H. unfold lowest, highest. induction l as [|e l IH]; simpl; [lia|]. pose proof (H e (or_introl eq_refl)).
    destruct IH as [H1 H2]; [intros; apply H; now right|]. lia.
  Qed.

  Lemma count_complement {A} (p q : A -> bool) l : (forall a, q a = negb (p a)) -> length (filter p l) + length (filter q l) = length l.
  Proof. intros H. induction l as [|a l IH]; simpl; auto. rewrite H. destruct (p a); simpl; lia. Qed.

  Lemma filter_map_length {A B} (p : B -> bool) (f : A -> B) l : length (filter p (map f l)) = length (filter (fun a => p (f a)) l).
  Proof. induction l as [|a l IH]; simpl; auto. destruct (p (f a)); simpl; lia. Qed.

  (** The split number of VarData is the balance. *)
  Lemma make_data_split x l var d : in_type (x :: l) -> var < nvars ->
    make_data M ex T (x :: l) (ex x 0) var = Ok d -> d = mk_data var (balance (ex x 0) (map (fun y => ex y var) (x :: l))).
  Proof.
    intros HT Hv. unfold make_data. rewrite min_max_eq. set (es := map (fun y => ex y var) (x :: l)). set (first := ex x 0).
    assert (Hd : forall d, norm T (highest first es - lowest first es)%Z = Ok d -> d = (highest first es - lowest first es)%Z).
    { intros d'. pose proof (lowest_highest first es). destruct T as [|b|b] eqn:E; cbn [norm].
      - now intros H'; injection H' as <-.
      - destruct (_ && _)%bool; [now intros H'; injection H' as <-|discriminate].
      - intros H'. injection H' as <-. unfold in_type in HT. rewrite E in HT. destruct (lowest_range 0 (2 ^ Z.of_N b) first es) as [H1 H2].
        + apply HT; [now left|lia].
        + intros e He. apply in_map_iff in He as (y & <- & Hy). now apply HT.
        + apply Z.mod_small. lia. }
    destruct (norm T (highest first es - lowest first es)) as [dd| | |] eqn:Hn; cbn [bind]; try discriminate. rewrite (Hd dd eq_refl).
    pose proof (lowest_highest first es) as Hlh.
    assert (Ha : forall a, norm T (lowest first es + Z.quot (highest first es - lowest first es) 2)%Z = Ok a -> a = middle first es).
    { intros a. rewrite Z.quot_div_nonneg by lia. fold (middle first es).
      assert (Hm : (lowest first es <= middle first es <= highest first es)%Z).
      { unfold middle. pose proof (Z.div_pos (highest first es - lowest first es) 2). pose proof (Z.div_le_upper_bound (highest first es - lowest first es) 2 (highest first es - lowest first es)). lia. }
      destruct T as [|b|b] eqn:E; cbn [norm].
      - now intros H'; injection H' as <-.
      - destruct (_ && _)%bool; [now intros H'; injection H' as <-|discriminate].
      - intros H'. injection H' as <-. unfold in_type in HT. rewrite E in HT. destruct (lowest_range 0 (2 ^ Z.of_N b) first es) as [H1 H2].
        + apply HT; [now left|lia].
        + intros e He. apply in_map_iff in He as (y & <- & Hy). now apply HT.
        + apply Z.mod_small. lia. }
    destruct (norm T (lowest first es + Z.quot (highest first es - lowest first es) 2)) as [a| | |] eqn:Hav; cbn [bind]; try discriminate. pose proof (Ha a eq_refl) as ->.
    clear. intros H. assert (He : forall a b : var_data, Ok a = Ok b -> a = b) by congruence. apply He in H. rewrite <- H. clear H He d.
    f_equal. unfold balance. set (m := middle first es). clearbody m. subst es.
    rewrite (filter_map_length (fun e => e <? m)%Z), (filter_map_length (fun e => m <=? e)%Z).
    pose proof (count_complement (fun y => ex y var <? m)%Z (fun y => m <=? ex y var)%Z (x :: l) (fun y => Z.leb_antisym _ _)) as Hc.
    set (p := length (filter (fun y => ex y var <? m)%Z (x :: l))) in *. set (q := length (filter (fun y => m <=? ex y var)%Z (x :: l))) in *.
    clearbody p q. set (n := length (x :: l)) in *. clearbody n.
    pose proof (Nat.div_mod n 2 ltac:(lia)). pose proof (Nat.mod_upper_bound n 2 ltac:(lia)). destruct (Nat.ltb_spec (n / 2) p); lia.
  Qed.

  Variable sort_data : list var_data -> list var_data.
  Hypothesis sort_perm : forall l, Permutation (sort_data l) l.

  Lemma rebuild_prefers x l bits var var' : in_type (x :: l) -> (forall l, in_order (fun a b => d_split b <? d_split a) (sort_data l)) ->
    rebuild M ex nvars T sort_data (x :: l) = Ok bits -> var < nvars -> var' < nvars ->
    balance (ex x 0) (map (fun y => ex y var') (x :: l)) < balance (ex x 0) (map (fun y => ex y var) (x :: l)) ->
    length (filter (fun b => fst b =? var') bits) <= length (filter (fun b => fst b =? var) bits).
  Proof.
    intros HT Hs H Hv Hv' Hlt. pose proof H as H0. unfold rebuild in H0.
    destruct (mapM (make_data M ex T (x :: l) (ex x 0)) (seq 0 nvars)) as [datas| | |] eqn:Hd; cbn [bind] in H0; try discriminate. clear H0.
    assert (Hin : forall v, v < nvars -> In (mk_data v (balance (ex x 0) (map (fun y => ex y v) (x :: l)))) datas).
    { intros v Hvn. pose proof (mapM_forall2 _ _ _ Hd) as Hf. assert (Hi : In v (seq 0 nvars)) by (apply in_seq; lia).
      revert Hi. clear -Hf HT Hvn sort_perm. induction Hf as [|w d ws ds Hw Hf IH]; intros [].
      - subst w. left. now apply make_data_split in Hw.
      - right. auto. }
    pose proof (rebuild_order ex nvars T sort_data sort_perm x l bits datas _ _ (Hs datas) H Hd (Hin var Hv) (Hin var' Hv') Hlt) as Hr. exact Hr.
  Qed.

  (** The block of a variable is the part of the list with its bits. *)
  Lemma block_filter (ks : list nat) : forall (bs : list (list (nat * Z))) (start : nat),
    Forall2 (fun p b => length b = snd p /\ forall v thr, In (v, thr) b -> v = fst p) (combine (seq start (length ks)) ks) bs ->
    forall i k b, nth_error ks i = Some k -> nth_error bs i = Some b -> filter (fun c => fst c =? start + i) (concat bs) = b.
  Proof.
    assert (Hall : forall v (b : list (nat * Z)), (forall w thr, In (w, thr) b -> w = v) -> filter (fun c => fst c =? v) b = b).
    { intros v b. induction b as [|[w thr] b IH]; intros H; simpl; auto. rewrite (H w thr (or_introl eq_refl)), Nat.eqb_refl. f_equal. apply IH. intros. apply (H w0 thr0). now right. }
    assert (Hnone : forall v (b : list (nat * Z)), (forall w thr, In (w, thr) b -> w <> v) -> filter (fun c => fst c =? v) b = []).
    { intros v b. induction b as [|[w thr] b IH]; intros H; simpl; auto. destruct (Nat.eqb_spec w v); [exfalso; eapply H; [now left|auto]|]. apply IH. intros. apply (H w0 thr0). now right. }
    induction ks as [|k ks IH]; intros bs start H i k0 b Hk Hb; simpl in H; inversion H as [|? b0 ? bs' [Hl Hv] H']; subst.
    - destruct i; discriminate.
    - simpl in Hl, Hv. simpl. rewrite filter_app. destruct i as [|i]; simpl in Hk, Hb.
      + injection Hb as ->. rewrite Nat.add_0_r, Hall by eauto. rewrite Hnone; [apply app_nil_r|].
        intros w thr Hi. destruct (blocks_shape ks bs' (S start) H') as (_ & Hr & _). apply Hr in Hi. lia.
      + rewrite Hnone by (intros w thr Hi; rewrite (Hv _ _ Hi); lia). simpl. replace (start + S i) with (S start + i) by lia. eauto.
  Qed.

  Lemma forall2_nth {A B} (R : A -> B -> Prop) l r : Forall2 R l r -> forall i a, nth_error l i = Some a -> exists b, nth_error r i = Some b /\ R a b.
  Proof. induction 1 as [|a b l r H HF IH]; intros [|i] c Hc; simpl in Hc; try discriminate; [injection Hc as <-; exists b; auto|apply (IH i c Hc)]. Qed.

  Lemma nth_combine {A B} (l : list A) (r : list B) : forall i a b, nth_error l i = Some a -> nth_error r i = Some b -> nth_error (combine l r) i = Some (a, b).
  Proof.
    revert r. induction l as [|x l IH]; intros [|y r] [|i] a b Ha Hb; simpl in *; try discriminate.
    - now injection Ha as ->; injection Hb as ->.
    - auto.
  Qed.
  Lemma nth_seq n i : i < n -> nth_error (seq 0 n) i = Some i.
  Proof. intros H. rewrite (nth_error_nth' _ 0) by now rewrite seq_length. now rewrite seq_nth. Qed.

  Lemma rebuild_thresholds x l bits var : exact_type T -> rebuild M ex nvars T sort_data (x :: l) = Ok bits -> var < nvars ->
    let mine := filter (fun b => fst b =? var) bits in let es := map (fun y => ex y var) (x :: l) in
    map snd mine = map (fun i => lowest (ex x 0) es + Z.of_nat i * piece (ex x 0) es (length mine))%Z (seq 0 (length mine)).
  Proof.
    intros HT H Hv. unfold rebuild in H. set (l' := x :: l) in *.
    destruct (mapM (make_data M ex T l' (ex x 0)) (seq 0 nvars)) as [datas| | |] eqn:Hd; cbn [bind] in H; try discriminate.
    destruct (assign_bits nvars (sort_data datas) 0 (repeat 0 nvars)) as [ks| | |] eqn:Hk; cbn [bind] in H; try discriminate.
    assert (Hlk : length ks = nvars).
    { pose proof (datas_vars ex T _ _ _ _ Hd) as Hvars.
      destruct (assign_ok nvars (sort_data datas) 0 (repeat 0 nvars)) as (ks' & Hk' & Hlk & _).
      - intros d Hin. rewrite repeat_length. apply (Permutation_in _ (sort_perm datas)), (in_map d_var) in Hin. rewrite Hvars in Hin. apply in_seq in Hin. lia.
      - rewrite Hk in Hk'. injection Hk' as <-. now rewrite repeat_length in Hlk. }
    destruct (mapM _ (combine (seq 0 nvars) ks)) as [bs| | |] eqn:Hm; cbn [bind] in H; try discriminate. injection H as <-.
    apply mapM_forall2 in Hm. destruct (nth_error ks var) as [k|] eqn:Hkv; [|apply nth_error_None in Hkv; lia].
    destruct (forall2_nth _ _ _ Hm var (var, k)) as (b & Hb & Hvb); [apply nth_combine; auto; now apply nth_seq|]. simpl in Hvb.
    assert (Hf : filter (fun c => fst c =? var) (concat bs) = b).
    { apply (block_filter ks bs 0) with k; auto. rewrite Hlk. eapply forall2_imp; [|exact Hm]. intros [v k'] b' Hb'. simpl in *. now apply var_bits_shape in Hb'. }
    cbv zeta. rewrite Hf. destruct (var_bits_shape ex T _ _ _ _ _ Hvb) as [Hlen _]. rewrite Hlen. unfold var_bits in Hvb.
    destruct (Nat.eqb_spec k 0) as [->|Hk0]; [injection Hvb as <-; reflexivity|]. rewrite min_max_eq in Hvb.
    set (es := map (fun y => ex y var) l') in *. destruct (norm T _) as [d| | |] eqn:Hn; cbn [bind] in Hvb; try discriminate. apply HT in Hn. subst d.
    apply (thresholds_val T HT) in Hvb. subst b. rewrite map_map. apply map_ext. intros i. cbn [snd]. f_equal. rewrite Z.mul_comm. f_equal.
    unfold piece. pose proof (lowest_highest (ex x 0) es). rewrite Z.quot_div_nonneg by lia. pose proof (Z.div_pos (highest (ex x 0) es - lowest (ex x 0) es) (Z.of_nat k) ltac:(lia) ltac:(lia)).
    destruct (Z.eqb_spec ((highest (ex x 0) es - lowest (ex x 0) es) / Z.of_nat k) 0) as [->|]; lia.
  Qed.

  Lemma default_thresholds bits var : exact_type T -> rebuild_default nvars T = Ok bits -> var < nvars ->
    let mine := filter (fun b => fst b =? var) bits in
    map snd mine = firstn (length mine) (0%Z :: map (fun i => 2 ^ Z.of_nat i)%Z (seq 0 32)).
  Proof.
    intros HT H Hv. unfold rebuild_default in H. destruct (mapM _ (seq 0 nvars)) as [bs| | |] eqn:Hm; cbn [bind] in H; try discriminate. injection H as <-.
    apply mapM_forall2 in Hm. destruct (forall2_nth _ _ _ Hm var var (nth_seq _ _ Hv)) as (b & Hb & Hvb). cbv zeta.
    set (k := total_bits / nvars + (if var <? total_bits mod nvars then 1 else 0)) in *.
    assert (Hf : filter (fun c => fst c =? var) (concat bs) = b).
    { apply (block_filter (map (fun v => total_bits / nvars + (if v <? total_bits mod nvars then 1 else 0)) (seq 0 nvars)) bs 0) with k; auto.
      - rewrite map_length, seq_length, combine_map_r. apply forall2_map_l. eapply forall2_imp; [|exact Hm]. intros v b' Hb'. simpl in Hb'. apply default_bits_shape in Hb'. exact Hb'.
      - rewrite nth_error_map, nth_seq by auto. reflexivity. }
    rewrite Hf. destruct (default_bits_shape T _ _ _ _ _ Hvb) as [Hlen _]. rewrite Hlen. apply (default_start T HT) in Hvb. subst b.
    assert (Hk : k <= 32).
    { unfold k. destruct (Nat.ltb_spec var (total_bits mod nvars)).
      - pose proof (Nat.div_mod total_bits nvars ltac:(lia)). change total_bits with 32 in *. assert (nvars * (32 / nvars) >= 32 / nvars) by nia. lia.
      - pose proof (Nat.div_le_upper_bound total_bits nvars total_bits ltac:(lia)). change total_bits with 32 in *. nia. }
    destruct k as [|k]; [reflexivity|]. cbn [firstn map snd]. f_equal. rewrite map_map, firstn_map. rewrite <- seq_shift, map_map.
    replace (firstn k (seq 0 32)) with (seq 0 k).
    - apply map_ext_in. intros i _. cbn [snd]. f_equal. rewrite Nat2Z.inj_succ. lia.
    - replace 32 with (k + (32 - k)) at 1 by lia. rewrite seq_app, firstn_app, seq_length, Nat.sub_diag. simpl. rewrite firstn_all2 by (rewrite seq_length; lia). now rewrite app_nil_r.
  Qed.
End Split.
