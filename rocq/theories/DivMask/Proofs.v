(** Proofs about DivMask. *)
From Coq Require Import List Arith Bool ZArith NArith Lia Permutation Sorted.
From Verif.Base Require Import Res Arr ResList Lists Sort.
From Verif.DivMask Require Import Model.
Import ListNotations.

(** ** Masks *)
Definition narrow (m : N) : Prop := forall i, (32 <= i)%N -> N.testbit m i = false.

Lemma max_mask_bit i : N.testbit max_mask i = (i <? 32)%N.
Proof.
  unfold max_mask. destruct (N.ltb_spec i 32) as [H|H]; [now apply N.ones_spec_low|now apply N.ones_spec_high].
Qed.
Lemma narrow_max : narrow max_mask.
Proof. intros i H. rewrite max_mask_bit. now apply N.ltb_ge. Qed.

Lemma can_divide_spec m m' : narrow m -> (can_divide m m' = true <-> forall i, N.testbit m i = true -> N.testbit m' i = true).
Proof.
  intros Hm. unfold can_divide. rewrite N.eqb_eq. split.
  - intros H i Hi. assert (Hb : N.testbit (N.land m (N.lxor m' max_mask)) i = false) by (rewrite H; apply N.bits_0).
    rewrite N.land_spec, N.lxor_spec, Hi, max_mask_bit in Hb. destruct (N.ltb_spec i 32) as [Hl|Hl]; [|rewrite (Hm i Hl) in Hi; discriminate].
    destruct (N.testbit m' i); auto.
  - intros H. apply N.bits_inj. intros i. rewrite N.bits_0, N.land_spec, N.lxor_spec, max_mask_bit. destruct (N.testbit m i) eqn:Hi; auto.
    rewrite (H i Hi). destruct (N.ltb_spec i 32) as [Hl|Hl]; auto. rewrite (Hm i Hl) in Hi. discriminate.
Qed.

Lemma combine_bit m m' i : N.testbit (combine_and m m') i = N.testbit m i && N.testbit m' i.
Proof. apply N.land_spec. Qed.
Lemma combine_narrow m m' : narrow m -> narrow (combine_and m m').
Proof. intros H i Hi. now rewrite combine_bit, (H i Hi). Qed.

Section Proofs.
  Context {M : Type}.
  Variable ex : M -> nat -> Z.

  Notation compute := (compute M ex).

  Lemma shift_in_bit m b i : N.testbit (shift_in m b) i = if (i =? 0)%N then b else (i <? 32)%N && N.testbit m (N.pred i).
  Proof.
    unfold shift_in. rewrite N.lor_spec, N.land_spec, max_mask_bit. destruct (N.eqb_spec i 0) as [->|Hi].
    - rewrite N.shiftl_spec_low by reflexivity. simpl. destruct b; reflexivity.
    - replace (N.testbit (N.b2n b) i) with false.
      + rewrite orb_false_r, N.shiftl_spec_high' by lia. replace (i - 1)%N with (N.pred i) by lia. apply andb_comm.
      + destruct i; [lia|]. destruct b; [|reflexivity]. destruct p; reflexivity.
  Qed.

  Lemma compute_snoc bits b t : compute (bits ++ [b]) t = shift_in (compute bits t) (snd b <? ex t (fst b))%Z.
  Proof. unfold compute. now rewrite fold_left_app. Qed.

  (** Bit [i] of a mask is the [i]th last entry of the calculator's list. *)
  Lemma compute_bit bits t : forall i, N.testbit (compute bits t) (N.of_nat i) =
    (i <? 32) && match nth_error (rev bits) i with Some b => (snd b <? ex t (fst b))%Z | None => false end.
  Proof.
    induction bits as [|b bits IH] using rev_ind; intros i.
    - simpl. destruct i; simpl; rewrite ?andb_false_r; auto; apply N.bits_0.
    - rewrite compute_snoc, shift_in_bit, rev_app_distr. simpl. destruct i as [|i].
      + reflexivity.
      + replace (N.of_nat (S i) =? 0)%N with false by (symmetry; apply N.eqb_neq; lia). rewrite Nat2N.inj_succ, N.pred_succ, IH. simpl.
        replace (N.succ (N.of_nat i) <? 32)%N with (S i <? 32).
        * destruct (Nat.ltb_spec (S i) 32), (Nat.ltb_spec i 32); simpl; auto. lia.
        * destruct (Nat.ltb_spec (S i) 32), (N.ltb_spec (N.succ (N.of_nat i)) 32); auto; lia.
  Qed.
  Lemma compute_narrow bits t : narrow (compute bits t).
  Proof.
    intros i Hi. rewrite <- (N2Nat.id i), compute_bit. replace (N.to_nat i <? 32) with false; auto. symmetry. apply Nat.ltb_ge. lia.
  Qed.

  (** The last 32 bits of a calculator count. *)
  Definition last_bits (bits : list (nat * Z)) : list (nat * Z) := skipn (length bits - 32) bits.

  Lemma in_firstn {A} (l : list A) : forall n x, In x (firstn n l) <-> exists i, i < n /\ nth_error l i = Some x.
  Proof.
    induction l as [|a l IH]; intros [|n] x; simpl.
    - split; [intros []|intros (i & Hi & _); lia].
    - split; [intros []|intros ([|i] & _ & Hi); discriminate].
    - split; [intros []|intros (i & Hi & _); lia].
    - rewrite IH. split.
      + intros [->|(i & Hi & Hx)]; [exists 0; split; [lia|auto]|exists (S i); split; [lia|auto]].
      + intros ([|i] & Hi & Hx); [left; now injection Hx|right; exists i; split; [lia|auto]].
  Qed.
  Lemma rev_skipn {A} (l : list A) n : rev (skipn n l) = firstn (length l - n) (rev l).
  Proof.
    rewrite <- (firstn_skipn n l) at 3. rewrite rev_app_distr. destruct (Nat.le_gt_cases n (length l)) as [H|H].
    - rewrite firstn_app, rev_length, skipn_length, Nat.sub_diag, firstn_O, app_nil_r. symmetry. apply firstn_all2. rewrite rev_length, skipn_length. lia.
    - rewrite skipn_all2 by lia. replace (length l - n) with 0 by lia. reflexivity.
  Qed.

  Lemma in_last bits b : In b (last_bits bits) <-> exists i, i < 32 /\ nth_error (rev bits) i = Some b.
  Proof.
    unfold last_bits. rewrite in_rev, rev_skipn, in_firstn. split; intros (i & Hi & Hx); exists i; split; auto; [lia|].
    apply nth_error_some_lt in Hx. rewrite rev_length in Hx. lia.
  Qed.

  Lemma mask_meaning bits a b : can_divide (compute bits a) (compute bits b) = true <->
    forall var thr, In (var, thr) (last_bits bits) -> (thr < ex a var)%Z -> (thr < ex b var)%Z.
  Proof.
    rewrite can_divide_spec by apply compute_narrow. split.
    - intros H var thr Hin Ha. apply in_last in Hin as (i & Hi & Hx). specialize (H (N.of_nat i)). rewrite !compute_bit, Hx in H. simpl in H.
      replace (i <? 32) with true in H by (symmetry; now apply Nat.ltb_lt). simpl in H. apply Z.ltb_lt, H. now apply Z.ltb_lt.
    - intros H i Hi. rewrite <- (N2Nat.id i) in *. rewrite compute_bit in *. apply andb_prop in Hi as [H1 H2]. rewrite H1. simpl.
      destruct (nth_error (rev bits) (N.to_nat i)) as [[var thr]|] eqn:Hx; [|discriminate]. simpl in *. apply Z.ltb_lt. apply Z.ltb_lt in H2.
      eapply H; eauto. apply in_last. exists (N.to_nat i). split; auto. now apply Nat.ltb_lt.
  Qed.

  Lemma mask_sound bits a b : (forall var, (ex a var <= ex b var)%Z) -> can_divide (compute bits a) (compute bits b) = true.
  Proof. intros H. apply mask_meaning. intros var thr _ Ha. specialize (H var). lia. Qed.
  Lemma mask_sound_vars nv bits a b : (forall var thr, In (var, thr) bits -> var < nv) -> (forall var, var < nv -> (ex a var <= ex b var)%Z) ->
    can_divide (compute bits a) (compute bits b) = true.
  Proof.
    intros Hb H. apply mask_meaning. intros var thr Hin Ha. assert (Hv : var < nv).
    { eapply Hb. unfold last_bits in Hin. rewrite <- (firstn_skipn (length bits - 32) bits). apply in_or_app. right. eauto. }
    specialize (H var Hv). lia.
  Qed.

  (** ** Choosing the bits *)
  Variable nvars : nat.
  Variable T : exptype.

  Definition share (i : nat) : nat := total_bits / nvars + (if i <? total_bits mod nvars then 1 else 0).

  Lemma sum_shares n m k : m <= n -> list_sum (map (fun i => k + (if i <? m then 1 else 0)) (seq 0 n)) = n * k + m.
  Proof.
    revert m. induction n as [|n IH]; intros m H.
    - assert (m = 0) by lia. subst. reflexivity.
    - rewrite seq_S, map_app, list_sum_app. simpl. destruct (Nat.eq_dec m (S n)) as [->|Hn].
      + rewrite (map_ext_in _ (fun i => k + (if i <? n then 1 else 0))).
        * rewrite IH by auto. replace (n <? S n) with true by (symmetry; apply Nat.ltb_lt; lia). lia.
        * intros i Hi. apply in_seq in Hi. replace (i <? S n) with true by (symmetry; apply Nat.ltb_lt; lia).
          replace (i <? n) with true by (symmetry; apply Nat.ltb_lt; lia). reflexivity.
      + rewrite IH by lia. replace (n <? m) with false by (symmetry; apply Nat.ltb_ge; lia). lia.
  Qed.
  Lemma shares_total : nvars <> 0 -> list_sum (map share (seq 0 nvars)) = total_bits.
  Proof.
    intros H. unfold share. rewrite sum_shares.
    - pose proof (Nat.div_mod total_bits nvars H). lia.
    - pose proof (Nat.mod_upper_bound total_bits nvars H). lia.
  Qed.

  Lemma default_bits_shape var : forall k i e l, default_bits T var k i e = Ok l -> length l = k /\ forall v thr, In (v, thr) l -> v = var.
  Proof.
    induction k as [|k IH]; intros i e l H; cbn [default_bits] in H.
    - injection H as <-. split; auto. intros v thr [].
    - destruct (if i =? 0 then Ok 1%Z else norm T (e * 2)) as [e'| | |]; cbn [bind] in H; try discriminate.
      destruct (default_bits T var k (S i) e') as [r| | |] eqn:Hr; cbn [bind] in H; try discriminate. injection H as <-.
      destruct (IH _ _ _ Hr) as [H1 H2]. split; [simpl; lia|]. intros v thr [Hv|Hv]; [congruence|eauto].
  Qed.

  Definition count_var (var : nat) (bits : list (nat * Z)) : nat := length (filter (fun b => fst b =? var) bits).

  Lemma count_app var b b' : count_var var (b ++ b') = count_var var b + count_var var b'.
  Proof. unfold count_var. now rewrite filter_app, app_length. Qed.
  Lemma count_own var bits : (forall v thr, In (v, thr) bits -> v = var) -> count_var var bits = length bits.
  Proof.
    unfold count_var. induction bits as [|[v thr] bits IH]; intros H; auto. simpl. rewrite (H v thr) by now left. rewrite Nat.eqb_refl. simpl.
    rewrite IH; auto. intros v' thr' Hi. apply (H v' thr'). now right.
  Qed.
  Lemma count_other var var' bits : var <> var' -> (forall v thr, In (v, thr) bits -> v = var') -> count_var var bits = 0.
  Proof.
    unfold count_var. intros Hn. induction bits as [|[v thr] bits IH]; intros H; auto. simpl. rewrite (H v thr) by now left.
    replace (var' =? var) with false by (symmetry; apply Nat.eqb_neq; auto). apply IH. intros v' thr' Hi. apply (H v' thr'). now right.
  Qed.

  (** A list made of one block per variable. *)
  Lemma blocks_shape (ks : list nat) : forall (bs : list (list (nat * Z))) (start : nat),
    Forall2 (fun p b => length b = snd p /\ forall v thr, In (v, thr) b -> v = fst p) (combine (seq start (length ks)) ks) bs ->
    length (concat bs) = list_sum ks /\ (forall v thr, In (v, thr) (concat bs) -> start <= v < start + length ks) /\
    (forall i k, nth_error ks i = Some k -> count_var (start + i) (concat bs) = k) /\ (forall var, var < start -> count_var var (concat bs) = 0).
  Proof.
    induction ks as [|k ks IH]; intros bs start H; simpl in H; inversion H as [|? b ? bs' [Hl Hv] H']; subst.
    - simpl. split; auto. split; [intros v thr []|]. split; auto. intros [|i] k; discriminate.
    - simpl in Hl, Hv. destruct (IH bs' (S start) H') as (H1 & H2 & H3 & H4). simpl. split; [|split; [|split]].
      + rewrite app_length. simpl. lia.
      + intros v thr Hi. apply in_app_or in Hi as [Hi|Hi]; [rewrite (Hv _ _ Hi); lia|apply H2 in Hi; lia].
      + intros [|i] k0 Hk; simpl in Hk; rewrite count_app.
        * injection Hk as ->. rewrite Nat.add_0_r, count_own, H4 by auto. lia.
        * rewrite (count_other (start + S i) start b); [|lia|exact Hv]. replace (start + S i) with (S start + i) by lia. exact (H3 i k0 Hk).
      + intros var Hvar. rewrite count_app, (count_other var start b), H4; [reflexivity|lia|lia|exact Hv].
  Qed.

  Lemma forall2_map_l {A B C} (R : C -> B -> Prop) (f : A -> C) l r : Forall2 (fun a b => R (f a) b) l r -> Forall2 R (map f l) r.
  Proof. induction 1; simpl; constructor; auto. Qed.
  Lemma forall2_imp {A B} (R R' : A -> B -> Prop) l r : (forall a b, R a b -> R' a b) -> Forall2 R l r -> Forall2 R' l r.
  Proof. intros Hi. induction 1; constructor; auto. Qed.
  Lemma combine_map_r {A} (f : nat -> A) l : combine l (map f l) = map (fun i => (i, f i)) l.
  Proof. induction l; simpl; f_equal; auto. Qed.

  Lemma default_shape bits : rebuild_default nvars T = Ok bits ->
    length bits = (if nvars =? 0 then 0 else total_bits) /\ (forall v thr, In (v, thr) bits -> v < nvars) /\
    forall var, var < nvars -> count_var var bits = share var.
  Proof.
    unfold rebuild_default. intros H. destruct (mapM _ (seq 0 nvars)) as [bs| | |] eqn:Hm; cbn [bind] in H; try discriminate. injection H as <-.
    apply mapM_forall2 in Hm. destruct (blocks_shape (map share (seq 0 nvars)) bs 0) as (H1 & H2 & H3 & _).
    - rewrite map_length, seq_length, combine_map_r. apply forall2_map_l. eapply forall2_imp; [|exact Hm]. intros var b Hb. simpl in Hb.
      apply default_bits_shape in Hb. exact Hb.
    - rewrite map_length, seq_length in H2. split; [|split].
      + rewrite H1. destruct (Nat.eqb_spec nvars 0) as [->|Hn]; [reflexivity|now apply shares_total].
      + intros v thr Hi. apply H2 in Hi. lia.
      + intros var Hv. apply (H3 var). rewrite nth_error_map. replace (nth_error (seq 0 nvars) var) with (Some var); auto.
        symmetry. rewrite (nth_error_nth' _ 0) by now rewrite seq_length. now rewrite seq_nth.
  Qed.

  Lemma thresholds_shape var mn inc : forall k i l, thresholds T var mn inc k i = Ok l -> length l = k /\ forall v thr, In (v, thr) l -> v = var.
  Proof.
    induction k as [|k IH]; intros i l H; cbn [thresholds] in H.
    - injection H as <-. split; auto. intros v thr [].
    - destruct (norm T (inc * Z.of_nat i)) as [p| | |]; cbn [bind] in H; try discriminate.
      destruct (norm T (mn + p)) as [e| | |]; cbn [bind] in H; try discriminate.
      destruct (thresholds T var mn inc k (S i)) as [r| | |] eqn:Hr; cbn [bind] in H; try discriminate. injection H as <-.
      destruct (IH _ _ Hr) as [H1 H2]. split; [simpl; lia|]. intros v thr [Hv|Hv]; [congruence|eauto].
  Qed.
  Lemma var_bits_shape l first var k b : var_bits M ex T l first var k = Ok b -> length b = k /\ forall v thr, In (v, thr) b -> v = var.
  Proof.
    unfold var_bits. destruct (Nat.eqb_spec k 0) as [->|Hk].
    - intros H. injection H as <-. split; auto. intros v thr [].
    - destruct (min_max M ex l first var) as [mn mx]. destruct (norm T (mx - mn)) as [d| | |]; cbn [bind]; try discriminate. apply thresholds_shape.
  Qed.

  (** The distribution of the bits over the variables. *)
  Lemma sum_upd v : forall i b, nth_error v i = Some 0 -> list_sum (upd v i b) = list_sum v + b.
  Proof.
    induction v as [|a v IH]; intros [|i] b H; simpl in *; try discriminate.
    - injection H as ->. lia.
    - rewrite IH by auto. lia.
  Qed.

  Lemma assign_ok : forall datas i v, (forall d, In d datas -> d_var d < length v) ->
    exists v', assign_bits nvars datas i v = Ok v' /\ length v' = length v /\
      (forall x, ~ In x (map d_var datas) -> nth_error v' x = nth_error v x) /\
      (NoDup (map d_var datas) -> forall j d, nth_error datas j = Some d -> nth_error v' (d_var d) = Some (share (i + j))) /\
      (NoDup (map d_var datas) -> (forall d, In d datas -> nth_error v (d_var d) = Some 0) ->
        list_sum v' = list_sum v + list_sum (map share (seq i (length datas)))).
  Proof.
    induction datas as [|d datas IH]; intros i v Hb; cbn [assign_bits].
    - exists v. repeat split; auto. intros _ [|j]; discriminate.
    - rewrite vset_ok by (apply Hb; now left). cbn [bind]. fold (share i).
      destruct (IH (S i) (upd v (d_var d) (share i))) as (v' & Hv' & Hl & Hother & Hset & Hsum).
      { intros d' Hd'. rewrite upd_length. apply Hb. now right. }
      rewrite upd_length in Hl. exists v'. split; auto. split; auto. split; [|split].
      + intros x Hx. simpl in Hx. rewrite Hother by tauto. apply nth_upd_other. tauto.
      + intros Hd [|j] d' Hj; simpl in Hd, Hj; inversion Hd as [|? ? Hn Hd']; subst.
        * injection Hj as <-. rewrite Hother by auto. rewrite Nat.add_0_r. apply nth_upd_same. apply Hb. now left.
        * rewrite (Hset Hd' j d' Hj). f_equal. f_equal. lia.
      + intros Hd H0. simpl in Hd. inversion Hd as [|? ? Hn Hd']; subst. rewrite Hsum; auto.
        * rewrite sum_upd by (apply H0; now left). simpl. lia.
        * intros d' Hd1. rewrite nth_upd_other; [apply H0; now right|]. intros He. apply Hn. rewrite He. now apply in_map.
  Qed.

  Lemma make_data_var l first var d : make_data M ex T l first var = Ok d -> d_var d = var.
  Proof.
    unfold make_data. destruct (min_max M ex l first var) as [mn mx]. destruct (norm T (mx - mn)) as [e| | |]; cbn [bind]; try discriminate.
    destruct (norm T (mn + Z.quot e 2)) as [a| | |]; cbn [bind]; try discriminate. intros H. now injection H as <-.
  Qed.
  Lemma datas_vars l first : forall vars datas, mapM (make_data M ex T l first) vars = Ok datas -> map d_var datas = vars.
  Proof.
    intros vars datas H. apply mapM_forall2 in H. induction H as [|v d vars datas Hd H IH]; simpl; auto. f_equal; auto.
    now apply make_data_var in Hd.
  Qed.
  Lemma sum_repeat n : list_sum (repeat 0 n) = 0.
  Proof. induction n; simpl; auto. Qed.
  Lemma nth_error_repeat {A} (a : A) n i : i < n -> nth_error (repeat a n) i = Some a.
  Proof. revert i. induction n as [|n IH]; intros [|i] H; simpl; auto; try lia. apply IH. lia. Qed.

  Variable sort_data : list var_data -> list var_data.
  Hypothesis sort_perm : forall l, Permutation (sort_data l) l.

  Lemma rebuild_shape l bits : rebuild M ex nvars T sort_data l = Ok bits ->
    length bits = (if nvars =? 0 then 0 else total_bits) /\ (forall v thr, In (v, thr) bits -> v < nvars) /\
    match l with
    | [] => forall var, var < nvars -> count_var var bits = share var
    | x :: _ => exists datas, mapM (make_data M ex T l (ex x 0)) (seq 0 nvars) = Ok datas /\
        forall j d, nth_error (sort_data datas) j = Some d -> count_var (d_var d) bits = share j
    end.
  Proof.
    unfold rebuild. destruct l as [|x l]; [apply default_shape|]. set (l' := x :: l). intros H.
    destruct (mapM (make_data M ex T l' (ex x 0)) (seq 0 nvars)) as [datas| | |] eqn:Hd; cbn [bind] in H; try discriminate.
    pose proof (datas_vars _ _ _ _ Hd) as Hvars. assert (Hp : Permutation (map d_var (sort_data datas)) (seq 0 nvars)).
    { rewrite <- Hvars. now apply Permutation_map. }
    destruct (assign_ok (sort_data datas) 0 (repeat 0 nvars)) as (ks & Hk & Hlk & _ & Hset & Hsum).
    { intros d Hin. rewrite repeat_length. apply (in_map d_var) in Hin. apply (Permutation_in _ Hp) in Hin. apply in_seq in Hin. lia. }
    rewrite repeat_length in Hlk. rewrite Hk in H. cbn [bind] in H.
    destruct (mapM _ (combine (seq 0 nvars) ks)) as [bs| | |] eqn:Hm; cbn [bind] in H; try discriminate. injection H as <-.
    assert (Hnd : NoDup (map d_var (sort_data datas))) by (eapply nodup_perm; [symmetry; exact Hp|apply seq_NoDup]).
    assert (Hld : length (sort_data datas) = nvars).
    { rewrite <- (map_length d_var), (Permutation_length Hp). apply seq_length. }
    specialize (Hsum Hnd). rewrite sum_repeat, Hld in Hsum. apply mapM_forall2 in Hm. destruct (blocks_shape ks bs 0) as (H1 & H2 & H3 & _).
    - rewrite Hlk. eapply forall2_imp; [|exact Hm]. intros [var k] b Hb. simpl in *. now apply var_bits_shape in Hb.
    - rewrite Hlk in H2. split; [|split].
      + rewrite H1, Hsum.
        * destruct (Nat.eqb_spec nvars 0) as [->|Hn]; [reflexivity|now apply shares_total].
        * intros d Hin. apply nth_error_repeat. apply (in_map d_var) in Hin. apply (Permutation_in _ Hp) in Hin. apply in_seq in Hin. lia.
      + intros v thr Hi. apply H2 in Hi. lia.
      + exists datas. split; auto. intros j d Hj. apply (H3 (d_var d)). now apply Hset.
  Qed.

  (** A variable with a larger split gets at least as many bits. *)
  Lemma share_mono i j : i <= j -> share j <= share i.
  Proof.
    intros H. unfold share. generalize (total_bits / nvars), (total_bits mod nvars). intros a b. destruct (Nat.ltb_spec j b), (Nat.ltb_spec i b); lia.
  Qed.

  Lemma sorted_nth {A} (R : A -> A -> Prop) l : StronglySorted R l -> forall i j a b, i < j -> nth_error l i = Some a -> nth_error l j = Some b -> R a b.
  Proof.
    induction 1 as [|x l H IH HF]; intros i j a b Hij Hi Hj; [destruct i; discriminate|].
    destruct i as [|i]; destruct j as [|j]; simpl in Hi, Hj; [lia| |lia|].
    - injection Hi as <-. rewrite Forall_forall in HF. apply HF. eapply nth_error_In; eauto.
    - apply (IH i j a b); auto; lia.
  Qed.

  Lemma rebuild_order x l bits datas d d' : in_order (fun a b => d_split b <? d_split a) (sort_data datas) ->
    rebuild M ex nvars T sort_data (x :: l) = Ok bits -> mapM (make_data M ex T (x :: l) (ex x 0)) (seq 0 nvars) = Ok datas ->
    In d datas -> In d' datas -> d_split d' < d_split d -> count_var (d_var d') bits <= count_var (d_var d) bits.
  Proof.
    intros Hs H Hd Hin Hin' Hlt. destruct (rebuild_shape _ _ H) as (_ & _ & datas' & Hd' & Hc). rewrite Hd in Hd'. injection Hd' as <-.
    apply (Permutation_in _ (Permutation_sym (sort_perm datas))) in Hin, Hin'.
    apply In_nth_error in Hin as [i Hi]. apply In_nth_error in Hin' as [j Hj]. rewrite (Hc _ _ Hi), (Hc _ _ Hj). apply share_mono.
    destruct (Nat.le_gt_cases i j) as [H1|H1]; auto. pose proof (sorted_nth _ _ Hs _ _ _ _ H1 Hj Hi) as H2. simpl in H2. apply Nat.ltb_ge in H2. lia.
  Qed.

  (** ** No two bits mean the same *)
  Lemma nodup_blocks (ks : list nat) : forall (bs : list (list (nat * Z))) (start : nat),
    Forall2 (fun p b => (length b = snd p /\ forall v thr, In (v, thr) b -> v = fst p) /\ NoDup b) (combine (seq start (length ks)) ks) bs ->
    NoDup (concat bs).
  Proof.
    induction ks as [|k ks IH]; intros bs start H; simpl in H; inversion H as [|? b ? bs' [[Hl Hv] Hn] H']; subst; [constructor|].
    simpl. apply nodup_app. split; auto. split; [eauto|]. intros [v thr] Hi Hi'. simpl in Hv. apply Hv in Hi. subst v.
    destruct (blocks_shape ks bs' (S start)) as (_ & Hb & _); [eapply forall2_imp; [|exact H']; simpl; tauto|]. apply Hb in Hi'. lia.
  Qed.

  Definition exact_type : Prop := forall z z', norm T z = Ok z' -> z' = z.

  Lemma thresholds_val (HT : exact_type) var mn inc : forall k i l, thresholds T var mn inc k i = Ok l ->
    l = map (fun j => (var, (mn + inc * Z.of_nat j)%Z)) (seq i k).
  Proof.
    induction k as [|k IH]; intros i l H; cbn [thresholds] in H.
    - now injection H as <-.
    - destruct (norm T (inc * Z.of_nat i)) as [p| | |] eqn:Hp; cbn [bind] in H; try discriminate.
      destruct (norm T (mn + p)) as [e| | |] eqn:He; cbn [bind] in H; try discriminate.
      destruct (thresholds T var mn inc k (S i)) as [r| | |] eqn:Hr; cbn [bind] in H; try discriminate. injection H as <-.
      apply HT in Hp, He. subst. simpl. f_equal. now apply IH.
  Qed.

  Lemma min_max_spec l var first : let (mn, mx) := min_max M ex l first var in
    (mn <= first <= mx)%Z /\ (forall x, In x l -> (mn <= ex x var <= mx)%Z) /\
    (mn = first \/ exists x, In x l /\ mn = ex x var) /\ (mx = first \/ exists x, In x l /\ mx = ex x var).
  Proof.
    unfold min_max. enough (H : forall a b, (a <= b)%Z -> let (mn, mx) := fold_left (fun mm x => let e := ex x var in
      ((if e <? fst mm then e else fst mm), (if snd mm <? e then e else snd mm))%Z) l (a, b) in
      (mn <= a)%Z /\ (b <= mx)%Z /\ (forall x, In x l -> (mn <= ex x var <= mx)%Z) /\ (mn = a \/ exists x, In x l /\ mn = ex x var) /\
      (mx = b \/ exists x, In x l /\ mx = ex x var)).
    { specialize (H first first (Z.le_refl _)). destruct (fold_left _ l (first, first)) as [mn mx]. destruct H as (H1 & H2 & H3 & H4 & H5).
      split; [lia|]. auto. }
    induction l as [|x l IH]; intros a b Hab; cbn [fold_left].
    - split; [lia|]. split; [lia|]. split; [intros x []|]. auto.
    - cbn [fst snd]. specialize (IH (if ex x var <? a then ex x var else a)%Z (if b <? ex x var then ex x var else b)%Z).
      assert (Ha : ((if ex x var <? a then ex x var else a) <= a /\ (if ex x var <? a then ex x var else a) <= ex x var)%Z) by (destruct (Z.ltb_spec (ex x var) a); lia).
      assert (Hb : (b <= (if b <? ex x var then ex x var else b) /\ ex x var <= (if b <? ex x var then ex x var else b))%Z) by (destruct (Z.ltb_spec b (ex x var)); lia).
      assert (Ha' : ((if ex x var <? a then ex x var else a) = a \/ (if ex x var <? a then ex x var else a) = ex x var)%Z) by (destruct (Z.ltb_spec (ex x var) a); auto).
      assert (Hb' : ((if b <? ex x var then ex x var else b) = b \/ (if b <? ex x var then ex x var else b) = ex x var)%Z) by (destruct (Z.ltb_spec b (ex x var)); auto).
      set (a' := (if ex x var <? a then ex x var else a)%Z) in *. set (b' := (if b <? ex x var then ex x var else b)%Z) in *. clearbody a' b'.
      destruct (fold_left _ l (a', b')) as [mn mx]. destruct IH as (H1 & H2 & H3 & H4 & H5); [lia|]. split; [lia|]. split; [lia|]. split; [|split].
      + intros y [<-|Hy]; [lia|auto].
      + destruct H4 as [->|(y & Hy & ->)]; [destruct Ha' as [->| ->]; [auto|right; exists x; split; [now left|auto]]|right; exists y; split; [now right|auto]].
      + destruct H5 as [->|(y & Hy & ->)]; [destruct Hb' as [->| ->]; [auto|right; exists x; split; [now left|auto]]|right; exists y; split; [now right|auto]].
  Qed.

  Lemma quot_pos d k : (0 <= d)%Z -> (0 < k)%Z -> (0 <= Z.quot d k /\ Z.quot d k * k <= d)%Z.
  Proof.
    intros Hd Hk. pose proof (Z.quot_pos d k Hd Hk). split; auto. rewrite Z.mul_comm. apply Z.mul_quot_le; lia.
  Qed.

  Lemma var_bits_nodup (HT : exact_type) l first var k b : var_bits M ex T l first var k = Ok b -> NoDup b.
  Proof.
    unfold var_bits. destruct (Nat.eqb_spec k 0) as [->|Hk]; [intros H; injection H as <-; constructor|].
    pose proof (min_max_spec l var first) as Hm. destruct (min_max M ex l first var) as [mn mx].
    destruct (norm T (mx - mn)) as [d| | |] eqn:Hd; cbn [bind]; try discriminate. apply HT in Hd. subst d.
    destruct (quot_pos (mx - mn) (Z.of_nat k)) as [Hq _]; [lia|lia|].
    set (inc := (if Z.quot (mx - mn) (Z.of_nat k) =? 0 then 1 else Z.quot (mx - mn) (Z.of_nat k))%Z).
    assert (Hinc : (0 < inc)%Z) by (unfold inc; destruct (Z.eqb_spec (Z.quot (mx - mn) (Z.of_nat k)) 0); lia).
    intros H. apply (thresholds_val HT) in H. subst b. apply FinFun.Injective_map_NoDup; [|apply seq_NoDup]. intros i j He. injection He as He. nia.
  Qed.

  Lemma default_val (HT : exact_type) var : forall k i l, 0 < i -> default_bits T var k i (2 ^ (Z.of_nat i - 1))%Z = Ok l ->
    l = map (fun j => (var, (2 ^ (Z.of_nat j - 1))%Z)) (seq i k).
  Proof.
    induction k as [|k IH]; intros i l Hi H; cbn [default_bits] in H.
    - now injection H as <-.
    - replace (i =? 0) with false in H by (symmetry; apply Nat.eqb_neq; lia).
      destruct (norm T (2 ^ (Z.of_nat i - 1) * 2)) as [e| | |] eqn:He; cbn [bind] in H; try discriminate. apply HT in He.
      assert (He' : (e = 2 ^ (Z.of_nat (S i) - 1))%Z).
      { subst e. rewrite Z.mul_comm, <- Z.pow_succ_r by lia. f_equal. lia. }
      rewrite He' in H. destruct (default_bits T var k (S i) _) as [r| | |] eqn:Hr; cbn [bind] in H; try discriminate. injection H as <-.
      simpl. f_equal. apply IH; auto.
  Qed.
  Lemma default_start (HT : exact_type) var k l : default_bits T var k 0 0 = Ok l ->
    l = match k with 0 => [] | S k' => (var, 0%Z) :: map (fun j => (var, (2 ^ (Z.of_nat j - 1))%Z)) (seq 1 k') end.
  Proof.
    destruct k as [|k]; cbn [default_bits]; intros H; [now injection H as <-|]. cbn [Nat.eqb bind] in H.
    destruct (default_bits T var k 1 1) as [r| | |] eqn:Hr; cbn [bind] in H; try discriminate. injection H as <-. f_equal.
    apply (default_val HT); auto.
  Qed.
  Lemma default_nodup_bits (HT : exact_type) var k l : default_bits T var k 0 0 = Ok l -> NoDup l.
  Proof.
    intros H. apply (default_start HT) in H. subst l. destruct k as [|k]; constructor.
    - intros Hi. apply in_map_iff in Hi as (j & Hj & Hs). injection Hj as Hj. apply in_seq in Hs.
      assert (0 < 2 ^ (Z.of_nat j - 1))%Z by (apply Z.pow_pos_nonneg; lia). lia.
    - rewrite <- seq_shift, map_map. apply FinFun.Injective_map_NoDup; [|apply seq_NoDup].
      intros i j He. apply (f_equal snd) in He. cbn [snd] in He. assert (Z.of_nat (S i) - 1 = Z.of_nat (S j) - 1)%Z by (apply (Z.pow_inj_r 2); lia). lia.
  Qed.

  Lemma default_nodup (HT : exact_type) bits : rebuild_default nvars T = Ok bits -> NoDup bits.
  Proof.
    unfold rebuild_default. intros H. destruct (mapM _ (seq 0 nvars)) as [bs| | |] eqn:Hm; cbn [bind] in H; try discriminate. injection H as <-.
    apply mapM_forall2 in Hm. apply (nodup_blocks (map share (seq 0 nvars)) bs 0).
    rewrite map_length, seq_length, combine_map_r. apply forall2_map_l. eapply forall2_imp; [|exact Hm]. intros var b Hb. simpl in Hb. split.
    - apply default_bits_shape in Hb. exact Hb.
    - now apply (default_nodup_bits HT) in Hb.
  Qed.

  Lemma rebuild_nodup (HT : exact_type) l bits : rebuild M ex nvars T sort_data l = Ok bits -> NoDup bits.
  Proof.
    unfold rebuild. destruct l as [|x l]; [apply (default_nodup HT)|]. set (l' := x :: l). intros H.
    destruct (mapM (make_data M ex T l' (ex x 0)) (seq 0 nvars)) as [datas| | |] eqn:Hd; cbn [bind] in H; try discriminate.
    destruct (assign_bits nvars (sort_data datas) 0 (repeat 0 nvars)) as [ks| | |] eqn:Hk; cbn [bind] in H; try discriminate.
    assert (Hlk : length ks = nvars).
    { pose proof (datas_vars _ _ _ _ Hd) as Hvars.
      destruct (assign_ok (sort_data datas) 0 (repeat 0 nvars)) as (ks' & Hk' & Hlk & _).
      - intros d Hin. rewrite repeat_length. apply (Permutation_in _ (sort_perm datas)), (in_map d_var) in Hin. rewrite Hvars in Hin. apply in_seq in Hin. lia.
      - rewrite Hk in Hk'. injection Hk' as <-. now rewrite repeat_length in Hlk. }
    destruct (mapM _ (combine (seq 0 nvars) ks)) as [bs| | |] eqn:Hm; cbn [bind] in H; try discriminate. injection H as <-.
    apply mapM_forall2 in Hm. apply (nodup_blocks ks bs 0). rewrite Hlk. eapply forall2_imp; [|exact Hm]. intros [var k] b Hb. simpl in *. split.
    - now apply var_bits_shape in Hb.
    - now apply (var_bits_nodup HT) in Hb.
  Qed.
End Proofs.

(** ** When the calculators are defined *)
Lemma norm_exact T : (forall b, T <> Unsigned b) -> exact_type T.
Proof.
  intros HT z z'. destruct T as [|b|b]; simpl.
  - now intros H; injection H as <-.
  - destruct (_ && _); [now intros H; injection H as <-|discriminate].
  - now elim (HT b).
Qed.
Lemma norm_signed b z : (- 2 ^ (Z.of_N b - 1) <= z < 2 ^ (Z.of_N b - 1))%Z -> norm (Signed b) z = Ok z.
Proof. intros H. simpl. replace (_ && _) with true; auto. symmetry. apply andb_true_intro. split; [apply Z.leb_le|apply Z.ltb_lt]; lia. Qed.

Section Defined.
  Context {M : Type}.
  Variable ex : M -> nat -> Z.
  Variable nvars : nat.

  (** Types without wrap-around and enough room. *)
  Definition roomy (T : exptype) (lo hi : Z) : Prop := forall z, (lo <= z <= hi)%Z -> norm T z = Ok z.

  Lemma roomy_unbounded lo hi : roomy Unbounded lo hi.
  Proof. intros z _. reflexivity. Qed.
  Lemma roomy_signed b lo hi : (- 2 ^ (Z.of_N b - 1) <= lo)%Z -> (hi < 2 ^ (Z.of_N b - 1))%Z -> roomy (Signed b) lo hi.
  Proof. intros H1 H2 z Hz. apply norm_signed. lia. Qed.
  Lemma roomy_unsigned b lo hi : (0 <= lo)%Z -> (hi < 2 ^ Z.of_N b)%Z -> roomy (Unsigned b) lo hi.
  Proof. intros H1 H2 z Hz. simpl. f_equal. apply Z.mod_small. lia. Qed.

  Variable T : exptype.

  Lemma default_defined var K : roomy T 0 (2 ^ Z.of_nat K)%Z -> forall k i, i + k <= S K -> 0 < i -> exists l, default_bits T var k i (2 ^ (Z.of_nat i - 1))%Z = Ok l.
  Proof.
    intros Hr. induction k as [|k IH]; intros i Hk Hi; cbn [default_bits]; [eauto|].
    replace (i =? 0) with false by (symmetry; apply Nat.eqb_neq; lia).
    assert (He : (2 ^ (Z.of_nat i - 1) * 2 = 2 ^ (Z.of_nat (S i) - 1))%Z).
    { rewrite Z.mul_comm, <- Z.pow_succ_r by lia. f_equal. lia. }
    rewrite He, Hr.
    - cbn [bind]. destruct (IH (S i)) as [l ->]; [lia|lia|]. cbn [bind]. eauto.
    - split; [apply Z.pow_nonneg; lia|]. apply Z.pow_le_mono_r; lia.
  Qed.
  Lemma share_bound : nvars <> 1 -> nvars <> 0 -> forall i, share nvars i <= 17.
  Proof.
    intros H1 H0 i. unfold share. assert (total_bits / nvars <= 16).
    { apply Nat.div_le_upper_bound; auto. unfold total_bits. lia. }
    destruct (i <? total_bits mod nvars); lia.
  Qed.
  Lemma share_bound_all i : nvars <> 0 -> share nvars i <= 32.
  Proof.
    intros H0. destruct (Nat.eq_dec nvars 1) as [->|H1]; [|pose proof (share_bound H1 H0 i); lia].
    unfold share. replace (total_bits mod 1) with 0 by reflexivity. simpl. lia.
  Qed.
  Lemma rebuild_default_defined K : roomy T 0 (2 ^ Z.of_nat K)%Z -> (forall i, i < nvars -> share nvars i <= S K) -> exists bits, rebuild_default nvars T = Ok bits.
  Proof.
    intros Hr Hk. unfold rebuild_default. destruct (mapM_exists (fun var => default_bits T var (share nvars var) 0 0) (seq 0 nvars)) as [l Hl].
    - intros var Hv. apply in_seq in Hv. specialize (Hk var ltac:(lia)). destruct (share nvars var) as [|k]; cbn [default_bits]; [eauto|].
      cbn [Nat.eqb bind]. destruct (default_defined var K Hr k 1) as [l Hl]; [lia|lia|]. simpl in Hl. rewrite Hl. cbn [bind]. eauto.
    - unfold share in Hl. rewrite Hl. cbn [bind]. eauto.
  Qed.

  Variable sort_data : list var_data -> list var_data.
  Hypothesis sort_perm : forall l, Permutation (sort_data l) l.
  Variable lo hi : Z.
  Hypothesis Hroom : roomy T (Z.min 0 lo) (hi + 31)%Z.
  Hypothesis Hdiff : roomy T 0 (hi - lo)%Z.
  Hypothesis Hroom0 : roomy T 0 (Z.max 31 (hi - lo))%Z.

  Lemma thresholds_defined var mn inc k : forall n i, (forall j, i <= j < i + n -> norm T (inc * Z.of_nat j) = Ok (inc * Z.of_nat j)%Z /\ norm T (mn + inc * Z.of_nat j) = Ok (mn + inc * Z.of_nat j)%Z) ->
    n <= k -> exists l, thresholds T var mn inc n i = Ok l.
  Proof.
    induction n as [|n IH]; intros i H Hn; cbn [thresholds]; [eauto|].
    destruct (H i) as [H1 H2]; [lia|]. rewrite H1. cbn [bind]. rewrite H2. cbn [bind]. destruct (IH (S i)) as [l ->]; [intros j Hj; apply H; lia|lia|].
    cbn [bind]. eauto.
  Qed.

  Lemma rebuild_defined x l : (forall y var, In y (x :: l) -> var < nvars -> (lo <= ex y var <= hi)%Z) -> exists bits, rebuild M ex nvars T sort_data (x :: l) = Ok bits.
  Proof.
    intros Hl. unfold rebuild. set (l' := x :: l) in *. destruct (Nat.eq_dec nvars 0) as [Hz|Hz].
    { rewrite Hz. cbn [seq mapM bind repeat combine]. pose proof (sort_perm []) as Hp. apply Permutation_sym, Permutation_nil in Hp. rewrite Hp. cbn. eauto. }
    assert (Hmm : forall var, var < nvars -> let (mn, mx) := min_max M ex l' (ex x 0) var in (lo <= mn <= mx /\ mx <= hi)%Z).
    { intros var Hv. pose proof (min_max_spec ex l' var (ex x 0)) as Hm. destruct (min_max M ex l' (ex x 0) var) as [mn mx].
      assert (H0 : (lo <= ex x 0 <= hi)%Z) by (apply Hl; [now left|lia]). destruct Hm as (H1 & H2 & H3 & H4). split; [split; [|lia]|].
      - destruct H3 as [->|(y & Hy & ->)]; [lia|]. now apply Hl.
      - destruct H4 as [->|(y & Hy & ->)]; [lia|]. now apply Hl. }
    destruct (mapM_exists (make_data M ex T l' (ex x 0)) (seq 0 nvars)) as [datas Hd].
    { intros var Hv. apply in_seq in Hv. specialize (Hmm var ltac:(lia)). unfold make_data. destruct (min_max M ex l' (ex x 0) var) as [mn mx].
      rewrite Hdiff by lia. cbn [bind]. destruct (quot_pos (mx - mn) 2) as [Hq1 Hq2]; [lia|lia|].
      rewrite Hroom by lia. cbn [bind]. eauto. }
    rewrite Hd. cbn [bind]. pose proof (datas_vars _ _ _ _ _ _ Hd) as Hvars.
    destruct (assign_ok nvars (sort_data datas) 0 (repeat 0 nvars)) as (ks & Hk & Hlk & _ & Hset & _).
    { intros d Hin. rewrite repeat_length. apply (Permutation_in _ (sort_perm datas)), (in_map d_var) in Hin. rewrite Hvars in Hin. apply in_seq in Hin. lia. }
    assert (Hp : Permutation (map d_var (sort_data datas)) (seq 0 nvars)) by (rewrite <- Hvars; now apply Permutation_map).
    rewrite Hk. cbn [bind]. rewrite repeat_length in Hlk.
    assert (Hks : forall i k, nth_error ks i = Some k -> k <= 32).
    { intros i k Hi. assert (Hin : In i (map d_var (sort_data datas))).
      { eapply Permutation_in; [symmetry; exact Hp|]. apply in_seq. apply nth_error_some_lt in Hi. lia. }
      apply in_map_iff in Hin as (d & <- & Hin). apply In_nth_error in Hin as [j Hj]. rewrite (Hset) with (j := j) in Hi; auto.
      - injection Hi as <-. now apply share_bound_all.
      - eapply nodup_perm; [symmetry; exact Hp|apply seq_NoDup]. }
    match goal with |- context [mapM ?f ?c] => destruct (mapM_exists f c) as [bs Hbs] end.
    - intros [var k] Hin. simpl. assert (Hvk : var < nvars /\ k <= 32).
      { apply In_nth_error in Hin as [i Hi]. assert (Hi' : i < length (combine (seq 0 nvars) ks)) by (now apply nth_error_some_lt in Hi).
        rewrite combine_length, seq_length, Hlk, Nat.min_id in Hi'.
        pose proof (nth_error_nth _ _ (0, 0) Hi) as Hn. rewrite combine_nth in Hn by (rewrite seq_length; lia). injection Hn as Hn1 Hn2.
        rewrite seq_nth in Hn1 by lia. split; [lia|]. apply (Hks i). rewrite <- Hn2. apply nth_error_nth'. lia. }
      destruct Hvk as [Hv Hk32]. specialize (Hmm var Hv). unfold var_bits. destruct (Nat.eqb_spec k 0) as [->|Hk0]; [eauto|].
      destruct (min_max M ex l' (ex x 0) var) as [mn mx]. rewrite Hdiff by lia. cbn [bind].
      destruct (quot_pos (mx - mn) (Z.of_nat k)) as [Hq1 Hq2]; [lia|lia|]. apply (thresholds_defined _ _ _ k); auto. intros j Hj.
      destruct (Z.eqb_spec (Z.quot (mx - mn) (Z.of_nat k)) 0) as [_|Hq].
      + split; [apply Hroom0|apply Hroom]; lia.
      + set (q := Z.quot (mx - mn) (Z.of_nat k)) in *. assert (q * Z.of_nat j <= mx - mn)%Z by nia. assert (0 <= q * Z.of_nat j)%Z by nia.
        split; [apply Hroom0|apply Hroom]; lia.
    - rewrite Hbs. cbn [bind]. eauto.
  Qed.
End Defined.

(** ** Fair shares *)
Lemma share_fair nvars i : total_bits / nvars <= share nvars i <= total_bits / nvars + 1.
Proof. unfold share. generalize (total_bits / nvars), (total_bits mod nvars). intros a b. destruct (i <? b); lia. Qed.

Lemma default_fair nvars T : nvars <> 0 -> forall bits, rebuild_default nvars T = Ok bits ->
  length bits = 32 /\ (forall var thr, In (var, thr) bits -> var < nvars) /\
  forall var, var < nvars -> 32 / nvars <= length (filter (fun b => fst b =? var) bits) <= 32 / nvars + 1.
Proof.
  intros Hn bits H. apply default_shape in H as (H1 & H2 & H3). replace (nvars =? 0) with false in H1 by (symmetry; now apply Nat.eqb_neq).
  split; [exact H1|]. split; auto. intros var Hv. specialize (H3 var Hv). unfold count_var in H3. rewrite H3. apply share_fair.
Qed.

Lemma rebuild_fair {M} (ex : M -> nat -> Z) nvars T sort_data : (forall l, Permutation (sort_data l) l) -> nvars <> 0 ->
  forall l bits, rebuild M ex nvars T sort_data l = Ok bits ->
  length bits = 32 /\ (forall var thr, In (var, thr) bits -> var < nvars) /\
  forall var, var < nvars -> 32 / nvars <= length (filter (fun b => fst b =? var) bits) <= 32 / nvars + 1.
Proof.
  intros Hp Hn l bits H. apply (rebuild_shape ex nvars T sort_data Hp) in H as (H1 & H2 & H3).
  replace (nvars =? 0) with false in H1 by (symmetry; now apply Nat.eqb_neq). split; [exact H1|]. split; auto. intros var Hv. destruct l as [|x l].
  - specialize (H3 var Hv). unfold count_var in H3. rewrite H3. apply share_fair.
  - destruct H3 as (datas & Hd & Hc). pose proof (datas_vars _ _ _ _ _ _ Hd) as Hvars.
    assert (Hin : In var (map d_var (sort_data datas))).
    { eapply Permutation_in; [apply Permutation_map, Permutation_sym, Hp|]. rewrite Hvars. apply in_seq. lia. }
    apply in_map_iff in Hin as (d & <- & Hin). apply In_nth_error in Hin as [j Hj]. specialize (Hc j d Hj). unfold count_var in Hc. rewrite Hc. apply share_fair.
Qed.

Lemma default_defined_types nvars :
  (nvars <> 1 -> exists bits, rebuild_default nvars (Signed 32) = Ok bits) /\
  (exists bits, rebuild_default nvars (Signed 64) = Ok bits) /\
  (exists bits, rebuild_default nvars Unbounded = Ok bits).
Proof.
  split; [|split].
  - intros H1. apply (rebuild_default_defined nvars _ 17).
    + apply roomy_signed; vm_compute; [discriminate|reflexivity].
    + intros i Hi. pose proof (share_bound nvars H1 ltac:(lia) i). lia.
  - apply (rebuild_default_defined nvars _ 40).
    + apply roomy_signed; vm_compute; [discriminate|reflexivity].
    + intros i Hi. pose proof (share_bound_all nvars i ltac:(lia)). lia.
  - apply (rebuild_default_defined nvars _ 40).
    + apply roomy_unbounded.
    + intros i Hi. pose proof (share_bound_all nvars i ltac:(lia)). lia.
Qed.

Lemma rebuild_defined_int {M} (ex : M -> nat -> Z) nvars sort_data : (forall l, Permutation (sort_data l) l) -> forall x l,
  (forall y var, In y (x :: l) -> var < nvars -> (0 <= ex y var <= 2 ^ 31 - 1 - 31)%Z) ->
  exists bits, rebuild M ex nvars (Signed 32) sort_data (x :: l) = Ok bits.
Proof.
  intros Hp x l Hl. apply (rebuild_defined ex nvars (Signed 32) sort_data Hp 0 (2 ^ 31 - 1 - 31)); auto;
    apply roomy_signed; vm_compute; (discriminate || reflexivity).
Qed.

(** ** Extended entries *)
Section Ext.
  Context {M : Type}.
  Variable ex : M -> nat -> Z.
  Variable nvars : nat.
  Variable divides : M -> M -> bool.
  Hypothesis Hdiv : forall a b, divides a b = true -> forall var, var < nvars -> (ex a var <= ex b var)%Z.
  Variable bits : list (nat * Z).
  Hypothesis Hbits : forall v thr, In (v, thr) bits -> v < nvars.

  Lemma ext_divides_ok use a b : ext_divides M use divides (extend M ex use bits a) (extend M ex use bits b) = divides a b.
  Proof.
    unfold ext_divides, extend, has_can_divide. simpl. destruct use; auto. destruct (can_divide _ _) eqn:Hc; auto.
    destruct (divides a b) eqn:Hd; auto. rewrite (mask_sound_vars ex nvars bits a b Hbits (Hdiv _ _ Hd)) in Hc. discriminate.
  Qed.
  Lemma recalculate_ok use a b : ext_divides M use divides (recalculate M ex use bits a) (recalculate M ex use bits b) = divides (x_t a) (x_t b).
  Proof.
    destruct use; [|reflexivity]. apply (ext_divides_ok true).
  Qed.
End Ext.

(** ** Combined masks *)
Lemma narrow_lt m : narrow m <-> (m < 2 ^ 32)%N.
Proof.
  split.
  - intros H. destruct (N.eq_dec m 0) as [->|Hm]; [reflexivity|]. apply N.log2_lt_pow2; [lia|].
    destruct (N.lt_ge_cases (N.log2 m) 32) as [Hl|Hl]; auto. pose proof (N.bit_log2 m Hm) as Hb. rewrite (H _ Hl) in Hb. discriminate.
  - intros H i Hi. destruct (N.eq_dec m 0) as [->|Hm]; [apply N.bits_0|]. apply N.bits_above_log2.
    apply N.lt_le_trans with 32%N; auto. apply N.log2_lt_pow2; [lia|auto].
Qed.

Lemma fold_bit ms : forall m i, N.testbit (fold_left combine_and ms m) i = N.testbit m i && forallb (fun m => N.testbit m i) ms.
Proof.
  induction ms as [|a ms IH]; intros m i; simpl; [now rewrite andb_true_r|]. rewrite IH, combine_bit. now rewrite andb_assoc.
Qed.
Lemma combined_bit ms i : (i < 32)%N -> N.testbit (fold_left combine_and ms max_mask) i = forallb (fun m => N.testbit m i) ms.
Proof. intros H. rewrite fold_bit, max_mask_bit. replace (i <? 32)%N with true by (symmetry; now apply N.ltb_lt). reflexivity. Qed.
Lemma combined_narrow ms : narrow (fold_left combine_and ms max_mask).
Proof. intros i Hi. rewrite fold_bit, (narrow_max i Hi). reflexivity. Qed.
Lemma combined_lower ms m m' : (forall m, In m ms -> (m < 2 ^ 32)%N) -> In m ms ->
  can_divide m m' = true -> can_divide (fold_left combine_and ms max_mask) m' = true.
Proof.
  intros Hs Hin H. apply can_divide_spec; [apply combined_narrow|]. intros i Hi. rewrite fold_bit in Hi. apply andb_prop in Hi as [_ Hi].
  rewrite forallb_forall in Hi. apply (proj1 (can_divide_spec m m' (proj2 (narrow_lt m) (Hs m Hin))) H). now apply Hi.
Qed.
Lemma max_mask_ok m : (m < 2 ^ 32)%N ->
  combine_and max_mask m = m /\ combine_and m max_mask = m /\ can_divide m max_mask = true /\ (can_divide max_mask m = true -> m = max_mask).
Proof.
  intros Hm. apply narrow_lt in Hm. assert (H1 : combine_and max_mask m = m).
  { apply N.bits_inj. intros i. rewrite combine_bit, max_mask_bit. destruct (N.ltb_spec i 32) as [H|H]; auto. now rewrite (Hm i H). }
  split; auto. split; [unfold combine_and in *; now rewrite N.land_comm|]. split.
  - apply can_divide_spec; auto. intros i Hi. rewrite max_mask_bit. destruct (N.ltb_spec i 32) as [H|H]; auto. rewrite (Hm i H) in Hi. discriminate.
  - intros H. apply N.bits_inj. intros i. rewrite max_mask_bit. destruct (N.ltb_spec i 32) as [Hi|Hi]; [|now apply Hm].
    apply (proj1 (can_divide_spec _ _ narrow_max) H). rewrite max_mask_bit. now apply N.ltb_lt.
Qed.

Lemma combined_sound {M} (ex : M -> nat -> Z) nvars bits es a b : (forall v thr, In (v, thr) bits -> v < nvars) -> In a es ->
  (forall var, var < nvars -> (ex a var <= ex b var)%Z) -> can_divide (fold_left combine_and (map (compute M ex bits) es) max_mask) (compute M ex bits b) = true.
Proof.
  intros Hb Hin H. apply combined_lower with (compute M ex bits a).
  - intros m Hm. apply in_map_iff in Hm as (x & <- & _). apply narrow_lt, compute_narrow.
  - now apply in_map.
  - eapply mask_sound_vars; eauto.
Qed.
