(** Proofs about ratioDouble (C44). *)
From Coq Require Import List Arith Bool ZArith NArith Ascii String Lia Floats.SpecFloat.
From Verif.Base Require Import Res Text Double.
From Verif.Spec Require Import Rounding.
From Verif.Output Require Import Numbers NumbersProofs.
Import ListNotations.
Local Open Scope Z_scope.

(** The double is less than 10^-9 away from zero. *)
Definition near_zero (d : double) : bool :=
  match d with
  | S754_zero _ => true
  | S754_finite _ m e => 10 ^ 9 * val m e <? scale
  | _ => false
  end.

Lemma valid_cases s m e : valid_binary 53 1024 (S754_finite s m e) = true -> (Zpos m < 2 ^ 53) /\ -1074 <= e /\ (-1074 < e -> 2 ^ 52 <= Zpos m).
Proof.
  cbn [valid_binary]. unfold bounded, canonical_mantissa, fexp, emin. intros H. apply andb_true_iff in H as [H1 H2].
  apply Zeq_bool_eq in H1. apply Zle_bool_imp_le in H2. pose proof (digits2_pos_bounds m) as [D1 D2].
  assert (Hd : Zpos (digits2_pos m) <= 53) by lia. split; [|split].
  - eapply Z.lt_le_trans; [exact D2|]. apply Z.pow_le_mono_r; lia.
  - lia.
  - intros He. eapply Z.le_trans; [|exact D1]. apply Z.pow_le_mono_r; lia.
Qed.

Lemma epsilon_is : epsilon = S754_finite false 4835703278458517 (-82).
Proof. vm_compute. reflexivity. Qed.

Lemma scale_split : scale = 2 ^ 82 * unit (-82).
Proof. unfold scale, unit. rewrite <- Z.pow_add_r by lia. reflexivity. Qed.

Lemma same_exponent m u : 0 < u -> 10 ^ 9 * (Zpos m * u) < 2 ^ 82 * u <-> Zpos m < 4835703278458517.
Proof.
  intros P. change (2 ^ 82) with 4835703278458516698824704. change (10 ^ 9) with 1000000000. split; intros H.
  - assert (H0 : 1000000000 * Zpos m < 4835703278458516698824704) by nia. lia.
  - assert (H0 : 1000000000 * Zpos m < 4835703278458516698824704) by lia. nia.
Qed.

Lemma below_exponent m u w : Zpos m < 2 ^ 53 -> 0 < w -> 2 * w <= u -> 10 ^ 9 * (Zpos m * w) < 2 ^ 82 * u.
Proof.
  intros P Hw Hu. change (2 ^ 82) with 4835703278458516698824704. change (10 ^ 9) with 1000000000. change (2 ^ 53) with 9007199254740992 in P.
  assert (H0 : Zpos m * w <= 9007199254740992 * w) by (apply Z.mul_le_mono_nonneg_r; lia). lia.
Qed.

Lemma above_exponent m u w : 2 ^ 52 <= Zpos m -> 0 < w -> 2 * w <= u -> 2 ^ 82 * w <= 10 ^ 9 * (Zpos m * u).
Proof.
  intros P Hw Hu. change (2 ^ 82) with 4835703278458516698824704. change (10 ^ 9) with 1000000000. change (2 ^ 52) with 4503599627370496 in P.
  assert (H0 : 4503599627370496 * u <= Zpos m * u) by (apply Z.mul_le_mono_nonneg_r; lia). lia.
Qed.

Lemma compare_cont_lt m n : Some (Pos.compare_cont Eq m n) = Some Lt <-> Zpos m < Zpos n.
Proof.
  change (Pos.compare_cont Eq m n) with (m ?= n)%positive. change (Zpos m < Zpos n) with ((m ?= n)%positive = Lt). split; congruence.
Qed.

Lemma below_epsilon m e : Zpos m < 2 ^ 53 -> -1074 <= e -> (-1074 < e -> 2 ^ 52 <= Zpos m) ->
  SFcompare (S754_finite false m e) epsilon = Some Lt <-> 10 ^ 9 * val m e < scale.
Proof.
  intros Hm He Hn. rewrite epsilon_is. cbn [SFcompare]. unfold val. pose proof (unit_pos e He) as Pe.
  assert (P82 : 0 < unit (-82)) by (apply unit_pos; lia).
  rewrite scale_split. destruct (Z.compare_spec e (-82)) as [->|Hlt|Hgt].
  - rewrite compare_cont_lt. symmetry. apply same_exponent. exact P82.
  - split; [|reflexivity]. intros _. apply below_exponent; auto.
    rewrite <- unit_succ by lia. apply unit_mono; lia.
  - split; [discriminate|]. intros H. exfalso. apply Z.lt_nge in H. apply H. apply above_exponent; auto.
    + apply Hn. lia.
    + rewrite <- unit_succ by lia. apply unit_mono; lia.
Qed.

Lemma above_minus_epsilon m e : SFcompare (S754_finite true m e) (dopp epsilon) = Some Gt <-> SFcompare (S754_finite false m e) epsilon = Some Lt.
Proof.
  rewrite epsilon_is. cbn [dopp SFopp negb SFcompare]. destruct (e ?= -82); [|split; congruence|split; congruence].
  destruct (Pos.compare_cont Eq m 4835703278458517); simpl; split; congruence.
Qed.

Lemma compare_swap f g : SFcompare f g = option_map CompOpp (SFcompare g f).
Proof.
  destruct f as [| [] | |[] m e], g as [| [] | |[] m' e']; cbn [SFcompare option_map CompOpp]; auto;
    rewrite (Z.compare_antisym e' e); destruct (e' ?= e); cbn [CompOpp]; auto; change (Pos.compare_cont Eq m m') with (Pos.compare_cont (CompOpp Eq) m m'); rewrite <- (Pos.compare_cont_antisym m' m Eq);
    repeat match goal with |- context [Pos.compare_cont ?c ?a ?b] => destruct (Pos.compare_cont c a b) end; reflexivity.
Qed.

Lemma as_bool_lt c x y : (c = Some Lt <-> x < y) -> match c with Some Lt => true | _ => false end = (x <? y).
Proof.
  intros [H1 H2]. destruct (Z.ltb_spec x y) as [H|H]; [rewrite (H2 H); reflexivity|].
  destruct c as [[]|]; auto. specialize (H1 eq_refl). lia.
Qed.

Lemma as_bool_gt c x y : (c = Some Gt <-> x < y) -> match option_map CompOpp c with Some Lt => true | _ => false end = (x <? y).
Proof.
  intros [H1 H2]. destruct (Z.ltb_spec x y) as [H|H]; [rewrite (H2 H); reflexivity|].
  destruct c as [[]|]; auto. specialize (H1 eq_refl). lia.
Qed.

Lemma tiny_ok d : valid_binary 53 1024 d = true -> tiny d = near_zero d.
Proof.
  intros H. unfold tiny, dltb, SFltb. rewrite (compare_swap (dopp epsilon) d). destruct d as [s|[]| |s m e]; try reflexivity.
  apply valid_cases in H as (H1 & H2 & H3). pose proof (below_epsilon m e H1 H2 H3) as B. unfold near_zero.
  destruct s.
  - rewrite <- above_minus_epsilon in B. rewrite (as_bool_gt _ _ _ B). rewrite epsilon_is. cbn [SFcompare]. apply andb_true_r.
  - rewrite (as_bool_lt _ _ _ B). rewrite epsilon_is. reflexivity.
Qed.

Lemma ratioDouble_ok x y : valid_binary 53 1024 x = true -> valid_binary 53 1024 y = true ->
  ratioDouble x y = if near_zero y then Ok (if near_zero x then txt "0/0" else txt "?/0") else oneDecimal (ddiv x y).
Proof. intros Hx Hy. unfold ratioDouble. now rewrite (tiny_ok x Hx), (tiny_ok y Hy). Qed.

Lemma value_valid f v : value f v -> valid_binary 53 1024 f = true.
Proof.
  intros (m & e & -> & [[H1 H2] H3] & _). cbn [valid_binary]. unfold bounded, canonical_mantissa, fexp, emin.
  rewrite (digits_unique m 52) by (auto; lia). apply andb_true_iff. split; [apply Zeq_is_eq_bool; lia|apply Zle_imp_le_bool; lia].
Qed.

Lemma value_near f v : value f v -> near_zero f = (10 ^ 9 * v <? scale).
Proof. intros (m & e & -> & _ & ->). reflexivity. Qed.

Lemma ratioDouble_bounds f g a b : value f a -> value g b -> within 100 a -> within 100 b -> scale <= 10 ^ 9 * b ->
  exists t, ratioDouble f g = (if (t <? 2 ^ 64)%N then Ok (in_tenths t) else UB) /\
    2 ^ 50 * (2 * Z.of_N t * b) <= (2 ^ 50 + 1) * (20 * a + b) /\ (2 ^ 50 - 1) * (20 * a + b) < 2 ^ 50 * (2 * (Z.of_N t + 1) * b).
Proof.
  intros Va Vb Wa Wb Hb. rewrite (ratioDouble_ok f g (value_valid _ _ Va) (value_valid _ _ Vb)), (value_near _ _ Vb).
  destruct (Z.ltb_spec (10 ^ 9 * b) scale) as [H|_]; [lia|].
  destruct (ddiv_within 100 100 _ _ a b ltac:(lia) ltac:(lia) Va Vb Wa Wb) as (Rq & q & Vq & Wq).
  destruct (oneDecimal_ok (100 + 100 + 1) _ q ltac:(lia) Vq Wq) as (fz & z & fy & y & Rz & Vz & Ry & Vy & ->). pose proof scale_pos as Hs. pose proof half_unit as Hh.
  pose proof (value_pos _ _ Vb) as Pb. pose proof (value_pos _ _ Va) as Pa. pose proof (value_pos _ _ Vq) as Pq. pose proof (value_pos _ _ Vz) as Pz. pose proof (value_pos _ _ Vy) as Py.
  pose proof (rounds_up _ _ _ _ Pb Rq Vq) as U3. pose proof (rounds_down _ _ _ _ Pb Rq Vq) as D3. pose proof (rounds_up _ 1 _ _ eq_refl Rz Vz) as U4. pose proof (rounds_down _ 1 _ _ eq_refl Rz Vz) as D4.
  pose proof (rounds_up _ 1 _ _ eq_refl Ry Vy) as U5. pose proof (rounds_down _ 1 _ _ eq_refl Ry Vy) as D5. rewrite !Z.mul_1_r in *.
  pose proof (Z.div_mod y scale ltac:(lia)) as Dm. pose proof (Z.mod_pos_bound y scale Hs) as Mb. pose proof (Z.div_pos y scale ltac:(lia) Hs) as Tp. set (t := y / scale) in *.
  exists (Z.to_N t). split. { destruct (Z.ltb_spec t (2 ^ 64)), (N.ltb_spec (Z.to_N t) (2 ^ 64)); auto; lia. }
  rewrite Z2N.id by lia. assert (HB : 2 ^ 53 = B) by reflexivity. assert (PB : 1 < B) by (unfold B; lia).
  split.
  - assert (A1 : 2 * ((B - 1) * (B - 1) * y) <= 20 * (B * B * q) + B * (B - 1) * scale).
    { assert ((B - 1) * ((B - 1) * y) <= (B - 1) * (B * (z + unit (-1)))) by (apply Z.mul_le_mono_nonneg_l; lia). assert (B * ((B - 1) * z) <= B * (B * (10 * q))) by (apply Z.mul_le_mono_nonneg_l; lia). rewrite Hh. lia. }
    assert (A2 : 2 * ((B - 1) * (B - 1) * y) * ((B - 1) * b) <= 20 * (B * B * (B * (a * scale))) + B * (B - 1) * scale * ((B - 1) * b)).
    { assert (2 * ((B - 1) * (B - 1) * y) * ((B - 1) * b) <= (20 * (B * B * q) + B * (B - 1) * scale) * ((B - 1) * b)) by (apply Z.mul_le_mono_nonneg_r; [nonneg|assumption]).
      assert (20 * (B * B) * ((B - 1) * (q * b)) <= 20 * (B * B) * (B * (a * scale))) by (apply Z.mul_le_mono_nonneg_l; [nonneg|assumption]). lia. }
    assert (A5 : 2 * ((B - 1) * (B - 1) * (B - 1)) * b * (t * scale) <= 2 * ((B - 1) * (B - 1) * (B - 1)) * b * y) by (apply Z.mul_le_mono_nonneg_l; [nonneg|lia]).
    assert (A6 : 2 * ((B - 1) * (B - 1) * (B - 1)) * t * b * scale <= (20 * (B * B * B) * a + B * (B - 1) * (B - 1) * b) * scale) by lia.
    apply Zmult_le_reg_r in A6; [|lia]. rewrite <- HB in A6. lia.
  - assert (A1 : 20 * (B * B * q) + B * (B + 1) * scale <= 2 * ((B + 1) * (B + 1) * y)).
    { assert ((B + 1) * (B * (z + unit (-1))) <= (B + 1) * ((B + 1) * y)) by (apply Z.mul_le_mono_nonneg_l; lia). assert (B * (B * (10 * q)) <= B * ((B + 1) * z)) by (apply Z.mul_le_mono_nonneg_l; lia). rewrite Hh. lia. }
    assert (A2 : 20 * (B * B * (B * (a * scale))) + B * (B + 1) * scale * ((B + 1) * b) <= 2 * ((B + 1) * (B + 1) * y) * ((B + 1) * b)).
    { assert ((20 * (B * B * q) + B * (B + 1) * scale) * ((B + 1) * b) <= 2 * ((B + 1) * (B + 1) * y) * ((B + 1) * b)) by (apply Z.mul_le_mono_nonneg_r; [nonneg|assumption]).
      assert (20 * (B * B) * (B * (a * scale)) <= 20 * (B * B) * ((B + 1) * (q * b))) by (apply Z.mul_le_mono_nonneg_l; [nonneg|assumption]). lia. }
    assert (A5 : 2 * ((B + 1) * (B + 1) * (B + 1)) * b * y < 2 * ((B + 1) * (B + 1) * (B + 1)) * b * ((t + 1) * scale)) by (apply Z.mul_lt_mono_pos_l; [positive|lia]).
    assert (A6 : (20 * (B * B * B) * a + B * (B + 1) * (B + 1) * b) * scale < 2 * ((B + 1) * (B + 1) * (B + 1)) * (t + 1) * b * scale) by lia.
    apply Zmult_lt_reg_r in A6; [|lia]. rewrite <- HB in A6. lia.
Qed.
