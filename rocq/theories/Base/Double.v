(** The C++ type double as IEEE 754 binary64 with rounding to nearest even, on top of the standard library's SpecFloat, and what rounding
    does to positive numbers that are not too small.  This file models no particular mathic code. *)
From Coq Require Import ZArith Bool Lia SpecFloat.
From Verif.Base Require Import Res.
Local Open Scope Z_scope.

Definition double := spec_float.
Definition dadd : double -> double -> double := SFadd 53 1024.
Definition dsub : double -> double -> double := SFsub 53 1024.
Definition dmul : double -> double -> double := SFmul 53 1024.
Definition ddiv : double -> double -> double := SFdiv 53 1024.
Definition dltb : double -> double -> bool := SFltb.
Definition dleb : double -> double -> bool := SFleb.
Definition dopp : double -> double := SFopp.
(** Conversion of an integer *)
Definition of_Z (z : Z) : double := binary_normalize 53 1024 z 0 false.
(** The double nearest to a / b; decimal literals are of this form.  a and b must be below 2^53. *)
Definition literal (a b : Z) : double := ddiv (of_Z a) (of_Z b).
(** Conversion to an unsigned integer type with [bits] bits: truncation; undefined if the result does not fit (C++ [conv.fpint]) *)
Definition to_unsigned (bits : Z) (d : double) : res N :=
  match d with
  | S754_zero _ => Ok 0%N
  | S754_finite s m e =>
      let t := if 0 <=? e then Zpos m * 2 ^ e else Zpos m / 2 ^ (- e) in
      if s then (if t =? 0 then Ok 0%N else UB)
      else if t <? 2 ^ bits then Ok (Z.to_N t) else UB
  | _ => UB
  end.

(** Numbers are compared after multiplication by 2^1074, which makes every double an integer. *)
Definition scale : Z := 2 ^ 1074.
Definition unit (e : Z) : Z := 2 ^ (e + 1074).
Lemma unit_pos e : -1074 <= e -> 0 < unit e.
Proof. intros H. unfold unit. apply Z.pow_pos_nonneg; lia. Qed.
Lemma unit_succ e : -1074 <= e -> unit (e + 1) = 2 * unit e.
Proof. intros H. unfold unit. replace (e + 1 + 1074) with (Z.succ (e + 1074)) by lia. apply Z.pow_succ_r. lia. Qed.
Lemma unit_add e k : -1074 <= e -> 0 <= k -> unit (e + k) = 2 ^ k * unit e.
Proof. intros H Hk. unfold unit. replace (e + k + 1074) with (k + (e + 1074)) by lia. apply Z.pow_add_r; lia. Qed.
Lemma unit_0 : unit 0 = scale.
Proof. reflexivity. Qed.
Lemma scale_pos : 0 < scale.
Proof. apply Z.pow_pos_nonneg; lia. Qed.
Opaque scale.

(** The scaled value of a positive double. *)
Definition val (m : positive) (e : Z) : Z := Zpos m * unit e.

(** [f] is the double nearest to the scaled number [n] / [d], which is above the subnormal numbers. *)
Definition rounds_to (n d : Z) (f : double) : Prop :=
  exists m e, f = S754_finite false m e /\ 2 ^ 52 <= Zpos m < 2 ^ 53 /\ -1074 <= e <= 971 /\
  Z.abs (2 * (val m e * d - n)) <= d * unit e /\ (Z.abs (2 * (val m e * d - n)) = d * unit e -> Z.even (Zpos m) = true) /\
  (Zpos m = 2 ^ 52 -> 4 * (val m e * d - n) <= d * unit e).

(** Digits. *)
Lemma digits2_pos_bounds p : 2 ^ (Zpos (digits2_pos p) - 1) <= Zpos p < 2 ^ Zpos (digits2_pos p).
Proof.
  induction p as [p IH|p IH|]; cbn [digits2_pos].
  - rewrite Pos2Z.inj_succ. replace (Z.succ (Zpos (digits2_pos p)) - 1) with (Z.succ (Zpos (digits2_pos p) - 1)) by lia. rewrite !Z.pow_succ_r by lia. lia.
  - rewrite Pos2Z.inj_succ. replace (Z.succ (Zpos (digits2_pos p)) - 1) with (Z.succ (Zpos (digits2_pos p) - 1)) by lia. rewrite !Z.pow_succ_r by lia. lia.
  - cbn. lia.
Qed.
Lemma digits_unique p k : 0 <= k -> 2 ^ k <= Zpos p < 2 ^ (k + 1) -> Zpos (digits2_pos p) = k + 1.
Proof.
  intros Hk H. pose proof (digits2_pos_bounds p) as B.
  assert (H1 : Zpos (digits2_pos p) - 1 < k + 1) by (apply (Z.pow_lt_mono_r_iff 2); lia).
  assert (H2 : k < Zpos (digits2_pos p)) by (apply (Z.pow_lt_mono_r_iff 2); lia). lia.
Qed.

(** What a location says about [n] / [d] between [m] * [u] and ([m] + 1) * [u]. *)
Definition located (n d m u : Z) (l : location) : Prop :=
  match l with
  | loc_Exact => n = m * (u * d)
  | loc_Inexact Lt => m * (u * d) < n /\ 2 * n < (2 * m + 1) * (u * d)
  | loc_Inexact Eq => 2 * n = (2 * m + 1) * (u * d)
  | loc_Inexact Gt => (2 * m + 1) * (u * d) < 2 * n /\ n < (m + 1) * (u * d)
  end.
Lemma located_bounds n d m u l : 0 < u * d -> located n d m u l -> m * (u * d) <= n < (m + 1) * (u * d).
Proof. intros H. destruct l as [|[]]; cbn [located]; lia. Qed.

Lemma shr_1_ok n d u mrs : 0 < u * d -> 0 <= shr_m mrs -> located n d (shr_m mrs) u (loc_of_shr_record mrs) ->
  located n d (shr_m (shr_1 mrs)) (2 * u) (loc_of_shr_record (shr_1 mrs)) /\ shr_m (shr_1 mrs) = shr_m mrs / 2.
Proof.
  destruct mrs as [m r s]. cbn [shr_m]. intros Hu Hm H. replace (2 * u * d) with (2 * (u * d)) by ring. unfold located in *. replace (2 * u * d) with (2 * (u * d)) by ring.
  generalize dependent (u * d). intros w Hw H.
  destruct m as [|p|p]; [| |lia].
  - destruct r, s; cbn [shr_1 shr_m loc_of_shr_record orb] in *; split; auto; lia.
  - destruct p as [p|p|].
    + replace (Zpos p~1 / 2) with (Zpos p) by (rewrite Pos2Z.inj_xI; apply Z.div_unique with 1; lia).
      destruct r, s; cbn [shr_1 shr_m loc_of_shr_record orb] in *; split; auto; rewrite ?(Pos2Z.inj_xI p) in H; lia.
    + replace (Zpos p~0 / 2) with (Zpos p) by (rewrite Pos2Z.inj_xO; apply Z.div_unique with 0; lia).
      destruct r, s; cbn [shr_1 shr_m loc_of_shr_record orb] in *; split; auto; rewrite ?(Pos2Z.inj_xO p) in H; lia.
    + destruct r, s; cbn [shr_1 shr_m loc_of_shr_record orb] in *; split; auto; lia.
Qed.
Lemma iter_pos_succ {A} (f : A -> A) p x : iter_pos f p x = Pos.iter f x p.
Proof.
  revert x. induction p as [p IH|p IH|]; intros x; cbn [iter_pos Pos.iter]; auto.
  - rewrite !IH. rewrite <- !Pos.iter_swap. reflexivity.
  - now rewrite !IH.
Qed.
Lemma iter_shr_ok n d p : forall u mrs, 0 < u * d -> 0 <= shr_m mrs -> located n d (shr_m mrs) u (loc_of_shr_record mrs) ->
  located n d (shr_m (iter_pos shr_1 p mrs)) (2 ^ Zpos p * u) (loc_of_shr_record (iter_pos shr_1 p mrs)) /\ shr_m (iter_pos shr_1 p mrs) = shr_m mrs / 2 ^ Zpos p.
Proof.
  intros u mrs Hu Hm H. rewrite iter_pos_succ. revert u mrs Hu Hm H.
  enough (G : forall u mrs, 0 < u * d -> 0 <= shr_m mrs -> located n d (shr_m mrs) u (loc_of_shr_record mrs) ->
    0 <= shr_m (Pos.iter shr_1 mrs p) /\
    located n d (shr_m (Pos.iter shr_1 mrs p)) (2 ^ Zpos p * u) (loc_of_shr_record (Pos.iter shr_1 mrs p)) /\ shr_m (Pos.iter shr_1 mrs p) = shr_m mrs / 2 ^ Zpos p).
  { intros u mrs H1 H2 H3. destruct (G u mrs H1 H2 H3) as (_ & ? & ?); auto. }
  intros u mrs Hu Hm H. induction p as [|p IH] using Pos.peano_ind.
  - cbn [Pos.iter]. destruct (shr_1_ok n d u mrs Hu Hm H) as [H1 H2]. change (2 ^ 1) with 2. rewrite H2 in *. split; [apply Z.div_pos; lia|]. split; auto.
  - rewrite Pos.iter_succ. destruct IH as (I0 & I1 & I2).
    assert (Hu' : 0 < 2 ^ Zpos p * u * d) by (rewrite <- Z.mul_assoc; apply Z.mul_pos_pos; [apply Z.pow_pos_nonneg; lia|auto]).
    destruct (shr_1_ok n d _ _ Hu' I0 I1) as [H1 H2]. rewrite Pos2Z.inj_succ, Z.pow_succ_r by lia. rewrite Z.mul_assoc in H1. split; [rewrite H2; apply Z.div_pos; lia|]. split; auto.
    rewrite H2, I2, Z.div_div, (Z.mul_comm 2) by (try lia; apply Z.pow_pos_nonneg; lia). reflexivity.
Qed.
Lemma loc_record m l : loc_of_shr_record (shr_record_of_loc m l) = l /\ shr_m (shr_record_of_loc m l) = m.
Proof. destruct l as [|[]]; split; reflexivity. Qed.

Lemma div_pow_bounds m k : 0 <= k -> 2 ^ (52 + k) <= m < 2 ^ (53 + k) -> 2 ^ 52 <= m / 2 ^ k < 2 ^ 53.
Proof.
  intros Hk H. rewrite !Z.pow_add_r in H by lia. assert (0 < 2 ^ k) by (apply Z.pow_pos_nonneg; lia). split.
  - apply Z.div_le_lower_bound; lia.
  - apply Z.div_lt_upper_bound; lia.
Qed.

Lemma shr_fexp_ok n d m e l : 0 < d -> -1074 <= e -> 2 ^ 52 <= m -> located n d m (unit e) l ->
  exists mrs e', shr_fexp 53 1024 m e l = (mrs, e') /\ e <= e' /\ 2 ^ 52 <= shr_m mrs < 2 ^ 53 /\ located n d (shr_m mrs) (unit e') (loc_of_shr_record mrs).
Proof.
  intros Hd He Hm H. destruct m as [|p|p]; [cbn in Hm; lia| |cbn in Hm; lia]. unfold shr_fexp, fexp, emin. cbn [Zdigits2].
  pose proof (digits2_pos_bounds p) as B. set (k := Zpos (digits2_pos p)) in *. assert (Hk : 53 <= k).
  { destruct (Z.le_gt_cases 53 k); auto. assert (2 ^ k <= 2 ^ 52) by (apply Z.pow_le_mono_r; lia). lia. }
  replace (Z.max (k + e - 53) (3 - 1024 - 53) - e) with (k - 53) by lia. unfold shr. destruct (loc_record (Zpos p) l) as [L1 L2].
  destruct (k - 53) as [|q|q] eqn:Eq; [| |lia].
  - exists (shr_record_of_loc (Zpos p) l), e. rewrite L1, L2. split; auto. split; [lia|]. split; auto. replace k with 53 in B by lia. cbn [Z.sub Z.add Z.opp Z.pos_sub] in B. lia.
  - assert (Hu : 0 < unit e * d) by (apply Z.mul_pos_pos; [apply unit_pos; lia|auto]).
    destruct (iter_shr_ok n d q (unit e) (shr_record_of_loc (Zpos p) l) Hu) as [I1 I2]; [rewrite L2; lia|rewrite L1, L2; auto|].
    eexists _, _. split; [reflexivity|]. split; [lia|]. rewrite unit_add by lia. split; auto. rewrite I2, L2. apply div_pow_bounds; [lia|].
    replace (52 + Zpos q) with (k - 1) by lia. replace (53 + Zpos q) with k by lia. auto.
Qed.

Lemma shr_fexp_small m e : -1074 <= e -> 2 ^ 52 <= Zpos m < 2 ^ 53 -> shr_fexp 53 1024 (Zpos m) e loc_Exact = (Build_shr_record (Zpos m) false false, e).
Proof.
  intros He H. unfold shr_fexp, fexp, emin. cbn [Zdigits2 shr_record_of_loc]. rewrite (digits_unique m 52) by (auto; lia). unfold shr. 
  replace (Z.max (52 + 1 + e - 53) (3 - 1024 - 53) - e) with 0 by lia. reflexivity.
Qed.
Lemma shr_fexp_carry e : -1074 <= e -> shr_fexp 53 1024 (2 ^ 53) e loc_Exact = (Build_shr_record (2 ^ 52) false false, e + 1).
Proof.
  intros He. unfold shr_fexp, fexp, emin. change (Zdigits2 (2 ^ 53)) with 54. replace (Z.max (54 + e - 53) (3 - 1024 - 53) - e) with 1 by lia. reflexivity.
Qed.

Theorem round_aux_ok n d m e l : 0 < d -> -1074 <= e -> 2 ^ 52 <= m -> located n d m (unit e) l -> n < d * unit 1000 ->
  rounds_to n d (binary_round_aux 53 1024 false m e l).
Proof.
  intros Hd He Hm H Hn. destruct (shr_fexp_ok n d m e l Hd He Hm H) as (mrs & e' & E & He' & Hb & Hl). unfold binary_round_aux. rewrite E.
  assert (Hu : 0 < unit e') by (apply unit_pos; lia). assert (Hud : 0 < unit e' * d) by (apply Z.mul_pos_pos; auto).
  assert (Hmax : e' < 948).
  { destruct (Z.lt_ge_cases e' 948) as [|G]; auto. exfalso. apply located_bounds in Hl; auto.
    assert (U : unit 1000 <= 2 ^ 52 * unit e').
    { replace e' with (948 + (e' - 948)) by lia. rewrite unit_add by lia. change 1000 with (948 + 52). rewrite (unit_add 948 52) by lia.
      assert (1 <= 2 ^ (e' - 948)) by (apply (Z.pow_le_mono_r 2 0); lia). assert (0 < unit 948) by (apply unit_pos; lia). nia. }
    nia. }
  set (mr := round_nearest_even (shr_m mrs) (loc_of_shr_record mrs)).
  assert (R : (mr = shr_m mrs \/ mr = shr_m mrs + 1) /\ Z.abs (2 * (mr * unit e' * d - n)) <= d * unit e' /\
    (Z.abs (2 * (mr * unit e' * d - n)) = d * unit e' -> Z.even mr = true)).
  { unfold mr. clear mr E H Hb Hn. generalize dependent (shr_m mrs). intros M Hl. rewrite (Z.mul_comm d).
    replace (round_nearest_even M (loc_of_shr_record mrs) * unit e' * d) with (round_nearest_even M (loc_of_shr_record mrs) * (unit e' * d)) by ring. unfold located in Hl. set (w := unit e' * d) in *. clearbody w.
    destruct (loc_of_shr_record mrs) as [|[]]; cbn [round_nearest_even] in *.
    - split; [now left|]. lia.
    - destruct (Z.even M) eqn:Ev.
      + split; [now left|]. split; [lia|auto].
      + split; [now right|]. split; [lia|]. intros _. now rewrite Z.even_add, Ev.
    - split; [now left|]. lia.
    - split; [now right|]. lia. }
  destruct R as (R1 & R2 & R3). assert (Hmr : 2 ^ 52 <= mr <= 2 ^ 53) by lia. clearbody mr.
  destruct (Z.eq_dec mr (2 ^ 53)) as [->|Hne].
  - rewrite shr_fexp_carry by lia. cbn [shr_m]. change (2 ^ 52) with (Zpos 4503599627370496). destruct (Zle_bool (e' + 1) (1024 - 53)) eqn:El; [|apply Z.leb_gt in El; lia].
    exists 4503599627370496%positive, (e' + 1). split; auto. split; [lia|]. split; [lia|]. unfold val. rewrite unit_succ by lia.
    replace (Zpos 4503599627370496 * (2 * unit e') * d) with (2 ^ 53 * unit e' * d) by (change (2 ^ 53) with (2 * Zpos 4503599627370496); ring).
    replace (d * (2 * unit e')) with (2 * (d * unit e')) by ring. rewrite Z.mul_comm in Hud. split; [|split]; lia.
  - destruct mr as [|p|p]; [cbn in Hmr; lia| |cbn in Hmr; lia]. rewrite shr_fexp_small by lia. cbn [shr_m]. destruct (Zle_bool e' (1024 - 53)) eqn:El; [|apply Z.leb_gt in El; lia].
    exists p, e'. split; auto. split; [lia|]. split; [lia|]. split; auto. split; auto. intros Hp. unfold val. rewrite Hp. apply located_bounds in Hl; auto.
    assert (2 ^ 52 * (unit e' * d) <= shr_m mrs * (unit e' * d)) by (apply Z.mul_le_mono_nonneg_r; lia). rewrite <- Z.mul_assoc, (Z.mul_comm d). lia.
Qed.

(** Normal positive doubles, not close to the limits. *)
Definition normal (m : positive) (e : Z) : Prop := 2 ^ 52 <= Zpos m < 2 ^ 53 /\ -1074 <= e <= 971.
Lemma rounds_to_normal n d f : rounds_to n d f -> exists m e, f = S754_finite false m e /\ normal m e.
Proof. intros (m & e & -> & H1 & H2 & _). exists m, e. repeat split; lia. Qed.

(** Integers and sums. *)
Lemma binary_round_ok m e : -1074 <= e -> -1074 <= Zpos (digits2_pos m) + e - 53 -> Zpos m * unit e < unit 1000 -> rounds_to (Zpos m * unit e) 1 (binary_round 53 1024 false m e).
Proof.
  intros He Hlow Hmax. unfold binary_round, shl_align, fexp, emin. pose proof (digits2_pos_bounds m) as B. set (k := Zpos (digits2_pos m)) in *.
  replace (Z.max (k + e - 53) (3 - 1024 - 53) - e) with (k - 53) by lia.
  assert (Hge : 53 <= k -> rounds_to (Zpos m * unit e) 1 (binary_round_aux 53 1024 false (Zpos m) e loc_Exact)).
  { intros Hk. apply round_aux_ok; try lia.
    - assert (2 ^ 52 <= 2 ^ (k - 1)) by (apply Z.pow_le_mono_r; lia). lia.
    - cbn [located]. ring. }
  destruct (k - 53) as [|q|q] eqn:Eq; [apply Hge; lia|apply Hge; lia|]. cbv beta iota. clear Hge.
  assert (Es : Zpos (shift_pos q m) = 2 ^ Zpos q * Zpos m) by (rewrite shift_pos_correct; reflexivity).
  replace (Z.max (k + e - 53) (3 - 1024 - 53)) with (e - Zpos q) by lia.
  assert (Eu : unit e = 2 ^ Zpos q * unit (e - Zpos q)) by (replace e with ((e - Zpos q) + Zpos q) at 1 by lia; apply unit_add; lia).
  apply round_aux_ok; try lia.
  - rewrite Es. replace (2 ^ 52) with (2 ^ Zpos q * 2 ^ (k - 1)) by (rewrite <- Z.pow_add_r by lia; f_equal; lia). assert (0 < 2 ^ Zpos q) by (apply Z.pow_pos_nonneg; lia). nia.
  - cbn [located]. rewrite Es, Eu. ring.
Qed.
Lemma of_Z_ok z : 0 < z < 2 ^ 900 -> rounds_to (z * scale) 1 (of_Z z).
Proof.
  intros H. destruct z as [|p|p]; try lia. unfold of_Z, binary_normalize. rewrite <- unit_0. apply binary_round_ok; try lia.
  change 1000 with (0 + 1000). rewrite (unit_add 0 1000) by lia. assert (0 < unit 0) by (apply unit_pos; lia). assert (2 ^ 900 < 2 ^ 1000) by (apply Z.pow_lt_mono_r; lia). nia.
Qed.

Definition value (f : double) (v : Z) : Prop := exists m e, f = S754_finite false m e /\ normal m e /\ v = val m e.
Lemma value_pos f v : value f v -> 0 < v.
Proof. intros (m & e & _ & [H1 H2] & ->). unfold val. apply Z.mul_pos_pos; [lia|apply unit_pos; lia]. Qed.
Lemma value_fun f v w : value f v -> value f w -> v = w.
Proof. intros (m & e & -> & _ & ->) (m' & e' & E & _ & ->). injection E as <- <-. reflexivity. Qed.
Lemma rounds_to_value n d f : rounds_to n d f -> exists v, value f v.
Proof. intros (m & e & -> & H1 & H2 & _). exists (val m e), m, e. repeat split; auto; lia. Qed.
Lemma value_rounds f v : value f v -> rounds_to v 1 f.
Proof.
  intros (m & e & -> & [H1 H2] & ->). exists m, e. assert (0 < unit e) by (apply unit_pos; lia). split; auto. split; auto. split; auto. split; [lia|]. split; lia.
Qed.

(** The error of rounding is at most 2^-53 of the result. *)
Lemma rounds_to_error n d f v : 0 < d -> rounds_to n d f -> value f v -> 2 ^ 53 * Z.abs (v * d - n) <= v * d.
Proof.
  intros Hd (m & e & -> & H1 & H2 & H3 & _) (m' & e' & E & _ & ->). injection E as <- <-. unfold val in *. assert (0 < unit e) by (apply unit_pos; lia).
  assert (2 ^ 52 * (unit e * d) <= Zpos m * (unit e * d)) by (apply Z.mul_le_mono_nonneg_r; nia). rewrite (Z.mul_comm d) in H3. rewrite <- !Z.mul_assoc in *. lia.
Qed.

(** Rounding keeps the order. *)
Lemma normal_lt_exp m e m' e' : normal m e -> normal m' e' -> val m' e' < val m e -> e' <= e.
Proof.
  intros [H1 H2] [H1' H2'] H. destruct (Z.le_gt_cases e' e) as [|G]; auto. exfalso. unfold val in H. replace e' with (e + 1 + (e' - e - 1)) in H by lia. rewrite unit_add, unit_succ in H by lia.
  assert (0 < unit e) by (apply unit_pos; lia). assert (1 <= 2 ^ (e' - e - 1)) by (apply (Z.pow_le_mono_r 2 0); lia). assert (2 * unit e <= 2 ^ (e' - e - 1) * (2 * unit e)) by nia. nia.
Qed.
Lemma gap_same a b u : 0 < u -> b * u < a * u -> u <= a * u - b * u.
Proof. intros H1 H2. apply Z.mul_lt_mono_pos_r in H2; auto. assert ((b + 1) * u <= a * u) by (apply Z.mul_le_mono_nonneg_r; lia). lia. Qed.
Lemma gap_one a b u : 0 < u -> a * u - b * u = u -> a = b + 1.
Proof. intros H1 H2. assert (a * u = (b + 1) * u) by lia. eapply Z.mul_reg_r; [|eassumption]. lia. Qed.
Lemma scaled_le a b u : 0 < u -> a <= b -> a * u <= b * u.
Proof. intros H1 H2. apply Z.mul_le_mono_nonneg_r; lia. Qed.
Theorem rounds_to_mono n d f v n' d' f' v' : 0 < d -> 0 < d' -> rounds_to n d f -> value f v -> rounds_to n' d' f' -> value f' v' -> n * d' <= n' * d -> v <= v'.
Proof.
  intros Hd Hd' (m & e & -> & H1 & H2 & H3 & H4 & H5) (m0 & e0 & E & _ & ->) (m' & e' & -> & H1' & H2' & H3' & H4' & H5') (m0' & e0' & E' & _ & ->) Hn.
  injection E as <- <-. injection E' as <- <-. destruct (Z.le_gt_cases (val m e) (val m' e')) as [|G]; auto. exfalso.
  assert (He : e' <= e) by (apply (normal_lt_exp m e m' e'); auto; split; auto).
  assert (Hu : 0 < unit e) by (apply unit_pos; lia). assert (Hu' : 0 < unit e') by (apply unit_pos; lia).
  set (v := val m e) in *. set (v' := val m' e') in *.
  (* multiply everything by the two denominators *)
  assert (L1 : 2 * (v * d - n) * d' <= d * unit e * d') by (apply Z.mul_le_mono_nonneg_r; lia).
  assert (L2 : 2 * (n' - v' * d') * d <= d' * unit e' * d) by (apply Z.mul_le_mono_nonneg_r; lia).
  assert (Hdd : 0 < d * d') by (apply Z.mul_pos_pos; auto).
  assert (L3 : 2 * ((v - v') * (d * d')) <= (unit e + unit e') * (d * d')) by lia.
  assert (L4 : 2 * (v - v') <= unit e + unit e') by (apply (Z.mul_le_mono_pos_r _ _ (d * d')); lia).
  destruct (Z.eq_dec e' e) as [->|Hne].
  - assert (Hgap : unit e <= v - v') by (apply (gap_same (Zpos m) (Zpos m')); [exact Hu|exact G]). assert (Eq : v - v' = unit e) by lia.
    assert (T : 2 * (v * d - n) * d' = d * unit e * d' /\ 2 * (n' - v' * d') * d = d' * unit e * d).
    { assert ((v - v') * (d * d') = unit e * (d * d')) by now rewrite Eq. lia. }
    destruct T as [T1 T2]. apply Z.mul_reg_r in T1; [|lia]. apply Z.mul_reg_r in T2; [|lia].
    assert (P1 : Z.even (Zpos m) = true) by (apply H4; rewrite Z.abs_eq; lia). assert (P2 : Z.even (Zpos m') = true) by (apply H4'; rewrite Z.abs_neq; lia).
    assert (Em : Zpos m = Zpos m' + 1) by (apply (gap_one _ _ (unit e)); [exact Hu|exact Eq]). rewrite Em, Z.even_add, P2 in P1. discriminate.
  - assert (Hexp : e' + 1 <= e) by lia. destruct (Z.eq_dec (Zpos m) (2 ^ 52)) as [Em|Em].
    + assert (L5 : 4 * (v * d - n) * d' <= d * unit e * d') by (apply Z.mul_le_mono_nonneg_r; [lia|auto]).
      assert (L6 : 4 * ((v - v') * (d * d')) <= (unit e + 2 * unit e') * (d * d')) by lia.
      assert (L7 : 4 * (v - v') <= unit e + 2 * unit e') by (apply (Z.mul_le_mono_pos_r _ _ (d * d')); lia).
      destruct (Z.eq_dec e (e' + 1)) as [Ee|Ee].
      * subst e. assert (Eu : unit (e' + 1) = 2 * unit e') by (apply unit_succ; lia). rewrite Eu in *.
        assert (Ev : v = 2 ^ 53 * unit e') by (unfold v, val; rewrite Em, Eu; change (2 ^ 53) with (2 ^ 52 * 2); ring).
        assert (Hgap : unit e' <= v - v') by (rewrite Ev; apply (gap_same (2 ^ 53) (Zpos m')); [exact Hu'|rewrite <- Ev; exact G]). assert (Eq : v - v' = unit e') by lia.
        assert (T2 : 2 * (n' - v' * d') * d = d' * unit e' * d).
        { assert ((v - v') * (d * d') = unit e' * (d * d')) by now rewrite Eq. lia. }
        apply Z.mul_reg_r in T2; [|lia]. assert (P2 : Z.even (Zpos m') = true) by (apply H4'; rewrite Z.abs_neq; lia).
        assert (Em' : 2 ^ 53 = Zpos m' + 1) by (rewrite Ev in Eq; apply (gap_one _ _ (unit e')); [exact Hu'|exact Eq]). apply Z.sub_move_r in Em'. rewrite <- Em' in P2. discriminate.
      * assert (Eu : unit e = 4 * (2 ^ (e - e' - 2) * unit e')).
        { replace e with (e' + 2 + (e - e' - 2)) at 1 by lia. rewrite (unit_add (e' + 2)), (unit_add e' 2) by lia. change (2 ^ 2) with 4. ring. }
        assert (Ev : v = 2 ^ 54 * (2 ^ (e - e' - 2) * unit e')) by (unfold v, val; rewrite Em, Eu; change (2 ^ 54) with (2 ^ 52 * 4); ring).
        assert (Hp : 1 <= 2 ^ (e - e' - 2)) by (apply (Z.pow_le_mono_r 2 0); lia).
        assert (Hsm : v' <= 2 ^ 53 * unit e') by (apply scaled_le; lia). assert (1 * unit e' <= 2 ^ (e - e' - 2) * unit e') by (apply scaled_le; lia). lia.
    + assert (Hb : (2 ^ 52 + 1) * unit e <= v) by (apply scaled_le; lia). assert (Hsm : v' <= (2 ^ 53 - 1) * unit e') by (apply scaled_le; lia).
      assert (2 * unit e' <= unit e).
      { replace e with (e' + 1 + (e - e' - 1)) by lia. rewrite unit_add, unit_succ by lia. assert (1 <= 2 ^ (e - e' - 1)) by (apply (Z.pow_le_mono_r 2 0); lia). nia. }
      lia.
Qed.
Lemma rounds_to_exact n d f v g w : 0 < d -> rounds_to n d f -> value f v -> value g w -> n = w * d -> v = w.
Proof.
  intros Hd H Hv Hw ->. apply Z.le_antisymm.
  - eapply (rounds_to_mono (w * d) d f v w 1 g w); eauto using value_rounds; lia.
  - eapply (rounds_to_mono w 1 g w (w * d) d f v); eauto using value_rounds; lia.
Qed.
Lemma rounds_to_ge n d f v g w : 0 < d -> rounds_to n d f -> value f v -> value g w -> w * d <= n -> w <= v.
Proof. intros Hd H Hv Hw Hn. eapply (rounds_to_mono w 1 g w n d f v); eauto using value_rounds; lia. Qed.
Lemma rounds_to_le n d f v g w : 0 < d -> rounds_to n d f -> value f v -> value g w -> n <= w * d -> v <= w.
Proof. intros Hd H Hv Hw Hn. eapply (rounds_to_mono n d f v w 1 g w); eauto using value_rounds; lia. Qed.

(** Numbers of moderate size, for which nothing overflows or becomes subnormal. *)
Definition moderate (v : Z) : Prop := unit (-400) <= v < unit 400.
Lemma unit_mono e e' : -1074 <= e -> e <= e' -> unit e <= unit e'.
Proof. intros H1 H2. unfold unit. apply Z.pow_le_mono_r; lia. Qed.
Lemma unit_lt_inv e e' : -1074 <= e' -> unit e < unit e' -> e < e'.
Proof. intros H1 H2. unfold unit in H2. apply (Z.pow_lt_mono_r_iff 2) in H2; lia. Qed.
Lemma moderate_exp m e : normal m e -> moderate (val m e) -> -453 <= e < 400.
Proof.
  intros [H1 H2] [H3 H4]. unfold val in *. assert (Hu : 0 < unit e) by (apply unit_pos; lia). split.
  - assert (H : unit (-400) < 2 ^ 53 * unit e) by nia. rewrite <- unit_add in H by lia. apply unit_lt_inv in H; lia.
  - assert (H : unit e < unit 400) by nia. apply unit_lt_inv in H; lia.
Qed.
Lemma unit_mul e e' : -1074 <= e -> -1074 <= e' -> -1074 <= e + e' -> unit e * unit e' = unit (e + e') * scale.
Proof. intros H1 H2 H3. rewrite <- unit_0. unfold unit. rewrite <- !Z.pow_add_r by lia. f_equal. lia. Qed.

Lemma shl_align_ok m e e' : e' <= e -> -1074 <= e' -> Zpos (fst (shl_align m e e')) * unit e' = val m e.
Proof.
  intros H He. unfold shl_align, val. destruct (e' - e) as [|q|q] eqn:E; [replace e' with e by lia; reflexivity|lia|]. cbn [fst].
  rewrite shift_pos_correct. change (Z.pow_pos 2 q) with (2 ^ Zpos q). replace e with (e' + Zpos q) by lia. rewrite unit_add by lia. ring.
Qed.
Lemma normal_big m e : normal m e -> 2 ^ 52 <= val m e.
Proof. intros [H1 H2]. unfold val. assert (0 < unit e) by (apply unit_pos; lia). nia. Qed.
Lemma digits_low m e : -1074 <= e -> 2 ^ 52 <= Zpos m * unit e -> -1074 <= Zpos (digits2_pos m) + e - 53.
Proof.
  intros He H. pose proof (digits2_pos_bounds m) as [_ B]. assert (Hu : 0 < unit e) by (apply unit_pos; lia). assert (G : 2 ^ 52 < 2 ^ Zpos (digits2_pos m) * unit e) by nia.
  rewrite <- unit_add in G by lia. unfold unit in G. apply (Z.pow_lt_mono_r_iff 2) in G; lia.
Qed.
Lemma dadd_ok f g a b : value f a -> value g b -> a + b < unit 1000 -> rounds_to (a + b) 1 (dadd f g).
Proof.
  intros (m & e & -> & Hm & ->) (m' & e' & -> & Hm' & ->) H. unfold dadd, SFadd. pose proof (normal_big _ _ Hm) as Hb. pose proof (normal_big _ _ Hm') as Hb'.
  assert (He : -1074 <= e /\ -1074 <= e') by (split; [apply Hm|apply Hm']). set (z := Z.min e e'). cbn [cond_Zopp].
  assert (E1 : Zpos (fst (shl_align m e z)) * unit z = val m e) by (apply shl_align_ok; lia).
  assert (E2 : Zpos (fst (shl_align m' e' z)) * unit z = val m' e') by (apply shl_align_ok; lia).
  rewrite <- Pos2Z.inj_add. cbn [binary_normalize].
  assert (E : val m e + val m' e' = Zpos (fst (shl_align m e z) + fst (shl_align m' e' z)) * unit z) by (rewrite Pos2Z.inj_add; lia).
  rewrite E in *. apply binary_round_ok; [lia| |auto]. apply digits_low; lia.
Qed.
Lemma dsub_ok f g a b : value f a -> value g b -> 2 ^ 52 <= a - b -> a - b < unit 1000 -> rounds_to (a - b) 1 (dsub f g).
Proof.
  intros (m & e & -> & Hm & ->) (m' & e' & -> & Hm' & ->) H0 H. unfold dsub, SFsub.
  assert (He : -1074 <= e /\ -1074 <= e') by (split; [apply Hm|apply Hm']). set (z := Z.min e e'). cbn [cond_Zopp].
  assert (E1 : Zpos (fst (shl_align m e z)) * unit z = val m e) by (apply shl_align_ok; lia).
  assert (E2 : Zpos (fst (shl_align m' e' z)) * unit z = val m' e') by (apply shl_align_ok; lia).
  assert (Hz : 0 < unit z) by (apply unit_pos; lia).
  assert (E : val m e - val m' e' = (Zpos (fst (shl_align m e z)) - Zpos (fst (shl_align m' e' z))) * unit z) by lia.
  rewrite E in *. set (k := Zpos (fst (shl_align m e z)) - Zpos (fst (shl_align m' e' z))) in *. clearbody k. destruct k as [|p|p]; [lia| |nia]. cbn [binary_normalize].
  apply binary_round_ok; [lia| |auto]. apply digits_low; lia.
Qed.
Lemma dmul_ok f g a b : value f a -> value g b -> moderate a -> moderate b -> rounds_to (a * b) scale (dmul f g).
Proof.
  intros (m & e & -> & Hm & ->) (m' & e' & -> & Hm' & ->) Ha Hb. pose proof (moderate_exp _ _ Hm Ha). pose proof (moderate_exp _ _ Hm' Hb). unfold dmul, SFmul. cbn [xorb].
  assert (E : val m e * val m' e' = Zpos (m * m') * (unit (e + e') * scale)).
  { unfold val. rewrite <- unit_mul by lia. rewrite Pos2Z.inj_mul. ring. }
  apply round_aux_ok; [apply scale_pos|lia| |exact E|].
  - rewrite Pos2Z.inj_mul. destruct Hm, Hm'. nia.
  - destruct Ha as [_ Ha], Hb as [_ Hb]. pose proof (normal_big _ _ Hm). pose proof (normal_big _ _ Hm').
    assert (val m e * val m' e' < unit 400 * unit 400) by (apply Z.mul_lt_mono_nonneg; lia). rewrite unit_mul in H3 by lia.
    assert (unit (400 + 400) <= unit 1000) by (apply unit_mono; lia). pose proof scale_pos. eapply Z.lt_le_trans; [exact H3|]. rewrite (Z.mul_comm scale). apply scaled_le; lia.
Qed.
Lemma ddiv_ok f g a b : value f a -> value g b -> moderate a -> moderate b -> rounds_to (a * scale) b (ddiv f g).
Proof.
  intros (m & e & -> & Hm & ->) (m' & e' & -> & Hm' & ->) Ha Hb. pose proof (moderate_exp _ _ Hm Ha) as X1. pose proof (moderate_exp _ _ Hm' Hb) as X2. unfold ddiv, SFdiv, SFdiv_core_binary.
  destruct Hm as [Hm He], Hm' as [Hm' He']. cbn [Zdigits2 xorb]. rewrite (digits_unique m 52), (digits_unique m' 52) by (auto; lia). unfold fexp, emin.
  replace (Z.min (Z.max (52 + 1 + e - (52 + 1 + e') - 53) (3 - 1024 - 53)) (e - e')) with (e - e' - 53) by lia. replace (e - e' - (e - e' - 53)) with 53 by lia.
  rewrite Z.shiftl_mul_pow2 by lia. pose proof (Z.div_mod (Zpos m * 2 ^ 53) (Zpos m') ltac:(lia)) as D. pose proof (Z.mod_pos_bound (Zpos m * 2 ^ 53) (Zpos m') ltac:(lia)) as R.
  unfold Z.div, Z.modulo in D, R. destruct (Z.div_eucl (Zpos m * 2 ^ 53) (Zpos m')) as [q r].
  assert (Hw : 0 < unit (e - 53)) by (apply unit_pos; lia). pose proof scale_pos as Hs.
  apply round_aux_ok; [apply Z.mul_pos_pos; [lia|apply unit_pos; lia]|lia|nia| |].
  - unfold located, new_location, new_location_even, new_location_odd. replace (unit (e - e' - 53) * val m' e') with (Zpos m' * (unit (e - 53) * scale)).
    2:{ unfold val. replace (e - 53) with (e - e' - 53 + e') by lia. rewrite <- unit_mul by lia. ring. }
    replace (val m e * scale) with (Zpos m * 2 ^ 53 * (unit (e - 53) * scale)).
    2:{ unfold val. replace e with (e - 53 + 53) at 2 by lia. rewrite unit_add by lia. ring. }
    assert (Hw' : 0 < unit (e - 53) * scale) by (apply Z.mul_pos_pos; auto). generalize dependent (unit (e - 53) * scale). intros w Hw'. rewrite D. clear D.
    destruct (Z.even (Zpos m')) eqn:Ev.
    + destruct (Zeq_bool r 0) eqn:Er; [apply Zeq_bool_eq in Er; subst r; ring|apply Zeq_bool_neq in Er].
      destruct (Z.compare_spec (2 * r) (Zpos m')) as [C|C|C]; nia.
    + destruct (Zeq_bool r 0) eqn:Er; [apply Zeq_bool_eq in Er; subst r; ring|apply Zeq_bool_neq in Er].
      assert (Hodd : 2 * r <> Zpos m') by (intros X; rewrite <- X, Z.even_mul in Ev; discriminate).
      destruct (Z.compare_spec (2 * r + 1) (Zpos m')) as [C|C|C]; nia.
  - destruct Ha as [_ Ha], Hb as [Hb _]. apply Z.lt_le_trans with (unit 400 * scale); [nia|]. apply Z.le_trans with (unit (-400) * unit 1000).
    + rewrite unit_mul by lia. apply scaled_le; auto. apply unit_mono; lia.
    + apply scaled_le; [apply unit_pos; lia|exact Hb].
Qed.

(** Comparison. *)
Lemma compare_ok f g a b : value f a -> value g b -> SFcompare f g = Some (a ?= b).
Proof.
  intros (m & e & -> & Hm & ->) (m' & e' & -> & Hm' & ->). cbn [SFcompare]. f_equal.
  assert (He : forall m e m' e', normal m e -> normal m' e' -> e < e' -> val m e < val m' e').
  { clear. intros m e m' e' [H1 H2] [H1' H2'] H. unfold val. replace e' with (e + 1 + (e' - e - 1)) by lia. rewrite unit_add, unit_succ by lia. assert (0 < unit e) by (apply unit_pos; lia).
    assert (1 <= 2 ^ (e' - e - 1)) by (apply (Z.pow_le_mono_r 2 0); lia). assert (2 * unit e <= 2 ^ (e' - e - 1) * (2 * unit e)) by nia. nia. }
  destruct (Z.compare_spec e e') as [<-|H|H].
  - change (Pos.compare_cont Eq m m') with (m ?= m')%positive. rewrite Pos2Z.inj_compare. unfold val. assert (0 < unit e) by (apply unit_pos; destruct Hm; lia).
    symmetry. destruct (Z.compare_spec (Zpos m) (Zpos m')) as [E|E|E]; [rewrite E; apply Z.compare_refl|apply Z.compare_lt_iff; nia|apply Z.compare_gt_iff; nia].
  - symmetry. apply Z.compare_lt_iff. now apply He.
  - symmetry. apply Z.compare_gt_iff. now apply He.
Qed.
Lemma dltb_ok f g a b : value f a -> value g b -> dltb f g = (a <? b).
Proof. intros Hf Hg. unfold dltb, SFltb. rewrite (compare_ok _ _ _ _ Hf Hg). unfold Z.ltb. now destruct (a ?= b). Qed.
Lemma dleb_ok f g a b : value f a -> value g b -> dleb f g = (a <=? b).
Proof. intros Hf Hg. unfold dleb, SFleb. rewrite (compare_ok _ _ _ _ Hf Hg). unfold Z.leb. now destruct (a ?= b). Qed.

(** Truncation. *)
Lemma to_unsigned_ok bits f a : 0 <= bits -> value f a -> to_unsigned bits f = if a / scale <? 2 ^ bits then Ok (Z.to_N (a / scale)) else UB.
Proof.
  intros Hb (m & e & -> & [Hm He] & ->). cbn [to_unsigned]. pose proof scale_pos as Hs.
  assert (E : (if 0 <=? e then Zpos m * 2 ^ e else Zpos m / 2 ^ (- e)) = val m e / scale); [|now rewrite E].
  unfold val. destruct (Z.leb_spec 0 e) as [H|H].
  - replace e with (0 + e) at 2 by lia. rewrite unit_add, unit_0 by lia. rewrite Z.mul_assoc, Z.div_mul by lia. reflexivity.
  - rewrite <- unit_0. replace 0 with (e + - e) at 1 by lia. rewrite unit_add by lia. assert (0 < unit e) by (apply unit_pos; lia). rewrite Z.div_mul_cancel_r; [reflexivity| |lia].
    apply Z.pow_nonzero; lia.
Qed.

(** Integers below 2^53 are represented exactly. *)
Lemma integer_value z : 0 < z < 2 ^ 53 -> exists g, value g (z * scale).
Proof.
  intros H. destruct z as [|p|p]; try lia. pose proof (digits2_pos_bounds p) as B. set (k := Zpos (digits2_pos p)) in *.
  assert (Hk : k <= 53).
  { destruct (Z.le_gt_cases k 53); auto. assert (2 ^ 53 <= 2 ^ (k - 1)) by (apply Z.pow_le_mono_r; lia). lia. }
  assert (Hp : 0 < 2 ^ (53 - k)) by (apply Z.pow_pos_nonneg; lia).
  exists (S754_finite false (p * Z.to_pos (2 ^ (53 - k))) (k - 53)), (p * Z.to_pos (2 ^ (53 - k)))%positive, (k - 53). split; auto.
  rewrite <- unit_0. unfold val. replace (unit 0) with (2 ^ (53 - k) * unit (k - 53)) by (rewrite <- unit_add by lia; f_equal; lia).
  rewrite Pos2Z.inj_mul, Z2Pos.id by auto. split; [|ring]. split; [|lia]. rewrite Pos2Z.inj_mul, Z2Pos.id by auto.
  replace (2 ^ 52) with (2 ^ (k - 1) * 2 ^ (53 - k)) by (rewrite <- Z.pow_add_r by lia; f_equal; lia).
  replace (2 ^ 53) with (2 ^ k * 2 ^ (53 - k)) by (rewrite <- Z.pow_add_r by lia; f_equal; lia). nia.
Qed.
Lemma of_Z_exact z : 0 < z < 2 ^ 53 -> value (of_Z z) (z * scale).
Proof.
  intros H. assert (H' : 0 < z < 2 ^ 900) by (assert (2 ^ 53 < 2 ^ 900) by (apply Z.pow_lt_mono_r; lia); lia). pose proof (of_Z_ok z H') as R. destruct (rounds_to_value _ _ _ R) as (v & Hv).
  destruct (integer_value z H) as (g & Hg). replace (z * scale) with v; auto. eapply rounds_to_exact; eauto; lia.
Qed.
Lemma moderate_ratio a b v : 0 < b -> b < 2 ^ 100 -> 0 < a < 2 ^ 100 -> v * b = a * scale -> moderate v.
Proof.
  intros Hb Hb' Ha E. pose proof scale_pos as Hs. split.
  - assert (unit (-400) * 2 ^ 400 = scale) by (rewrite Z.mul_comm, <- unit_add by lia; apply unit_0). assert (2 ^ 100 < 2 ^ 400) by (apply Z.pow_lt_mono_r; lia). assert (0 < unit (-400)) by (apply unit_pos; lia). nia.
  - assert (unit 400 = 2 ^ 400 * scale) by (change 400 with (0 + 400); rewrite unit_add by lia; now rewrite unit_0). assert (2 ^ 100 < 2 ^ 400) by (apply Z.pow_lt_mono_r; lia). nia.
Qed.
