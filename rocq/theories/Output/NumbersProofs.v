(** Proofs about the functions that print numbers. *)
From Coq Require Import List Arith Bool ZArith NArith Ascii String Lia.
From Coq.Floats Require Import SpecFloat.
From Verif.Base Require Import Res Text Double.
From Verif.Spec Require Import Rounding.
From Verif.Output Require Import Numbers.
Import ListNotations.
Local Notation length := List.length.
Local Open Scope Z_scope.

(** Sizes *)
Definition within (k v : Z) : Prop := scale <= v * 2 ^ k /\ v <= scale * 2 ^ k.
Lemma within_moderate k v : 0 <= k < 400 -> within k v -> moderate v.
Proof.
  intros Hk [H1 H2]. pose proof scale_pos as Hs. assert (Hp : 0 < 2 ^ k) by (apply Z.pow_pos_nonneg; lia). assert (Hl : 2 ^ k < 2 ^ 400) by (apply Z.pow_lt_mono_r; lia). split.
  - assert (E : unit (-400) * 2 ^ 400 = scale) by (rewrite Z.mul_comm, <- unit_add by lia; apply unit_0). assert (0 < unit (-400)) by (apply unit_pos; lia).
    destruct (Z.le_gt_cases (unit (-400)) v) as [|G]; auto. assert (v * 2 ^ k < unit (-400) * 2 ^ k) by (apply Z.mul_lt_mono_pos_r; auto).
    assert (unit (-400) * 2 ^ k <= unit (-400) * 2 ^ 400) by (apply Z.mul_le_mono_nonneg_l; lia). lia.
  - assert (E : unit 400 = 2 ^ 400 * scale) by (change 400 with (0 + 400); rewrite unit_add by lia; now rewrite unit_0).
    assert (scale * 2 ^ k < scale * 2 ^ 400) by (apply Z.mul_lt_mono_pos_l; auto). lia.
Qed.
Lemma within_mono k k' v : 0 <= k <= k' -> 0 < v -> within k v -> within k' v.
Proof.
  intros Hk Hv [H1 H2]. pose proof scale_pos. assert (2 ^ k <= 2 ^ k') by (apply Z.pow_le_mono_r; lia). split.
  - transitivity (v * 2 ^ k); auto. apply Z.mul_le_mono_nonneg_l; lia.
  - transitivity (scale * 2 ^ k); auto. apply Z.mul_le_mono_nonneg_l; lia.
Qed.
Lemma rounds_factor n d f v : 0 < d -> rounds_to n d f -> value f v -> v * d <= 2 * n /\ n <= 2 * (v * d).
Proof.
  intros Hd H Hv. pose proof (rounds_to_error _ _ _ _ Hd H Hv). pose proof (value_pos _ _ Hv). assert (0 < v * d) by (apply Z.mul_pos_pos; lia). lia.
Qed.
(** Relative errors *)
Definition B : Z := 2 ^ 53.
Lemma B_big : 1 < B.
Proof. reflexivity. Qed.
Ltac nonneg := repeat match goal with |- 0 <= _ * _ => apply Z.mul_nonneg_nonneg | |- 0 <= _ + _ => apply Z.add_nonneg_nonneg end; pose proof B_big; lia.
Ltac positive := repeat match goal with |- 0 < _ * _ => apply Z.mul_pos_pos end; pose proof B_big; lia.
Lemma rounds_up n d f v : 0 < d -> rounds_to n d f -> value f v -> (B - 1) * (v * d) <= B * n.
Proof. intros Hd H Hv. pose proof (rounds_to_error _ _ _ _ Hd H Hv) as R. unfold B. set (x := v * d) in *. clearbody x. lia. Qed.
Lemma rounds_down n d f v : 0 < d -> rounds_to n d f -> value f v -> B * n <= (B + 1) * (v * d).
Proof. intros Hd H Hv. pose proof (rounds_to_error _ _ _ _ Hd H Hv) as R. unfold B. set (x := v * d) in *. clearbody x. lia. Qed.

Lemma within_of_Z z f v : 0 < z < 2 ^ 64 -> rounds_to (z * scale) 1 f -> value f v -> within 65 v.
Proof. intros Hz H Hv. pose proof scale_pos. destruct (rounds_factor (z * scale) 1 f v eq_refl H Hv) as [H1 H2]. rewrite Z.mul_1_r in *. split; nia. Qed.
Lemma within_ddiv k k' a b f v : 0 <= k -> 0 <= k' -> 0 < a -> 0 < b -> within k a -> within k' b -> rounds_to (a * scale) b f -> value f v -> within (k + k' + 1) v.
Proof.
  intros Hk Hk' Ha Hb [A1 A2] [B1 B2] H Hv. pose proof scale_pos as Hs. destruct (rounds_factor _ _ _ _ Hb H Hv) as [H1 H2]. pose proof (value_pos _ _ Hv) as Pv.
  assert (Hp : 0 < 2 ^ k) by (apply Z.pow_pos_nonneg; lia). assert (Hp' : 0 < 2 ^ k') by (apply Z.pow_pos_nonneg; lia).
  unfold within. rewrite !Z.pow_add_r by lia. change (2 ^ 1) with 2. set (p := 2 ^ k) in *. set (q := 2 ^ k') in *. split.
  - (* S <= v p q 2 : S*S <= a p S <= 2 v b p <= 2 v S q p *)
    apply (Z.mul_le_mono_pos_r _ _ scale); auto. transitivity (a * p * scale); [apply Z.mul_le_mono_nonneg_r; lia|].
    transitivity (2 * (v * b) * p); [replace (a * p * scale) with (a * scale * p) by ring; apply Z.mul_le_mono_nonneg_r; lia|].
    replace (v * (p * q * 2) * scale) with (2 * v * p * (scale * q)) by ring. replace (2 * (v * b) * p) with (2 * v * p * b) by ring. apply Z.mul_le_mono_nonneg_l; auto.
    apply Z.mul_nonneg_nonneg; lia.
  - (* v <= S p q 2: v S <= v b q <= 2 a S q <= 2 S p S q *)
    apply (Z.mul_le_mono_pos_r _ _ scale); auto. transitivity (v * (b * q)); [apply Z.mul_le_mono_nonneg_l; lia|].
    transitivity (2 * (a * scale) * q); [rewrite Z.mul_assoc; apply Z.mul_le_mono_nonneg_r; lia|].
    replace (2 * (a * scale) * q) with (2 * scale * q * a) by ring. replace (scale * (p * q * 2) * scale) with (2 * scale * q * (scale * p)) by ring. apply Z.mul_le_mono_nonneg_l; auto.
    apply Z.mul_nonneg_nonneg; lia.
Qed.
Lemma within_dmul k k' a b f v : 0 <= k -> 0 <= k' -> 0 < a -> 0 < b -> within k a -> within k' b -> rounds_to (a * b) scale f -> value f v -> within (k + k' + 1) v.
Proof.
  intros Hk Hk' Ha Hb [A1 A2] [B1 B2] H Hv. pose proof scale_pos as Hs. destruct (rounds_factor _ _ _ _ Hs H Hv) as [H1 H2]. pose proof (value_pos _ _ Hv) as Pv.
  assert (Hp : 0 < 2 ^ k) by (apply Z.pow_pos_nonneg; lia). assert (Hp' : 0 < 2 ^ k') by (apply Z.pow_pos_nonneg; lia).
  unfold within. rewrite !Z.pow_add_r by lia. change (2 ^ 1) with 2. set (p := 2 ^ k) in *. set (q := 2 ^ k') in *. split.
  - apply (Z.mul_le_mono_pos_r _ _ scale); auto. transitivity (a * p * (b * q)); [apply Z.mul_le_mono_nonneg; lia|].
    replace (a * p * (b * q)) with (a * b * (p * q)) by ring. replace (v * (p * q * 2) * scale) with (2 * (v * scale) * (p * q)) by ring. apply Z.mul_le_mono_nonneg_r; auto.
    apply Z.mul_nonneg_nonneg; lia.
  - apply (Z.mul_le_mono_pos_r _ _ scale); auto. transitivity (2 * (a * b)); auto. transitivity (2 * ((scale * p) * (scale * q))); [apply Z.mul_le_mono_nonneg_l; [lia|apply Z.mul_le_mono_nonneg; lia]|].
    apply Z.eq_le_incl. ring.
Qed.

Lemma half_unit : scale = 2 * unit (-1).
Proof. rewrite <- unit_succ by lia. symmetry. apply unit_0. Qed.
(** Doubles of the form j * 2^x. *)
Lemma rep_value j x : 0 < j < 2 ^ 53 -> -900 <= x <= 900 -> exists g, value g (j * unit x).
Proof.
  intros Hj Hx. destruct (integer_value j Hj) as (g & m & e & _ & [H1 H2] & E). unfold val in E. rewrite <- unit_0 in E.
  assert (He : -53 <= e <= 0).
  { assert (0 < unit e) by (apply unit_pos; lia). split.
    - destruct (Z.le_gt_cases (-53) e); auto. assert (unit 0 = 2 ^ (- e) * unit e) by (rewrite <- unit_add by lia; f_equal; lia). assert (2 ^ 53 <= 2 ^ (- e)) by (apply Z.pow_le_mono_r; lia). nia.
    - destruct (Z.le_gt_cases e 0); auto. assert (unit e = 2 ^ e * unit 0) by (rewrite <- unit_add by lia; f_equal; lia). assert (2 ^ 1 <= 2 ^ e) by (apply Z.pow_le_mono_r; lia).
      assert (0 < unit 0) by (apply unit_pos; lia). nia. }
  exists (S754_finite false m (e + x)), m, (e + x). split; auto. split; [split; lia|]. unfold val.
  assert (Eu : unit 0 = 2 ^ (- e) * unit e) by (rewrite <- unit_add by lia; f_equal; lia). assert (Ev : unit x = 2 ^ (- e) * unit (e + x)) by (rewrite <- unit_add by lia; f_equal; lia).
  rewrite Ev. rewrite Eu in E. assert (0 < unit e) by (apply unit_pos; lia). assert (j * 2 ^ (- e) = Zpos m); [|rewrite Z.mul_assoc; congruence].
  apply (Z.mul_reg_r _ _ (unit e)); [lia|]. rewrite <- Z.mul_assoc. auto.
Qed.
Lemma half_value : value (literal 1 2) (unit (-1)).
Proof. exists 4503599627370496%positive, (-53). split; [reflexivity|]. split; [split; lia|]. unfold val. change (-1) with (-53 + 52). rewrite unit_add by lia. reflexivity. Qed.

(** Ties: ten times k/20 is not rounded below k/2. *)
Lemma tie k f q g z : 0 < k < 2 ^ 51 -> rounds_to (k * scale) 20 f -> value f q -> rounds_to (10 * q) 1 g -> value g z -> k * unit (-1) <= z.
Proof.
  intros Hk (m & e & -> & Hm & He & R1 & _) (m0 & e0 & E & _ & ->) (m' & e' & -> & Hm' & He' & R2 & R3 & _) (m0' & e0' & E' & _ & ->). injection E as <- <-. injection E' as <- <-.
  destruct (Z.le_gt_cases (k * unit (-1)) (val m' e')) as [|G]; auto. exfalso.
  unfold val in *. set (M := Zpos m) in *. set (M' := Zpos m') in *. assert (Hu : 0 < unit e) by (apply unit_pos; lia). assert (Hu' : 0 < unit e') by (apply unit_pos; lia). pose proof scale_pos as Hs.
  assert (R1' : Z.abs (20 * (M * unit e) - k * scale) <= 10 * unit e) by lia.
  (* the exponent of the quotient *)
  assert (He3 : e <= -4).
  { destruct (Z.le_gt_cases e (-4)); auto. assert (scale <= 8 * unit e).
    { rewrite <- unit_0. assert (unit (-3) <= unit e) by (apply unit_mono; lia). assert (unit 0 = 2 ^ 3 * unit (-3)) by (rewrite <- unit_add by lia; f_equal; lia). lia. }
    assert (k * scale <= k * (8 * unit e)) by (apply Z.mul_le_mono_nonneg_l; lia). assert (2 ^ 52 * unit e <= M * unit e) by (apply Z.mul_le_mono_nonneg_r; lia). assert (k * (8 * unit e) <= 2 ^ 54 * unit e) by nia. lia. }
  assert (Es : scale = 2 ^ (- e) * unit e) by (rewrite <- unit_0, <- unit_add by lia; f_equal; lia).
  (* the error is at most 8 units *)
  assert (R8 : k * scale - 20 * (M * unit e) <= 8 * unit e).
  { rewrite Es in R1' |- *. replace (- e) with (2 + (- e - 2)) in R1' |- * by lia. rewrite Z.pow_add_r in R1' |- * by lia. set (p := 2 ^ (- e - 2)) in *. change (2 ^ 2) with 4 in *.
    replace (20 * (M * unit e) - k * (4 * p * unit e)) with ((4 * (5 * M - k * p)) * unit e) in R1' by ring. replace (k * (4 * p * unit e) - 20 * (M * unit e)) with ((4 * (k * p - 5 * M)) * unit e) by ring.
    apply Z.mul_le_mono_nonneg_r; [lia|]. assert (4 * (5 * M - k * p) >= -10); [|lia]. destruct (Z.le_gt_cases (-10) (4 * (5 * M - k * p))) as [|G']; [lia|]. assert (4 * (5 * M - k * p) * unit e <= (-11) * unit e) by (apply Z.mul_le_mono_nonneg_r; lia). lia. }
  rewrite half_unit in R8. set (w := k * unit (-1)) in *. assert (R8' : w - 4 * unit e <= 10 * (M * unit e)) by lia.
  (* w is at least one unit above the product *)
  assert (Hew : unit e' <= 8 * unit e -> e' <= -1).
  { intros H. replace (8 * unit e) with (unit (e + 3)) in H by (rewrite unit_add by lia; lia). destruct (Z.le_gt_cases e' (-1)); auto. assert (unit (e + 3) < unit e'); [|lia]. unfold unit. apply Z.pow_lt_mono_r; lia. }
  assert (Hbig : 4 * unit e < unit e').
  { assert (2 ^ 52 * unit e <= M * unit e) by (apply Z.mul_le_mono_nonneg_r; lia). assert (M' * unit e' <= (2 ^ 53 - 1) * unit e') by (apply Z.mul_le_mono_nonneg_r; lia). lia. }
  assert (Hgap : unit e' <= w - M' * unit e').
  { destruct (Z.le_gt_cases e' (-1)) as [Hl|Hl].
    - assert (Ew : unit (-1) = 2 ^ (-1 - e') * unit e') by (rewrite <- unit_add by lia; f_equal; lia). unfold w in *. rewrite Ew in *. rewrite Z.mul_assoc in *. apply gap_same; auto.
    - (* then M' * unit e' > w *) exfalso. assert (unit 0 <= unit e') by (apply unit_mono; lia). rewrite unit_0, half_unit in *. unfold w in G. assert (0 < unit (-1)) by (apply unit_pos; lia).
      assert (2 ^ 52 * (2 * unit (-1)) <= M' * unit e') by (apply Z.mul_le_mono_nonneg; lia). assert (k * unit (-1) <= 2 ^ 51 * unit (-1)) by (apply Z.mul_le_mono_nonneg_r; lia). lia. }
  assert (H8 : unit e' <= 8 * unit e) by lia. specialize (Hew H8).
  assert (E8 : unit e' = 8 * unit e).
  { apply Z.le_antisymm; auto. replace (8 * unit e) with (unit (e + 3)) by (rewrite unit_add by lia; lia). apply unit_mono; [lia|]. replace (4 * unit e) with (unit (e + 2)) in Hbig by (rewrite unit_add by lia; lia). apply unit_lt_inv in Hbig; lia. }
  assert (Heven : Z.even M' = true) by (apply R3; lia).
  assert (Ew : w = (M' + 1) * unit e') by lia. unfold w in Ew. assert (Eh : unit (-1) = 2 ^ (-1 - e') * unit e') by (rewrite <- unit_add by lia; f_equal; lia). rewrite Eh, Z.mul_assoc in Ew.
  apply Z.mul_reg_r in Ew; [|lia]. apply Z.even_spec in Heven. destruct Heven as (h & Eh').
  destruct (Z.eq_dec e' (-1)) as [->|Hn].
  - change (2 ^ (-1 - -1)) with 1 in Ew. lia.
  - replace (-1 - e') with (1 + (-1 - e' - 1)) in Ew by lia. rewrite Z.pow_add_r in Ew by lia. change (2 ^ 1) with 2 in Ew. lia.
Qed.

(** Cancelling a common factor *)
Lemma rounds_to_cancel c n d f : 0 < c -> rounds_to (n * c) (d * c) f -> rounds_to n d f.
Proof.
  intros Hc (m & e & -> & H1 & H2 & H3 & H4 & H5). exists m, e. split; auto. split; auto. split; auto.
  replace (2 * (val m e * (d * c) - n * c)) with (2 * (val m e * d - n) * c) in * by ring. rewrite (Z.abs_mul _ c), (Z.abs_eq c) in H3, H4 by lia.
  replace (d * c * unit e) with (d * unit e * c) in * by ring. replace (4 * (val m e * (d * c) - n * c)) with (4 * (val m e * d - n) * c) in * by ring.
  split; [|split].
  - apply Zmult_le_reg_r with c; [lia|exact H3].
  - intros E. apply H4. now rewrite E.
  - intros E. specialize (H5 E). apply Zmult_le_reg_r with c; [lia|exact H5].
Qed.
Lemma decimal_digit d : (d < 10)%N -> decimal d = [digit d].
Proof. intros H. unfold decimal, digits. cbn [rdigits]. destruct (N.ltb_spec d 10); [reflexivity|lia]. Qed.

Lemma ten_value : value (of_Z 10) (10 * scale).
Proof. apply of_Z_exact. lia. Qed.
Lemma within_int z : 0 < z < 2 ^ 64 -> within 64 (z * scale).
Proof. intros H. pose proof scale_pos. split; nia. Qed.

Lemma dmul_10 k f q : 0 <= k <= 300 -> value f q -> within k q -> rounds_to (10 * q) 1 (dmul f (of_Z 10)) /\ exists z, value (dmul f (of_Z 10)) z /\ within (k + 65) z.
Proof.
  intros Hk Hq Hw. pose proof scale_pos as Hs. pose proof (value_pos _ _ Hq) as Pq.
  assert (R : rounds_to (q * (10 * scale)) scale (dmul f (of_Z 10))).
  { apply dmul_ok; auto; [apply ten_value|apply within_moderate with k; auto; lia|apply within_moderate with 64; [lia|apply within_int; lia]]. }
  destruct (rounds_to_value _ _ _ R) as (z & Hz). split.
  - apply (rounds_to_cancel scale); auto. replace (10 * q * scale) with (q * (10 * scale)) by ring. now rewrite Z.mul_1_l.
  - exists z. split; auto. replace (k + 65) with (k + 64 + 1) by lia. eapply (within_dmul k 64 q (10 * scale)); eauto; try lia. apply within_int. lia.
Qed.
Lemma dadd_half k f z : 0 <= k <= 370 -> value f z -> within k z -> rounds_to (z + unit (-1)) 1 (dadd f (literal 1 2)) /\ exists y, value (dadd f (literal 1 2)) y.
Proof.
  intros Hk Hz Hw. pose proof scale_pos as Hs. pose proof (value_pos _ _ Hz) as Pz.
  assert (R : rounds_to (z + unit (-1)) 1 (dadd f (literal 1 2))).
  { apply dadd_ok; auto; [apply half_value|]. pose proof (within_moderate k z ltac:(lia) Hw) as [_ M]. assert (unit (-1) < unit 400) by (unfold unit; apply Z.pow_lt_mono_r; lia).
    assert (E : unit 1000 = 2 ^ 600 * unit 400) by (rewrite <- unit_add by lia; f_equal; lia). assert (2 ^ 1 <= 2 ^ 600) by (apply Z.pow_le_mono_r; lia). assert (0 < unit 400) by (apply unit_pos; lia). nia. }
  split; auto. apply (rounds_to_value _ _ _ R).
Qed.
Lemma oneDecimal_ok k f q : 0 <= k <= 300 -> value f q -> within k q ->
  exists fz z fy y, rounds_to (10 * q) 1 fz /\ value fz z /\ rounds_to (z + unit (-1)) 1 fy /\ value fy y /\
    oneDecimal f = if y / scale <? 2 ^ 64 then Ok (in_tenths (Z.to_N (y / scale))) else UB.
Proof.
  intros Hk Hq Hw. destruct (dmul_10 k f q Hk Hq Hw) as (R & z & Hz & Wz). destruct (dadd_half (k + 65) _ z ltac:(lia) Hz Wz) as (R' & y & Hy).
  exists (dmul f (of_Z 10)), z, (dadd (dmul f (of_Z 10)) (literal 1 2)), y. do 4 (split; [assumption|]). unfold oneDecimal. rewrite (to_unsigned_ok 64 _ y) by (auto; lia).
  destruct (y / scale <? 2 ^ 64); [|reflexivity]. cbn [bind]. unfold in_tenths. rewrite (decimal_digit (_ mod 10)); [reflexivity|]. apply N.mod_lt. lia.
Qed.
Lemma oneDecimal_zero : oneDecimal (S754_zero false) = Ok (in_tenths 0).
Proof. reflexivity. Qed.

Lemma floor_is y t : t * scale <= y < (t + 1) * scale -> y / scale = t.
Proof. intros H. symmetry. apply (Z.div_unique y scale t (y - t * scale)); [|ring]. left. lia. Qed.

(** The heart of C44 and C45: [q] is close to the quotient n/d from above, and not below the rounding of the last tie. *)
Lemma oneDecimal_exact k f q n d t c P Q j : 0 <= k <= 300 -> value f q -> within k q ->
  0 < n -> 0 < d -> 0 <= t < 2 ^ 50 -> 20 * n + c <= (2 * t + 1) * d ->
  (0 < t -> exists g q0, rounds_to ((2 * t - 1) * scale) 20 g /\ value g q0 /\ q0 <= q) ->
  0 < P <= Q -> P * (q * d) <= Q * (n * scale) -> (B - j) * (B * Q) <= (B - 1) * (B - 1) * P -> j * ((2 * t + 2) * d) < B * c ->
  oneDecimal f = Ok (in_tenths (Z.to_N t)).
Proof.
  intros Hk Hq Hw Hn Hd Ht Hc Hlow HPQ Hup Hb Hj. destruct (oneDecimal_ok k f q Hk Hq Hw) as (fz & z & fy & y & R1 & Hz & R2 & Hy & ->). pose proof scale_pos as Hs.
  pose proof half_unit as Hh. assert (Hu : 0 < unit (-1)) by (apply unit_pos; lia). pose proof (value_pos _ _ Hy) as Py.
  enough (E : y / scale = t). { rewrite E. destruct (Z.ltb_spec t (2 ^ 64)); [reflexivity|lia]. }
  apply floor_is. split.
  - destruct (Z.eq_dec t 0) as [->|Nt]; [lia|]. destruct (Hlow ltac:(lia)) as (g & q0 & R0 & Hg & Hle).
    assert (Wg : within 64 q0).
    { destruct (rounds_factor _ 20 _ _ eq_refl R0 Hg) as [F1 F2]. pose proof (value_pos _ _ Hg). change (2 ^ 50) with 1125899906842624 in Ht. split; nia. }
    destruct (dmul_10 64 g q0 ltac:(lia) Hg Wg) as (R3 & z0 & Hz0 & _). assert (T : (2 * t - 1) * unit (-1) <= z0) by (eapply tie; eauto; lia).
    assert (M : z0 <= z) by (eapply (rounds_to_mono (10 * q0) 1 _ z0 (10 * q) 1 _ z); eauto; lia). destruct (integer_value t ltac:(lia)) as (h & Hv).
    assert (t * scale <= z + unit (-1)) by (rewrite Hh; lia). apply (rounds_to_ge (z + unit (-1)) 1 fy y h (t * scale)); auto; lia.
  - pose proof (rounds_up _ 1 _ _ eq_refl R1 Hz) as U1. pose proof (rounds_up _ 1 _ _ eq_refl R2 Hy) as U2. rewrite !Z.mul_1_r in *.
    assert (HB : 0 < B - 1) by (unfold B; lia). apply (Z.mul_lt_mono_pos_l (2 * (B - 1) * (B - 1) * P * d)); [positive|].
    (* 2 (B-1)^2 P d y <= 2 B (B-1) P d z + B (B-1) P d S <= 20 B^2 P d q + B (B-1) P d S <= 20 B^2 Q n S + B^2 Q d S *)
    assert (A1 : 2 * (B - 1) * (B - 1) * P * d * y <= (B - 1) * P * d * (B * (2 * z + scale))).
    { replace (2 * (B - 1) * (B - 1) * P * d * y) with ((B - 1) * P * d * (2 * ((B - 1) * y))) by ring. apply Z.mul_le_mono_nonneg_l; [|lia]. nonneg. }
    assert (A2 : (B - 1) * P * d * (B * (2 * z + scale)) <= P * d * B * (20 * (B * q) + B * scale)).
    { replace ((B - 1) * P * d * (B * (2 * z + scale))) with (P * d * B * (2 * ((B - 1) * z) + (B - 1) * scale)) by ring. apply Z.mul_le_mono_nonneg_l; [nonneg|].
      assert ((B - 1) * scale <= B * scale) by (apply Z.mul_le_mono_nonneg_r; lia). lia. }
    assert (A3 : P * d * B * (20 * (B * q) + B * scale) <= B * B * Q * scale * (20 * n + d)).
    { replace (P * d * B * (20 * (B * q) + B * scale)) with (B * B * (20 * (P * (q * d)) + P * (d * scale))) by ring. replace (B * B * Q * scale * (20 * n + d)) with (B * B * (20 * (Q * (n * scale)) + Q * (d * scale))) by ring.
      apply Z.mul_le_mono_nonneg_l; [unfold B; lia|]. assert (P * (d * scale) <= Q * (d * scale)) by (apply Z.mul_le_mono_nonneg_r; [apply Z.mul_nonneg_nonneg|]; lia). lia. }
    assert (A4 : B * B * Q * scale * (20 * n + d) < B * Q * scale * ((B - j) * ((2 * t + 2) * d))).
    { replace (B * B * Q * scale * (20 * n + d)) with (B * Q * scale * (B * (20 * n + d))) by ring. apply Z.mul_lt_mono_pos_l; [positive|].
      assert (B * (20 * n + d) <= B * ((2 * t + 2) * d - c)) by (apply Z.mul_le_mono_nonneg_l; [unfold B|]; lia). lia. }
    assert (A5 : B * Q * scale * ((B - j) * ((2 * t + 2) * d)) <= (B - 1) * (B - 1) * P * (scale * ((2 * t + 2) * d))).
    { replace (B * Q * scale * ((B - j) * ((2 * t + 2) * d))) with ((B - j) * (B * Q) * (scale * ((2 * t + 2) * d))) by ring. apply Z.mul_le_mono_nonneg_r; auto. nonneg. }
    replace (2 * (B - 1) * (B - 1) * P * d * ((t + 1) * scale)) with ((B - 1) * (B - 1) * P * (scale * ((2 * t + 2) * d))) by ring. lia.
Qed.

(** Quotients of doubles *)
Lemma ddiv_within k k' f g a b : 0 <= k <= 350 -> 0 <= k' <= 350 -> value f a -> value g b -> within k a -> within k' b ->
  rounds_to (a * scale) b (ddiv f g) /\ exists q, value (ddiv f g) q /\ within (k + k' + 1) q.
Proof.
  intros Hk Hk' Hf Hg Wa Wb. pose proof (value_pos _ _ Hf). pose proof (value_pos _ _ Hg).
  assert (R : rounds_to (a * scale) b (ddiv f g)) by (apply ddiv_ok; auto; [apply within_moderate with k|apply within_moderate with k']; auto; lia).
  split; auto. destruct (rounds_to_value _ _ _ R) as (q & Hq). exists q. split; auto. eapply (within_ddiv k k' a b); eauto; lia.
Qed.
Lemma ddiv_int k f a b : 0 <= k <= 200 -> 0 < b < 2 ^ 53 -> value f a -> within k a -> rounds_to a b (ddiv f (of_Z b)) /\ exists q, value (ddiv f (of_Z b)) q /\ within (k + 65) q.
Proof.
  intros Hk Hb Hf Wa. pose proof scale_pos as Hs. assert (Wb : within 64 (b * scale)) by (apply within_int; lia).
  destruct (ddiv_within k 64 f (of_Z b) a (b * scale)) as (R & q & Hq & Wq); auto; try lia; [apply of_Z_exact; lia|]. split.
  - apply (rounds_to_cancel scale); auto.
  - exists q. split; auto. now replace (k + 65) with (k + 64 + 1) by lia.
Qed.
Lemma of_N_ok n : (0 < n < 2 ^ 64)%N -> rounds_to (Z.of_N n * scale) 1 (of_N n) /\ exists a, value (of_N n) a /\ within 65 a.
Proof.
  intros H. assert (H' : 0 < Z.of_N n < 2 ^ 64) by lia. unfold of_N. assert (2 ^ 64 < 2 ^ 900) by (apply Z.pow_lt_mono_r; lia). pose proof (of_Z_ok (Z.of_N n) ltac:(lia)) as R.
  split; auto. destruct (rounds_to_value _ _ _ R) as (a & Ha). exists a. split; auto. eapply within_of_Z; eauto.
Qed.

Lemma half_up_Z n d t : half_up n d t <-> 2 * Z.of_N t * Z.of_N d <= 2 * Z.of_N n + Z.of_N d < 2 * (Z.of_N t + 1) * Z.of_N d.
Proof. unfold half_up. nia. Qed.
Lemma half_up_exists n d : (0 < d)%N -> exists t, half_up n d t.
Proof.
  intros H. exists ((2 * n + d) / (2 * d))%N. unfold half_up. pose proof (N.div_mod (2 * n + d) (2 * d) ltac:(lia)) as D. pose proof (N.mod_lt (2 * n + d) (2 * d) ltac:(lia)) as M.
  set (q := ((2 * n + d) / (2 * d))%N) in *. set (r := ((2 * n + d) mod (2 * d))%N) in *. split; nia.
Qed.
Lemma half_up_unique n d t t' : half_up n d t -> half_up n d t' -> t = t'.
Proof.
  unfold half_up. intros H1 H2. destruct (N.lt_trichotomy t t') as [H|[H|H]]; auto; exfalso.
  - assert ((t + 1) * d <= t' * d)%N by (apply N.mul_le_mono_r; lia). lia.
  - assert ((t' + 1) * d <= t * d)%N by (apply N.mul_le_mono_r; lia). lia.
Qed.

(** C44 *)
Lemma ratioInteger_exact n d t : (0 < d < 2 ^ 46)%N -> (n < 2 ^ 46)%N -> half_up (10 * n) d t -> ratioInteger n d = Ok (in_tenths t).
Proof.
  intros Hd Hn Ht. unfold ratioInteger. destruct (N.eqb_spec d 0); [lia|]. destruct (N.eq_dec n 0) as [->|Nn].
  { assert (t = 0%N) as -> by (destruct Ht; nia). destruct d as [|p]; [lia|]. unfold of_N at 1. cbn [Z.of_N]. change (of_Z 0) with (S754_zero false).
    pose proof (of_Z_exact (Zpos p) ltac:(lia)) as (m & e & E & _). unfold of_N. cbn [Z.of_N]. rewrite E. apply oneDecimal_zero. }
  rewrite half_up_Z in Ht. set (a := Z.of_N n) in *. set (b := Z.of_N d) in *. set (s := Z.of_N t) in *. replace (Z.of_N (10 * n)) with (10 * a) in Ht by lia. assert (Ha : 0 < a < 2 ^ 46) by lia. assert (Hb : 0 < b < 2 ^ 46) by lia.
  pose proof scale_pos as Hs. assert (Va : value (of_N n) (a * scale)) by (apply of_Z_exact; lia). assert (Wa : within 64 (a * scale)) by (apply within_int; lia).
  destruct (ddiv_int 64 (of_N n) (a * scale) b ltac:(lia) ltac:(lia) Va Wa) as (R & q & Hq & Wq). change (of_N d) with (of_Z b).
  replace t with (Z.to_N s) by apply N2Z.id.
  assert (Ht50 : 0 <= s < 2 ^ 50) by nia. assert (Hsb : 2 * s * b <= 20 * a + b) by lia.
  apply (oneDecimal_exact (64 + 65) (ddiv (of_N n) (of_Z b)) q a b s 1 (B - 1) B 3); auto; try lia.
  - intros Hpos. destruct (ddiv_int 64 (of_Z (2 * s - 1)) ((2 * s - 1) * scale) 20 ltac:(lia) ltac:(lia)) as (R0 & q0 & Hq0 & _); [apply of_Z_exact; lia|apply within_int; lia|].
    exists (ddiv (of_Z (2 * s - 1)) (of_Z 20)), q0. split; [exact R0|]. split; [exact Hq0|]. eapply (rounds_to_mono _ 20 _ _ _ b); eauto; try lia.
    replace ((2 * s - 1) * scale * b) with (((2 * s - 1) * b) * scale) by ring. replace (a * scale * 20) with (20 * a * scale) by ring. apply scaled_le; lia.
  - unfold B; lia.
  - eapply rounds_up; eauto; lia.
  - unfold B; lia.
  - unfold B; lia.
Qed.

Lemma ratioInteger_bounds n d : (0 < d < 2 ^ 64)%N -> (n < 2 ^ 64)%N ->
  exists t, ratioInteger n d = (if (t <? 2 ^ 64)%N then Ok (in_tenths t) else UB) /\
    (2 ^ 50 * (2 * t * d) <= (2 ^ 50 + 1) * (20 * n + d) /\ (2 ^ 50 - 1) * (20 * n + d) < 2 ^ 50 * (2 * (t + 1) * d))%N.
Proof.
  intros Hd Hn. unfold ratioInteger. destruct (N.eqb_spec d 0); [lia|]. destruct (of_N_ok d Hd) as (Rd & b & Vb & Wb). destruct (N.eq_dec n 0) as [->|Nn].
  { exists 0%N. split; [|lia]. unfold of_N at 1. cbn [Z.of_N]. change (of_Z 0) with (S754_zero false). destruct Vb as (m & e & E & _). rewrite E. apply oneDecimal_zero. }
  destruct (of_N_ok n ltac:(lia)) as (Rn & a & Va & Wa). destruct (ddiv_within 65 65 _ _ a b ltac:(lia) ltac:(lia) Va Vb Wa Wb) as (Rq & q & Vq & Wq).
  destruct (oneDecimal_ok (65 + 65 + 1) _ q ltac:(lia) Vq Wq) as (fz & z & fy & y & Rz & Vz & Ry & Vy & ->). pose proof scale_pos as Hs. pose proof half_unit as Hh.
  pose proof (value_pos _ _ Vb) as Pb. pose proof (value_pos _ _ Va) as Pa. pose proof (value_pos _ _ Vq) as Pq. pose proof (value_pos _ _ Vz) as Pz. pose proof (value_pos _ _ Vy) as Py.
  pose proof (rounds_up _ 1 _ _ eq_refl Rn Va) as U1. pose proof (rounds_down _ 1 _ _ eq_refl Rn Va) as D1. pose proof (rounds_up _ 1 _ _ eq_refl Rd Vb) as U2. pose proof (rounds_down _ 1 _ _ eq_refl Rd Vb) as D2.
  pose proof (rounds_up _ _ _ _ Pb Rq Vq) as U3. pose proof (rounds_down _ _ _ _ Pb Rq Vq) as D3. pose proof (rounds_up _ 1 _ _ eq_refl Rz Vz) as U4. pose proof (rounds_down _ 1 _ _ eq_refl Rz Vz) as D4.
  pose proof (rounds_up _ 1 _ _ eq_refl Ry Vy) as U5. pose proof (rounds_down _ 1 _ _ eq_refl Ry Vy) as D5. rewrite !Z.mul_1_r in *.
  pose proof (Z.div_mod y scale ltac:(lia)) as Dm. pose proof (Z.mod_pos_bound y scale Hs) as Mb. pose proof (Z.div_pos y scale ltac:(lia) Hs) as Tp. set (t := y / scale) in *.
  exists (Z.to_N t). split. { destruct (Z.ltb_spec t (2 ^ 64)), (N.ltb_spec (Z.to_N t) (2 ^ 64)); auto; lia. }
  set (x := Z.of_N n) in *. set (w := Z.of_N d) in *. assert (Px : 0 < x) by lia. assert (Pw : 0 < w) by lia.
  enough (G : 2 ^ 50 * (2 * t * w) <= (2 ^ 50 + 1) * (20 * x + w) /\ (2 ^ 50 - 1) * (20 * x + w) < 2 ^ 50 * (2 * (t + 1) * w)).
  { destruct G as [G1 G2]. split; [apply N2Z.inj_le|apply N2Z.inj_lt]; rewrite !N2Z.inj_mul, ?N2Z.inj_add, ?N2Z.inj_mul, Z2N.id by lia.
    - exact G1.
    - exact G2. }
  assert (HB : 2 ^ 53 = B) by reflexivity. assert (PB : 1 < B) by (unfold B; lia).
  split.
  - assert (A1 : 2 * ((B - 1) * (B - 1) * y) <= 20 * (B * B * q) + B * (B - 1) * scale).
    { assert ((B - 1) * ((B - 1) * y) <= (B - 1) * (B * (z + unit (-1)))) by (apply Z.mul_le_mono_nonneg_l; lia). assert (B * ((B - 1) * z) <= B * (B * (10 * q))) by (apply Z.mul_le_mono_nonneg_l; lia). rewrite Hh. lia. }
    assert (A2 : 2 * ((B - 1) * (B - 1) * y) * ((B - 1) * b) <= 20 * (B * B * (B * (a * scale))) + B * (B - 1) * scale * ((B - 1) * b)).
    { assert (2 * ((B - 1) * (B - 1) * y) * ((B - 1) * b) <= (20 * (B * B * q) + B * (B - 1) * scale) * ((B - 1) * b)) by (apply Z.mul_le_mono_nonneg_r; [nonneg|assumption]).
      assert (20 * (B * B) * ((B - 1) * (q * b)) <= 20 * (B * B) * (B * (a * scale))) by (apply Z.mul_le_mono_nonneg_l; [nonneg|assumption]). lia. }
    assert (A3 : 20 * (B * B * B * scale) * w * ((B - 1) * a) <= 20 * (B * B * B * scale) * x * ((B + 1) * b)).
    { transitivity (20 * (B * B * B * scale) * w * (B * (x * scale))); [apply Z.mul_le_mono_nonneg_l; [nonneg|assumption]|].
      replace (20 * (B * B * B * scale) * w * (B * (x * scale))) with (20 * (B * B * B * scale) * x * (B * (w * scale))) by ring. apply Z.mul_le_mono_nonneg_l; [nonneg|assumption]. }
    assert (A4 : 2 * ((B - 1) * (B - 1) * (B - 1) * (B - 1)) * y * w * b <= (20 * (B * B * B * (B + 1)) * x + B * (B - 1) * (B - 1) * (B - 1) * w) * scale * b).
    { assert (2 * ((B - 1) * (B - 1) * y) * ((B - 1) * b) * (w * (B - 1)) <= (20 * (B * B * (B * (a * scale))) + B * (B - 1) * scale * ((B - 1) * b)) * (w * (B - 1))) by (apply Z.mul_le_mono_nonneg_r; [nonneg|assumption]). lia. }
    apply Zmult_le_reg_r in A4; [|lia].
    assert (A5 : 2 * ((B - 1) * (B - 1) * (B - 1) * (B - 1)) * (t * scale) * w <= 2 * ((B - 1) * (B - 1) * (B - 1) * (B - 1)) * y * w).
    { apply Z.mul_le_mono_nonneg_r; [lia|]. apply Z.mul_le_mono_nonneg_l; [nonneg|lia]. }
    assert (A6 : 2 * ((B - 1) * (B - 1) * (B - 1) * (B - 1)) * t * w * scale <= (20 * (B * B * B * (B + 1)) * x + B * (B - 1) * (B - 1) * (B - 1) * w) * scale) by lia.
    apply Zmult_le_reg_r in A6; [|lia]. rewrite <- HB in A6. lia.
  - assert (A1 : 20 * (B * B * q) + B * (B + 1) * scale <= 2 * ((B + 1) * (B + 1) * y)).
    { assert ((B + 1) * (B * (z + unit (-1))) <= (B + 1) * ((B + 1) * y)) by (apply Z.mul_le_mono_nonneg_l; lia). assert (B * (B * (10 * q)) <= B * ((B + 1) * z)) by (apply Z.mul_le_mono_nonneg_l; lia). rewrite Hh. lia. }
    assert (A2 : 20 * (B * B * (B * (a * scale))) + B * (B + 1) * scale * ((B + 1) * b) <= 2 * ((B + 1) * (B + 1) * y) * ((B + 1) * b)).
    { assert ((20 * (B * B * q) + B * (B + 1) * scale) * ((B + 1) * b) <= 2 * ((B + 1) * (B + 1) * y) * ((B + 1) * b)) by (apply Z.mul_le_mono_nonneg_r; [nonneg|assumption]).
      assert (20 * (B * B) * (B * (a * scale)) <= 20 * (B * B) * ((B + 1) * (q * b))) by (apply Z.mul_le_mono_nonneg_l; [nonneg|assumption]). lia. }
    assert (A3 : 20 * (B * B * B * scale) * x * ((B - 1) * b) <= 20 * (B * B * B * scale) * w * ((B + 1) * a)).
    { transitivity (20 * (B * B * B * scale) * w * (B * (x * scale))); [|apply Z.mul_le_mono_nonneg_l; [nonneg|assumption]].
      replace (20 * (B * B * B * scale) * w * (B * (x * scale))) with (20 * (B * B * B * scale) * x * (B * (w * scale))) by ring. apply Z.mul_le_mono_nonneg_l; [nonneg|assumption]. }
    assert (A4 : (20 * (B * B * B * (B - 1)) * x + B * (B + 1) * (B + 1) * (B + 1) * w) * scale * b <= 2 * ((B + 1) * (B + 1) * (B + 1) * (B + 1)) * y * w * b).
    { assert ((20 * (B * B * (B * (a * scale))) + B * (B + 1) * scale * ((B + 1) * b)) * (w * (B + 1)) <= 2 * ((B + 1) * (B + 1) * y) * ((B + 1) * b) * (w * (B + 1))) by (apply Z.mul_le_mono_nonneg_r; [nonneg|assumption]). lia. }
    apply Zmult_le_reg_r in A4; [|lia].
    assert (A5 : 2 * ((B + 1) * (B + 1) * (B + 1) * (B + 1)) * y * w < 2 * ((B + 1) * (B + 1) * (B + 1) * (B + 1)) * ((t + 1) * scale) * w).
    { apply Z.mul_lt_mono_pos_r; [lia|]. apply Z.mul_lt_mono_pos_l; [positive|lia]. }
    assert (A6 : (20 * (B * B * B * (B - 1)) * x + B * (B + 1) * (B + 1) * (B + 1) * w) * scale < 2 * ((B + 1) * (B + 1) * (B + 1) * (B + 1)) * (t + 1) * w * scale) by lia.
    apply Zmult_lt_reg_r in A6; [|lia]. rewrite <- HB in A6. lia.
Qed.
