(** Proofs about Timer. *)
From Coq Require Import List Arith Bool ZArith NArith Ascii String Lia.
From Coq.Floats Require Import SpecFloat.
From Verif.Base Require Import Res Text Double.
From Verif.Spec Require Import Elapsed.
From Verif.Output Require Import Numbers NumbersProofs Timer.
Import ListNotations.
Local Notation length := List.length.
Local Open Scope Z_scope.

Lemma dsub_same f g a : value f a -> value g a -> dsub f g = S754_zero false.
Proof.
  intros (m & e & -> & Hm & E1) (m' & e' & -> & Hm' & E2). unfold dsub, SFsub. assert (He : -1074 <= e /\ -1074 <= e') by (split; [apply Hm|apply Hm']). set (z := Z.min e e'). cbn [cond_Zopp].
  assert (A1 : Zpos (fst (shl_align m e z)) * unit z = val m e) by (apply shl_align_ok; lia). assert (A2 : Zpos (fst (shl_align m' e' z)) * unit z = val m' e') by (apply shl_align_ok; lia).
  assert (Hz : 0 < unit z) by (apply unit_pos; lia). assert (E : Zpos (fst (shl_align m e z)) = Zpos (fst (shl_align m' e' z))) by (apply (Z.mul_reg_r _ _ (unit z)); lia). rewrite E, Z.sub_diag. reflexivity.
Qed.
(** The fractional part is computed exactly. *)
Lemma fraction_test f x : value f x -> x < 2 ^ 53 * scale ->
  dleb (literal 1 2) (dsub f (of_Z (x / scale))) = (unit (-1) <=? x - x / scale * scale).
Proof.
  intros Hx Hmax. pose proof scale_pos as Hs. pose proof (Z.div_mod x scale ltac:(lia)) as D. pose proof (Z.mod_pos_bound x scale Hs) as M. pose proof (value_pos _ _ Hx) as Px. pose proof (Z.div_pos x scale ltac:(lia) Hs) as Pm.
  set (m := x / scale) in *. rewrite (Z.mul_comm scale) in D. set (r := x mod scale) in *. replace (x - m * scale) with r by lia. destruct (Z.eq_dec m 0) as [E|N].
  - rewrite E in *. destruct Hx as (mm & e & -> & Hn & Ev). unfold of_Z. cbn [binary_normalize]. change (dsub (S754_finite false mm e) (S754_zero false)) with (S754_finite false mm e).
    rewrite (dleb_ok _ _ (unit (-1)) x half_value); [f_equal; lia|]. exists mm, e. auto.
  - assert (Hm : 0 < m < 2 ^ 53) by nia. pose proof (of_Z_exact m Hm) as Vm. assert (Hu : 0 < unit (-1)) by (apply unit_pos; lia). destruct (Z.eq_dec r 0) as [E|Nr].
    + replace x with (m * scale) in Hx by lia. rewrite (dsub_same f (of_Z m) (m * scale) Hx Vm). rewrite E. destruct (Z.leb_spec (unit (-1)) 0); [lia|]. reflexivity.
    + assert (R : exists g, value g r /\ 2 ^ 52 <= r).
      { destruct Hx as (mm & e & _ & [H1 H2] & Ev). unfold val in Ev. assert (Hue : 0 < unit e) by (apply unit_pos; lia).
        assert (Hlow : -52 <= e). { destruct (Z.le_gt_cases (-52) e); auto. assert (unit e <= unit (-53)) by (apply unit_mono; lia). assert (scale = 2 ^ 53 * unit (-53)) by (rewrite <- unit_0, <- unit_add by lia; f_equal; lia). nia. }
        assert (Hhigh : e <= 0). { destruct (Z.le_gt_cases e 0); auto. exfalso. assert (unit e = 2 ^ e * scale) by (rewrite <- unit_0, <- unit_add by lia; f_equal; lia). assert (E3 : (Zpos mm * 2 ^ e - m) * scale = r) by lia.
          assert (0 < Zpos mm * 2 ^ e - m) by nia. assert (1 * scale <= (Zpos mm * 2 ^ e - m) * scale) by (apply Z.mul_le_mono_nonneg_r; lia). lia. }
        assert (Es : scale = 2 ^ (- e) * unit e) by (rewrite <- unit_0, <- unit_add by lia; f_equal; lia). assert (Er : r = (Zpos mm - m * 2 ^ (- e)) * unit e) by (rewrite Es in D; lia).
        assert (Hj : 0 < Zpos mm - m * 2 ^ (- e)) by nia. assert (0 < 2 ^ (- e)) by (apply Z.pow_pos_nonneg; lia).
        destruct (rep_value (Zpos mm - m * 2 ^ (- e)) e ltac:(nia) ltac:(lia)) as (g & Hg). exists g. rewrite Er. split; auto. assert (unit (-1022) <= unit e) by (apply unit_mono; lia). change (unit (-1022)) with (2 ^ 52) in *. nia. }
      destruct R as (g & Hg & Hr). assert (Rs : rounds_to (x - m * scale) 1 (dsub f (of_Z m))).
      { apply dsub_ok; auto; [lia|]. assert (scale < unit 1000); [|lia]. rewrite <- unit_0. unfold unit. apply Z.pow_lt_mono_r; lia. }
      destruct (rounds_to_value _ _ _ Rs) as (v & Hv). assert (v = r) as -> by (eapply (rounds_to_exact _ 1 _ v g r); [reflexivity|exact Rs|exact Hv|exact Hg|lia]). apply (dleb_ok _ _ _ _ half_value Hv).
Qed.

(** The milliseconds as a double *)
Definition float_ms (c : Z) : double := dmul (of_Z 1000) (ddiv (of_Z c) (of_Z CLOCKS_PER_SEC)).
Lemma float_ms_ok c : 0 < c < 2 ^ 53 -> exists q x, rounds_to (c * scale) CLOCKS_PER_SEC (ddiv (of_Z c) (of_Z CLOCKS_PER_SEC)) /\ value (ddiv (of_Z c) (of_Z CLOCKS_PER_SEC)) q /\
  rounds_to (1000 * q) 1 (float_ms c) /\ value (float_ms c) x.
Proof.
  intros Hc. pose proof scale_pos as Hs. pose proof (of_Z_exact c Hc) as Vc. destruct (ddiv_int 64 (of_Z c) (c * scale) CLOCKS_PER_SEC ltac:(lia) ltac:(unfold CLOCKS_PER_SEC; lia) Vc) as (R & q & Hq & Wq); [apply within_int; lia|].
  assert (R' : rounds_to (1000 * scale * q) scale (float_ms c)).
  { apply dmul_ok; auto; [apply of_Z_exact; lia|apply within_moderate with 64; [lia|apply within_int; lia]|apply within_moderate with (64 + 65); [lia|exact Wq]]. }
  destruct (rounds_to_value _ _ _ R') as (x & Hx). exists q, x. split; [exact R|]. split; [exact Hq|]. split; [|exact Hx]. apply (rounds_to_cancel scale); auto. replace (1000 * q * scale) with (1000 * scale * q) by ring. now rewrite Z.mul_1_l.
Qed.
Lemma float_ms_mono c c' x x' : 0 < c <= c' -> c' < 2 ^ 53 -> value (float_ms c) x -> value (float_ms c') x' -> x <= x'.
Proof.
  intros Hc Hc' Hx Hx'. destruct (float_ms_ok c ltac:(lia)) as (q & y & R1 & H1 & R2 & _). destruct (float_ms_ok c' ltac:(lia)) as (q' & y' & R1' & H1' & R2' & _). pose proof scale_pos.
  assert (q <= q'). { apply (rounds_to_mono _ CLOCKS_PER_SEC _ _ _ CLOCKS_PER_SEC _ _ eq_refl eq_refl R1 H1 R1' H1'). apply scaled_le; [reflexivity|]. apply scaled_le; lia. }
  apply (rounds_to_mono _ 1 _ _ _ 1 _ _ eq_refl eq_refl R2 Hx R2' Hx'). lia.
Qed.
Lemma float_ms_error c x : 0 < c < 2 ^ 53 -> value (float_ms c) x -> (B - 1) * (B - 1) * (1000 * x) <= B * B * (c * scale) /\ B * B * (c * scale) <= (B + 1) * (B + 1) * (1000 * x).
Proof.
  intros Hc Hx. destruct (float_ms_ok c Hc) as (q & y & R1 & H1 & R2 & _). unfold CLOCKS_PER_SEC in *. pose proof (rounds_up _ 1000000 _ _ eq_refl R1 H1) as U1. pose proof (rounds_down _ 1000000 _ _ eq_refl R1 H1) as D1.
  pose proof (rounds_up _ 1 _ _ eq_refl R2 Hx) as U2. pose proof (rounds_down _ 1 _ _ eq_refl R2 Hx) as D2. rewrite Z.mul_1_r in *. pose proof B_big as HB. split.
  - assert ((B - 1) * ((B - 1) * x) <= (B - 1) * (B * (1000 * q))) by (apply Z.mul_le_mono_nonneg_l; lia). assert (B * ((B - 1) * (q * 1000000)) <= B * (B * (c * scale))) by (apply Z.mul_le_mono_nonneg_l; lia). lia.
  - assert ((B + 1) * (B * (1000 * q)) <= (B + 1) * ((B + 1) * x)) by (apply Z.mul_le_mono_nonneg_l; lia). assert (B * (B * (c * scale)) <= B * ((B + 1) * (q * 1000000))) by (apply Z.mul_le_mono_nonneg_l; lia). lia.
Qed.

(** getMilliseconds is the double's value rounded to the nearest integer. *)
Lemma getMilliseconds_floor c : 0 < c < 2 ^ 53 -> exists x, value (float_ms c) x /\ getMilliseconds c = Ok (Z.to_N ((x + unit (-1)) / scale)).
Proof.
  intros Hc. destruct (float_ms_ok c Hc) as (q & x & _ & _ & _ & Hx). exists x. split; auto. pose proof scale_pos as Hs. pose proof (float_ms_error c x Hc Hx) as [E1 _]. pose proof (value_pos _ _ Hx) as Px.
  assert (Hmax : x < 2 ^ 53 * scale). { unfold B in E1. assert (c * scale <= 2 ^ 53 * scale) by (apply Z.mul_le_mono_nonneg_r; lia). lia. }
  unfold getMilliseconds. fold (float_ms c). rewrite (to_unsigned_ok 64 _ x) by (auto; lia). pose proof (Z.div_mod x scale ltac:(lia)) as D. pose proof (Z.mod_pos_bound x scale Hs) as M. pose proof (Z.div_pos x scale ltac:(lia) Hs) as Pm.
  assert (Hm : x / scale < 2 ^ 53) by (apply Z.div_lt_upper_bound; lia). destruct (Z.ltb_spec (x / scale) (2 ^ 64)) as [_|]; [|lia]. cbn [bind]. rewrite Z2N.id by lia. rewrite (fraction_test _ x Hx Hmax).
  set (m := x / scale) in *. set (r := x mod scale) in *. pose proof half_unit as Hh. destruct (Z.leb_spec (unit (-1)) (x - m * scale)) as [H|H].
  - rewrite (floor_is _ (m + 1)) by lia. f_equal. rewrite N.mod_small by lia. lia.
  - rewrite (floor_is _ m) by lia. reflexivity.
Qed.
Lemma getMilliseconds_0 : getMilliseconds 0 = Ok 0%N.
Proof. reflexivity. Qed.
Theorem getMilliseconds_nearest c : 0 <= c < 2 ^ 50 -> exists ms, getMilliseconds c = Ok ms /\ Z.abs (1000 * Z.of_N ms - c) <= 500.
Proof.
  intros Hc. destruct (Z.eq_dec c 0) as [->|N]; [exists 0%N; split; [apply getMilliseconds_0|lia]|]. destruct (getMilliseconds_floor c ltac:(lia)) as (x & Hx & ->). eexists. split; [reflexivity|].
  pose proof scale_pos as Hs. destruct (float_ms_error c x ltac:(lia) Hx) as [U L]. pose proof (value_pos _ _ Hx) as Px. pose proof half_unit as Hh. assert (Hu : 0 < unit (-1)) by (apply unit_pos; lia).
  pose proof (Z.div_mod (x + unit (-1)) scale ltac:(lia)) as D. pose proof (Z.mod_pos_bound (x + unit (-1)) scale Hs) as M. pose proof (Z.div_pos (x + unit (-1)) scale ltac:(lia) Hs) as Pm. rewrite Z2N.id by lia.
  set (m := (x + unit (-1)) / scale) in *. set (r := (x + unit (-1)) mod scale) in *. unfold B in *. set (u := unit (-1)) in *. clearbody u. assert (Hmc : c * scale < 2 ^ 50 * scale) by (apply Z.mul_lt_mono_pos_r; lia).
  assert (Hb : m < 2 ^ 50).
  { apply (Z.mul_lt_mono_pos_r scale); auto. lia. }
  apply Z.abs_le. split.
  - (* c <= 1000 m + 500 *) destruct (Z.le_gt_cases (-500) (1000 * m - c)) as [|G]; auto. exfalso. assert ((1000 * m + 501) * scale <= c * scale) by (apply Z.mul_le_mono_nonneg_r; lia). lia.
  - (* 1000 m <= c + 500 *) destruct (Z.le_gt_cases (1000 * m - c) 500) as [|G]; auto. exfalso. assert ((c + 501) * scale <= 1000 * m * scale) by (apply Z.mul_le_mono_nonneg_r; lia). lia.
Qed.
Theorem getMilliseconds_mono c c' ms ms' : 0 <= c <= c' -> c' < 2 ^ 53 -> getMilliseconds c = Ok ms -> getMilliseconds c' = Ok ms' -> (ms <= ms')%N.
Proof.
  intros Hc Hc'. destruct (Z.eq_dec c 0) as [->|N]. { rewrite getMilliseconds_0. intros [= <-] _. lia. }
  destruct (getMilliseconds_floor c ltac:(lia)) as (x & Hx & ->). destruct (getMilliseconds_floor c' ltac:(lia)) as (x' & Hx' & ->). intros [= <-] [= <-]. pose proof (float_ms_mono c c' x x' ltac:(lia) Hc' Hx Hx') as M.
  apply Z2N.inj_le; [| |apply Z.div_le_mono; [apply scale_pos|lia]]; (apply Z.div_pos; [|apply scale_pos]).
  - pose proof (value_pos _ _ Hx). assert (0 < unit (-1)) by (apply unit_pos; lia). lia.
  - pose proof (value_pos _ _ Hx'). assert (0 < unit (-1)) by (apply unit_pos; lia). lia.
Qed.

(** Printing *)
Local Open Scope N_scope.
Lemma three_digits_ok n : n < 1000 -> three_digits n = [digit (n / 100); digit (n / 10 mod 10); digit (n mod 10)].
Proof.
  intros H. set (good := fun n => teqb (three_digits n) [digit (n / 100); digit (n / 10 mod 10); digit (n mod 10)]).
  assert (A : forallb good (map N.of_nat (seq 0 1000)) = true) by (vm_compute; reflexivity). rewrite forallb_forall in A. apply teqb_eq. apply (A n). apply in_map_iff. exists (N.to_nat n). split; [apply N2Nat.id|]. apply in_seq. lia.
Qed.
Lemma split_time ms : ms = ((ms / 1000 / 60 / 60 * 60 + ms / 1000 / 60 mod 60) * 60 + ms / 1000 mod 60) * 1000 + ms mod 1000.
Proof.
  pose proof (N.div_mod ms 1000 ltac:(lia)) as D1. pose proof (N.div_mod (ms / 1000) 60 ltac:(lia)) as D2. pose proof (N.div_mod (ms / 1000 / 60) 60 ltac:(lia)) as D3.
  set (a := ms / 1000) in *. set (b := a / 60) in *. set (c := b / 60) in *. lia.
Qed.
Lemma print_stream_ok clocks ms : getMilliseconds clocks = Ok ms -> exists s, print_stream clocks = Ok s /\ shows_time ms s.
Proof.
  intros H. unfold print_stream. rewrite H. cbn [bind]. eexists. split; [reflexivity|]. exists (ms / 1000 / 60 / 60), (ms / 1000 / 60 mod 60), (ms / 1000 mod 60), (ms mod 1000).
  split; [apply split_time|]. split; [apply N.mod_lt; lia|]. split; [apply N.mod_lt; lia|]. assert (Hf : ms mod 1000 < 1000) by (apply N.mod_lt; lia). split; [exact Hf|].
  set (f := ms mod 1000) in *. assert (f / 100 < 10) by (apply N.div_lt_upper_bound; lia).
  rewrite (decimal_digit (f / 100)), (decimal_digit (f / 10 mod 10)), (decimal_digit (f mod 10)) by (auto; apply N.mod_lt; lia).
  destruct (ms / 1000 / 60 / 60 =? 0), (ms / 1000 / 60 mod 60 =? 0); reflexivity.
Qed.
Lemma print_file_ok clocks ms : getMilliseconds clocks = Ok ms -> exists s, print_file clocks = Ok (txt "(" ++ s ++ txt ")") /\ shows_time ms s.
Proof.
  intros H. unfold print_file. rewrite H. cbn [bind].
  assert (Hf : ms mod 1000 < 1000) by (apply N.mod_lt; lia). rewrite (three_digits_ok _ Hf). set (f := ms mod 1000) in *.
  exists ((if ms / 1000 / 60 / 60 =? 0 then [] else decimal (ms / 1000 / 60 / 60) ++ ["h"%char]) ++
        (if (ms / 1000 / 60 / 60 =? 0) && (ms / 1000 / 60 mod 60 =? 0) then [] else decimal (ms / 1000 / 60 mod 60) ++ ["m"%char]) ++
        decimal (ms / 1000 mod 60) ++ ["."%char; digit (f / 100); digit (f / 10 mod 10); digit (f mod 10); "s"%char]). split.
  - f_equal. unfold txt. cbn [list_ascii_of_string]. rewrite <- !app_assoc. destruct (ms / 1000 / 60 / 60 =? 0), (ms / 1000 / 60 mod 60 =? 0); cbn [negb orb andb]; rewrite <- ?app_assoc; reflexivity.
  - exists (ms / 1000 / 60 / 60), (ms / 1000 / 60 mod 60), (ms / 1000 mod 60), f. split; [apply split_time|]. split; [apply N.mod_lt; lia|]. split; [apply N.mod_lt; lia|]. split; [exact Hf|reflexivity].
Qed.

(** The text determines the time. *)
Lemma numeral_end ds es c c' x y : Forall (fun d => d < 10) ds -> Forall (fun d => d < 10) es -> digit_value c = None -> digit_value c' = None ->
  map digit ds ++ c :: x = map digit es ++ c' :: y -> map digit ds = map digit es /\ c = c' /\ x = y.
Proof.
  intros Hd He Hc Hc'. revert es He. induction Hd as [|d ds Hd Hds IH]; intros [|e es] He E; cbn [map app] in E.
  - injection E as -> ->. auto.
  - injection E as -> _. inversion He; subst. rewrite digit_value_digit in Hc by auto. discriminate.
  - injection E as <- _. rewrite digit_value_digit in Hc' by auto. discriminate.
  - inversion He; subst. injection E as E1 E2. destruct (IH es ltac:(auto) E2) as (E3 & E4 & E5). cbn [map]. rewrite E1, E3. auto.
Qed.
Lemma decimal_end a b c c' x y : digit_value c = None -> digit_value c' = None -> decimal a ++ c :: x = decimal b ++ c' :: y -> a = b /\ c = c' /\ x = y.
Proof.
  intros Hc Hc' E. destruct (decimal_denotes a) as (ds & Ea & Hd & _). destruct (decimal_denotes b) as (es & Eb & He & _). rewrite Ea, Eb in E.
  destruct (numeral_end ds es c c' x y Hd He Hc Hc' E) as (E1 & E2 & E3). split; auto. apply decimal_inj. congruence.
Qed.
Lemma shows_time_inj ms ms' s : shows_time ms s -> shows_time ms' s -> ms = ms'.
Proof.
  intros (h & m & c & f & -> & Hm & Hc & Hf & ->) (h' & m' & c' & f' & -> & Hm' & Hc' & Hf' & E).
  assert (T : forall c c' f f', f < 1000 -> f' < 1000 -> decimal c ++ ["."%char; digit (f / 100); digit (f / 10 mod 10); digit (f mod 10); "s"%char] =
    decimal c' ++ ["."%char; digit (f' / 100); digit (f' / 10 mod 10); digit (f' mod 10); "s"%char] -> c = c' /\ f = f').
  { clear. intros c c' f f' Hf Hf' E. apply decimal_end in E; auto. destruct E as (-> & _ & E). split; auto. injection E as E1 E2 E3.
    assert (f / 100 < 10) by (apply N.div_lt_upper_bound; lia). assert (f' / 100 < 10) by (apply N.div_lt_upper_bound; lia).
    apply digit_inj in E1; auto. apply digit_inj in E2; [|apply N.mod_lt; lia|apply N.mod_lt; lia]. apply digit_inj in E3; [|apply N.mod_lt; lia|apply N.mod_lt; lia].
    pose proof (N.div_mod f 10 ltac:(lia)). pose proof (N.div_mod f' 10 ltac:(lia)). pose proof (N.div_mod (f / 10) 10 ltac:(lia)) as X. pose proof (N.div_mod (f' / 10) 10 ltac:(lia)) as Y.
    rewrite N.div_div in X by lia. rewrite N.div_div in Y by lia. change (10 * 10) with 100 in *. lia. }
  assert (Hno : forall a b x y, decimal a ++ ["."%char] ++ x = decimal b ++ "m"%char :: y -> False) by (intros a b x y H; apply decimal_end in H; auto; destruct H as (_ & H & _); discriminate).
  assert (Hno' : forall a b x y, decimal a ++ ["."%char] ++ x = decimal b ++ "h"%char :: y -> False) by (intros a b x y H; apply decimal_end in H; auto; destruct H as (_ & H & _); discriminate).
  assert (Hmh : forall a b x y, decimal a ++ "m"%char :: x = decimal b ++ "h"%char :: y -> False) by (intros a b x y H; apply decimal_end in H; auto; destruct H as (_ & H & _); discriminate).
  destruct (N.eqb_spec h 0) as [->|Nh], (N.eqb_spec h' 0) as [->|Nh']; cbn [andb app] in E; rewrite <- ?app_assoc in E; cbn [app] in E.
  - destruct (N.eqb_spec m 0) as [->|Nm], (N.eqb_spec m' 0) as [->|Nm']; cbn [andb app] in E; rewrite <- ?app_assoc in E; cbn [app] in E.
    + apply T in E; auto. destruct E as [-> ->]. reflexivity.
    + exfalso. eapply (Hno c m'). exact E.
    + exfalso. eapply (Hno c' m). symmetry. exact E.
    + apply decimal_end in E; auto. destruct E as (-> & _ & E). apply T in E; auto. destruct E as [-> ->]. reflexivity.
  - exfalso. destruct (N.eqb_spec m 0) as [->|Nm]; cbn [andb app] in E; rewrite <- ?app_assoc in E; cbn [app] in E; [eapply (Hno' c h'); exact E|eapply (Hmh m h'); exact E].
  - exfalso. destruct (N.eqb_spec m' 0) as [->|Nm']; cbn [andb app] in E; rewrite <- ?app_assoc in E; cbn [app] in E; [eapply (Hno' c' h); symmetry; exact E|eapply (Hmh m' h); symmetry; exact E].
  - apply decimal_end in E; auto. destruct E as (-> & _ & E). rewrite <- ?app_assoc in E. cbn [app] in E. apply decimal_end in E; auto. destruct E as (-> & _ & E). apply T in E; auto. destruct E as [-> ->]. reflexivity.
Qed.
