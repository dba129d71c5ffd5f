(** C44, C45, C47: printed numbers, units and times.

    [half_up n d t] says that t is n/d rounded to the nearest integer, halves up; [in_tenths t] is the text of t/10 with one digit
    after the point. *)
From Coq Require Import List Arith Bool ZArith NArith Ascii String Lia.
From Verif.Base Require Import Res Text Double.
From Verif.Spec Require Import Rounding Elapsed.
From Verif.Output Require Import Numbers NumbersProofs UnitsProofs Timer TimerProofs PercentProofs RatioProofs.
Import ListNotations.
Local Notation length := List.length.
Local Open Scope N_scope.

(** ** C44 *)

(** Below 2^46 the quotient is rounded correctly, although it is computed with doubles. *)
Theorem C44_ratio (n d t : N) : 0 < d < 2 ^ 46 -> n < 2 ^ 46 -> half_up (10 * n) d t -> ratioInteger n d = Ok (in_tenths t).
Proof. apply ratioInteger_exact. Qed.
Print Assumptions C44_ratio.
Example C44_ratio_example : half_up (10 * 7) 4 18 /\ ratioInteger 7 4 = Ok (txt "1.8").
Proof. split; [unfold half_up; lia|]. rewrite (C44_ratio 7 4 18) by (unfold half_up; lia). reflexivity. Qed.

(** For all 64-bit inputs the error beyond the rounding is at most 2^-50 of the quotient, or else the behaviour is undefined because the
    quotient is too large. *)
Theorem C44_ratio_all (n d : N) : 0 < d < 2 ^ 64 -> n < 2 ^ 64 ->
  exists t, ratioInteger n d = (if t <? 2 ^ 64 then Ok (in_tenths t) else UB) /\
    2 ^ 50 * (2 * t * d) <= (2 ^ 50 + 1) * (20 * n + d) /\ (2 ^ 50 - 1) * (20 * n + d) < 2 ^ 50 * (2 * (t + 1) * d).
Proof. apply ratioInteger_bounds. Qed.
Print Assumptions C44_ratio_all.
(** Correct rounding fails for some larger inputs. *)
Theorem C44_ratio_large_refuted : exists n d t, 0 < d < 2 ^ 64 /\ n < 2 ^ 64 /\ half_up (10 * n) d t /\ ratioInteger n d <> Ok (in_tenths t).
Proof. exists 253181797310137, 939507, 2694836731. split; [lia|]. split; [lia|]. split; [unfold half_up; lia|]. vm_compute. discriminate. Qed.
Print Assumptions C44_ratio_large_refuted.
(** Some inputs have undefined behaviour: the conversion of a double to unsigned long long overflows. *)
Theorem C44_ratio_defined_refuted : exists n d, 0 < d < 2 ^ 64 /\ n < 2 ^ 64 /\ ratioInteger n d = UB.
Proof. exists (2 ^ 64 - 1), 1. split; [lia|]. split; [lia|]. vm_compute. reflexivity. Qed.
Print Assumptions C44_ratio_defined_refuted.

(** Division by zero is reported, not carried out. *)
Theorem C44_zero (n : N) : ratioInteger n 0 = Ok (if n =? 0 then txt "0/0" else txt "?/0").
Proof. reflexivity. Qed.
Print Assumptions C44_zero.
(** For doubles, a denominator less than 10^-9 away from zero counts as zero: [near_zero] (Output/RatioProofs.v) compares the exact value
    of the double with the exact 10^-9. *)
Theorem C44_zero_double (x y : double) : SpecFloat.valid_binary 53 1024 x = true -> SpecFloat.valid_binary 53 1024 y = true ->
  ratioDouble x y = if near_zero y then Ok (if near_zero x then txt "0/0" else txt "?/0") else oneDecimal (ddiv x y).
Proof. apply ratioDouble_ok. Qed.
Print Assumptions C44_zero_double.
Example C44_zero_double_example : near_zero (literal 1 10000000000) = true /\ near_zero (literal (-1) 10000000000) = true /\ near_zero (of_Z 0) = true /\ near_zero (literal (-1) 100000000) = false /\
  SpecFloat.valid_binary 53 1024 (literal (-1) 10000000000) = true /\ ratioDouble (of_Z (-3)) (literal (-1) 10000000000) = Ok (txt "?/0").
Proof. repeat split; vm_compute; reflexivity. Qed.
(** Doubles f and g of the values a/2^1074 and b/2^1074, both between 2^-100 and 2^100 and the second at least 10^-9: as for integers. *)
Theorem C44_ratio_double (f g : double) (a b : Z) : value f a -> value g b -> within 100 a -> within 100 b -> (scale <= 10 ^ 9 * b)%Z ->
  exists t, ratioDouble f g = (if t <? 2 ^ 64 then Ok (in_tenths t) else UB) /\
    (2 ^ 50 * (2 * Z.of_N t * b) <= (2 ^ 50 + 1) * (20 * a + b))%Z /\ ((2 ^ 50 - 1) * (20 * a + b) < 2 ^ 50 * (2 * (Z.of_N t + 1) * b))%Z.
Proof. apply ratioDouble_bounds. Qed.
Print Assumptions C44_ratio_double.
Example C44_ratio_double_example : value (of_Z 7) (7 * scale) /\ value (literal 1 4) (scale / 4) /\ within 100 (7 * scale) /\ within 100 (scale / 4) /\ (scale <= 10 ^ 9 * (scale / 4))%Z /\
  ratioDouble (of_Z 7) (literal 1 4) = Ok (in_tenths 280).
Proof.
  split; [exists 7881299347898368%positive, (-50)%Z; vm_compute; repeat split; discriminate|].
  split; [exists 4503599627370496%positive, (-54)%Z; vm_compute; repeat split; discriminate|]. repeat split; vm_compute; try discriminate.
Qed.

(** Percentages *)
Theorem C44_percent (n d t : N) : 0 < d < 2 ^ 46 -> 100 * n < 2 ^ 46 -> half_up (1000 * n) d t -> percentInteger n d = Ok (in_tenths t ++ ["%"%char]).
Proof. apply percentInteger_exact. Qed.
Print Assumptions C44_percent.
Example C44_percent_example : half_up (1000 * 3) 100 30 /\ percentInteger 3 100 = Ok (txt "3.0%").
Proof. split; [unfold half_up; lia|]. rewrite (C44_percent 3 100 30) by (unfold half_up; lia). reflexivity. Qed.
(** The multiplication by 100 wraps around. *)
Theorem C44_percent_wraps_refuted : exists n, n < 2 ^ 64 /\ percentInteger n n = Ok (txt "0.0%").
Proof. exists (2 ^ 63). split; [lia|]. vm_compute. reflexivity. Qed.
Print Assumptions C44_percent_wraps_refuted.
(** percentIntegerFixed always prints six characters up to 999.9%. *)
Theorem C44_percent_fixed (n d : N) : 0 < d < 2 ^ 46 -> 100 * n < 2 ^ 46 -> 1000 * n <= 9999 * d ->
  exists s, percentIntegerFixed n d = Ok s /\ length s = 6%nat /\
    exists k t, s = repeat space k ++ in_tenths t ++ ["%"%char] /\ half_up (1000 * n) d t.
Proof. apply percentIntegerFixed_ok. Qed.
Print Assumptions C44_percent_fixed.
Example C44_percent_fixed_example : percentIntegerFixed 3 100 = Ok (txt "  3.0%") /\ percentIntegerFixed 9999 1000 = Ok (txt "999.9%") /\ percentIntegerFixed 10 1 = Ok (txt "1000.0%").
Proof. repeat split. Qed.
(** oneDecimal of a negative number is undefined, and so is the ratio of numbers with different signs. *)
Theorem C44_negative_refuted : oneDecimal (of_Z (-1)) = UB /\ ratioDouble (of_Z (-3)) (of_Z 2) = UB.
Proof. split; vm_compute; reflexivity. Qed.
Print Assumptions C44_negative_refuted.
(** The example in the header file, 0.7565 as 75.7%, is not what the function prints. *)
Theorem C44_header_example_refuted : percentDouble (literal 7565 10000) = Ok (txt "75.6%").
Proof. vm_compute. reflexivity. Qed.
Print Assumptions C44_header_example_refuted.

(** ** C45 *)

Definition si_units : list text := [txt "k"; txt "M"; txt "G"; txt "T"].
(** Below 999.95T the number shown is between 1.0 and 999.9 and rounded correctly. *)
Theorem C45_si_prefix (l : N) : l < 999950000000000 ->
  if l <? 1000 then withSIPrefix l = Ok (decimal l)
  else exists i u t, nth_error si_units i = Some u /\ half_up (10 * l) (1000 ^ (N.of_nat i + 1)) t /\ 10 <= t <= 9999 /\ withSIPrefix l = Ok (in_tenths t ++ u).
Proof.
  intros H. destruct (N.ltb_spec l 1000) as [G|G]; [now apply withSIPrefix_small|]. destruct (withSIPrefix_unit l) as (i & u & t & _ & H1 & H2 & H3 & H4); [split; assumption|]. exists i, u, t. auto.
Qed.
Print Assumptions C45_si_prefix.
Example C45_si_prefix_example : withSIPrefix 123456789 = Ok (txt "123.5M") /\ withSIPrefix 999949 = Ok (txt "999.9k") /\ withSIPrefix 999950 = Ok (txt "1.0M") /\ withSIPrefix 999 = Ok (txt "999").
Proof. repeat split; vm_compute; reflexivity. Qed.
(** From there on the table of units is read past its end. *)
Theorem C45_si_prefix_refuted (l : N) : 999950000000000 <= l < 2 ^ 64 -> withSIPrefix l = UB.
Proof. apply withSIPrefix_overflow. Qed.
Print Assumptions C45_si_prefix_refuted.

Definition byte_units : list text := [txt "kB"; txt "MB"; txt "GB"; txt "TB"].
Theorem C45_bytes (l : N) : l < 1125844931261236 ->
  if l <? 1024 then bytesInUnit l = Ok (decimal l ++ txt "B")
  else exists i u t, nth_error byte_units i = Some u /\ half_up (10 * l) (1024 ^ (N.of_nat i + 1)) t /\ 10 <= t <= 10239 /\ bytesInUnit l = Ok (in_tenths t ++ u).
Proof.
  intros H. destruct (N.ltb_spec l 1024) as [G|G]; [now apply bytesInUnit_small|]. destruct (bytesInUnit_unit l) as (i & u & t & _ & H1 & H2 & H3 & H4); [split; assumption|]. exists i, u, t. auto.
Qed.
Print Assumptions C45_bytes.
Example C45_bytes_example : bytesInUnit 1048524 = Ok (txt "1023.9kB") /\ bytesInUnit 1048525 = Ok (txt "1.0MB") /\ bytesInUnit 1023 = Ok (txt "1023B").
Proof. repeat split; vm_compute; reflexivity. Qed.
Theorem C45_bytes_refuted (l : N) : 1125844931261236 <= l < 2 ^ 64 -> bytesInUnit l = UB.
Proof. apply bytesInUnit_overflow. Qed.
Print Assumptions C45_bytes_refuted.

(** ** C47 *)

(** The printed text shows exactly the milliseconds that getMilliseconds returns. *)
Theorem C47_stream (clocks : Z) (ms : N) : getMilliseconds clocks = Ok ms -> exists s, print_stream clocks = Ok s /\ shows_time ms s.
Proof. apply print_stream_ok. Qed.
Print Assumptions C47_stream.
Theorem C47_file (clocks : Z) (ms : N) : getMilliseconds clocks = Ok ms -> exists s, print_file clocks = Ok (txt "(" ++ s ++ txt ")") /\ shows_time ms s.
Proof. apply print_file_ok. Qed.
Print Assumptions C47_file.
(** Texts of different times differ. *)
Theorem C47_unambiguous (ms ms' : N) (s : text) : shows_time ms s -> shows_time ms' s -> ms = ms'.
Proof. apply shows_time_inj. Qed.
Print Assumptions C47_unambiguous.
(** getMilliseconds returns a nearest number of milliseconds, for a little over 35 years. *)
Theorem C47_nearest (clocks : Z) : (0 <= clocks < 2 ^ 50)%Z -> exists ms, getMilliseconds clocks = Ok ms /\ (Z.abs (1000 * Z.of_N ms - clocks) <= 500)%Z.
Proof. apply getMilliseconds_nearest. Qed.
Print Assumptions C47_nearest.
(** It never runs backwards. *)
Theorem C47_monotone (c c' : Z) (ms ms' : N) : (0 <= c <= c')%Z -> (c' < 2 ^ 53)%Z -> getMilliseconds c = Ok ms -> getMilliseconds c' = Ok ms' -> ms <= ms'.
Proof. apply getMilliseconds_mono. Qed.
Print Assumptions C47_monotone.
Example C47_example : getMilliseconds 3723004400 = Ok 3723004 /\ print_stream 3723004400 = Ok (txt "1h2m3.004s") /\ print_file 60000000 = Ok (txt "(1m0.000s)") /\
  shows_time 3723004 (txt "1h2m3.004s").
Proof.
  split; [vm_compute; reflexivity|]. split; [vm_compute; reflexivity|]. split; [vm_compute; reflexivity|]. exists 1, 2, 3, 4. repeat split; reflexivity.
Qed.
(** Halves are not always rounded up: the product 1000 * (span / CLOCKS_PER_SEC) can be less than the exact value. *)
Theorem C47_half_up_refuted : getMilliseconds 500500 = Ok 500 /\ getMilliseconds 1500 = Ok 2.
Proof. split; vm_compute; reflexivity. Qed.
Print Assumptions C47_half_up_refuted.
(** A clock that goes back by a millisecond (it may wrap around) makes the conversion undefined. *)
Theorem C47_clock_back_refuted : getMilliseconds (-1000) = UB.
Proof. vm_compute. reflexivity. Qed.
Print Assumptions C47_clock_back_refuted.
