(** Property theorems about how much the masks tell apart (C93). *)
From Coq Require Import List Arith Bool ZArith NArith Lia.
From Verif.Base Require Import Res Sort Order.
From Verif.Spec Require Import Split.
From Verif.DivMask Require Import Model Proofs SplitProofs Properties PrecisionProofs.
Import ListNotations.

(** The number of bits that a calculator has for a variable *)
Definition share (bits : list (nat * Z)) (var : nat) : nat := length (filter (fun b => fst b =? var) bits).

Lemma share_pos {M} (ex : M -> nat -> Z) nvars T bits var : calculator ex nvars T bits -> nvars <= 32 -> var < nvars -> share bits var <> 0.
Proof.
  intros Hc Hn Hv. destruct (C20_exactly_32_bits M ex nvars T bits Hc ltac:(lia)) as (_ & _ & H). specialize (H var Hv). unfold share.
  assert (32 / nvars <> 0); [|lia]. intros E. apply Nat.div_small_iff in E; lia.
Qed.

(** C93.  After a rebuild a mask rules out a divisor if in some variable its exponent exceeds the other by a piece or more of the range of the
    exponents, and the other lies in the part that the thresholds cover.  The range includes the exponent of variable 0 of the first entry. *)
Theorem C93_apart_by_a_piece : forall (M : Type) (ex : M -> nat -> Z) nvars T sort x l bits,
  sorts (fun a b => d_split b <? d_split a) sort -> (forall b, T <> Unsigned b) -> rebuild M ex nvars T sort (x :: l) = Ok bits ->
  forall var a b, var < nvars -> share bits var <> 0 ->
  let es := map (fun y => ex y var) (x :: l) in let low := lowest (ex x 0) es in let width := piece (ex x 0) es (share bits var) in
  (low <= ex b var <= low + (Z.of_nat (share bits var) - 1) * width)%Z -> (ex b var + width <= ex a var)%Z ->
  can_divide (compute M ex bits a) (compute M ex bits b) = false.
Proof. exact (fun M ex nvars T sort x l bits Hs HT Hr => apart_by_a_piece ex nvars T sort Hs HT x l bits Hr). Qed.
Print Assumptions C93_apart_by_a_piece.

(** C93.  If no variable has a range wider than its number of bits then the masks decide divisibility exactly. *)
Theorem C93_small_ranges_exact : forall (M : Type) (ex : M -> nat -> Z) nvars T sort x l bits,
  sorts (fun a b => d_split b <? d_split a) sort -> (forall b, T <> Unsigned b) -> rebuild M ex nvars T sort (x :: l) = Ok bits ->
  (forall var, var < nvars -> let es := map (fun y => ex y var) (x :: l) in (highest (ex x 0%nat) es - lowest (ex x 0%nat) es <= Z.of_nat (share bits var))%Z) ->
  forall a b, In a (x :: l) -> In b (x :: l) -> (can_divide (compute M ex bits a) (compute M ex bits b) = true <-> exps_le ex nvars a b).
Proof.
  intros M ex nvars T sort x l bits Hs HT Hr Hk a b Ha Hb. split; [|apply (C19_mask_never_rules_out_a_divisor M ex nvars T); eapply calc_rebuild; eauto].
  intros H var Hv. destruct (Z.le_gt_cases (ex a var) (ex b var)) as [Hle|Hgt]; auto. exfalso.
  rewrite (small_apart ex nvars T sort Hs HT x l bits Hr var a b Hv) in H; auto; try discriminate.
  - apply Hk. exact Hv.
  - apply lowest_le. now apply (in_map (fun y => ex y var)).
  - apply highest_ge. now apply (in_map (fun y => ex y var)).
Qed.
Print Assumptions C93_small_ranges_exact.

(** C93.  An entry with the least exponent of a variable is never taken for a multiple of one with a greater exponent, if there are at most 32
    variables, for variable 0, and for each other variable of which this exponent is not above that of variable 0 of the first entry. *)
Theorem C93_least_apart_partial : forall (M : Type) (ex : M -> nat -> Z) nvars T sort x l bits,
  sorts (fun a b => d_split b <? d_split a) sort -> (forall b, T <> Unsigned b) -> nvars <= 32 -> rebuild M ex nvars T sort (x :: l) = Ok bits ->
  forall var a b, var < nvars -> In b (x :: l) -> (forall y, In y (x :: l) -> (ex b var <= ex y var)%Z) ->
  var = 0 \/ (ex b var <= ex x 0%nat)%Z -> (ex b var < ex a var)%Z -> can_divide (compute M ex bits a) (compute M ex bits b) = false.
Proof.
  intros M ex nvars T sort x l bits Hs HT Hn Hr var a b Hv Hb Hl H0 Hab. assert (Hc : calculator ex nvars T bits) by (eapply calc_rebuild; eauto).
  apply (least_apart ex nvars T sort Hs HT x l bits Hr var a b Hv (share_pos ex nvars T bits var Hc Hn Hv) Hl); auto.
  destruct H0 as [->|H0]; auto. apply Hl. now left.
Qed.
Print Assumptions C93_least_apart_partial.

(** C93.  A new calculator for at most 32 variables tells an exponent of zero from all others, so for exponents zero and one it is exact. *)
Theorem C93_default_zero_apart : forall (M : Type) (ex : M -> nat -> Z) nvars T bits, (forall b, T <> Unsigned b) -> nvars <= 32 -> rebuild_default nvars T = Ok bits ->
  (forall var a b, var < nvars -> ex b var = 0%Z -> (0 < ex a var)%Z -> can_divide (compute M ex bits a) (compute M ex bits b) = false) /\
  (forall a b, (forall var, var < nvars -> (0 <= ex a var <= 1)%Z /\ (0 <= ex b var <= 1)%Z) ->
     (can_divide (compute M ex bits a) (compute M ex bits b) = true <-> exps_le ex nvars a b)).
Proof.
  intros M ex nvars T bits HT Hn Hr. assert (Hc : calculator ex nvars T bits) by (now apply calc_default).
  assert (H0 : forall var a b, var < nvars -> ex b var = 0%Z -> (0 < ex a var)%Z -> can_divide (compute M ex bits a) (compute M ex bits b) = false).
  { intros var a b Hv Hb Ha. apply (told_apart ex nvars T bits a b var 0%Z Hc); [|lia]. pose proof (share_pos ex nvars T bits var Hc Hn Hv) as Hk. unfold share in Hk.
    unfold bits_of. rewrite (C20_default_thresholds nvars T bits var Hr HT Hv). destruct (length _); [congruence|]. now left. }
  split; [exact H0|]. intros a b Hab. split; [|now apply (C19_mask_never_rules_out_a_divisor M ex nvars T)].
  intros H var Hv. destruct (Hab var Hv) as [A B]. destruct (Z.le_gt_cases (ex a var) (ex b var)) as [Hle|Hgt]; auto. exfalso.
  rewrite (H0 var a b Hv) in H; [discriminate| |]; lia.
Qed.
Print Assumptions C93_default_zero_apart.

(** C93, the least exponent of any variable: false.  Lines 221 and 289 start from the exponent of variable 0, so that here all thresholds of
    variable 1 lie below all of its exponents and no bit is of use, although there are as many bits as exponents. *)
Definition far_entries : list (list Z) := [[0; 31]; [0; 40]; [0; 47]]%Z.
Theorem C93_least_apart_refuted : exists bits, rebuild _ ex_of 2 (Signed 32) ex_sort far_entries = Ok bits /\
  (forall y, In y far_entries -> (ex_of [0; 31]%Z 1%nat <= ex_of y 1%nat <= ex_of [0; 31]%Z 1%nat + Z.of_nat (share bits 1%nat))%Z) /\
  can_divide (compute _ ex_of bits [0; 47]%Z) (compute _ ex_of bits [0; 31]%Z) = true /\
  forall a b, In a far_entries -> In b far_entries -> compute _ ex_of bits a = compute _ ex_of bits b.
Proof.
  eexists. split; [vm_compute; reflexivity|]. split; [|split; [vm_compute; reflexivity|]].
  - intros y [<-|[<-|[<-|[]]]]; vm_compute; split; discriminate.
  - intros a b [<-|[<-|[<-|[]]]] [<-|[<-|[<-|[]]]]; vm_compute; reflexivity.
Qed.
Print Assumptions C93_least_apart_refuted.
(** C93, thresholds that cover the whole range: false.  The width of a piece is rounded down, so that here 16 thresholds from 0 to 15 serve a
    range from 0 to 31 and the upper half of it is not told apart. *)
Definition upper_entries : list (list Z) := [[0; 0]; [31; 0]; [15; 0]; [16; 0]]%Z.
Theorem C93_covers_range_refuted : exists bits, rebuild _ ex_of 2 (Signed 32) ex_sort upper_entries = Ok bits /\ share bits 0 = 16 /\
  compute _ ex_of bits [31; 0]%Z = compute _ ex_of bits [16; 0]%Z /\
  can_divide (compute _ ex_of bits [16; 0]%Z) (compute _ ex_of bits [15; 0]%Z) = false.
Proof. eexists. split; [vm_compute; reflexivity|]. split; [vm_compute; reflexivity|]. split; vm_compute; reflexivity. Qed.
Print Assumptions C93_covers_range_refuted.

(** Entries with small ranges, for which the theorem on exactness applies and masks rule out what is not a divisor *)
Definition near_entries : list (list Z) := [[2; 3; 5]; [7; 1; 4]; [2; 9; 2]]%Z.
Example C93_nonvacuous : exists bits, rebuild _ ex_of 3 (Signed 32) ex_sort near_entries = Ok bits /\
  (forall var, var < 3 -> (highest 2 (map (fun y => ex_of y var) near_entries) - lowest 2 (map (fun y => ex_of y var) near_entries) <= Z.of_nat (share bits var))%Z) /\
  can_divide (compute _ ex_of bits [2; 3; 5]%Z) (compute _ ex_of bits [7; 1; 4]%Z) = false /\
  (exists b0, rebuild_default 3 (Signed 32) = Ok b0 /\ can_divide (compute _ ex_of b0 [1; 0; 1]%Z) (compute _ ex_of b0 [1; 1; 0]%Z) = false).
Proof.
  eexists. split; [vm_compute; reflexivity|]. split; [|split; [vm_compute; reflexivity|]].
  - intros [|[|[|var]]] Hv; [| | |lia]; vm_compute; discriminate.
  - eexists. split; vm_compute; reflexivity.
Qed.
