(** Property theorems about DivMask (C19-C22). *)
From Coq Require Import List Arith Bool ZArith NArith Lia Permutation.
From Verif.Base Require Import Res Arr ResList Sort Order.
From Verif.Spec Require Import Split.
From Verif.DivMask Require Import Model Proofs SplitProofs.
Import ListNotations.

(** Variable by variable, the exponents of [a] are at most those of [b]. *)
Definition exps_le {M : Type} (ex : M -> nat -> Z) (nvars : nat) (a b : M) : Prop := forall var, var < nvars -> (ex a var <= ex b var)%Z.

(** The bit lists a Calculator can hold: its constructor calls rebuildDefault, later any number of calls of rebuild and rebuildDefault
    follow.  [sort] is any sorting function. *)
Inductive calculator {M : Type} (ex : M -> nat -> Z) (nvars : nat) (T : exptype) : list (nat * Z) -> Prop :=
| calc_default bits : rebuild_default nvars T = Ok bits -> calculator ex nvars T bits
| calc_rebuild sort l bits : sorts (fun a b => d_split b <? d_split a) sort -> rebuild M ex nvars T sort l = Ok bits -> calculator ex nvars T bits.

Lemma calculator_vars {M} (ex : M -> nat -> Z) nvars T bits : calculator ex nvars T bits -> forall v thr, In (v, thr) bits -> v < nvars.
Proof.
  intros [b H|sort l b Hs H].
  - apply default_shape in H. tauto.
  - apply (rebuild_shape ex nvars T sort (fun l => proj1 (Hs l))) in H. tauto.
Qed.

(** C19. *)
Theorem C19_mask_never_rules_out_a_divisor : forall (M : Type) (ex : M -> nat -> Z) nvars T bits a b,
  calculator ex nvars T bits -> exps_le ex nvars a b -> can_divide (compute M ex bits a) (compute M ex bits b) = true.
Proof. exact (fun M ex nvars T bits a b Hc H => mask_sound_vars ex nvars bits a b (calculator_vars ex nvars T bits Hc) H). Qed.
Print Assumptions C19_mask_never_rules_out_a_divisor.

(** C19.  Exactly when a mask rules out divisibility: some bit of the calculator, of the last 32, is set in the first mask only. *)
Theorem C19_mask_meaning : forall (M : Type) (ex : M -> nat -> Z) bits a b,
  can_divide (compute M ex bits a) (compute M ex bits b) = true <->
  forall var thr, In (var, thr) (skipn (length bits - 32) bits) -> (thr < ex a var)%Z -> (thr < ex b var)%Z.
Proof. exact (fun M ex bits a b => mask_meaning ex bits a b). Qed.
Print Assumptions C19_mask_meaning.

(** Monomials as lists of exponents. *)
Definition ex_of (m : list Z) (var : nat) : Z := nth var m 0%Z.
Definition ex_sort := isort (fun a b => d_split b <? d_split a).
Lemma ex_sorts : sorts (fun a b => d_split b <? d_split a) ex_sort.
Proof.
  apply isort_sorts. split.
  - intros a. apply Nat.ltb_irrefl.
  - intros a b c H1 H2. apply Nat.ltb_lt in H1, H2. apply Nat.ltb_lt. lia.
  - intros a b c H1 H2. apply Nat.ltb_ge in H1, H2. apply Nat.ltb_ge. lia.
Qed.
Definition ex_entries : list (list Z) := [[3; 0; 7]; [1; 4; 90]; [8; 2; 2]; [5; 5; 33]]%Z.
Definition ex_bits : list (nat * Z) := match rebuild _ ex_of 3 (Signed 32) ex_sort ex_entries with Ok b => b | _ => [] end.
Lemma ex_calculator : calculator ex_of 3 (Signed 32) ex_bits.
Proof. apply calc_rebuild with ex_sort ex_entries; [exact ex_sorts|vm_compute; reflexivity]. Qed.
Example C19_nonvacuous :
  calculator ex_of 3 (Signed 32) ex_bits /\ length ex_bits = 32 /\ exps_le ex_of 3 [3; 0; 7]%Z [5; 5; 33]%Z /\
  can_divide (compute _ ex_of ex_bits [3; 0; 7]%Z) (compute _ ex_of ex_bits [5; 5; 33]%Z) = true /\
  can_divide (compute _ ex_of ex_bits [5; 5; 33]%Z) (compute _ ex_of ex_bits [3; 0; 7]%Z) = false.
Proof.
  split; [exact ex_calculator|]. split; [vm_compute; reflexivity|]. split.
  - intros [|[|[|var]]] H; cbn; lia.
  - split; vm_compute; reflexivity.
Qed.

(** C20.  Every calculator for at least one variable has exactly 32 bits, all of valid variables, and each variable has an equal share
    of them up to one. *)
Theorem C20_exactly_32_bits : forall (M : Type) (ex : M -> nat -> Z) nvars T bits, calculator ex nvars T bits -> nvars <> 0 ->
  length bits = 32 /\ (forall var thr, In (var, thr) bits -> var < nvars) /\
  forall var, var < nvars -> 32 / nvars <= length (filter (fun b => fst b =? var) bits) <= 32 / nvars + 1.
Proof.
  exact (fun M ex nvars T bits Hc Hn =>
    match Hc in calculator _ _ _ bits return length bits = 32 /\ (forall var thr, In (var, thr) bits -> var < nvars) /\
      forall var, var < nvars -> 32 / nvars <= length (filter (fun b => fst b =? var) bits) <= 32 / nvars + 1 with
    | calc_default _ _ _ _ H => default_fair nvars T Hn _ H
    | calc_rebuild _ _ _ _ _ _ Hs H => rebuild_fair ex nvars T _ (fun l => proj1 (Hs l)) Hn _ _ H
    end).
Qed.
Print Assumptions C20_exactly_32_bits.

(** C20.  Of two variables the one that splits the entries better gets at least as many bits: the balance of a variable is the size of the
    smaller part if the entries are split at the middle of the range of the exponents of the variable.  The code lets the range start
    from the exponent of variable 0 of the first entry, of which nothing else is known.  Exponents of an unsigned type have to be in
    the range of the type. *)
Theorem C20_better_split_more_bits : forall (M : Type) (ex : M -> nat -> Z) nvars T sort x l bits var var',
  sorts (fun a b => d_split b <? d_split a) sort -> rebuild M ex nvars T sort (x :: l) = Ok bits ->
  (forall b, T = Unsigned b -> forall y v, In y (x :: l) -> v < nvars -> (0 <= ex y v < 2 ^ Z.of_N b)%Z) -> var < nvars -> var' < nvars ->
  balance (ex x 0) (map (fun y => ex y var') (x :: l)) < balance (ex x 0) (map (fun y => ex y var) (x :: l)) ->
  length (filter (fun b => fst b =? var') bits) <= length (filter (fun b => fst b =? var) bits).
Proof.
  exact (fun M ex nvars T sort x l bits var var' Hs Hr Ht => rebuild_prefers ex nvars T sort (fun l => proj1 (Hs l)) x l bits var var'
    (in_type_intro ex nvars T (x :: l) Ht) (fun l => proj2 (Hs l)) Hr).
Qed.
Print Assumptions C20_better_split_more_bits.

(** C20.  The thresholds of a variable after rebuild: the range of its exponents is cut in as many equal pieces as the variable has bits and the
    lower ends of the pieces are the thresholds. *)
Theorem C20_thresholds_cut_range : forall (M : Type) (ex : M -> nat -> Z) nvars T sort x l bits var,
  sorts (fun a b => d_split b <? d_split a) sort -> rebuild M ex nvars T sort (x :: l) = Ok bits -> (forall b, T <> Unsigned b) -> var < nvars ->
  let mine := filter (fun b => fst b =? var) bits in let es := map (fun y => ex y var) (x :: l) in let first := ex x 0 in
  map snd mine = map (fun i => (lowest first es + Z.of_nat i * piece first es (length mine))%Z) (seq 0 (length mine)).
Proof. exact (fun M ex nvars T sort x l bits var Hs Hr HT => rebuild_thresholds ex nvars T sort (fun l => proj1 (Hs l)) x l bits var (norm_exact T HT) Hr). Qed.
Print Assumptions C20_thresholds_cut_range.

(** C20.  The thresholds of a new calculator are zero and the powers of two. *)
Theorem C20_default_thresholds : forall nvars T bits var, rebuild_default nvars T = Ok bits -> (forall b, T <> Unsigned b) -> var < nvars ->
  let mine := filter (fun b => fst b =? var) bits in
  map snd mine = firstn (length mine) (0%Z :: map (fun i => 2 ^ Z.of_nat i)%Z (seq 0 32)).
Proof. exact (fun nvars T bits var Hr HT => default_thresholds nvars T bits var (norm_exact T HT) Hr). Qed.
Print Assumptions C20_default_thresholds.

(** C20.  Without wrap-around no two bits of a mask mean the same. *)
Theorem C20_bits_differ : forall (M : Type) (ex : M -> nat -> Z) nvars T bits, calculator ex nvars T bits -> (forall b, T <> Unsigned b) -> NoDup bits.
Proof.
  exact (fun M ex nvars T bits Hc HT =>
    match Hc in calculator _ _ _ bits return NoDup bits with
    | calc_default _ _ _ _ H => default_nodup nvars T (norm_exact T HT) _ H
    | calc_rebuild _ _ _ _ _ _ Hs H => rebuild_nodup ex nvars T _ (fun l => proj1 (Hs l)) (norm_exact T HT) _ _ H
    end).
Qed.
Print Assumptions C20_bits_differ.

(** C20.  Constructing a calculator is defined for int exponents and any number of variables but one, and for wider types and any number
    of variables. *)
Theorem C20_default_defined : forall nvars,
  (nvars <> 1 -> exists bits, rebuild_default nvars (Signed 32) = Ok bits) /\
  (exists bits, rebuild_default nvars (Signed 64) = Ok bits) /\
  (exists bits, rebuild_default nvars Unbounded = Ok bits).
Proof. exact default_defined_types. Qed.
Print Assumptions C20_default_defined.

(** C20.  With one variable and int exponents the last, useless, doubling of the exponent overflows (DivMask.h:324), so that constructing
    a calculator is undefined behaviour. *)
Theorem C20_default_one_variable_refuted : rebuild_default 1 (Signed 32) = UB.
Proof. vm_compute. reflexivity. Qed.
Print Assumptions C20_default_one_variable_refuted.

(** C20.  rebuild is defined for int exponents if no exponent is negative or within 31 of the largest int. *)
Theorem C20_rebuild_defined : forall (M : Type) (ex : M -> nat -> Z) nvars sort x l, sorts (fun a b => d_split b <? d_split a) sort ->
  (forall y var, In y (x :: l) -> var < nvars -> (0 <= ex y var <= 2 ^ 31 - 1 - 31)%Z) ->
  exists bits, rebuild M ex nvars (Signed 32) sort (x :: l) = Ok bits.
Proof. exact (fun M ex nvars sort x l Hs => rebuild_defined_int ex nvars sort (fun l => proj1 (Hs l)) x l). Qed.
Print Assumptions C20_rebuild_defined.

(** C20.  Both conditions are needed: thresholds above the largest exponent and differences of exponents can overflow. *)
Theorem C20_rebuild_large_exponent_refuted :
  rebuild _ ex_of 1 (Signed 32) ex_sort [[2 ^ 31 - 1]]%Z = UB /\ rebuild _ ex_of 1 (Signed 32) ex_sort [[- 2 ^ 31]; [1]]%Z = UB.
Proof. split; vm_compute; reflexivity. Qed.
Print Assumptions C20_rebuild_large_exponent_refuted.

Example C20_nonvacuous :
  3 <> 0 /\ map (fun var => length (filter (fun b => fst b =? var) ex_bits)) [0; 1; 2] = [11; 11; 10] /\
  map snd (filter (fun b => fst b =? 2) ex_bits) = [2; 10; 18; 26; 34; 42; 50; 58; 66; 74]%Z /\
  map (fun var => balance 3 (map (fun y => ex_of y var) ex_entries)) [0; 1; 2] = [2; 1; 1] /\
  (exists bits, rebuild_default 5 (Signed 32) = Ok bits /\ map (fun var => length (filter (fun b => fst b =? var) bits)) [0; 1; 2; 3; 4] = [7; 7; 6; 6; 6] /\
    map snd (filter (fun b => fst b =? 4) bits) = [0; 1; 2; 4; 8; 16]%Z).
Proof. split; [lia|]. split; [vm_compute; reflexivity|]. split; [vm_compute; reflexivity|]. split; [vm_compute; reflexivity|]. eexists; repeat split; vm_compute; reflexivity. Qed.

(** C21.  [use] is UseDivMask. *)
Theorem C21_extender_divides_plainly : forall (M : Type) (ex : M -> nat -> Z) nvars T (divides : M -> M -> bool) bits use a b,
  (forall a b, divides a b = true -> exps_le ex nvars a b) -> calculator ex nvars T bits ->
  ext_divides M use divides (extend M ex use bits a) (extend M ex use bits b) = divides a b.
Proof. exact (fun M ex nvars T divides bits use a b Hd Hc => ext_divides_ok ex nvars divides Hd bits (calculator_vars ex nvars T bits Hc) use a b). Qed.
Print Assumptions C21_extender_divides_plainly.

(** C21.  So does a mask that is recalculated after the calculator changed. *)
Theorem C21_recalculated_divides_plainly : forall (M : Type) (ex : M -> nat -> Z) nvars T (divides : M -> M -> bool) bits use (a b : ext M),
  (forall a b, divides a b = true -> exps_le ex nvars a b) -> calculator ex nvars T bits ->
  ext_divides M use divides (recalculate M ex use bits a) (recalculate M ex use bits b) = divides (x_t a) (x_t b).
Proof. exact (fun M ex nvars T divides bits use a b Hd Hc => recalculate_ok ex nvars divides Hd bits (calculator_vars ex nvars T bits Hc) use a b). Qed.
Print Assumptions C21_recalculated_divides_plainly.

Definition ex_divides (a b : list Z) : bool := forallb (fun var => ex_of a var <=? ex_of b var)%Z (seq 0 3).
Lemma ex_divides_le a b : ex_divides a b = true -> exps_le ex_of 3 a b.
Proof.
  unfold ex_divides, exps_le. intros H var Hv. rewrite forallb_forall in H. apply Z.leb_le, H. apply in_seq. lia.
Qed.
Example C21_nonvacuous :
  (forall a b, ex_divides a b = true -> exps_le ex_of 3 a b) /\ calculator ex_of 3 (Signed 32) ex_bits /\
  ext_divides _ true ex_divides (extend _ ex_of true ex_bits [3; 0; 7]%Z) (extend _ ex_of true ex_bits [5; 5; 33]%Z) = true /\
  ext_divides _ true ex_divides (extend _ ex_of true ex_bits [3; 0; 7]%Z) (extend _ ex_of true ex_bits [2; 5; 33]%Z) = false.
Proof. split; [exact ex_divides_le|]. split; [exact ex_calculator|]. split; vm_compute; reflexivity. Qed.

(** C21.  The warning in DivMask.h:179-183 is real: masks of different calculators must not be mixed. *)
Theorem C21_mixed_calculators_refuted :
  exists bits, rebuild_default 3 (Signed 32) = Ok bits /\
    ex_divides [3; 0; 7]%Z [3; 0; 7]%Z = true /\
    ext_divides _ true ex_divides (extend _ ex_of true bits [3; 0; 7]%Z) (extend _ ex_of true ex_bits [3; 0; 7]%Z) = false.
Proof. eexists. split; [vm_compute; reflexivity|split; vm_compute; reflexivity]. Qed.
Print Assumptions C21_mixed_calculators_refuted.

(** C22.  A mask combined from any masks, starting from the maximal mask as the tree nodes do, can divide whatever one of them can. *)
Theorem C22_combined_mask_is_lower_bound : forall ms m m', (forall m, In m ms -> (m < 2 ^ 32)%N) -> In m ms ->
  can_divide m m' = true -> can_divide (fold_left combine_and ms max_mask) m' = true.
Proof. exact combined_lower. Qed.
Print Assumptions C22_combined_mask_is_lower_bound.

(** C22.  It is the best such mask: it has every bit that all of them have. *)
Theorem C22_combined_mask_is_greatest : forall ms i, (i < 32)%N -> N.testbit (fold_left combine_and ms max_mask) i = forallb (fun m => N.testbit m i) ms.
Proof. exact combined_bit. Qed.
Print Assumptions C22_combined_mask_is_greatest.

(** C22.  The maximal mask is neutral for masks of 32 bits, and can divide only itself among them. *)
Theorem C22_max_mask : forall m, (m < 2 ^ 32)%N -> combine_and max_mask m = m /\ combine_and m max_mask = m /\ can_divide m max_mask = true /\ (can_divide max_mask m = true -> m = max_mask).
Proof. exact max_mask_ok. Qed.
Print Assumptions C22_max_mask.

(** C22.  No divisor is skipped: if an entry divides [b], the mask combined of the masks of a set of entries containing it can divide the
    mask of [b]. *)
Theorem C22_no_divisor_is_skipped : forall (M : Type) (ex : M -> nat -> Z) nvars T bits (es : list M) a b,
  calculator ex nvars T bits -> In a es -> exps_le ex nvars a b ->
  can_divide (fold_left combine_and (map (compute M ex bits) es) max_mask) (compute M ex bits b) = true.
Proof. exact (fun M ex nvars T bits es a b Hc => combined_sound ex nvars bits es a b (calculator_vars ex nvars T bits Hc)). Qed.
Print Assumptions C22_no_divisor_is_skipped.

(** C22.  Computed masks have 32 bits. *)
Theorem C22_masks_have_32_bits : forall (M : Type) (ex : M -> nat -> Z) bits a, (compute M ex bits a < 2 ^ 32)%N.
Proof. exact (fun M ex bits a => proj1 (narrow_lt _) (compute_narrow ex bits a)). Qed.
Print Assumptions C22_masks_have_32_bits.

Example C22_nonvacuous :
  let ms := map (compute _ ex_of ex_bits) [[8; 2; 2]; [5; 5; 33]]%Z in
  let c := fold_left combine_and ms max_mask in
  c <> 0%N /\ c <> max_mask /\ can_divide c (compute _ ex_of ex_bits [5; 5; 33]%Z) = true /\ can_divide c (compute _ ex_of ex_bits [1; 0; 0]%Z) = false.
Proof. repeat split; vm_compute; try reflexivity; discriminate. Qed.
