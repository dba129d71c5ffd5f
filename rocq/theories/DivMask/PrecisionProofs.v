(** Proofs about what the masks tell apart. *)
From Coq Require Import List Arith Bool ZArith NArith Lia.
From Verif.Base Require Import Res Sort Order.
From Verif.Spec Require Import Split.
From Verif.DivMask Require Import Model Proofs SplitProofs Properties.
Import ListNotations.

Definition bits_of (var : nat) (bits : list (nat * Z)) : list (nat * Z) := filter (fun b => fst b =? var) bits.

Lemma lowest_le first l e : In e l -> (lowest first l <= e)%Z.
Proof. unfold lowest. induction l as [|x l IH]; [intros []|]. cbn [fold_right]. intros [->|H]; [lia|]. specialize (IH H). lia. Qed.
Lemma highest_ge first l e : In e l -> (e <= highest first l)%Z.
Proof. unfold highest. induction l as [|x l IH]; [intros []|]. cbn [fold_right]. intros [->|H]; [lia|]. specialize (IH H). lia. Qed.
Lemma lowest_greatest first l z : (z <= first)%Z -> (forall e, In e l -> (z <= e)%Z) -> (z <= lowest first l)%Z.
Proof. unfold lowest. induction l as [|x l IH]; intros H1 H2; auto. cbn [fold_right]. pose proof (H2 x (or_introl eq_refl)). specialize (IH H1 (fun e He => H2 e (or_intror He))). lia. Qed.

Section Precision.
  Context {M : Type}.
  Variable ex : M -> nat -> Z.
  Variable nvars : nat.
  Variable T : exptype.

  Lemma calculator_whole bits : calculator ex nvars T bits -> skipn (length bits - 32) bits = bits.
  Proof.
    intros Hc. destruct (Nat.eq_dec nvars 0) as [Hn|Hn].
    - destruct bits as [|[v t] bits]; auto. exfalso. pose proof (calculator_vars _ _ _ _ Hc v t (or_introl eq_refl)). lia.
    - destruct (C20_exactly_32_bits M ex nvars T bits Hc Hn) as (-> & _). reflexivity.
  Qed.
  (** A threshold between two exponents rules out divisibility. *)
  Lemma told_apart bits a b var t : calculator ex nvars T bits -> In t (map snd (bits_of var bits)) -> (ex b var <= t < ex a var)%Z ->
    can_divide (compute M ex bits a) (compute M ex bits b) = false.
  Proof.
    intros Hc Ht Hb. apply not_true_is_false. intros H. rewrite C19_mask_meaning, (calculator_whole bits Hc) in H.
    apply in_map_iff in Ht as ([v t'] & <- & Ht). apply filter_In in Ht as [Ht Hv]. cbn [fst snd] in *. apply Nat.eqb_eq in Hv. subst v.
    specialize (H var t' Ht). lia.
  Qed.

  Variable sort : list var_data -> list var_data.
  Hypothesis Hsort : sorts (fun a b => d_split b <? d_split a) sort.
  Hypothesis HT : forall b, T <> Unsigned b.
  Variables (x : M) (l : list M) (bits : list (nat * Z)).
  Hypothesis Hr : rebuild M ex nvars T sort (x :: l) = Ok bits.
  Let es (var : nat) : list Z := map (fun y => ex y var) (x :: l).
  Let low (var : nat) : Z := lowest (ex x 0) (es var).
  Let width (var : nat) : Z := piece (ex x 0) (es var) (length (bits_of var bits)).

  Lemma this_calculator : calculator ex nvars T bits.
  Proof using Hsort Hr. eapply calc_rebuild; eauto. Qed.
  Lemma threshold_in var i : var < nvars -> i < length (bits_of var bits) -> In (low var + Z.of_nat i * width var)%Z (map snd (bits_of var bits)).
  Proof using Hsort HT Hr.
    intros Hv Hi. pose proof (C20_thresholds_cut_range M ex nvars T sort x l bits var Hsort Hr HT Hv) as H. cbn zeta in H. fold (bits_of var bits) in H.
    rewrite H. apply in_map_iff. exists i. split; [reflexivity|]. apply in_seq. lia.
  Qed.
  Lemma width_pos var : (1 <= width var)%Z.
  Proof. unfold width, piece. lia. Qed.

  Lemma apart_by_a_piece var a b : var < nvars -> length (bits_of var bits) <> 0 ->
    (low var <= ex b var <= low var + (Z.of_nat (length (bits_of var bits)) - 1) * width var)%Z -> (ex b var + width var <= ex a var)%Z ->
    can_divide (compute M ex bits a) (compute M ex bits b) = false.
  Proof using Hsort HT Hr.
    intros Hv Hk Hb Ha. pose proof (width_pos var) as Hw. set (k := length (bits_of var bits)) in *. set (w := width var) in *.
    set (d := (ex b var - low var)%Z) in *. set (q := ((d + w - 1) / w)%Z).
    pose proof (Z.div_mod (d + w - 1) w ltac:(lia)) as D1. pose proof (Z.mod_pos_bound (d + w - 1) w ltac:(lia)) as D2. fold q in D1.
    assert (Hq0 : (0 <= q)%Z) by (apply Z.div_pos; lia).
    assert (Hqk : (q <= Z.of_nat k - 1)%Z).
    { assert (H : (q * w <= (Z.of_nat k - 1) * w + w - 1)%Z) by (unfold d in *; nia). nia. }
    apply (told_apart bits a b var (low var + Z.of_nat (Z.to_nat q) * w)%Z this_calculator).
    - apply threshold_in; auto. unfold k in Hqk. lia.
    - rewrite Z2Nat.id by lia. unfold d in *. nia.
  Qed.
  Lemma least_apart var a b : var < nvars -> length (bits_of var bits) <> 0 -> (forall y, In y (x :: l) -> (ex b var <= ex y var)%Z) -> (ex b var <= ex x 0)%Z ->
    In b (x :: l) -> (ex b var < ex a var)%Z -> can_divide (compute M ex bits a) (compute M ex bits b) = false.
  Proof using Hsort HT Hr.
    intros Hv Hk Hl H0 Hb Ha. apply (told_apart bits a b var (low var + Z.of_nat 0 * width var)%Z this_calculator); [apply threshold_in; auto; lia|].
    assert (E : low var = ex b var); [|lia]. unfold low. apply Z.le_antisymm.
    - apply lowest_le. unfold es. now apply (in_map (fun y => ex y var)).
    - apply lowest_greatest; auto. intros e He. unfold es in He. apply in_map_iff in He as (y & <- & Hy). auto.
  Qed.
  Lemma small_apart var a b : var < nvars -> (highest (ex x 0) (es var) - low var <= Z.of_nat (length (bits_of var bits)))%Z ->
    (low var <= ex b var)%Z -> (ex a var <= highest (ex x 0) (es var))%Z -> (ex b var < ex a var)%Z ->
    can_divide (compute M ex bits a) (compute M ex bits b) = false.
  Proof using Hsort HT Hr.
    intros Hv Hk Hb Ha Hab. set (k := length (bits_of var bits)) in *.
    assert (Hw : width var = 1%Z).
    { unfold width, piece. fold k. fold (low var). destruct (Z.eq_dec (highest (ex x 0) (es var) - low var) (Z.of_nat k)) as [E|E].
      - rewrite E. destruct k as [|k]; [reflexivity|]. rewrite Z.div_same by lia. reflexivity.
      - rewrite Z.div_small; [reflexivity|]. lia. }
    apply (apart_by_a_piece var a b); auto; fold k; try rewrite Hw; try lia.
  Qed.
End Precision.
