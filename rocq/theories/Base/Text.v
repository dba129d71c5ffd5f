(** Byte strings (std::string), their order, and decimal numerals.  This file models no particular mathic code. *)
From Coq Require Import List Arith Bool NArith Ascii String Lia.
From Verif.Base Require Import Order.
Import ListNotations.
Local Notation length := List.length.
Local Open Scope N_scope.

Definition text := list ascii.
Definition txt (s : string) : text := list_ascii_of_string s.
Definition quote : text := [ascii_of_N 34].
Definition newline : ascii := ascii_of_N 10.
Definition space : ascii := ascii_of_N 32.

(** operator== of strings *)
Fixpoint teqb (a b : text) : bool :=
  match a, b with
  | [], [] => true
  | x :: a', y :: b' => Ascii.eqb x y && teqb a' b'
  | _, _ => false
  end.
(** operator< of strings: std::char_traits<char>::lt compares bytes as unsigned *)
Fixpoint tless (a b : text) : bool :=
  match a, b with
  | _, [] => false
  | [], _ :: _ => true
  | x :: a', y :: b' => if N_of_ascii x <? N_of_ascii y then true else if N_of_ascii y <? N_of_ascii x then false else tless a' b'
  end.

Lemma teqb_eq a : forall b, teqb a b = true <-> a = b.
Proof.
  induction a as [|x a IH]; intros [|y b]; cbn [teqb]; try (split; congruence). rewrite andb_true_iff, Ascii.eqb_eq, IH. split; [intros [-> ->]; auto|intros H; injection H; auto].
Qed.
Lemma teqb_refl a : teqb a a = true.
Proof. now apply teqb_eq. Qed.
Lemma teqb_neq a b : teqb a b = false <-> a <> b.
Proof. rewrite <- teqb_eq. destruct (teqb a b); split; congruence. Qed.

Lemma N_of_ascii_inj x y : N_of_ascii x = N_of_ascii y -> x = y.
Proof. intros H. rewrite <- (ascii_N_embedding x), H. apply ascii_N_embedding. Qed.
Lemma tless_total : strict_total tless.
Proof.
  split; [split|].
  - intros a. induction a as [|x a IH]; auto. cbn [tless]. now rewrite N.ltb_irrefl.
  - intros a. induction a as [|x a IH]; intros [|y b] [|z c]; cbn [tless]; try discriminate; auto.
    destruct (N.ltb_spec (N_of_ascii x) (N_of_ascii y)), (N.ltb_spec (N_of_ascii y) (N_of_ascii x)), (N.ltb_spec (N_of_ascii y) (N_of_ascii z)),
      (N.ltb_spec (N_of_ascii z) (N_of_ascii y)), (N.ltb_spec (N_of_ascii x) (N_of_ascii z)), (N.ltb_spec (N_of_ascii z) (N_of_ascii x)); try discriminate; try lia; auto. apply IH.
  - intros a. induction a as [|x a IH]; intros [|y b] [|z c]; cbn [tless]; try discriminate; auto.
    destruct (N.ltb_spec (N_of_ascii x) (N_of_ascii y)), (N.ltb_spec (N_of_ascii y) (N_of_ascii x)), (N.ltb_spec (N_of_ascii y) (N_of_ascii z)),
      (N.ltb_spec (N_of_ascii z) (N_of_ascii y)), (N.ltb_spec (N_of_ascii x) (N_of_ascii z)), (N.ltb_spec (N_of_ascii z) (N_of_ascii x)); try discriminate; try lia; auto. apply IH.
  - intros a. unfold equivalent. induction a as [|x a IH]; intros [|y b]; cbn [tless]; try (intros [? ?]; congruence).
    destruct (N.ltb_spec (N_of_ascii x) (N_of_ascii y)), (N.ltb_spec (N_of_ascii y) (N_of_ascii x)); try (intros [? ?]; congruence).
    intros Hab. f_equal; [apply N_of_ascii_inj; lia|auto].
Qed.

(** Decimal numerals as std::ostream prints unsigned integers. *)
Definition digit (d : N) : ascii := ascii_of_N (48 + d).
Definition digit_value (c : ascii) : option N :=
  let n := N_of_ascii c in if (48 <=? n) && (n <=? 57) then Some (n - 48) else None.
(** least significant digit first *)
Fixpoint rdigits (fuel : nat) (n : N) : list N :=
  match fuel with
  | O => []
  | S f => if n <? 10 then [n] else n mod 10 :: rdigits f (n / 10)
  end.
Definition digits (n : N) : list N := rdigits (S (N.to_nat (N.size n))) n.
Definition decimal (n : N) : text := rev (map digit (digits n)).

(** The number that a list of digits denotes, most significant digit first. *)
Definition value_of (ds : list N) : N := fold_left (fun acc d => 10 * acc + d) ds 0.

Lemma digit_ascii d : d < 10 -> N_of_ascii (digit d) = 48 + d.
Proof. intros H. apply N_ascii_embedding. lia. Qed.
Lemma digit_value_digit d : d < 10 -> digit_value (digit d) = Some d.
Proof.
  intros H. unfold digit_value. rewrite digit_ascii by auto. destruct (N.leb_spec 48 (48 + d)), (N.leb_spec (48 + d) 57); try lia. cbn [andb]. f_equal. lia.
Qed.
Lemma digit_inj d e : d < 10 -> e < 10 -> digit d = digit e -> d = e.
Proof. intros H1 H2 H. apply (f_equal digit_value) in H. rewrite !digit_value_digit in H by auto. congruence. Qed.
Lemma digit_value_some c d : digit_value c = Some d -> d < 10 /\ c = digit d.
Proof.
  unfold digit_value. destruct (N.leb_spec 48 (N_of_ascii c)), (N.leb_spec (N_of_ascii c) 57); cbn [andb]; try discriminate. intros E. injection E as <-.
  split; [lia|]. unfold digit. replace (48 + (N_of_ascii c - 48)) with (N_of_ascii c) by lia. symmetry. apply ascii_N_embedding.
Qed.

(** Least significant digit first. *)
Fixpoint rvalue (ds : list N) : N := match ds with [] => 0 | d :: ds' => d + 10 * rvalue ds' end.
Lemma value_of_snoc ds d : value_of (ds ++ [d]) = 10 * value_of ds + d.
Proof. unfold value_of. now rewrite fold_left_app. Qed.
Lemma value_of_rev ds : value_of (rev ds) = rvalue ds.
Proof. induction ds as [|d ds IH]; auto. cbn [rev rvalue]. rewrite value_of_snoc, IH. lia. Qed.

(** Numerals without superfluous zeros, least significant digit first. *)
Definition rcanonical (ds : list N) : Prop := Forall (fun d => d < 10) ds /\ ds <> [] /\ (last ds 1 = 0 -> ds = [0]).

Lemma rdigits_ok f : forall n, n < 2 ^ N.of_nat f -> rvalue (rdigits (S f) n) = n /\ rcanonical (rdigits (S f) n).
Proof.
  induction f as [|f IH]; intros n Hn.
  - cbn in Hn. assert (n = 0) as -> by lia. split; [reflexivity|]. split; [repeat constructor|]. split; [discriminate|reflexivity].
  - remember (S f) as f' eqn:Hf. cbn [rdigits]. destruct (N.ltb_spec n 10) as [Hs|Hs].
    + cbn [rvalue]. split; [lia|]. split; [repeat constructor; lia|]. split; [discriminate|]. cbn [last]. intros ->. reflexivity.
    + subst f'. rewrite Nat2N.inj_succ, N.pow_succ_r' in Hn. destruct (IH (n / 10)) as (H1 & H2 & H3 & H4).
      { apply N.div_lt_upper_bound; lia. }
      cbn [rvalue]. rewrite H1. split; [rewrite N.add_comm; symmetry; apply N.div_mod; lia|]. split; [|split; [discriminate|]].
      * constructor; auto. apply N.mod_lt. lia.
      * destruct (rdigits (S f) (n / 10)) as [|d ds] eqn:Hd; [now destruct H3|]. intros Hl.
        assert (Hz : last (d :: ds) 1 = 0) by exact Hl. apply H4 in Hz. rewrite Hz in H1. cbn in H1.
        assert (1 <= n / 10) by (apply N.div_le_lower_bound; lia). lia.
Qed.
Lemma digits_ok n : rvalue (digits n) = n /\ rcanonical (digits n).
Proof. apply rdigits_ok. rewrite N2Nat.id. apply N.size_gt. Qed.

Lemma last_nonzero_pos ds : Forall (fun d => d < 10) ds -> ds <> [] -> last ds 1 <> 0 -> 0 < rvalue ds.
Proof.
  induction ds as [|d ds IH]; intros Hd Hn Hl; [congruence|]. inversion Hd; subst. cbn [rvalue]. destruct ds as [|e ds]; [cbn in *; lia|].
  specialize (IH H2 ltac:(discriminate) Hl). lia.
Qed.
Lemma rcanonical_inj ds : forall es, rcanonical ds -> rcanonical es -> rvalue ds = rvalue es -> ds = es.
Proof.
  induction ds as [|d ds IH]; intros [|e es] (H1 & H2 & H3) (G1 & G2 & G3) Hv; try congruence.
  inversion H1 as [|? ? Hd Hds]; subst. inversion G1 as [|? ? He Hes]; subst. cbn [rvalue] in Hv.
  assert (d = e /\ rvalue ds = rvalue es) as [-> Hr].
  { generalize dependent (rvalue ds). generalize dependent (rvalue es). intros b a Hv. lia. }
  f_equal. destruct ds as [|d' ds], es as [|e' es]; auto.
  - exfalso. assert (Hp : 0 < rvalue (e' :: es)); [|rewrite <- Hr in Hp; cbn in Hp; lia]. apply last_nonzero_pos; [auto|discriminate|].
    intros Hz. assert (E : e :: e' :: es = [0]) by (apply G3; exact Hz). discriminate E.
  - exfalso. assert (Hp : 0 < rvalue (d' :: ds)); [|rewrite Hr in Hp; cbn in Hp; lia]. apply last_nonzero_pos; [auto|discriminate|].
    intros Hz. assert (E : e :: d' :: ds = [0]) by (apply H3; exact Hz). discriminate E.
  - apply IH; auto.
    + split; auto. split; [discriminate|]. intros Hz. assert (E : e :: d' :: ds = [0]) by (apply H3; exact Hz). discriminate E.
    + split; auto. split; [discriminate|]. intros Hz. assert (E : e :: e' :: es = [0]) by (apply G3; exact Hz). discriminate E.
Qed.

(** What a decimal numeral is: digits only, no superfluous zero at the front, denoting the number. *)
Definition denotes (t : text) (n : N) : Prop :=
  exists ds, t = map digit ds /\ Forall (fun d => d < 10) ds /\ ds <> [] /\ (hd 1 ds = 0 -> ds = [0]) /\ value_of ds = n.
Lemma hd_rev {A} (l : list A) x : hd x (rev l) = last l x.
Proof.
  induction l as [|a l IH]; auto. cbn [rev]. destruct l as [|b l]; auto. change (last (a :: b :: l) x) with (last (b :: l) x). rewrite <- IH.
  destruct (rev (b :: l)) as [|c k] eqn:Hr; auto. apply (f_equal (@List.length _)) in Hr. rewrite rev_length in Hr. discriminate.
Qed.
Lemma rev_one {A} (l : list A) x : rev l = [x] -> l = [x].
Proof. intros H. rewrite <- (rev_involutive l), H. reflexivity. Qed.
Lemma decimal_denotes n : denotes (decimal n) n.
Proof.
  destruct (digits_ok n) as (H1 & H2 & H3 & H4). exists (rev (digits n)). split; [unfold decimal; now rewrite map_rev|]. split; [now apply Forall_rev|].
  split; [intros E; apply H3; rewrite <- (rev_involutive (digits n)), E; reflexivity|]. split; [|now rewrite value_of_rev].
  rewrite hd_rev. intros Hl. now rewrite (H4 Hl).
Qed.
Lemma denotes_decimal t n : denotes t n -> t = decimal n.
Proof.
  intros (ds & -> & H1 & H2 & H3 & H4). unfold decimal. rewrite <- map_rev. f_equal. rewrite <- (rev_involutive ds). f_equal.
  destruct (digits_ok n) as (G1 & G2). apply rcanonical_inj; auto.
  - split; [now apply Forall_rev|]. split; [intros E; apply H2; rewrite <- (rev_involutive ds), E; reflexivity|].
    intros Hl. rewrite <- hd_rev, rev_involutive in Hl. now rewrite (H3 Hl).
  - rewrite <- value_of_rev, rev_involutive. congruence.
Qed.
Lemma decimal_inj n m : decimal n = decimal m -> n = m.
Proof.
  intros H. destruct (decimal_denotes n) as (ds & E1 & H1 & _ & _ & H4). destruct (decimal_denotes m) as (es & E2 & G1 & _ & _ & G4). rewrite H in E1. rewrite E1 in E2.
  enough (ds = es) by congruence. clear - E2 H1 G1. revert es E2 G1. induction H1 as [|d ds Hd H1 IH]; intros [|e es] E G1; try discriminate; auto.
  cbn [map] in E. injection E as E1 E2. inversion G1; subst. f_equal; [now apply digit_inj|auto].
Qed.
Lemma decimal_length_pos n : decimal n <> [].
Proof. destruct (decimal_denotes n) as (ds & -> & _ & H & _). now destruct ds. Qed.
