(** Proofs about withSIPrefix and bytesInUnit. *)
From Coq Require Import List Arith Bool ZArith NArith Ascii String Lia.
From Coq.Floats Require Import SpecFloat.
From Verif.Base Require Import Res Text Double.
From Verif.Spec Require Import Rounding.
From Verif.Output Require Import Numbers NumbersProofs.
Import ListNotations.
Local Notation length := List.length.
Local Open Scope Z_scope.

Section Base.
Context (base : Z) (Hbase : 1 < base <= 1024).

(** The value of [amount] after i turns of the loop. *)
Fixpoint amount (i : nat) (l : N) : double :=
  match i with
  | O => ddiv (of_N l) (of_Z base)
  | S j => ddiv (amount j l) (of_Z base)
  end.

Lemma ddiv_base k f a : 0 <= k <= 300 -> value f a -> within k a -> rounds_to a base (ddiv f (of_Z base)) /\ exists q, value (ddiv f (of_Z base)) q /\ within (k + 11) q.
Proof.
  intros Hk Hf Wa. pose proof scale_pos as Hs. pose proof (value_pos _ _ Hf) as Pa. assert (Wb : within 64 (base * scale)) by (apply within_int; lia).
  destruct (ddiv_within k 64 f (of_Z base) a (base * scale)) as (R & q & Hq & _); auto; try lia; [apply of_Z_exact; lia|].
  apply rounds_to_cancel in R; auto. split; auto. exists q. split; auto. destruct (rounds_factor _ base _ _ ltac:(lia) R Hq) as [F1 F2]. destruct Wa as [W1 W2]. pose proof (value_pos _ _ Hq) as Pq.
  assert (Hp : 0 < 2 ^ k) by (apply Z.pow_pos_nonneg; lia). unfold within. rewrite Z.pow_add_r by lia. change (2 ^ 11) with 2048. set (p := 2 ^ k) in *.
  assert (a <= q * 2048) by nia. assert (q <= 2 * a) by nia. split.
  - transitivity (a * p); auto. replace (q * (p * 2048)) with (q * 2048 * p) by ring. apply Z.mul_le_mono_nonneg_r; lia.
  - assert (0 < scale * p) by (apply Z.mul_pos_pos; lia). lia.
Qed.

(** The value of the amount, up to rounding. *)
Lemma amount_ok i l : (i <= 4)%nat -> (0 < l < 2 ^ 64)%N -> exists q, value (amount i l) q /\ within (65 + 11 * (Z.of_nat i + 1)) q.
Proof.
  intros Hi Hl. induction i as [|i IH].
  - destruct (of_N_ok l Hl) as (R & a & Va & Wa). destruct (ddiv_base 65 (of_N l) a ltac:(lia) Va Wa) as (_ & q & Hq & Wq). exists q. auto.
  - destruct (IH ltac:(lia)) as (a & Va & Wa). destruct (ddiv_base (65 + 11 * (Z.of_nat i + 1)) (amount i l) a ltac:(lia) Va Wa) as (_ & q & Hq & Wq). exists q. split; auto.
    replace (65 + 11 * (Z.of_nat (S i) + 1)) with (65 + 11 * (Z.of_nat i + 1) + 11) by lia. auto.
Qed.
Lemma amount_step i l a : (i <= 3)%nat -> (0 < l < 2 ^ 64)%N -> value (amount i l) a -> rounds_to a base (amount (S i) l).
Proof.
  intros Hi Hl Va. destruct (amount_ok i l ltac:(lia) Hl) as (a' & Va' & Wa). rewrite (value_fun _ _ _ Va' Va) in Wa. destruct (ddiv_base (65 + 11 * (Z.of_nat i + 1)) (amount i l) a ltac:(lia) Va Wa) as (R & _). exact R.
Qed.
Lemma amount_0 l a : (0 < l < 2 ^ 64)%N -> value (of_N l) a -> rounds_to a base (amount 0 l).
Proof.
  intros Hl Va. destruct (of_N_ok l Hl) as (R & a' & Va' & Wa). rewrite (value_fun _ _ _ Va' Va) in Wa. destruct (ddiv_base 65 (of_N l) a ltac:(lia) Va Wa) as (R' & _). exact R'.
Qed.
Lemma amount_mono i l l' q q' : (i <= 4)%nat -> (0 < l)%N -> (l <= l')%N -> (l' < 2 ^ 64)%N -> value (amount i l) q -> value (amount i l') q' -> q <= q'.
Proof.
  intros Hi H1 H2 H3. revert q q'. induction i as [|i IH]; intros q q' Hq Hq'.
  - destruct (of_N_ok l ltac:(lia)) as (R & a & Va & _). destruct (of_N_ok l' ltac:(lia)) as (R' & a' & Va' & _).
    assert (M : a <= a'). { apply (rounds_to_mono (Z.of_N l * scale) 1 (of_N l) a (Z.of_N l' * scale) 1 (of_N l') a'); auto; try lia. rewrite !Z.mul_1_r. apply scaled_le; [apply scale_pos|lia]. }
    pose proof (amount_0 l a ltac:(lia) Va) as S1. pose proof (amount_0 l' a' ltac:(lia) Va') as S2. apply (rounds_to_mono a base (amount 0 l) q a' base (amount 0 l') q'); auto; try lia. apply scaled_le; lia.
  - destruct (amount_ok i l ltac:(lia) ltac:(lia)) as (a & Va & _). destruct (amount_ok i l' ltac:(lia) ltac:(lia)) as (a' & Va' & _).
    pose proof (IH ltac:(lia) _ _ Va Va') as M. pose proof (amount_step i l a ltac:(lia) ltac:(lia) Va) as S1. pose proof (amount_step i l' a' ltac:(lia) ltac:(lia) Va') as S2.
    apply (rounds_to_mono a base (amount (S i) l) q a' base (amount (S i) l') q'); auto; try lia. apply scaled_le; lia.
Qed.
(** The upper bound of the error *)
Lemma amount_up i l q : (i <= 3)%nat -> (0 < l < 2 ^ 53)%N -> value (amount i l) q -> (B - 1) ^ (Z.of_nat i + 1) * (q * base ^ (Z.of_nat i + 1)) <= B ^ (Z.of_nat i + 1) * (Z.of_N l * scale).
Proof.
  intros Hi Hl. revert q. induction i as [|i IH]; intros q Hq.
  - change (Z.of_nat 0 + 1) with 1. rewrite !Z.pow_1_r. assert (Va : value (of_N l) (Z.of_N l * scale)) by (apply of_Z_exact; lia). pose proof (amount_0 l _ ltac:(lia) Va) as R. eapply rounds_up; eauto. lia.
  - destruct (amount_ok i l ltac:(lia) ltac:(lia)) as (a & Va & _). specialize (IH ltac:(lia) _ Va). pose proof (amount_step i l a ltac:(lia) ltac:(lia) Va) as R. pose proof (rounds_up _ base _ _ ltac:(lia) R Hq) as U.
    replace (Z.of_nat (S i) + 1) with (Z.succ (Z.of_nat i + 1)) by lia. rewrite !Z.pow_succ_r by lia.
    assert (P1 : 0 < (B - 1) ^ (Z.of_nat i + 1)) by (apply Z.pow_pos_nonneg; pose proof B_big; lia). assert (P2 : 0 < base ^ (Z.of_nat i + 1)) by (apply Z.pow_pos_nonneg; lia).
    set (P := (B - 1) ^ (Z.of_nat i + 1)) in *. set (D := base ^ (Z.of_nat i + 1)) in *. set (Q := B ^ (Z.of_nat i + 1)) in *.
    replace ((B - 1) * P * (q * (base * D))) with (P * D * ((B - 1) * (q * base))) by ring. transitivity (P * D * (B * a)); [apply Z.mul_le_mono_nonneg_l; [nonneg|exact U]|].
    replace (P * D * (B * a)) with (B * (P * (a * D))) by ring. replace (B * Q * (Z.of_N l * scale)) with (B * (Q * (Z.of_N l * scale))) by ring. apply Z.mul_le_mono_nonneg_l; [nonneg|exact IH].
Qed.
(** Divisions without remainder are exact. *)
Lemma amount_exact i l c : (i <= 3)%nat -> (0 < l < 2 ^ 53)%N -> Z.of_N l = c * base ^ (Z.of_nat i + 1) -> value (amount i l) (c * scale).
Proof.
  intros Hi Hl. revert c. induction i as [|i IH]; intros c E.
  - change (Z.of_nat 0 + 1) with 1 in E. rewrite Z.pow_1_r in E. assert (Va : value (of_N l) (Z.of_N l * scale)) by (apply of_Z_exact; lia). pose proof (amount_0 l _ ltac:(lia) Va) as R.
    destruct (rounds_to_value _ _ _ R) as (q & Hq). destruct (integer_value c ltac:(nia)) as (g & Hg). replace (c * scale) with q; auto. eapply rounds_to_exact; eauto; [lia|rewrite E; ring].
  - replace (Z.of_nat (S i) + 1) with (Z.succ (Z.of_nat i + 1)) in E by lia. rewrite Z.pow_succ_r in E by lia. assert (P2 : 0 < base ^ (Z.of_nat i + 1)) by (apply Z.pow_pos_nonneg; lia).
    pose proof (IH ltac:(lia) (c * base) ltac:(lia)) as Va. pose proof (amount_step i l _ ltac:(lia) ltac:(lia) Va) as R. destruct (rounds_to_value _ _ _ R) as (q & Hq).
    assert (0 < c < 2 ^ 53) by nia. destruct (integer_value c ltac:(lia)) as (g & Hg). replace (c * scale) with q; auto. apply (rounds_to_exact (c * base * scale) base (amount (S i) l) q g (c * scale)); auto; [lia|ring].
Qed.

(** The loop *)
Context (limit : double) (vl : Z) (Hlimit : value limit vl) (T : nat -> N).
Hypothesis T_range : forall i, (i < 4)%nat -> (1 < T i < 2 ^ 64)%N.
Hypothesis T_true : forall i, (i < 4)%nat -> dleb limit (amount i (T i)) = true.
Hypothesis T_false : forall i, (i < 4)%nat -> dleb limit (amount i (T i - 1)) = false.

Lemma limit_test i l : (i < 4)%nat -> (0 < l < 2 ^ 64)%N -> dleb limit (amount i l) = (T i <=? l)%N.
Proof using Hbase Hlimit T_false T_range T_true.
  intros Hi Hl. specialize (T_range i Hi). specialize (T_true i Hi). specialize (T_false i Hi). destruct (amount_ok i l ltac:(lia) Hl) as (q & Hq & _).
  destruct (amount_ok i (T i) ltac:(lia) ltac:(lia)) as (q1 & Hq1 & _). destruct (amount_ok i (T i - 1) ltac:(lia) ltac:(lia)) as (q2 & Hq2 & _).
  rewrite (dleb_ok _ _ _ _ Hlimit Hq1) in T_true. rewrite (dleb_ok _ _ _ _ Hlimit Hq2) in T_false. rewrite (dleb_ok _ _ _ _ Hlimit Hq). apply Z.leb_le in T_true. apply Z.leb_gt in T_false.
  destruct (N.leb_spec (T i) l) as [H|H].
  - pose proof (amount_mono i (T i) l q1 q ltac:(lia) ltac:(lia) H ltac:(lia) Hq1 Hq). apply Z.leb_le. lia.
  - pose proof (amount_mono i l (T i - 1) q q2 ltac:(lia) ltac:(lia) ltac:(lia) ltac:(lia) Hq Hq2). apply Z.leb_gt. lia.
Qed.
Lemma choose_unit_ok l : (0 < l < 2 ^ 64)%N -> forall left i, (left + i = 4)%nat ->
  exists j, choose_unit (of_Z base) limit left i (amount i l) = (j, amount j l) /\ (i <= j <= 4)%nat /\
    (forall k, (i <= k < j)%nat -> (T k <= l)%N) /\ ((j < 4)%nat -> (l < T j)%N).
Proof using Hbase Hlimit T_false T_range T_true.
  intros Hl. induction left as [|left IH]; intros i Hi; cbn [choose_unit].
  - exists i. split; auto. split; [lia|]. split; lia.
  - rewrite limit_test by lia. destruct (N.leb_spec (T i) l) as [H|H].
    + destruct (IH (S i) ltac:(lia)) as (j & E & Hj & H1 & H2). exists j. split; [exact E|]. split; [lia|]. split; auto. intros k Hk. destruct (Nat.eq_dec k i) as [->|]; auto. apply H1. lia.
    + exists i. split; auto. split; [lia|]. split; [lia|auto].
Qed.
End Base.

Lemma with_unit_ok base limit vl T units l : 1 < base <= 1024 -> value limit vl -> (forall i, (i < 4)%nat -> (1 < T i < 2 ^ 64)%N) ->
  (forall i, (i < 4)%nat -> dleb limit (amount base i (T i)) = true) -> (forall i, (i < 4)%nat -> dleb limit (amount base i (T i - 1)) = false) ->
  length units = 4%nat -> (0 < l < 2 ^ 64)%N ->
  exists j, (j <= 4)%nat /\ (forall k, (k < j)%nat -> (T k <= l)%N) /\ ((j < 4)%nat -> (l < T j)%N) /\
    with_unit (of_Z base) limit units l = (let* s := oneDecimal (amount base j l) in let* u := of_option (nth_error units j) in Ok (s ++ u)).
Proof.
  intros Hb Hv Hr Ht Hf Hu Hl. unfold with_unit. rewrite Hu. change (ddiv (of_N l) (of_Z base)) with (amount base 0 l).
  destruct (choose_unit_ok base Hb limit vl Hv T Hr Ht Hf l Hl 4 0 eq_refl) as (j & E & Hj & H1 & H2). exists j. split; [lia|]. split; [intros k Hk; apply H1; lia|]. split; auto. now rewrite E.
Qed.
Lemma oneDecimal_total d : (exists s, oneDecimal d = Ok s) \/ oneDecimal d = UB.
Proof. unfold oneDecimal. unfold to_unsigned. destruct (dadd _ _) as [|s| |s m e]; cbn [bind]; eauto. destruct s; [destruct (_ =? 0)|destruct (_ <? _)]; cbn [bind]; eauto. Qed.

(** withSIPrefix *)
Definition si_threshold (i : nat) : N := (999950 * 1000 ^ N.of_nat i)%N.
Lemma si_limit : exists v, value (literal 99995 100) v.
Proof. exists (val 8795653217556890 (-43)), 8795653217556890%positive, (-43). split; [vm_compute; reflexivity|]. split; [split; lia|reflexivity]. Qed.
Lemma below_4 (P : nat -> Prop) : P 0%nat -> P 1%nat -> P 2%nat -> P 3%nat -> forall i, (i < 4)%nat -> P i.
Proof. intros H0 H1 H2 H3 [|[|[|[|i]]]] H; auto; lia. Qed.

Lemma si_tenths i l t : (i <= 3)%nat -> (0 < l < si_threshold i)%N -> half_up (10 * l) (1000 ^ (N.of_nat i + 1)) t -> oneDecimal (amount 1000 i l) = Ok (in_tenths t).
Proof.
  intros Hi Hl Ht. assert (Hl' : (l < 2 ^ 50)%N).
  { assert (si_threshold i <= si_threshold 3)%N; [|change (si_threshold 3) with 999950000000000%N in *; lia]. unfold si_threshold. apply N.mul_le_mono_l. apply N.pow_le_mono_r; lia. }
  rewrite half_up_Z in Ht. replace (Z.of_N (1000 ^ (N.of_nat i + 1))) with (1000 ^ (Z.of_nat i + 1)) in Ht by (rewrite N2Z.inj_pow, N2Z.inj_add, nat_N_Z; reflexivity).
  assert (Hth : Z.of_N l < 999950 * 1000 ^ Z.of_nat i).
  { destruct Hl as [_ Hl]. unfold si_threshold in Hl. apply N2Z.inj_lt in Hl. rewrite N2Z.inj_mul, N2Z.inj_pow, nat_N_Z in Hl. exact Hl. }
  replace t with (Z.to_N (Z.of_N t)) by apply N2Z.id. set (a := Z.of_N l) in *. set (s := Z.of_N t) in *. replace (Z.of_N (10 * l)) with (10 * a) in Ht by lia. assert (Ha : 0 < a < 2 ^ 50) by lia. assert (Hs : 0 <= s) by lia.
  destruct (amount_ok 1000 ltac:(lia) i l ltac:(lia) ltac:(lia)) as (q & Hq & Wq). pose proof (amount_up 1000 ltac:(lia) i l q Hi ltac:(lia) Hq) as Up. fold a in Up.
  rewrite Z.pow_add_r in Ht by lia. change (1000 ^ 1) with 1000 in Ht. assert (Hp : 1 <= 1000 ^ Z.of_nat i <= 1000 ^ 3) by (split; [apply (Z.pow_le_mono_r 1000 0); lia|apply Z.pow_le_mono_r; lia]).
  change (1000 ^ 3) with 1000000000 in Hp.
  assert (Hs' : s <= 10000) by nia.
  assert (Hc : 20 * a + 20 <= (2 * s + 1) * (1000 ^ Z.of_nat i * 1000)) by nia.
  eapply (oneDecimal_exact _ _ q a (1000 ^ (Z.of_nat i + 1)) s 20 ((B - 1) ^ (Z.of_nat i + 1)) (B ^ (Z.of_nat i + 1)) (Z.of_nat i + 3)); [|exact Hq|exact Wq|..]; try lia.
  - rewrite Z.pow_add_r by lia. exact Hc.
  - intros Hpos. set (p := 1000 ^ Z.of_nat i) in *. set (l0 := Z.to_N ((2 * s - 1) * (50 * p))). assert (E0 : Z.of_N l0 = (2 * s - 1) * 50 * p) by (unfold l0; rewrite Z2N.id by nia; ring).
    assert (L0 : (0 < l0 <= l)%N) by nia. destruct (amount_ok 1000 ltac:(lia) i l0 ltac:(lia) ltac:(lia)) as (q0 & Hq0 & _). exists (amount 1000 i l0), q0. split; [|split; [exact Hq0|eapply (amount_mono 1000 ltac:(lia) i l0 l); eauto; lia]].
    apply (rounds_to_cancel 50); [lia|]. change (20 * 50) with 1000. replace ((2 * s - 1) * scale * 50) with ((2 * s - 1) * 50 * scale) by ring. destruct i as [|i].
    + change p with 1 in E0. rewrite Z.mul_1_r in E0. rewrite <- E0. apply amount_0; [lia|lia|]. apply of_Z_exact. lia.
    + apply amount_step; [lia|lia|lia|]. apply amount_exact; [lia|lia|lia|]. rewrite E0. unfold p. f_equal. f_equal. lia.
  - destruct i as [|[|[|[|i]]]]; [| | | |lia]; vm_compute; intuition discriminate.
  - destruct i as [|[|[|[|i]]]]; [| | | |lia]; vm_compute; intuition discriminate.
  - rewrite Z.pow_add_r by lia. set (p := 1000 ^ Z.of_nat i) in *. unfold B. nia.
Qed.

Lemma si_table : (forall i, (i < 4)%nat -> (1 < si_threshold i < 2 ^ 64)%N) /\
  (forall i, (i < 4)%nat -> dleb (literal 99995 100) (amount 1000 i (si_threshold i)) = true) /\
  (forall i, (i < 4)%nat -> dleb (literal 99995 100) (amount 1000 i (si_threshold i - 1)) = false).
Proof. split; [|split]; apply below_4; vm_compute; repeat split; reflexivity. Qed.
Lemma withSIPrefix_small l : (l < 1000)%N -> withSIPrefix l = Ok (decimal l).
Proof. intros H. unfold withSIPrefix. apply N.ltb_lt in H. now rewrite H. Qed.
Lemma withSIPrefix_unit l : (1000 <= l < si_threshold 3)%N -> exists i u t, (i <= 3)%nat /\ nth_error [txt "k"; txt "M"; txt "G"; txt "T"] i = Some u /\
  half_up (10 * l) (1000 ^ (N.of_nat i + 1)) t /\ (10 <= t <= 9999)%N /\ withSIPrefix l = Ok (in_tenths t ++ u).
Proof.
  intros Hl. unfold withSIPrefix. destruct (N.ltb_spec l 1000); [lia|]. destruct si_limit as (v & Hv). destruct si_table as (T1 & T2 & T3). change (si_threshold 3) with 999950000000000%N in Hl.
  destruct (with_unit_ok 1000 (literal 99995 100) v si_threshold [txt "k"; txt "M"; txt "G"; txt "T"] l ltac:(lia) Hv T1 T2 T3 eq_refl ltac:(lia)) as (j & Hj & H1 & H2 & ->).
  assert (j <= 3)%nat. { destruct (le_lt_dec j 3); auto. specialize (H1 3%nat ltac:(lia)). change (si_threshold 3) with 999950000000000%N in H1. lia. }
  specialize (H2 ltac:(lia)). destruct (half_up_exists (10 * l) (1000 ^ (N.of_nat j + 1))) as (t & Ht). { enough (1000 ^ (N.of_nat j + 1) <> 0)%N by lia. apply N.pow_nonzero. lia. }
  rewrite (si_tenths j l t) by (auto; lia).
  assert (Hlow : forall k, j = S k -> (999950 * 1000 ^ N.of_nat k <= l)%N) by (intros k Hk; apply H1; lia).
  destruct j as [|[|[|[|j]]]]; [| | | |lia];
    match goal with |- context [nth_error ?us ?j] => exists j end; eexists; exists t; (split; [lia|]); (split; [reflexivity|]); (split; [exact Ht|]); (split; [|reflexivity]).
  - change (1000 ^ (N.of_nat 0 + 1))%N with 1000%N in Ht. change (si_threshold 0) with 999950%N in H2. unfold half_up in Ht. lia.
  - change (1000 ^ (N.of_nat 1 + 1))%N with 1000000%N in Ht. change (si_threshold 1) with 999950000%N in H2. specialize (Hlow 0%nat eq_refl). change (1000 ^ N.of_nat 0)%N with 1%N in Hlow. unfold half_up in Ht. lia.
  - change (1000 ^ (N.of_nat 2 + 1))%N with 1000000000%N in Ht. change (si_threshold 2) with 999950000000%N in H2. specialize (Hlow 1%nat eq_refl). change (1000 ^ N.of_nat 1)%N with 1000%N in Hlow. unfold half_up in Ht. lia.
  - change (1000 ^ (N.of_nat 3 + 1))%N with 1000000000000%N in Ht. change (si_threshold 3) with 999950000000000%N in H2. specialize (Hlow 2%nat eq_refl). change (1000 ^ N.of_nat 2)%N with 1000000%N in Hlow. unfold half_up in Ht. lia.
Qed.
Lemma withSIPrefix_overflow l : (si_threshold 3 <= l < 2 ^ 64)%N -> withSIPrefix l = UB.
Proof.
  intros Hl. unfold withSIPrefix. change (si_threshold 3) with 999950000000000%N in Hl. destruct (N.ltb_spec l 1000); [lia|]. destruct si_limit as (v & Hv). destruct si_table as (T1 & T2 & T3).
  destruct (with_unit_ok 1000 (literal 99995 100) v si_threshold [txt "k"; txt "M"; txt "G"; txt "T"] l ltac:(lia) Hv T1 T2 T3 eq_refl ltac:(lia)) as (j & Hj & H1 & H2 & ->).
  assert (j = 4%nat) as ->.
  { destruct (Nat.eq_dec j 4); auto. specialize (H2 ltac:(lia)). assert (si_threshold j <= si_threshold 3)%N; [|change (si_threshold 3) with 999950000000000%N in *; lia]. unfold si_threshold. apply N.mul_le_mono_l. apply N.pow_le_mono_r; lia. }
  destruct (oneDecimal_total (amount 1000 4 l)) as [(s & ->) | ->]; reflexivity.
Qed.

(** bytesInUnit *)
Definition byte_threshold (i : nat) : N := nth i [1048525; 1073689396; 1099457940685; 1125844931261236]%N 0%N.
Lemma byte_limit : exists v, value (literal 102395 100) v.
Proof. exists (val 9006759450089882 (-43)), 9006759450089882%positive, (-43). split; [vm_compute; reflexivity|]. split; [split; lia|reflexivity]. Qed.
Lemma byte_table : (forall i, (i < 4)%nat -> (1 < byte_threshold i < 2 ^ 64)%N) /\
  (forall i, (i < 4)%nat -> dleb (literal 102395 100) (amount 1024 i (byte_threshold i)) = true) /\
  (forall i, (i < 4)%nat -> dleb (literal 102395 100) (amount 1024 i (byte_threshold i - 1)) = false).
Proof. split; [|split]; apply below_4; vm_compute; repeat split; reflexivity. Qed.

Lemma amount_1024 i l : (i <= 3)%nat -> (0 < l < 2 ^ 53)%N -> value (amount 1024 i l) (Z.of_N l * unit (- (10 * (Z.of_nat i + 1)))).
Proof.
  intros Hi Hl. induction i as [|i IH].
  - assert (Va : value (of_N l) (Z.of_N l * scale)) by (apply of_Z_exact; lia). pose proof (amount_0 1024 ltac:(lia) l _ ltac:(lia) Va) as R. destruct (rounds_to_value _ _ _ R) as (q & Hq).
    destruct (rep_value (Z.of_N l) (- (10 * (Z.of_nat 0 + 1))) ltac:(lia) ltac:(lia)) as (g & Hg). eapply (rounds_to_exact _ 1024) in Hg; [|reflexivity|exact R|exact Hq|]; [congruence|].
    change (- (10 * (Z.of_nat 0 + 1))) with (-10). rewrite <- unit_0. change 0 with (-10 + 10) at 1. rewrite unit_add by lia. change (2 ^ 10) with 1024. ring.
  - specialize (IH ltac:(lia)). pose proof (amount_step 1024 ltac:(lia) i l _ ltac:(lia) ltac:(lia) IH) as R. destruct (rounds_to_value _ _ _ R) as (q & Hq).
    destruct (rep_value (Z.of_N l) (- (10 * (Z.of_nat (S i) + 1))) ltac:(lia) ltac:(lia)) as (g & Hg). eapply (rounds_to_exact _ 1024) in Hg; [|reflexivity|exact R|exact Hq|]; [congruence|].
    replace (- (10 * (Z.of_nat i + 1))) with (- (10 * (Z.of_nat (S i) + 1)) + 10) by lia. rewrite unit_add by lia. change (2 ^ 10) with 1024. ring.
Qed.
Lemma byte_tenths i l t : (i <= 3)%nat -> (0 < l < byte_threshold 3)%N -> half_up (10 * l) (1024 ^ (N.of_nat i + 1)) t -> oneDecimal (amount 1024 i l) = Ok (in_tenths t).
Proof.
  intros Hi Hl Ht. change (byte_threshold 3) with 1125844931261236%N in Hl. pose proof (amount_1024 i l Hi ltac:(lia)) as Hq. destruct (amount_ok 1024 ltac:(lia) i l ltac:(lia) ltac:(lia)) as (q & Hq' & Wq). rewrite (value_fun _ _ _ Hq' Hq) in Wq.
  rewrite half_up_Z in Ht. replace (Z.of_N (1024 ^ (N.of_nat i + 1))) with (1024 ^ (Z.of_nat i + 1)) in Ht by (rewrite N2Z.inj_pow, N2Z.inj_add, nat_N_Z; reflexivity).
  replace (1024 ^ (Z.of_nat i + 1)) with (2 ^ (10 * (Z.of_nat i + 1))) in Ht by (rewrite Z.pow_mul_r by lia; reflexivity). replace t with (Z.to_N (Z.of_N t)) by apply N2Z.id. set (a := Z.of_N l) in *. set (s := Z.of_N t) in *. replace (Z.of_N (10 * l)) with (10 * a) in Ht by lia.
  set (x := 10 * (Z.of_nat i + 1)) in *. assert (Hx : 10 <= x <= 40) by lia. destruct (oneDecimal_ok (65 + 11 * (Z.of_nat i + 1)) _ _ ltac:(lia) Hq Wq) as (fz & z & fy & y & Rz & Hz & Ry & Hy & ->).
  assert (Hpx : 2 ^ x = 4 * 2 ^ (x - 2)) by (replace x with (2 + (x - 2)) at 1 by lia; rewrite Z.pow_add_r by lia; reflexivity). assert (Hp2 : 0 < 2 ^ (x - 2) <= 2 ^ 38) by (split; [apply Z.pow_pos_nonneg; lia|apply Z.pow_le_mono_r; lia]).
  (* the product and the sum are exact *)
  assert (Eu : unit (- x + 1) = 2 * unit (- x)) by (apply unit_succ; lia).
  assert (Ez : z = 5 * a * unit (- x + 1)). { destruct (rep_value (5 * a) (- x + 1) ltac:(lia) ltac:(lia)) as (g & Hg). eapply (rounds_to_exact _ 1 fz z g); [reflexivity|exact Rz|exact Hz|exact Hg|]. rewrite Eu. ring. }
  assert (Ev : unit (-1) = 2 ^ (x - 2) * unit (- x + 1)) by (rewrite <- unit_add by lia; f_equal; lia).
  assert (Ey : y = (5 * a + 2 ^ (x - 2)) * unit (- x + 1)). { destruct (rep_value (5 * a + 2 ^ (x - 2)) (- x + 1) ltac:(lia) ltac:(lia)) as (g & Hg). eapply (rounds_to_exact _ 1 fy y g); [reflexivity|exact Ry|exact Hy|exact Hg|]. rewrite Ez, Ev. ring. }
  enough (E : y / scale = s). { rewrite E. destruct (Z.ltb_spec s (2 ^ 64)); [reflexivity|nia]. }
  apply floor_is. assert (Es : scale = 2 * 2 ^ (x - 2) * unit (- x + 1)) by (rewrite half_unit, Ev; ring). assert (Hu : 0 < unit (- x + 1)) by (apply unit_pos; lia). rewrite Es, Ey, !Z.mul_assoc. rewrite Hpx in Ht. set (p := 2 ^ (x - 2)) in *. split.
  - apply Z.mul_le_mono_nonneg_r; lia.
  - apply Z.mul_lt_mono_pos_r; lia.
Qed.
Lemma bytesInUnit_small l : (l < 1024)%N -> bytesInUnit l = Ok (decimal l ++ txt "B").
Proof. intros H. unfold bytesInUnit. apply N.ltb_lt in H. now rewrite H. Qed.
Lemma bytesInUnit_unit l : (1024 <= l < byte_threshold 3)%N -> exists i u t, (i <= 3)%nat /\ nth_error [txt "kB"; txt "MB"; txt "GB"; txt "TB"] i = Some u /\
  half_up (10 * l) (1024 ^ (N.of_nat i + 1)) t /\ (10 <= t <= 10239)%N /\ bytesInUnit l = Ok (in_tenths t ++ u).
Proof.
  intros Hl. unfold bytesInUnit. destruct (N.ltb_spec l 1024); [lia|]. destruct byte_limit as (v & Hv). destruct byte_table as (T1 & T2 & T3). change (byte_threshold 3) with 1125844931261236%N in Hl.
  destruct (with_unit_ok 1024 (literal 102395 100) v byte_threshold [txt "kB"; txt "MB"; txt "GB"; txt "TB"] l ltac:(lia) Hv T1 T2 T3 eq_refl ltac:(lia)) as (j & Hj & H1 & H2 & ->).
  assert (j <= 3)%nat. { destruct (le_lt_dec j 3); auto. specialize (H1 3%nat ltac:(lia)). change (byte_threshold 3) with 1125844931261236%N in H1. lia. }
  specialize (H2 ltac:(lia)). destruct (half_up_exists (10 * l) (1024 ^ (N.of_nat j + 1))) as (t & Ht). { enough (1024 ^ (N.of_nat j + 1) <> 0)%N by lia. apply N.pow_nonzero. lia. }
  rewrite (byte_tenths j l t) by (change (byte_threshold 3) with 1125844931261236%N; auto; lia).
  assert (Hlow : forall k, j = S k -> (byte_threshold k <= l)%N) by (intros k Hk; apply H1; lia).
  destruct j as [|[|[|[|j]]]]; [| | | |lia];
    match goal with |- context [nth_error ?us ?j] => exists j end; eexists; exists t; (split; [lia|]); (split; [reflexivity|]); (split; [exact Ht|]); (split; [|reflexivity]).
  - change (1024 ^ (N.of_nat 0 + 1))%N with 1024%N in Ht. change (byte_threshold 0) with 1048525%N in H2. unfold half_up in Ht. lia.
  - change (1024 ^ (N.of_nat 1 + 1))%N with 1048576%N in Ht. change (byte_threshold 1) with 1073689396%N in H2. specialize (Hlow 0%nat eq_refl). change (byte_threshold 0) with 1048525%N in Hlow. unfold half_up in Ht. lia.
  - change (1024 ^ (N.of_nat 2 + 1))%N with 1073741824%N in Ht. change (byte_threshold 2) with 1099457940685%N in H2. specialize (Hlow 1%nat eq_refl). change (byte_threshold 1) with 1073689396%N in Hlow. unfold half_up in Ht. lia.
  - change (1024 ^ (N.of_nat 3 + 1))%N with 1099511627776%N in Ht. change (byte_threshold 3) with 1125844931261236%N in H2. specialize (Hlow 2%nat eq_refl). change (byte_threshold 2) with 1099457940685%N in Hlow. unfold half_up in Ht. lia.
Qed.
Lemma bytesInUnit_overflow l : (byte_threshold 3 <= l < 2 ^ 64)%N -> bytesInUnit l = UB.
Proof.
  intros Hl. unfold bytesInUnit. change (byte_threshold 3) with 1125844931261236%N in Hl. destruct (N.ltb_spec l 1024); [lia|]. destruct byte_limit as (v & Hv). destruct byte_table as (T1 & T2 & T3).
  destruct (with_unit_ok 1024 (literal 102395 100) v byte_threshold [txt "kB"; txt "MB"; txt "GB"; txt "TB"] l ltac:(lia) Hv T1 T2 T3 eq_refl ltac:(lia)) as (j & Hj & H1 & H2 & ->).
  assert (j = 4%nat) as ->.
  { destruct (Nat.eq_dec j 4); auto. specialize (H2 ltac:(lia)). destruct j as [|[|[|[|j]]]]; [| | | |lia]; unfold byte_threshold in H2; cbn [nth] in H2; lia. }
  destruct (oneDecimal_total (amount 1024 4 l)) as [(s & ->) | ->]; reflexivity.
Qed.
