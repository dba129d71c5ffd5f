From Coq Require Import List Arith Bool Lia.
From Verif.Base Require Import Res Arr.
From Verif.BitTriangle Require Import Model.
From Verif.Spec Require Import Triangle.
Import ListNotations.

(** The triangle holds the history's values. *)
Definition bt_inv (h : list bt_op) (t : triangle) : Prop :=
  length t = columns h /\ (forall c r, columns h <= c -> last_written h c r = false) /\
  forall c, c < length t -> exists col, nth_error t c = Some col /\ length col = c /\
    forall r, r < c -> nth_error col r = Some (last_written h c r).

Lemma bt_bit_ok h t c r : bt_inv h t -> r < c < columns h -> bt_bit t c r = Ok (last_written h c r).
Proof.
  intros (Hl & Hun & Hc) Hr. destruct (Hc c) as (col & Hcol & Hlen & Hv); [lia|].
  unfold bt_bit, vget. rewrite Hcol. cbn [of_option bind]. rewrite Hv by lia. reflexivity.
Qed.

Lemma bt_bit_ub h t c r : bt_inv h t -> ~ r < c < columns h -> bt_bit t c r = UB.
Proof.
  intros (Hl & Hun & Hc) Hr. unfold bt_bit, vget. destruct (nth_error t c) as [col|] eqn:Hcol; auto. cbn [of_option bind].
  assert (Hlt : c < length t) by (eapply nth_error_some_lt; eauto).
  destruct (Hc c Hlt) as (col' & Hcol' & Hlen & _). assert (col' = col) as -> by congruence.
  rewrite (proj2 (nth_error_None col r)); auto. lia.
Qed.

Lemma bt_set_ub h t c r v : bt_inv h t -> ~ r < c < columns h -> bt_setBit t c r v = UB.
Proof.
  intros (Hl & Hun & Hc) Hr. unfold bt_setBit, vget. destruct (nth_error t c) as [col|] eqn:Hcol; auto. cbn [of_option bind].
  assert (Hlt : c < length t) by (eapply nth_error_some_lt; eauto).
  destruct (Hc c Hlt) as (col' & Hcol' & Hlen & _). assert (col' = col) as -> by congruence.
  unfold vset. destruct (Nat.ltb_spec r (length col)); [lia|]. reflexivity.
Qed.

Lemma bt_set_ok h t c r v o : bt_inv h t -> r < c < columns h ->
  columns (o :: h) = columns h ->
  (forall c' r', last_written (o :: h) c' r' = if Nat.eqb c' c && Nat.eqb r' r then v else last_written h c' r') ->
  exists t', bt_setBit t c r v = Ok t' /\ bt_inv (o :: h) t'.
Proof.
  intros (Hl & Hun & Hc) Hr Ho Hw. destruct (Hc c) as (col & Hcol & Hlen & Hv); [lia|].
  unfold bt_setBit, vget. rewrite Hcol. cbn [of_option bind]. rewrite vset_ok by lia. cbn [bind]. rewrite vset_ok by lia.
  eexists; split; [reflexivity|]. split; [rewrite upd_length; lia|]. split.
  { intros c' r' Hc'. rewrite Hw, Hun by lia. destruct (Nat.eqb_spec c' c); [lia|]. reflexivity. }
  intros c' Hc'. rewrite upd_length in Hc'. destruct (Nat.eq_dec c' c) as [->|Hne].
  - exists (upd col r v). split; [apply nth_upd_same; lia|]. split; [now rewrite upd_length|].
    intros r' Hr'. rewrite Hw. rewrite Nat.eqb_refl. cbn [andb]. destruct (Nat.eqb_spec r' r) as [->|Hr2].
    + apply nth_upd_same; lia.
    + rewrite nth_upd_other by auto. auto.
  - destruct (Hc c' Hc') as (col' & Hcol' & Hlen' & Hv'). exists col'. rewrite nth_upd_other by auto.
    split; auto. split; auto. intros r' Hr'. rewrite Hw. destruct (Nat.eqb_spec c' c); [congruence|]. cbn [andb]. auto.
Qed.

Lemma swap_max_min x y : (if Nat.ltb x y then (y, x) else (x, y)) = (Nat.max x y, Nat.min x y).
Proof. destruct (Nat.ltb_spec x y); f_equal; lia. Qed.

Lemma bt_step_ok h t o : bt_inv h t -> allowed h o ->
  exists t', bt_step t o = Ok (t', answer h o) /\ bt_inv (o :: h) t'.
Proof.
  intros Hi Ha. destruct o as [|c r v|x y v|c r|x y| |]; cbn [bt_step answer allowed] in *.
  - eexists; split; [reflexivity|]. destruct Hi as (Hl & Hun & Hc). unfold bt_addColumn. split; [|split].
    + rewrite app_length; simpl. lia.
    + intros c r Hcr. simpl in *. apply Hun. lia.
    + intros c Hlt. rewrite app_length in Hlt; simpl in Hlt. destruct (Nat.eq_dec c (length t)) as [->|Hne].
      * exists (repeat false (length t)). rewrite nth_error_app2 by lia. rewrite Nat.sub_diag. split; auto.
        split; [apply repeat_length|]. intros r Hr. rewrite nth_error_repeat by auto. f_equal. simpl. rewrite Hun; auto. lia.
      * destruct (Hc c) as (col & Hcol & Hrest); [lia|]. exists col. rewrite nth_error_app1 by lia. auto.
  - destruct (bt_set_ok h t c r v (BSet c r v) Hi Ha eq_refl) as (t' & -> & Hi'); [reflexivity|]. cbn [bind]. eauto.
  - unfold bt_setBitUnordered. rewrite swap_max_min.
    destruct (bt_set_ok h t (Nat.max x y) (Nat.min x y) v (BSetU x y v) Hi) as (t' & -> & Hi'); try reflexivity; [lia|].
    cbn [bind]. eauto.
  - rewrite (bt_bit_ok h t c r Hi Ha). cbn [bind]. exists t; split; auto.
  - unfold bt_bitUnordered. rewrite swap_max_min. rewrite (bt_bit_ok h t _ _ Hi) by lia. cbn [bind]. exists t; split; auto.
  - exists t. split; auto. destruct Hi as [Hl _]. unfold bt_columnCount. now rewrite Hl.
  - exists t. split; auto. destruct Hi as [Hl _]. unfold bt_empty. rewrite <- Hl. destruct t; reflexivity.
Qed.

Lemma bt_step_ub h t o : bt_inv h t -> ~ allowed h o -> bt_step t o = UB.
Proof.
  intros Hi Ha. destruct o as [|c r v|x y v|c r|x y| |]; cbn [bt_step allowed] in *; try tauto.
  - rewrite (bt_set_ub h) by auto. reflexivity.
  - unfold bt_setBitUnordered. rewrite swap_max_min. rewrite (bt_set_ub h) by (auto; lia). reflexivity.
  - rewrite (bt_bit_ub h) by auto. reflexivity.
  - unfold bt_bitUnordered. rewrite swap_max_min. rewrite (bt_bit_ub h) by (auto; lia). reflexivity.
Qed.

Lemma allowed_dec h o : allowed h o \/ ~ allowed h o.
Proof. destruct o; cbn [allowed]; lia. Qed.

Lemma bt_run_ok ops : forall h t, bt_inv h t -> all_allowed h ops ->
  exists t', run bt_step t ops = Ok (t', answers h ops) /\ bt_inv (rev ops ++ h) t'.
Proof.
  induction ops as [|o ops IH]; intros h t Hi Ha; cbn [run answers].
  - exists t; auto.
  - destruct Ha as [Ho Ha]. destruct (bt_step_ok h t o Hi Ho) as (t1 & -> & Hi1). cbn [bind].
    destruct (IH (o :: h) t1 Hi1 Ha) as (t2 & -> & Hi2). cbn [bind]. exists t2. split; auto. simpl. now rewrite <- app_assoc.
Qed.

Lemma bt_run_ub ops : forall h t, bt_inv h t -> ~ all_allowed h ops -> run bt_step t ops = UB.
Proof.
  induction ops as [|o ops IH]; intros h t Hi Ha; cbn [run all_allowed] in *; [tauto|].
  destruct (allowed_dec h o) as [Ho|Ho].
  - destruct (bt_step_ok h t o Hi Ho) as (t1 & -> & Hi1). cbn [bind]. rewrite (IH (o :: h) t1 Hi1); tauto.
  - rewrite (bt_step_ub h t o Hi Ho). reflexivity.
Qed.

Lemma bt_inv_nil : bt_inv [] [].
Proof. split; auto. split; auto. intros c Hc; simpl in Hc; lia. Qed.

Lemma bt_correct ops : (all_allowed [] ops -> exists t, run bt_step [] ops = Ok (t, answers [] ops)) /\
  (~ all_allowed [] ops -> run bt_step [] ops = UB).
Proof.
  split; intros Ha.
  - destruct (bt_run_ok ops [] [] bt_inv_nil Ha) as (t & Ht & _). eauto.
  - exact (bt_run_ub ops [] [] bt_inv_nil Ha).
Qed.
