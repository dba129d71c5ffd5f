(** Bounds for the work on entries in ComTree; used by MovedProperties.v. *)
From Coq Require Import List Arith Lia.
From Verif.Base Require Import Res Arr Count FaultFacts.
From Verif.ComTree Require Import Model Moved.
Import ListNotations.

Section Moved.
  Context {E : Type} (wa wc wn : nat).
  Notation comtree := (comtree E).
  Notation step_w := (step_w E wa wc wn).
  Notation run_w := (run_w E wa wc wn).

  Lemma set_w_ok (t t' : comtree) n v : ct_set t n v = Ok t' -> set_w E wa t n v = Ok (t', wa) /\ ct_last t' = ct_last t /\ ct_cap t' = ct_cap t.
  Proof.
    intros H. unfold set_w. rewrite H. split; [reflexivity|]. unfold ct_set in H. destruct (ct_arr t), n; try discriminate. apply bind_inv in H. destruct H as (a & _ & H). injection H as <-. auto.
  Qed.
  Lemma copy_loop_ok t : forall fuel new i new', i <= S (ct_last t) -> ct_copy_loop fuel t new i = Ok new' ->
    copy_loop_w E wa fuel t new i = Ok (new', wa * (S (ct_last t) - i)) /\ ct_cap new' = ct_cap new.
  Proof.
    induction fuel as [|fuel IH]; intros new i new' Hi H; cbn [ct_copy_loop copy_loop_w] in *; destruct (Nat.leb i (ct_last t)) eqn:El; try discriminate.
    1, 3: apply Nat.leb_gt in El; injection H as <-; replace (S (ct_last t) - i) with 0 by lia; rewrite Nat.mul_0_r; auto.
    apply Nat.leb_le in El. apply bind_inv in H. destruct H as (v & Hv & H). rewrite Hv. unfold free. cbn [bind]. unfold cbind at 1. cbn [bind]. destruct (Nat.eqb (ct_last new) (ct_cap new)); [discriminate|].
    apply bind_inv in H. destruct H as (n1 & H1 & H). unfold ct_pushBackWithCapacity in H1. unfold pushBackWithCapacity_w.
    destruct (set_w_ok _ _ _ _ H1) as (E1 & _ & E3). rewrite E1. unfold cbind. cbn [bind]. destruct (IH _ (S i) _ ltac:(lia) H) as (-> & E4). cbn [bind]. split; [do 2 f_equal; replace (S (ct_last t) - i) with (S (S (ct_last t) - S i)) by lia; lia|]. rewrite E4, E3. reflexivity.
  Qed.
  Lemma increase_ok (t t' : comtree) : ct_increaseCapacity t = Ok t' -> let c := if ct_cap t =? 0 then 16 else ct_cap t * 2 in
    increaseCapacity_w E wa wc wn t = Ok (t', wn + wc * c + wa * ct_last t) /\ ct_last t' = ct_last t /\ ct_cap t' = c.
  Proof.
    cbv zeta. unfold ct_increaseCapacity, increaseCapacity_w. set (c := if ct_cap t =? 0 then 16 else ct_cap t * 2). intros H. apply bind_inv in H. destruct H as (n & H1 & H). injection H as <-.
    assert (Hc : 0 < c) by (unfold c; destruct (Nat.eqb_spec (ct_cap t) 0); lia).
    destruct (copy_loop_ok t _ _ 1 _ ltac:(lia) H1) as (E1 & E2). unfold new_w. assert (Hl : 0 <? c = true) by (now apply Nat.ltb_lt). rewrite Hl. unfold cbind. cbn [bind]. rewrite E1. cbn [bind ct_last ct_cap].
    split; [do 2 f_equal; replace (S (ct_last t) - 1) with (ct_last t) by lia; lia|]. split; [reflexivity|]. rewrite E2. reflexivity.
  Qed.

  (** No call of increaseCapacity by the client, no copies *)
  Definition calm (o : ct_op E) : bool := match o with CGrow | CCopy _ => false | _ => true end.
  Definition pushes (ops : list (ct_op E)) : nat := length (filter (fun o => match o with CPushBack _ => true | _ => false end) ops).
  Definition sets (ops : list (ct_op E)) : nat := length (filter (fun o => match o with CSet _ _ => true | _ => false end) ops).

  (** After [p] pushes and [q] assignments by the client, from the capacity [c0]: [k] arrays were allocated, [moved] entries were moved and [built] were constructed. *)
  Definition spent (c0 : nat) (t : comtree) (p q n : nat) : Prop :=
    let base := if c0 =? 0 then 16 else c0 * 2 in
    ct_last t <= p /\ exists k moved built, n = wa * (p + q + moved) + wc * built + wn * k /\
    ((k = 0 /\ ct_cap t = c0 /\ moved = 0 /\ built = 0) \/
     (exists k', k = S k' /\ 1 <= p /\ ct_cap t = base * 2 ^ k' /\ moved + base = ct_cap t + c0 /\ built + base = 2 * ct_cap t /\ ((c0 = 0 /\ k = 1) \/ ct_cap t <= 2 * p))).

  Lemma spent_grow c0 t p q n : spent c0 t p q n -> ct_last t = ct_cap t -> forall t1, ct_last t1 = S (ct_last t) -> ct_cap t1 = (if ct_cap t =? 0 then 16 else ct_cap t * 2) ->
    spent c0 t1 (S p) q (n + (wn + wc * ct_cap t1 + wa * ct_last t) + wa).
  Proof.
    unfold spent. cbv zeta. intros (Hl & k & moved & built & Hn & H) Ec t1 E1 E2. split; [lia|]. exists (S k), (moved + ct_last t), (built + ct_cap t1). split; [subst n; nia|]. right.
    destruct H as [(-> & Hc & -> & ->)|(k' & -> & Hp & Hc & Hm & Hb & Hd)].
    - exists 0. rewrite Hc in E2. rewrite E2, Ec, Hc. cbn [Nat.pow]. repeat split; try lia; destruct (Nat.eqb_spec c0 0); lia.
    - exists (S k'). assert (Hpos : 0 < ct_cap t). { rewrite Hc. pose proof (Nat.pow_nonzero 2 k' ltac:(lia)). destruct (Nat.eqb_spec c0 0); nia. }
      destruct (Nat.eqb_spec (ct_cap t) 0) as [h|h]; [lia|]. rewrite E2, Ec. rewrite Nat.pow_succ_r'. repeat split; try lia.
  Qed.
  Lemma spent_push c0 t p q n : spent c0 t p q n -> forall t1, ct_last t1 = S (ct_last t) -> ct_cap t1 = ct_cap t -> spent c0 t1 (S p) q (n + wa).
  Proof.
    unfold spent. cbv zeta. intros (Hl & k & moved & built & Hn & H) t1 E1 E2. split; [lia|]. exists k, moved, built. split; [subst n; nia|]. rewrite E2.
    destruct H as [H|(k' & H1 & H2 & H3 & H4 & H5 & H6)]; [left; exact H|right]. exists k'. repeat split; auto; try lia.
  Qed.
  Lemma spent_same c0 t p q n : spent c0 t p q n -> forall t1, ct_last t1 <= ct_last t -> ct_cap t1 = ct_cap t -> spent c0 t1 p q n.
  Proof. unfold spent. cbv zeta. intros (Hl & H) t1 E1 E2. split; [lia|]. rewrite E2. exact H. Qed.
  Lemma spent_set c0 t p q n : spent c0 t p q n -> forall t1, ct_last t1 <= ct_last t -> ct_cap t1 = ct_cap t -> spent c0 t1 p (S q) (n + wa).
  Proof.
    unfold spent. cbv zeta. intros (Hl & k & moved & built & Hn & H) t1 E1 E2. split; [lia|]. exists k, moved, built. split; [subst n; nia|]. rewrite E2. exact H.
  Qed.

  Lemma step_spent c0 t p q n o t' r : calm o = true -> spent c0 t p q n -> ct_step t o = Ok (t', r) ->
    exists d, step_w t o = Ok ((t', r), d) /\ spent c0 t' (p + pushes [o]) (q + sets [o]) (n + d).
  Proof.
    intros Hc Hs H. destruct o as [v| |i v|i| | |m|]; try discriminate Hc; unfold pushes, sets; cbn [filter length]; rewrite ?Nat.add_0_r; unfold ct_step in H; unfold Moved.step_w, ct_step.
    - apply bind_inv in H. destruct H as (t1 & H1 & H). injection H as <- <-. unfold ct_pushBack in H1. unfold pushBack_w. apply bind_inv in H1. destruct H1 as (t2 & H2 & H1).
      destruct (set_w_ok _ _ _ _ H1) as (E1 & E2 & E3). cbn [ct_last ct_cap] in E2, E3. destruct (Nat.eqb_spec (ct_last t) (ct_cap t)) as [e|e].
      + destruct (increase_ok _ _ H2) as (E4 & E5 & E6). rewrite E4. unfold cbind. cbn [bind]. rewrite E1. cbn [bind]. eexists. split; [reflexivity|].
        pose proof (spent_grow c0 t p q n Hs e t1 ltac:(lia) ltac:(congruence)) as G. rewrite !Nat.add_1_r. rewrite E3, E6 in G. match goal with |- spent _ _ _ _ ?a => match type of G with spent _ _ _ _ ?b => replace a with b by lia end end. exact G.
      + injection H2 as <-. unfold cbind. cbn [bind]. rewrite E1. cbn [bind]. eexists. split; [reflexivity|]. rewrite Nat.add_1_r. rewrite Nat.add_0_l, Nat.add_0_r. apply (spent_push c0 t p q n Hs); auto.
    - rewrite H. exists 0. split; [reflexivity|]. rewrite Nat.add_0_r. apply bind_inv in H. destruct H as (t1 & H1 & H). injection H as <- <-. unfold ct_popBack in H1.
      destruct (ct_last t) eqn:El; [discriminate|]. injection H1 as <-. eapply spent_same; eauto; cbn [ct_last ct_cap]; lia.
    - apply bind_inv in H. destruct H as (t1 & H1 & H). injection H as <- <-. destruct (set_w_ok _ _ _ _ H1) as (E1 & E2 & E3). rewrite E1. unfold cbind. cbn [bind]. eexists. split; [reflexivity|].
      rewrite Nat.add_1_r, Nat.add_0_r. apply (spent_set c0 t p q n Hs); auto; lia.
    - rewrite H. exists 0. split; [reflexivity|]. rewrite Nat.add_0_r. apply bind_inv in H. destruct H as (v & _ & H). injection H as <- <-. exact Hs.
    - injection H as <- <-. exists 0. split; [reflexivity|]. rewrite Nat.add_0_r. eapply spent_same; eauto; cbn [ct_clear ct_last ct_cap]; lia.
    - injection H as <- <-. exists 0. split; [reflexivity|]. rewrite Nat.add_0_r. exact Hs.
  Qed.
  Lemma pushes_cons o ops : pushes (o :: ops) = pushes [o] + pushes ops.
  Proof. unfold pushes. cbn [filter]. destruct o; reflexivity. Qed.
  Lemma sets_cons o ops : sets (o :: ops) = sets [o] + sets ops.
  Proof. unfold sets. cbn [filter]. destruct o; reflexivity. Qed.
  Lemma run_spent c0 ops : forall t p q n t' rs, forallb calm ops = true -> spent c0 t p q n -> run ct_step t ops = Ok (t', rs) ->
    exists d, run_w t ops = Ok ((t', rs), d) /\ spent c0 t' (p + pushes ops) (q + sets ops) (n + d).
  Proof.
    induction ops as [|o ops IH]; intros t p q n t' rs Hc Hs H; cbn [run Moved.run_w] in *.
    - injection H as <- <-. exists 0. split; [reflexivity|]. unfold pushes, sets. cbn. now rewrite !Nat.add_0_r.
    - apply andb_prop in Hc. destruct Hc as [Hc1 Hc2]. apply bind_inv in H. destruct H as ((t1 & r) & H1 & H). apply bind_inv in H. destruct H as ((t2 & rs2) & H2 & H). injection H as <- <-.
      destruct (step_spent c0 t p q n o t1 r Hc1 Hs H1) as (d1 & E1 & S1). destruct (IH _ _ _ _ _ _ Hc2 S1 H2) as (d2 & E2 & S2).
      rewrite E1. unfold cbind. cbn [bind]. rewrite E2. cbn [bind]. eexists. split; [reflexivity|]. rewrite pushes_cons, sets_cons.
      match goal with |- spent _ _ ?a ?b ?c => match type of S2 with spent _ _ ?a' ?b' ?c' => replace a with a' by lia; replace b with b' by lia; replace c with c' by lia end end. exact S2.
  Qed.
  Lemma spent_new c0 : spent c0 (ct_new c0) 0 0 0.
  Proof. unfold spent. cbv zeta. split; [cbn; lia|]. exists 0, 0, 0. split; [lia|]. left. auto. Qed.
  Lemma spent_bound c0 t p q n : spent c0 t p q n -> n <= wa * (q + 3 * p) + wc * (16 + 4 * p) + wn * S (Nat.log2 p).
  Proof.
    unfold spent. cbv zeta. intros (_ & k & moved & built & -> & H).
    enough (G : moved <= 2 * p /\ built <= 16 + 4 * p /\ k <= S (Nat.log2 p)) by (destruct G as (G1 & G2 & G3); repeat apply Nat.add_le_mono; apply Nat.mul_le_mono_l; lia).
    destruct H as [(-> & _ & -> & ->)|(k' & -> & Hp & Hc & Hm & Hb & Hd)]; [lia|].
    set (base := if c0 =? 0 then 16 else c0 * 2) in *. assert (Hbase : c0 <= base /\ 2 <= base) by (subst base; destruct (Nat.eqb_spec c0 0); lia).
    destruct Hd as [(-> & Hk)|Hd].
    - assert (k' = 0) as -> by lia. cbn [Nat.eqb] in base. subst base. cbn [Nat.pow] in Hc. lia.
    - split; [lia|]. split; [lia|]. apply le_n_S. assert (2 ^ k' <= p) by nia. apply Nat.log2_le_pow2; lia.
  Qed.
End Moved.
