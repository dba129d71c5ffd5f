From Coq Require Import List Arith Bool Lia.
From Verif.Base Require Import Res Arr Order.
From Verif.Spec Require Import PQ.
From Verif.Heap Require Import Model Proofs Counted.
Import ListNotations.

Lemma log2_half n : 2 <= n -> Nat.log2 n = S (Nat.log2 (n / 2)).
Proof.
  intros H. pose proof (Nat.div_mod n 2 ltac:(lia)) as Hd. pose proof (Nat.mod_upper_bound n 2 ltac:(lia)) as Hm.
  assert (0 < n / 2) by (apply Nat.div_str_pos; lia).
  destruct (n mod 2) as [|[|k]]; [| |lia].
  - rewrite Hd at 1. rewrite Nat.add_0_r. apply Nat.log2_double; lia.
  - rewrite Hd at 1. rewrite Nat.log2_succ_double; lia.
Qed.

Section Proofs.
  Context {E : Type}.
  Variable lt : E -> E -> bool.
  Variable eqv : E -> E -> bool.
  Variable supportDedup : bool.
  Variable dedup : E -> E -> E.
  Implicit Types t : heap E.

  (** * Forgetting the counter *)
  Definition forget {A B} (r : res (A * B)) : res A := let* (a, _) := r in Ok a.

  Lemma forget_bind {A B C D} (m : res (A * B)) (k : A -> res C) (kc : A * B -> res (C * D)) :
    (forall a b, forget (kc (a, b)) = k a) -> forget (bind m kc) = bind (forget m) k.
  Proof. intros H. destruct m as [[a b]| | |]; simpl; auto. Qed.
  Lemma forget_pure {A C D} (m : res A) (k : A -> res C) (kc : A -> res (C * D)) :
    (forall a, forget (kc a) = k a) -> forget (bind m kc) = bind m k.
  Proof. intros H. destruct m; simpl; auto. Qed.

  Lemma hole_loop_forget fuel : forall t hole fw n, forget (hole_loop_c E lt eqv fuel t hole fw n) = hole_loop E lt fuel t hole fw.
  Proof.
    induction fuel as [|f IH]; intros t hole fw n; simpl; destruct (hole <? fw); auto.
    apply forget_pure; intros a. apply forget_pure; intros b. simpl.
    apply forget_pure; intros v. apply forget_pure; intros t'. apply IH.
  Qed.
  Lemma moveHoleDown_forget t hole n : forget (moveHoleDown_c E lt eqv t hole n) = moveHoleDown E lt t hole.
  Proof.
    unfold moveHoleDown_c, moveHoleDown. rewrite <- (hole_loop_forget _ t hole _ n).
    apply forget_bind. intros [t1 hole1] n'.
    destruct ((hole1 =? (length t + 1) / 2) && Nat.even (length t1)); auto.
    apply forget_pure; intros v. apply forget_pure; intros t'. reflexivity.
  Qed.
  Lemma up_loop_forget fuel : forall t pos v n,
    forget (up_loop_c E lt eqv supportDedup fuel t pos v n) = up_loop E lt eqv supportDedup fuel t pos v.
  Proof.
    induction fuel as [|f IH]; intros t pos v n; simpl; destruct (pos =? 1); auto.
    apply forget_pure; intros u. simpl. destruct (lt u v).
    - apply forget_pure; intros t'. apply IH.
    - destruct (supportDedup && eqv u v); reflexivity.
  Qed.
  Lemma moveValueUp_forget fuel : forall t p v n,
    forget (moveValueUp_c E lt eqv supportDedup dedup fuel t p v n) = moveValueUp E lt eqv supportDedup dedup fuel t p v.
  Proof.
    induction fuel as [|f IH]; intros t p v n; auto. cbn [moveValueUp moveValueUp_c].
    rewrite <- (up_loop_forget _ t p v n). apply forget_bind. intros [[t1 pos] dup] n'. destruct dup.
    - apply forget_pure; intros u. apply forget_pure; intros t2. apply forget_pure; intros t3. apply forget_pure; intros v'.
      simpl. destruct (p =? length (removelast t3) + 1); auto.
    - destruct (tset t1 pos v); reflexivity.
  Qed.
  Lemma push_forget t x n : forget (heap_push_c E lt eqv supportDedup dedup t x n) = heap_push E lt eqv supportDedup dedup t x.
  Proof. apply moveValueUp_forget. Qed.
  Lemma push_range_forget xs : forall t n,
    forget (heap_push_range_c E lt eqv supportDedup dedup t xs n) = heap_push_range E lt eqv supportDedup dedup t xs.
  Proof.
    induction xs as [|x xs IH]; intros t n; auto. cbn [heap_push_range heap_push_range_c]. rewrite <- (push_forget t x n).
    apply forget_bind. intros t1 n'. apply IH.
  Qed.
  Lemma decreaseTop_forget t x n :
    forget (heap_decreaseTop_c E lt eqv supportDedup dedup t x n) = heap_decreaseTop E lt eqv supportDedup dedup t x.
  Proof.
    unfold heap_decreaseTop_c, heap_decreaseTop. rewrite <- (moveHoleDown_forget t 1 n).
    apply forget_bind. intros [t1 hole] n'. apply moveValueUp_forget.
  Qed.
  Lemma pop_forget t n : forget (heap_pop_c E lt eqv supportDedup dedup t n) = heap_pop E lt eqv supportDedup dedup t.
  Proof.
    unfold heap_pop_c, heap_pop. apply forget_pure; intros top. apply forget_pure; intros moved.
    destruct (removelast t) as [|y l]; auto. rewrite <- (moveHoleDown_forget (y :: l) 1 n).
    apply forget_bind. intros [t2 hole] n'. rewrite <- (moveValueUp_forget _ t2 hole moved n').
    apply forget_bind. reflexivity.
  Qed.

  Notation stepc := (heap_step_c E lt eqv supportDedup dedup).
  Notation step := (heap_step E lt eqv supportDedup dedup).

  (** The counter can be dropped from the state. *)
  Definition drop {A : Type} (r : res (heap E * nat * A)) : res (heap E * A) := let* (t, _, a) := r in Ok (t, a).

  Lemma step_forget t n o : drop (stepc (t, n) o) = step t o.
  Proof.
    destruct o; simpl; auto.
    - rewrite <- (push_forget t x n). destruct (heap_push_c _ _ _ _ _ t x n) as [[? ?]| | |]; reflexivity.
    - rewrite <- (push_range_forget xs t n). destruct (heap_push_range_c _ _ _ _ _ t xs n) as [[? ?]| | |]; reflexivity.
    - rewrite <- (pop_forget t n). destruct (heap_pop_c _ _ _ _ _ t n) as [[[? ?] ?]| | |]; reflexivity.
    - destruct (heap_top E t); reflexivity.
    - rewrite <- (decreaseTop_forget t x n). destruct (heap_decreaseTop_c _ _ _ _ _ t x n) as [[? ?]| | |]; reflexivity.
  Qed.

  Lemma run_forget ops : forall t n, drop (run stepc (t, n) ops) = run step t ops.
  Proof.
    induction ops as [|o ops IH]; intros t n; auto. cbn [run]. rewrite <- (step_forget t n o).
    destruct (stepc (t, n) o) as [[[t1 n1] r]| | |]; simpl; auto. rewrite <- (IH t1 n1).
    destruct (run stepc (t1, n1) ops) as [[[t2 n2] rs]| | |]; reflexivity.
  Qed.

  (** * Bounds *)
  Lemma tget_bound t p v : tget t p = Ok v -> 1 <= p <= length t.
  Proof. rewrite tget_tat. destruct (tat t p) eqn:Ht; [|discriminate]. intros _. eapply tat_bound; eauto. Qed.
  Lemma tset_length t p v t' : tset t p v = Ok t' -> length t' = length t.
  Proof.
    destruct p as [|p]; simpl; [discriminate|]. unfold vset. destruct (p <? length t) eqn:Hp; [|discriminate].
    apply Nat.ltb_lt in Hp. intros H; inversion H; subst. apply (upd_length t p v).
  Qed.

  Ltac ok H :=
    match type of H with
    | bind ?m _ = Ok _ => let e := fresh "Hm" in destruct m eqn:e; cbn [bind] in H; try discriminate H
    end.

  Lemma hole_loop_count fuel : forall t hole fw n t' hole' n', 1 <= hole ->
    hole_loop_c E lt eqv fuel t hole fw n = Ok (t', hole', n') ->
    length t' = length t /\ 1 <= hole' /\ n' + Nat.log2 hole = n + Nat.log2 hole' /\ (hole <= length t -> hole' <= length t).
  Proof.
    induction fuel as [|f IH]; intros t hole fw n t' hole' n' Hh H; simpl in H; destruct (hole <? fw) eqn:Hc; try discriminate H.
    - inversion H; subst. auto.
    - replace (hole + (hole + 0)) with (2 * hole) in H by lia.
      ok H. ok H. pose proof (tget_bound _ _ _ Hm0) as Hs. ok H. ok H.
      set (c := if lt a a0 then 2 * hole + 1 else 2 * hole) in *.
      assert (Hc2 : c / 2 = hole /\ 2 <= c <= length t).
      { subst c. destruct (lt a a0); (split; [|lia]).
        - rewrite Nat.add_comm, Nat.mul_comm, Nat.div_add by lia. reflexivity.
        - rewrite Nat.mul_comm. apply Nat.div_mul; lia. }
      apply IH in H; [|lia]. destruct H as (Hl & H1 & H2 & H3). rewrite (tset_length _ _ _ _ Hm2) in *.
      rewrite (log2_half c) in H2 by lia. destruct Hc2 as [Hc2 Hc3]. rewrite Hc2 in H2.
      split; [auto|split; [lia|split; [lia|]]]. intros _. apply H3. lia.
    - inversion H; subst. auto.
  Qed.

  Lemma moveHoleDown_count t hole n t' hole' n' : 1 <= hole <= length t ->
    moveHoleDown_c E lt eqv t hole n = Ok (t', hole', n') ->
    length t' = length t /\ 1 <= hole' <= length t /\ n' <= n + Nat.log2 (length t).
  Proof.
    intros Hh H. unfold moveHoleDown_c in H. ok H. destruct a as [[t1 hole1] n1].
    apply hole_loop_count in Hm; [|lia]. destruct Hm as (Hl & H1 & H2 & H3).
    specialize (H3 ltac:(lia)). pose proof (Nat.log2_le_mono hole1 (length t) ltac:(lia)) as Hlog.
    destruct (_ && _).
    - ok H. ok H. inversion H; subst. rewrite (tset_length _ _ _ _ Hm0). pose proof (tget_bound _ _ _ Hm). lia.
    - inversion H; subst. lia.
  Qed.

  Lemma up_loop_count fuel : forall t pos v n t' pos' d n', 1 <= pos ->
    up_loop_c E lt eqv supportDedup fuel t pos v n = Ok (t', pos', d, n') ->
    length t' = length t /\ n' <= n + Nat.log2 pos.
  Proof.
    induction fuel as [|f IH]; intros t pos v n t' pos' d n' Hp H; cbn [up_loop_c] in H; destruct (pos =? 1) eqn:Hc; try discriminate H.
    - inversion H; subst. lia.
    - inversion H; subst. lia.
    - apply Nat.eqb_neq in Hc. rewrite (log2_half pos) by lia. ok H. cbn [cmp] in H. destruct (lt a v).
      + ok H. apply IH in H; [|apply Nat.div_str_pos; lia]. rewrite (tset_length _ _ _ _ Hm0) in H. lia.
      + destruct (supportDedup && eqv a v); inversion H; subst; lia.
  Qed.

  Lemma back_loop_length fuel : forall t p pos tmp t', back_loop E fuel t p pos tmp = Ok t' -> length t' = length t.
  Proof.
    induction fuel as [|f IH]; intros t p pos tmp t' H; simpl in H; destruct (p =? pos); try discriminate H; try congruence.
    ok H. ok H. apply IH in H. rewrite H. eapply tset_length; eauto.
  Qed.

  Lemma removelast_len {A} (l : list A) : length (removelast l) = length l - 1.
  Proof. induction l as [|a [|b l] IH]; auto. change (S (length (removelast (b :: l))) = S (S (length l)) - 1). rewrite IH. simpl. lia. Qed.

  Lemma moveValueUp_count fuel : forall t p v n t' n', 1 <= p <= length t ->
    moveValueUp_c E lt eqv supportDedup dedup fuel t p v n = Ok (t', n') ->
    length t' <= length t /\ (supportDedup = false -> length t' = length t) /\
    n' <= n + (length t - length t') * Nat.log2 p + (if p <=? length t' then Nat.log2 p else 0).
  Proof.
    induction fuel as [|f IH]; intros t p v n t' n' Hp H; [discriminate|]. cbn [moveValueUp_c] in H.
    ok H. destruct a as [[[t1 pos] dup] n1]. pose proof (up_loop_count _ _ _ _ _ _ _ _ _ (proj1 Hp) Hm) as [Hl Hn].
    destruct dup.
    - assert (Hsd : supportDedup = true).
      { destruct supportDedup eqn:Hsd; auto. clear - Hm Hsd.
        assert (Hf : forall fuel t pos n t' pos' n', up_loop_c E lt eqv false fuel t pos v n = Ok (t', pos', true, n') -> False).
        { clear. induction fuel as [|f IH]; intros t pos n t' pos' n' H; simpl in H; destruct (pos =? 1); try discriminate H.
          ok H. destruct (lt a v); [|discriminate H]. ok H. eapply IH; eauto. }
        exfalso. eapply Hf; eauto. }
      ok H. ok H. destruct (if pos =? p then Ok a0 else _) as [t3| | |] eqn:Ht3 in H; cbn [bind] in H; try discriminate H.
      assert (Hl3 : length t3 = length t).
      { apply tset_length in Hm1. destruct (pos =? p); [inversion Ht3; subst; lia|]. ok Ht3. apply back_loop_length in Ht3. lia. }
      ok H. pose proof (removelast_len t3) as Hr. destruct (p =? length (removelast t3) + 1) eqn:Hlast.
      + inversion H; subst. split; [lia|split; [intros; congruence|]].
        replace (length t - length (removelast t3)) with 1 by lia. lia.
      + apply Nat.eqb_neq in Hlast. apply IH in H; [|lia]. destruct H as (H1 & H2 & H3).
        split; [lia|split; [intros; congruence|]].
        replace (length t - length t') with (S (length (removelast t3) - length t')) by lia. simpl. lia.
    - ok H. inversion H; subst. rewrite (tset_length _ _ _ _ Hm0). split; [lia|split; [lia|]].
      destruct (p <=? length t1) eqn:Hc; [|apply Nat.leb_gt in Hc; lia]. lia.
  Qed.

  (** What a call costs: [one] for each entry pushed, [two] for each other change, and [per] for each de-duplication. *)
  Lemma push_count t x n t' n' : heap_push_c E lt eqv supportDedup dedup t x n = Ok (t', n') ->
    length t' <= length t + 1 /\ (supportDedup = false -> length t' = length t + 1) /\ n' <= n + Nat.log2 (length t + 1).
  Proof.
    unfold heap_push_c. intros H. assert (Hl : length (t ++ [x]) = length t + 1) by (rewrite app_length; simpl; lia).
    rewrite Hl in H. 
    replace (length t + 1 + 1) with (S (length t + 1)) in H by lia. cbn [moveValueUp_c] in H.
    ok H. destruct a as [[[t1 pos] dup] n1].
    pose proof (up_loop_count _ _ _ _ _ _ _ _ _ (ltac:(lia) : 1 <= length t + 1) Hm) as [Hl1 Hn].
    destruct dup.
    - assert (Hsd : supportDedup = true).
      { destruct supportDedup eqn:Hsd; auto. clear - Hm Hsd.
        assert (Hf : forall fuel t pos n t' pos' n', up_loop_c E lt eqv false fuel t pos x n = Ok (t', pos', true, n') -> False).
        { clear. induction fuel as [|f IH]; intros t pos n t' pos' n' H; simpl in H; destruct (pos =? 1); try discriminate H.
          ok H. destruct (lt a x); [|discriminate H]. ok H. eapply IH; eauto. }
        exfalso. eapply Hf; eauto. }
      ok H. ok H. destruct (if pos =? length t + 1 then Ok a0 else _) as [t3| | |] eqn:Ht3 in H; cbn [bind] in H; try discriminate H.
      assert (Hl3 : length t3 = length t + 1).
      { apply tset_length in Hm1. destruct (pos =? length t + 1); [inversion Ht3; subst; lia|]. ok Ht3. apply back_loop_length in Ht3. lia. }
      ok H. pose proof (removelast_len t3) as Hr.
      replace (length t + 1 =? length (removelast t3) + 1) with true in H by (symmetry; apply Nat.eqb_eq; lia).
      inversion H; subst. split; [lia|split; [congruence|lia]].
    - ok H. inversion H; subst. rewrite (tset_length _ _ _ _ Hm0). split; [lia|split; lia].
  Qed.

  Lemma decreaseTop_count t x n t' n' : t <> [] -> heap_decreaseTop_c E lt eqv supportDedup dedup t x n = Ok (t', n') ->
    length t' <= length t /\ (supportDedup = false -> length t' = length t) /\
    n' <= n + (2 + (length t - length t')) * Nat.log2 (length t).
  Proof.
    unfold heap_decreaseTop_c. intros Hne H. assert (1 <= length t) by (destruct t; [congruence|simpl; lia]).
    ok H. destruct a as [[t1 hole] n1].
    apply moveHoleDown_count in Hm; [|lia]. destruct Hm as (Hl & Hh & Hn).
    apply moveValueUp_count in H; [|lia]. destruct H as (H1 & H2 & H3). rewrite Hl in *.
    split; [lia|split; [auto|]].
    pose proof (Nat.log2_le_mono hole (length t) ltac:(lia)) as Hlog.
    assert ((length t - length t') * Nat.log2 hole <= (length t - length t') * Nat.log2 (length t)) by (apply Nat.mul_le_mono_l; lia).
    destruct (hole <=? length t'); simpl; lia.
  Qed.

  Lemma pop_count t n t' x n' : heap_pop_c E lt eqv supportDedup dedup t n = Ok (t', x, n') ->
    length t' + 1 <= length t /\ (supportDedup = false -> length t' + 1 = length t) /\
    n' <= n + (2 + (length t - 1 - length t')) * Nat.log2 (length t - 1).
  Proof.
    unfold heap_pop_c. intros H. ok H. ok H. pose proof (tget_bound _ _ _ Hm) as Hb.
    pose proof (removelast_len t) as Hrl. destruct (removelast t) as [|y l] eqn:Hr.
    - simpl in Hrl. inversion H; subst. simpl. split; [lia|split; [lia|]]. lia.
    - rewrite <- Hr in H. ok H. destruct a1 as [[t2 hole] n1]. ok H. destruct a1 as [t3 n2]. inversion H; subst.
      apply moveHoleDown_count in Hm1; [|rewrite Hr; simpl; lia]. destruct Hm1 as (Hl & Hh & Hn). rewrite Hr in *. rewrite Hrl in *.
      apply moveValueUp_count in Hm2; [|lia]. destruct Hm2 as (H1 & H2 & H3).
      split; [lia|split; [intros Hd; specialize (H2 Hd); lia|]].
      pose proof (Nat.log2_le_mono hole (length t - 1) ltac:(lia)) as Hlog.
      assert ((length t - 1 - length t') * Nat.log2 hole <= (length t - 1 - length t') * Nat.log2 (length t - 1)) by (apply Nat.mul_le_mono_l; lia).
      rewrite Hl in *. destruct (hole <=? length t'); simpl; lia.
  Qed.

  Lemma push_range_count xs : forall t n t' n', heap_push_range_c E lt eqv supportDedup dedup t xs n = Ok (t', n') ->
    length t' <= length t + length xs /\ (supportDedup = false -> length t' = length t + length xs) /\
    n' <= n + length xs * Nat.log2 (length t + length xs).
  Proof.
    induction xs as [|x xs IH]; intros t n t' n' H; cbn [heap_push_range_c] in H.
    - inversion H; subst. simpl. lia.
    - ok H. destruct a as [t1 n1]. apply push_count in Hm. destruct Hm as (H1 & H2 & H3).
      apply IH in H. destruct H as (H4 & H5 & H6). simpl length.
      split; [lia|split; [intros Hd; specialize (H2 Hd); specialize (H5 Hd); lia|]].
      pose proof (Nat.log2_le_mono (length t + 1) (length t + S (length xs)) ltac:(lia)).
      pose proof (Nat.log2_le_mono (length t1 + length xs) (length t + S (length xs)) ltac:(lia)) as Hlog.
      assert (length xs * Nat.log2 (length t1 + length xs) <= length xs * Nat.log2 (length t + S (length xs)))
        by (apply Nat.mul_le_mono_l; lia).
      simpl. lia.
  Qed.

  (** * Histories *)

  Lemma history_count L ops : forall t n t' n' rs, run stepc (t, n) ops = Ok (t', n', rs) ->
    Nat.log2 (length t + length (pushed ops)) <= L ->
    (supportDedup = false -> n' <= n + (length (pushed ops) + 2 * removals ops) * L) /\
    n' + length t' * L <= n + length t * L + (2 * length (pushed ops) + 2 * removals ops) * L.
  Proof.
    induction ops as [|o ops IH]; intros t n t' n' rs H HL; cbn [run] in H.
    - inversion H; subst. simpl. lia.
    - ok H. destruct a as [[t1 n1] r]. ok H. destruct a as [[t2 n2] rs2]. inversion H; subst.
      pose proof (IH t1 n1 t' n' rs2 Hm0) as HI. clear IH H.
      assert (Hmono : forall k, k <= length t + length (pushed (o :: ops)) -> Nat.log2 k <= L).
      { intros k Hk. etransitivity; [|exact HL]. now apply Nat.log2_le_mono. }
      assert (Hnn : forall (d : nat), length t1 <= length t + d -> length t + d + length (pushed ops) <= length t + length (pushed (o :: ops)) ->
                Nat.log2 (length t1 + length (pushed ops)) <= L) by (intros; apply Hmono; lia).
      destruct o; simpl in Hm.
      + ok Hm. destruct a as [t3 n3]. inversion Hm; subst. apply push_count in Hm1. destruct Hm1 as (H1 & H2 & H3).
        destruct HI as [HA HB]; [apply (Hnn 1); simpl; lia|]. pose proof (Hmono (length t + 1) ltac:(simpl; lia)).
        assert (length t1 * L <= length t * L + 1 * L) by (rewrite <- Nat.mul_add_distr_r; apply Nat.mul_le_mono_r; lia).
        unfold removals in *. cbn [filter takes_top length pushed] in *.
        split; intros; [specialize (HA ltac:(auto))|]; lia.
      + ok Hm. destruct a as [t3 n3]. inversion Hm; subst. apply push_range_count in Hm1. destruct Hm1 as (H1 & H2 & H3).
        cbn [pushed] in *. rewrite app_length in *.
        destruct HI as [HA HB]; [apply (Hnn (length xs)); lia|]. pose proof (Hmono (length t + length xs) ltac:(lia)) as Hk.
        unfold removals in *. cbn [filter takes_top] in *.
        assert (length xs * Nat.log2 (length t + length xs) <= length xs * L) by (apply Nat.mul_le_mono_l; lia).
        assert (length t1 * L <= length t * L + length xs * L) by (rewrite <- Nat.mul_add_distr_r; apply Nat.mul_le_mono_r; lia).
        split; intros; [specialize (HA ltac:(auto))|]; lia.
      + ok Hm. destruct a as [[t3 x3] n3]. inversion Hm; subst. apply pop_count in Hm1. destruct Hm1 as (H1 & H2 & H3).
        destruct HI as [HA HB]; [apply (Hnn 0); simpl; lia|]. pose proof (Hmono (length t - 1) ltac:(simpl; lia)) as Hk.
        unfold removals in *. cbn [filter takes_top length pushed] in *.
        set (q := length (filter takes_top ops)) in *. set (p := length (pushed ops)) in *.
        assert ((2 + (length t - 1 - length t1)) * Nat.log2 (length t - 1) <= (2 + (length t - 1 - length t1)) * L) by (apply Nat.mul_le_mono_l; lia).
        remember (length t - 1 - length t1) as d eqn:Hd. assert (Hlt : length t = length t1 + d + 1) by lia. rewrite Hlt in *.
        split; [intros Hsd; specialize (HA Hsd); specialize (H2 Hsd); assert (d = 0) by lia; subst d; nia|nia].
      + ok Hm. inversion Hm; subst. destruct HI as [HA HB]; [apply (Hnn 0); simpl; lia|].
        unfold removals in *. cbn [filter takes_top length pushed] in *. split; auto.
      + ok Hm. destruct a as [t3 n3]. inversion Hm; subst.
        assert (Hne : t <> []).
        { intros ->. unfold heap_decreaseTop_c in Hm1. ok Hm1. destruct a as [[t3 hole] n3]. unfold moveHoleDown_c in Hm2.
          simpl in Hm2. inversion Hm2; subst. simpl in Hm1. discriminate. }
        apply decreaseTop_count in Hm1; auto. destruct Hm1 as (H1 & H2 & H3).
        destruct HI as [HA HB]; [apply (Hnn 0); simpl; lia|]. pose proof (Hmono (length t) ltac:(simpl; lia)) as Hk.
        unfold removals in *. cbn [filter takes_top length pushed] in *.
        set (q := length (filter takes_top ops)) in *. set (p := length (pushed ops)) in *.
        assert ((2 + (length t - length t1)) * Nat.log2 (length t) <= (2 + (length t - length t1)) * L) by (apply Nat.mul_le_mono_l; lia).
        remember (length t - length t1) as d eqn:Hd. assert (Hlt : length t = length t1 + d) by lia. rewrite Hlt in *.
        split; [intros Hsd; specialize (HA Hsd); specialize (H2 Hsd); assert (d = 0) by lia; subst d; nia|nia].
      + inversion Hm; subst. destruct HI as [HA HB]; [apply (Hnn 0); simpl; lia|].
        unfold removals in *. cbn [filter takes_top length pushed heap_clear] in *. split; [auto|lia].
      + inversion Hm; subst. destruct HI as [HA HB]; [apply (Hnn 0); simpl; lia|].
        unfold removals in *. cbn [filter takes_top length pushed] in *. split; auto.
      + inversion Hm; subst. destruct HI as [HA HB]; [apply (Hnn 0); simpl; lia|].
        unfold removals in *. cbn [filter takes_top length pushed] in *. split; auto.
      + inversion Hm; subst. destruct HI as [HA HB]; [apply (Hnn 0); simpl; lia|].
        unfold removals in *. cbn [filter takes_top length pushed] in *. split; auto.
  Qed.
End Proofs.
