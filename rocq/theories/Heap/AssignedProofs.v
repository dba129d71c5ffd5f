(** The assignments in Heap against its comparisons; used by AssignedProperties.v. *)
From Coq Require Import List Arith Bool Lia.
From Verif.Base Require Import Res Arr Count FaultFacts.
From Verif.Spec Require Import PQ.
From Verif.Heap Require Import Model Counted Assigned.
Import ListNotations.

Section Assigned.
  Context {E : Type} (lt eqv : E -> E -> bool) (supportDedup : bool) (dedup : E -> E -> E).
  Notation f := (if supportDedup then 2 else 1).

  Lemma tset_a_ok (t t' : heap E) i v : tset t i v = Ok t' -> tset_a E t i v = Ok (t', 1).
  Proof. intros H. unfold tset_a. now rewrite H. Qed.

  Lemma hole_loop_assigns fw : forall fuel t hole n t' h' n', hole_loop_c E lt eqv fuel t hole fw n = Ok (t', h', n') ->
    n <= n' /\ hole_loop_a E lt fuel t hole fw = Ok ((t', h'), n' - n).
  Proof.
    induction fuel as [|fuel IH]; intros t hole n t' h' n' H; cbn [hole_loop_c hole_loop_a] in *; destruct (Nat.ltb hole fw); try discriminate.
    1, 3: injection H as <- <- <-; split; [lia|]; now rewrite Nat.sub_diag.
    cbv zeta in *. apply bind_inv in H. destruct H as (a & Ha & H). apply bind_inv in H. destruct H as (b & Hb & H). unfold cmp in H. apply bind_inv in H. destruct H as (v & Hv & H). apply bind_inv in H. destruct H as (t1 & H1 & H).
    destruct (IH _ _ _ _ _ _ H) as (L & G). split; [lia|]. rewrite Ha, Hb. unfold free, cbind at 1. cbn [bind]. unfold cbind at 1. cbn [bind]. rewrite Hv. cbn [bind]. unfold cbind at 1. cbn [bind].
    rewrite (tset_a_ok _ _ _ _ H1). unfold cbind. cbn [bind]. rewrite G. cbn [bind]. do 2 f_equal. lia.
  Qed.
  Lemma hole_assigns t hole n t' h' n' : moveHoleDown_c E lt eqv t hole n = Ok (t', h', n') ->
    n <= n' /\ exists a, moveHoleDown_a E lt t hole = Ok ((t', h'), a) /\ a <= n' - n + 1.
  Proof.
    unfold moveHoleDown_c, moveHoleDown_a. cbv zeta. intros H. apply bind_inv in H. destruct H as (((t1 & h1) & n1) & H1 & H). destruct (hole_loop_assigns _ _ _ _ _ _ _ _ H1) as (L & G). rewrite G. unfold cbind at 1. cbn [bind].
    destruct (_ && _).
    - apply bind_inv in H. destruct H as (v & Hv & H). apply bind_inv in H. destruct H as (t2 & H2 & H). injection H as <- <- <-. split; [exact L|]. rewrite Hv. unfold free, cbind at 1. cbn [bind]. rewrite (tset_a_ok _ _ _ _ H2). unfold cbind. cbn [bind].
      eexists. split; [reflexivity|lia].
    - injection H as <- <- <-. split; [exact L|]. cbn [bind]. eexists. split; [reflexivity|lia].
  Qed.

  Lemma up_loop_assigns : forall fuel t pos value n t' pos' dup n', up_loop_c E lt eqv supportDedup fuel t pos value n = Ok (t', pos', dup, n') ->
    exists a, up_loop_a E lt eqv supportDedup fuel t pos value = Ok ((t', pos', dup), a) /\ n + a + (if dup then 1 else 0) <= n' /\ pos' = pos / 2 ^ a /\ (dup = true -> supportDedup = true).
  Proof.
    induction fuel as [|fuel IH]; intros t pos value n t' pos' dup n' H; cbn [up_loop_c up_loop_a] in *; destruct (Nat.eqb pos 1); try discriminate.
    1, 2: injection H as <- <- <- <-; exists 0; repeat split; try lia; try discriminate; cbn [Nat.pow]; now rewrite Nat.div_1_r.
    cbv zeta in *. apply bind_inv in H. destruct H as (u & Hu & H). unfold cmp in H. rewrite Hu. unfold free, cbind at 1. cbn [bind]. destruct (lt u value).
    - apply bind_inv in H. destruct H as (t1 & H1 & H). destruct (IH _ _ _ _ _ _ _ _ H) as (a & G & L & Hp & Hd). rewrite (tset_a_ok _ _ _ _ H1). unfold cbind. cbn [bind]. rewrite G. cbn [bind]. exists (S a). split; [reflexivity|].
      split; [lia|]. split; [|exact Hd]. rewrite Hp, Nat.div_div, Nat.pow_succ_r' by (try apply Nat.pow_nonzero; lia). reflexivity.
    - destruct supportDedup; cbn [andb] in *; [destruct (eqv u value)|]; injection H as <- <- <- <-; cbn [bind]; exists 0; repeat split; try lia; try discriminate; cbn [Nat.pow]; now rewrite Nat.div_1_r.
  Qed.
  Lemma back_loop_assigns : forall fuel t p pos tmp t' k, back_loop E fuel t p pos tmp = Ok t' -> pos = p / 2 ^ k ->
    exists a, back_loop_a E fuel t p pos tmp = Ok (t', a) /\ a <= k.
  Proof.
    induction fuel as [|fuel IH]; intros t p pos tmp t' k H Hk; cbn [back_loop back_loop_a] in *; destruct (Nat.eqb_spec p pos) as [e|e]; try discriminate.
    1, 2: injection H as <-; exists 0; split; [reflexivity|lia].
    apply bind_inv in H. destruct H as (q & Hq & H). apply bind_inv in H. destruct H as (t1 & H1 & H). destruct k as [|k]; [cbn [Nat.pow] in Hk; rewrite Nat.div_1_r in Hk; congruence|].
    destruct (IH _ _ _ _ _ k H) as (a & G & L). { rewrite Hk, Nat.div_div, Nat.pow_succ_r' by (try apply Nat.pow_nonzero; lia). reflexivity. }
    rewrite Hq. unfold free, cbind at 1. cbn [bind]. rewrite (tset_a_ok _ _ _ _ H1). unfold cbind. cbn [bind]. rewrite G. cbn [bind]. exists (S a). split; [reflexivity|lia].
  Qed.
  Lemma moveValueUp_assigns : forall fuel t orig value n t' n', moveValueUp_c E lt eqv supportDedup dedup fuel t orig value n = Ok (t', n') ->
    n <= n' /\ exists a, moveValueUp_a E lt eqv supportDedup dedup fuel t orig value = Ok (t', a) /\ a <= f * (n' - n) + 1.
  Proof.
    induction fuel as [|fuel IH]; intros t orig value n t' n' H; cbn [moveValueUp_c moveValueUp_a] in *; [discriminate|].
    apply bind_inv in H. destruct H as ((((t1 & pos) & dup) & n1) & H1 & H). destruct (up_loop_assigns _ _ _ _ _ _ _ _ _ H1) as (a1 & G1 & L1 & P1 & D1). rewrite G1. unfold cbind at 1. cbn [bind]. destruct dup.
    - rewrite (D1 eq_refl) in *. cbv zeta in *. apply bind_inv in H. destruct H as (u & Hu & H). apply bind_inv in H. destruct H as (t2 & H2 & H). apply bind_inv in H. destruct H as (t3 & H3 & H). apply bind_inv in H. destruct H as (v' & Hv & H).
      rewrite Hu. unfold free at 1, cbind at 1. cbn [bind]. rewrite (tset_a_ok _ _ _ _ H2). unfold cbind at 1. cbn [bind].
      assert (G3 : exists a3, (if Nat.eqb pos orig then Ok (t2, 0) else let@ tmp := free (tget t2 orig) in back_loop_a E orig t2 (orig / 2) pos tmp) = Ok (t3, a3) /\ a3 <= a1).
      { destruct (Nat.eqb_spec pos orig) as [e|e]; [injection H3 as <-; exists 0; split; [reflexivity|lia]|]. apply bind_inv in H3. destruct H3 as (tmp & Ht & H3). rewrite Ht. unfold free, cbind. cbn [bind].
        destruct a1 as [|a1]; [cbn [Nat.pow] in P1; rewrite Nat.div_1_r in P1; congruence|].
        destruct (back_loop_assigns _ _ _ _ _ _ a1 H3) as (a & G & L). { rewrite P1, Nat.div_div, Nat.pow_succ_r' by (try apply Nat.pow_nonzero; lia). reflexivity. }
        rewrite G. cbn [bind]. exists (0 + a). split; [reflexivity|lia]. }
      destruct G3 as (a3 & G3 & L3). match goal with |- context [cbind ?m (fun t3 => cbind (free (tget t3 _)) _)] => replace m with (Ok (t3, a3) : counted (heap E)) by (symmetry; exact G3) end.
      unfold cbind at 1. cbn [bind]. rewrite Hv. unfold free, cbind. cbn [bind]. destruct (Nat.eqb orig (length (removelast t3) + 1)).
      + injection H as <- <-. split; [lia|]. cbn [bind]. eexists. split; [reflexivity|lia].
      + destruct (IH _ _ _ _ _ _ H) as (L & a & G & La). rewrite G. cbn [bind]. split; [lia|]. eexists. split; [reflexivity|lia].
    - apply bind_inv in H. destruct H as (t2 & H2 & H). injection H as <- <-. rewrite (tset_a_ok _ _ _ _ H2). cbn [bind]. split; [lia|]. eexists. split; [reflexivity|]. destruct supportDedup; lia.
  Qed.

  Lemma push_assigns t x n t' n' : heap_push_c E lt eqv supportDedup dedup t x n = Ok (t', n') ->
    n <= n' /\ exists a, heap_push_a E lt eqv supportDedup dedup t x = Ok (t', a) /\ a <= f * (n' - n) + 2.
  Proof.
    unfold heap_push_c, heap_push_a. cbv zeta. intros H. destruct (moveValueUp_assigns _ _ _ _ _ _ _ H) as (L & a & G & La). split; [exact L|]. unfold cbind. cbn [bind]. rewrite G. cbn [bind]. eexists. split; [reflexivity|lia].
  Qed.
  Lemma push_range_assigns xs : forall t n t' n', heap_push_range_c E lt eqv supportDedup dedup t xs n = Ok (t', n') ->
    n <= n' /\ exists a, heap_push_range_a E lt eqv supportDedup dedup t xs = Ok (t', a) /\ a <= f * (n' - n) + 2 * length xs.
  Proof.
    induction xs as [|x xs IH]; intros t n t' n' H; cbn [heap_push_range_c heap_push_range_a] in *.
    - injection H as <- <-. split; [lia|]. exists 0. split; [reflexivity|lia].
    - apply bind_inv in H. destruct H as ((t1 & n1) & H1 & H). destruct (push_assigns _ _ _ _ _ H1) as (L1 & a1 & G1 & B1). destruct (IH _ _ _ _ H) as (L2 & a2 & G2 & B2). split; [lia|].
      rewrite G1. unfold cbind. cbn [bind]. rewrite G2. cbn [bind]. eexists. split; [reflexivity|]. cbn [length]. destruct supportDedup; lia.
  Qed.
  (** How many entries a call pushes or takes from the top *)
  Definition moves (o : op E) : nat := match o with Push _ => 1 | PushRange xs => length xs | Pop | DecreaseTop _ => 1 | _ => 0 end.
  Lemma step_assigns t n o t' n' r : heap_step_c E lt eqv supportDedup dedup (t, n) o = Ok (t', n', r) ->
    n <= n' /\ exists a, heap_step_a E lt eqv supportDedup dedup t o = Ok ((t', r), a) /\ a <= f * (n' - n) + 2 * moves o.
  Proof.
    intros H. destruct o as [x|xs| | |x| | | |]; cbn [heap_step_c moves] in *; unfold heap_step_a.
    - apply bind_inv in H. destruct H as ((t1 & n1) & H1 & H). injection H as <- <- <-. destruct (push_assigns _ _ _ _ _ H1) as (L & a & G & B). split; [exact L|]. rewrite G. unfold cbind. cbn [bind]. eexists. split; [reflexivity|lia].
    - apply bind_inv in H. destruct H as ((t1 & n1) & H1 & H). injection H as <- <- <-. destruct (push_range_assigns _ _ _ _ _ H1) as (L & a & G & B). split; [exact L|]. rewrite G. unfold cbind. cbn [bind]. eexists. split; [reflexivity|lia].
    - apply bind_inv in H. destruct H as (((t1 & x) & n1) & H1 & H). injection H as <- <- <-. unfold heap_pop_c in H1. unfold heap_pop_a. apply bind_inv in H1. destruct H1 as (top & Ht & H1). apply bind_inv in H1. destruct H1 as (mv & Hm & H1).
      rewrite Ht, Hm. unfold free. cbn [bind]. unfold cbind at 1 2 3. cbn [bind]. cbv zeta in *. destruct (removelast t) as [|e es] eqn:Er.
      + injection H1 as <- <- <-. split; [lia|]. cbn [bind]. eexists. split; [reflexivity|lia].
      + apply bind_inv in H1. destruct H1 as (((t2 & h) & n2) & H2 & H1). apply bind_inv in H1. destruct H1 as ((t3 & n3) & H3 & H1). injection H1 as <- <- <-.
        destruct (hole_assigns _ _ _ _ _ _ H2) as (L2 & a2 & G2 & B2). destruct (moveValueUp_assigns _ _ _ _ _ _ _ H3) as (L3 & a3 & G3 & B3). split; [lia|].
        rewrite G2. unfold cbind. cbn [bind]. rewrite G3. cbn [bind]. eexists. split; [reflexivity|]. destruct supportDedup; lia.
    - apply bind_inv in H. destruct H as (x & Hx & H). injection H as <- <- <-. split; [lia|]. cbn [heap_step]. rewrite Hx. cbn [bind free]. exists 0. split; [reflexivity|lia].
    - apply bind_inv in H. destruct H as ((t1 & n1) & H1 & H). injection H as <- <- <-. unfold heap_decreaseTop_c in H1. unfold heap_decreaseTop_a. apply bind_inv in H1. destruct H1 as (((t2 & h) & n2) & H2 & H3).
      destruct (hole_assigns _ _ _ _ _ _ H2) as (L2 & a2 & G2 & B2). destruct (moveValueUp_assigns _ _ _ _ _ _ _ H3) as (L3 & a3 & G3 & B3). split; [lia|].
      rewrite G2. unfold cbind. cbn [bind]. rewrite G3. cbn [bind]. eexists. split; [reflexivity|]. destruct supportDedup; lia.
    - injection H as <- <- <-. split; [lia|]. exists 0. split; [reflexivity|lia].
    - injection H as <- <- <-. split; [lia|]. exists 0. split; [reflexivity|lia].
    - injection H as <- <- <-. split; [lia|]. exists 0. split; [reflexivity|lia].
    - injection H as <- <- <-. split; [lia|]. exists 0. split; [reflexivity|lia].
  Qed.
  Lemma run_assigns ops : forall t n t' n' rs, run (heap_step_c E lt eqv supportDedup dedup) (t, n) ops = Ok ((t', n'), rs) ->
    n <= n' /\ exists a, heap_run_a E lt eqv supportDedup dedup t ops = Ok ((t', rs), a) /\ a <= f * (n' - n) + 2 * list_sum (map moves ops).
  Proof.
    induction ops as [|o ops IH]; intros t n t' n' rs H; cbn [run heap_run_a] in *.
    - injection H as <- <- <-. split; [lia|]. exists 0. split; [reflexivity|lia].
    - apply bind_inv in H. destruct H as (((t1 & n1) & r) & H1 & H). apply bind_inv in H. destruct H as (((t2 & n2) & rs2) & H2 & H). injection H as <- <- <-.
      destruct (step_assigns _ _ _ _ _ _ H1) as (L1 & a1 & G1 & B1). destruct (IH _ _ _ _ _ H2) as (L2 & a2 & G2 & B2). split; [lia|]. rewrite G1. unfold cbind. cbn [bind]. rewrite G2. cbn [bind].
      eexists. split; [reflexivity|]. cbn [map list_sum fold_right]. change (fold_right Nat.add 0 (map moves ops)) with (list_sum (map moves ops)). destruct supportDedup; lia.
  Qed.
End Assigned.
