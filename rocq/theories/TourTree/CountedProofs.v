From Coq Require Import List Arith Bool Lia Permutation.
From Verif.Base Require Import Res Arr Order.
From Verif.Spec Require Import PQ.
From Verif.Heap Require Import Model Proofs CountedProofs.
From Verif.TourTree Require Import Model Proofs Counted.
Import ListNotations.

Section Proofs.
  Context {E : Type}.
  Variable lt : E -> E -> bool.
  Hypothesis Hsw : strict_weak lt.
  Implicit Types s : tourtree E.

  (** * Forgetting the counter *)
  Lemma push_loop_forget fuel : forall tree ps pos n, forget (push_loop_c E lt fuel tree ps pos n) = push_loop E lt fuel tree ps pos.
  Proof.
    induction fuel as [|f IH]; intros tree ps pos n; auto. cbn [push_loop push_loop_c].
    apply forget_pure; intros a. apply forget_pure; intros b. apply forget_pure; intros pa. apply forget_pure; intros pb. cbn [cmp_t].
    destruct (lt (entry pa) (entry pb)); auto. apply forget_pure; intros tree'. destruct (pos / 2 =? 1); auto.
  Qed.
  Lemma tt_push_forget s x n : forget (tt_push_c E lt s x n) = tt_push E lt s x.
  Proof.
    unfold tt_push_c, tt_push. set (s1 := if 2 <=? _ then _ else _). destruct (tt_empty E s1).
    - apply forget_pure; intros s2. destruct (tree_push E s2 _); reflexivity.
    - apply forget_pure; intros a. apply forget_pure; intros s2. apply forget_pure; intros ps. apply forget_pure; intros s3.
      apply forget_pure; intros s4. rewrite <- (push_loop_forget _ (tt_tree s4) (tt_players s4) _ n).
      apply forget_bind. reflexivity.
  Qed.
  Lemma tt_push_range_forget xs : forall s n, forget (tt_push_range_c E lt s xs n) = tt_push_range E lt s xs.
  Proof.
    induction xs as [|x xs IH]; intros s n; auto. cbn [tt_push_range tt_push_range_c]. rewrite <- (tt_push_forget s x n).
    apply forget_bind. intros; apply IH.
  Qed.
  Lemma replay_forget fuel : forall tree ps pos p n, forget (replay_c E lt fuel tree ps pos p n) = replay E lt fuel tree ps pos p.
  Proof.
    induction fuel as [|f IH]; intros tree ps pos p n; cbn [replay replay_c]; destruct (pos =? 1); auto.
    apply forget_pure; intros a. apply forget_pure; intros pp. apply forget_pure; intros po. cbn [cmp_t].
    apply forget_pure; intros tree'. apply IH.
  Qed.
  Lemma tt_decreaseTop_forget s x n : forget (tt_decreaseTop_c E lt s x n) = tt_decreaseTop E lt s x.
  Proof.
    unfold tt_decreaseTop_c, tt_decreaseTop.
    apply forget_pure; intros p. apply forget_pure; intros ps. apply forget_pure; intros pp.
    rewrite <- (replay_forget _ (tt_tree s) ps (leaf pp) p n). apply forget_bind. reflexivity.
  Qed.
  Lemma tt_pop_forget s n : forget (tt_pop_c E lt s n) = tt_pop E lt s.
  Proof.
    unfold tt_pop_c, tt_pop. apply forget_pure; intros root. apply forget_pure; intros proot.
    destruct (length (tt_tree s) =? 1); auto.
    apply forget_pure; intros lft. apply forget_pure; intros rgt. apply forget_pure; intros at'. apply forget_pure; intros [tree1 ps1].
    apply forget_pure; intros pl. apply forget_pure; intros pr. apply forget_pure; intros ps2.
    destruct (negb _); auto. apply forget_pure; intros ps4. apply forget_pure; intros pp.
    rewrite <- (replay_forget _ _ ps4 (leaf pp) pl n). apply forget_bind. reflexivity.
  Qed.

  Notation stepc := (tt_step_c E lt).
  Notation step := (tt_step E lt).
  Definition tt_drop {A : Type} (r : res (tourtree E * nat * A)) : res (tourtree E * A) := let* (t, _, a) := r in Ok (t, a).

  Lemma tt_step_forget s n o : tt_drop (stepc (s, n) o) = step s o.
  Proof.
    destruct o; simpl; auto.
    - rewrite <- (tt_push_forget s x n). destruct (tt_push_c _ _ s x n) as [[? ?]| | |]; reflexivity.
    - rewrite <- (tt_push_range_forget xs s n). destruct (tt_push_range_c _ _ s xs n) as [[? ?]| | |]; reflexivity.
    - rewrite <- (tt_pop_forget s n). destruct (tt_pop_c _ _ s n) as [[[? ?] ?]| | |]; reflexivity.
    - destruct (tt_top E s); reflexivity.
    - rewrite <- (tt_decreaseTop_forget s x n). destruct (tt_decreaseTop_c _ _ s x n) as [[? ?]| | |]; reflexivity.
  Qed.
  Lemma tt_run_forget ops : forall s n, tt_drop (run stepc (s, n) ops) = run step s ops.
  Proof.
    induction ops as [|o ops IH]; intros s n; auto. cbn [run]. rewrite <- (tt_step_forget s n o).
    destruct (stepc (s, n) o) as [[[s1 n1] r]| | |]; simpl; auto. rewrite <- (IH s1 n1).
    destruct (run stepc (s1, n1) ops) as [[[s2 n2] rs]| | |]; reflexivity.
  Qed.

  (** * Bounds *)
  Ltac ok H :=
    match type of H with
    | bind ?m _ = Ok _ => let e := fresh "Hm" in destruct m eqn:e; cbn [bind] in H; try discriminate H
    end.
  Notation inv := (inv lt).

  Lemma push_loop_count fuel : forall tree ps pos n tree' n', 2 <= pos ->
    push_loop_c E lt fuel tree ps pos n = Ok (tree', n') -> n' <= n + Nat.log2 pos.
  Proof.
    induction fuel as [|f IH]; intros tree ps pos n tree' n' Hp H; cbn [push_loop_c] in H; [discriminate|].
    do 4 ok H. cbn [cmp_t] in H. rewrite (log2_half pos) by lia.
    assert (0 < pos / 2) by (apply Nat.div_str_pos; lia).
    destruct (lt (entry a1) (entry a2)).
    - ok H. destruct (pos / 2 =? 1) eqn:H1; [inversion H; subst; lia|]. apply Nat.eqb_neq in H1.
      apply IH in H; lia.
    - inversion H; subst. lia.
  Qed.
  Lemma replay_count fuel : forall tree ps pos p n tree' n', 1 <= pos ->
    replay_c E lt fuel tree ps pos p n = Ok (tree', n') -> n' = n + Nat.log2 pos.
  Proof.
    induction fuel as [|f IH]; intros tree ps pos p n tree' n' Hp H; cbn [replay_c] in H; destruct (pos =? 1) eqn:H1; try discriminate H.
    - apply Nat.eqb_eq in H1. subst. inversion H; subst. rewrite Nat.log2_1. lia.
    - apply Nat.eqb_eq in H1. subst. inversion H; subst. rewrite Nat.log2_1. lia.
    - apply Nat.eqb_neq in H1. do 3 ok H. cbn [cmp_t] in H. ok H. rewrite (log2_half pos) by lia.
      apply IH in H; [lia|]. apply Nat.div_str_pos; lia.
  Qed.

  Lemma inv_leaf s i p : inv s -> nth_error (tt_players s) i = Some p -> 1 <= leaf p <= 2 * length (tt_players s) - 1.
  Proof.
    intros (_ & _ & [[_ Hn]|(_ & Hs & _)]) Hp.
    - rewrite Hn in Hp. destruct i; discriminate.
    - destruct (sh_player _ _ Hs i (leaf p)) as (Ht & Hl & _); [now apply map_nth_error|].
      apply tat_bound in Ht. pose proof (sh_len _ _ Hs) as Hlen. rewrite map_length in Hlen. lia.
  Qed.

  Lemma inv_len s : inv s -> tt_players s <> [] -> length (tt_tree s) = 2 * length (tt_players s) - 1.
  Proof.
    intros (_ & _ & [[_ Hn]|(_ & Hs & _)]) Hp; [congruence|]. pose proof (sh_len _ _ Hs) as Hlen. rewrite map_length in Hlen. lia.
  Qed.

  Lemma tt_push_count s x n s' n' : inv s -> tt_push_c E lt s x n = Ok (s', n') ->
    inv s' /\ length (tt_players s') = length (tt_players s) + 1 /\ n' <= n + Nat.log2 (2 * length (tt_players s) + 1).
  Proof.
    intros Hi H. pose proof (tt_push_forget s x n) as Hf. rewrite H in Hf. simpl in Hf.
    destruct (push_spec lt Hsw s x Hi) as (s2 & Hs2 & Hi2 & Hp & _). rewrite Hs2 in Hf. inversion Hf; subst s2.
    assert (Hl : length (tt_players s') = length (tt_players s) + 1).
    { apply Permutation_length in Hp. unfold contents in Hp. simpl in Hp. rewrite !map_length in Hp. lia. }
    split; [auto|split; [auto|]].
    unfold tt_push_c in H. set (s1 := if 2 <=? _ then _ else _) in *. destruct (tt_empty E s1) eqn:He.
    - do 2 ok H. inversion H; subst. lia.
    - assert (Hs1 : tt_tree s1 = tt_tree s /\ tt_players s1 = tt_players s).
      { subst s1. destruct (2 <=? _); auto. }
      destruct Hs1 as [Ht1 Hp1].
      assert (Hlen : length (tt_tree s) = 2 * length (tt_players s) - 1).
      { apply inv_len; auto. intros Hn. apply (inv_nil lt s Hi) in Hn. unfold tt_empty in He. rewrite Ht1, Hn in He. discriminate. }
      assert (Hpos : 1 <= length (tt_tree s)).
      { unfold tt_empty in He. rewrite Ht1 in He. destruct (tt_tree s); [discriminate|simpl; lia]. }
      do 5 ok H.
      assert (length (tt_tree a3) = length (tt_tree s) + 2).
      { unfold tree_push, players_push in *. destruct (_ <? _) in Hm0; [|discriminate]. inversion Hm0; subst.
        cbn [tt_tree tt_players tt_cap tt_pcap] in *. destruct (_ <? _) in Hm2; [|discriminate]. inversion Hm2; subst.
        cbn [tt_tree tt_players tt_cap tt_pcap] in *. destruct (_ <? _) in Hm3; [|discriminate]. inversion Hm3; subst.
        cbn [tt_tree]. rewrite Ht1, !app_length. simpl. lia. }
      ok H. destruct a4 as [tree' c]. inversion H; subst.
      apply push_loop_count in Hm4; [|lia].
      replace (2 * length (tt_players s) + 1) with (length (tt_tree a3)) by lia. exact Hm4.
  Qed.

  Lemma tt_decreaseTop_count s x n s' n' : inv s -> tt_decreaseTop_c E lt s x n = Ok (s', n') ->
    inv s' /\ length (tt_players s') = length (tt_players s) /\ n' <= n + Nat.log2 (2 * length (tt_players s) - 1).
  Proof.
    intros Hi H. pose proof (tt_decreaseTop_forget s x n) as Hf. rewrite H in Hf. simpl in Hf.
    assert (Hne : tt_players s <> []).
    { intros Hn. apply (inv_nil lt s Hi) in Hn. unfold tt_decreaseTop_c in H. rewrite Hn in H. discriminate. }
    destruct (decreaseTop_spec lt Hsw s x Hi Hne) as (s2 & t & m & Hs2 & Hi2 & Hp & _ & Hp2 & _). rewrite Hs2 in Hf. inversion Hf; subst s2.
    assert (Hl : length (tt_players s') = length (tt_players s)).
    { apply Permutation_length in Hp. apply Permutation_length in Hp2. unfold contents in *. simpl in *. rewrite !map_length in *. lia. }
    split; [auto|split; [auto|]]. unfold tt_decreaseTop_c in H. do 4 ok H. destruct a2 as [tree' c]. inversion H; subst.
    cbn [tt_players] in *. unfold vget in Hm1. destruct (nth_error a0 a) eqn:Hnth; [|discriminate]. inversion Hm1; subst.
    destruct (inv_leaf _ a a1 Hi2 Hnth) as [Hl1 Hl2]. cbn [tt_players] in Hl2.
    apply replay_count in Hm2; [|lia]. subst. apply Nat.add_le_mono_l. apply Nat.log2_le_mono. lia.
  Qed.

  Lemma tt_pop_count s n s' x n' : inv s -> tt_pop_c E lt s n = Ok (s', x, n') ->
    inv s' /\ length (tt_players s') + 1 = length (tt_players s) /\ n' <= n + Nat.log2 (2 * length (tt_players s') - 1).
  Proof.
    intros Hi H. pose proof (tt_pop_forget s n) as Hf. rewrite H in Hf. simpl in Hf.
    assert (Hne : tt_players s <> []).
    { intros Hn. apply (inv_nil lt s Hi) in Hn. unfold tt_pop_c in H. rewrite Hn in H. discriminate. }
    destruct (pop_spec lt Hsw s Hi Hne) as (s2 & t & Hs2 & Hi2 & _ & Hp & _). rewrite Hs2 in Hf. inversion Hf; subst s2 t.
    assert (Hl : length (tt_players s') + 1 = length (tt_players s)).
    { apply Permutation_length in Hp. unfold contents in *. simpl in *. rewrite !map_length in *. lia. }
    split; [auto|split; [auto|]]. unfold tt_pop_c in H. do 2 ok H. destruct (length (tt_tree s) =? 1); [inversion H; subst; lia|].
    do 3 ok H.
    match type of H with bind ?m _ = _ => destruct m as [[tree1 ps1]| | |]; cbn [bind] in H; try discriminate H end.
    ok H. rename a4 into w. ok H. ok H. destruct (negb _); [discriminate H|]. ok H. rename a6 into ps4. ok H. rename a6 into pp.
    ok H. match type of H with context [let (_, _) := ?z in _] => destruct z as [tree3 c] end. inversion H; subst.
    cbn [tt_players] in *. unfold vget in *.
    match goal with Hx : of_option (nth_error ps4 w) = Ok pp |- _ => destruct (nth_error ps4 w) eqn:Hnth; [|discriminate Hx]; inversion Hx; subst end.
    destruct (inv_leaf _ w pp Hi2 Hnth) as [Hl1 Hl2]. cbn [tt_players] in Hl2.
    match goal with Hx : replay_c _ _ _ _ _ _ _ _ = _ |- _ => apply replay_count in Hx; [|lia]; subst end.
    apply Nat.add_le_mono_l. apply Nat.log2_le_mono. lia.
  Qed.

  Lemma tt_push_range_count xs : forall s n s' n', inv s -> tt_push_range_c E lt s xs n = Ok (s', n') ->
    inv s' /\ length (tt_players s') = length (tt_players s) + length xs /\
    n' <= n + length xs * Nat.log2 (2 * (length (tt_players s) + length xs)).
  Proof.
    induction xs as [|x xs IH]; intros s n s' n' Hi H; cbn [tt_push_range_c] in H.
    - inversion H; subst. simpl. split; [auto|lia].
    - ok H. destruct a as [s1 n1]. apply tt_push_count in Hm; auto. destruct Hm as (H1 & H2 & H3).
      apply IH in H; auto. destruct H as (H4 & H5 & H6). simpl length. split; [auto|split; [lia|]].
      pose proof (Nat.log2_le_mono (2 * length (tt_players s) + 1) (2 * (length (tt_players s) + S (length xs))) ltac:(lia)).
      rewrite H2 in H6. replace (length (tt_players s) + 1 + length xs) with (length (tt_players s) + S (length xs)) in H6 by lia.
      change (S (length xs) * ?z) with (z + length xs * z). lia.
  Qed.

  Lemma tt_history_count L ops : forall s n s' n' rs, inv s -> run stepc (s, n) ops = Ok (s', n', rs) ->
    Nat.log2 (2 * (length (tt_players s) + length (pushed ops))) <= L ->
    n' <= n + (length (pushed ops) + removals ops) * L.
  Proof.
    induction ops as [|o ops IH]; intros s n s' n' rs Hi H HL; cbn [run] in H.
    - inversion H; subst. simpl. lia.
    - ok H. destruct a as [[s1 n1] r]. ok H. destruct a as [[s2 n2] rs2]. inversion H; subst.
      pose proof (fun Hi1 => IH s1 n1 s' n' rs2 Hi1 Hm0) as HI. clear IH H.
      assert (Hmono : forall k, k <= 2 * (length (tt_players s) + length (pushed (o :: ops))) -> Nat.log2 k <= L).
      { intros k Hk. etransitivity; [|exact HL]. now apply Nat.log2_le_mono. }
      assert (Hgo : forall d, inv s1 -> length (tt_players s1) + length (pushed ops) <= length (tt_players s) + length (pushed (o :: ops)) ->
        n1 <= n + d * L -> length (pushed (o :: ops)) + removals (o :: ops) = d + (length (pushed ops) + removals ops) ->
        n' <= n + (length (pushed (o :: ops)) + removals (o :: ops)) * L).
      { intros d Hi1 Hlen Hn1 Heq. rewrite Heq, Nat.mul_add_distr_r. specialize (HI Hi1). specialize (HI ltac:(apply Hmono; lia)). lia. }
      unfold removals in *.
      destruct o; simpl in Hm; cbn [pushed filter takes_top length] in *.
      + ok Hm. destruct a as [t3 n3]. inversion Hm; subst. apply tt_push_count in Hm1; auto. destruct Hm1 as (H1 & H2 & H3).
        apply (Hgo 1); auto; try lia. pose proof (Hmono (2 * length (tt_players s) + 1) ltac:(lia)). lia.
      + ok Hm. destruct a as [t3 n3]. inversion Hm; subst. apply tt_push_range_count in Hm1; auto. destruct Hm1 as (H1 & H2 & H3).
        rewrite app_length in *.
        apply (Hgo (length xs)); auto; try lia. pose proof (Hmono (2 * (length (tt_players s) + length xs)) ltac:(lia)).
        assert (length xs * Nat.log2 (2 * (length (tt_players s) + length xs)) <= length xs * L) by (apply Nat.mul_le_mono_l; lia). lia.
      + ok Hm. destruct a as [[t3 x3] n3]. inversion Hm; subst. apply tt_pop_count in Hm1; auto. destruct Hm1 as (H1 & H2 & H3).
        apply (Hgo 1); auto; try lia. pose proof (Hmono (2 * length (tt_players s1) - 1) ltac:(lia)). lia.
      + ok Hm. inversion Hm; subst. apply (Hgo 0); auto; lia.
      + ok Hm. destruct a as [t3 n3]. inversion Hm; subst. apply tt_decreaseTop_count in Hm1; auto. destruct Hm1 as (H1 & H2 & H3).
        apply (Hgo 1); auto; try lia. pose proof (Hmono (2 * length (tt_players s) - 1) ltac:(lia)). lia.
      + inversion Hm; subst. apply (Hgo 0); auto; try (simpl; lia).
        destruct Hi as (Hc & Hpc & _). split; [simpl; lia|split; [exact Hpc|]]. left; split; reflexivity.
      + discriminate.
      + inversion Hm; subst. apply (Hgo 0); auto; lia.
      + inversion Hm; subst. apply (Hgo 0); auto; lia.
  Qed.

  Lemma tt_call_count ops s0 n0 rs o s n r : run stepc (tt_new E, 0) ops = Ok (s0, n0, rs) -> stepc (s0, n0) o = Ok (s, n, r) ->
    let k := length (tt_players s0) in let k' := length (tt_players s) in
    match o with
    | Push _ => n <= n0 + Nat.log2 (2 * k + 1)
    | Pop | DecreaseTop _ => n <= n0 + Nat.log2 (2 * k' - 1)
    | PushRange xs => n <= n0 + length xs * Nat.log2 (2 * k')
    | _ => n = n0
    end.
  Proof.
    intros Hr H k k'.
    assert (Hapi : forallb (tt_api E) ops = true).
    { clear - Hr. revert Hr. generalize (tt_new E, 0) as s. revert rs s0 n0.
      induction ops as [|o ops IH]; intros rs s0 n0 s Hr; auto. cbn [run] in Hr. ok Hr. destruct a as [s1 r1]. ok Hr.
      destruct a as [s2 rs2]. inversion Hr; subst. cbn [forallb]. apply IH in Hm0. rewrite Hm0, andb_true_r.
      destruct o; auto. destruct s; discriminate. }
    assert (Hi : inv s0).
    { apply (tt_reachable_inv lt Hsw ops s0 rs Hapi). rewrite <- (tt_run_forget ops (tt_new E) 0), Hr. reflexivity. }
    destruct o; simpl in H.
    - ok H. destruct a as [t3 n3]. inversion H; subst. apply tt_push_count in Hm; auto. apply Hm.
    - ok H. destruct a as [t3 n3]. inversion H; subst. apply tt_push_range_count in Hm; auto. destruct Hm as (_ & Hl & Hn).
      subst k'. rewrite Hl. exact Hn.
    - ok H. destruct a as [[t3 x3] n3]. inversion H; subst. apply tt_pop_count in Hm; auto. apply Hm.
    - ok H. inversion H; auto.
    - ok H. destruct a as [t3 n3]. inversion H; subst. apply tt_decreaseTop_count in Hm; auto. destruct Hm as (_ & Hl & Hn).
      subst k'. rewrite Hl. exact Hn.
    - inversion H; auto.
    - discriminate.
    - inversion H; auto.
    - inversion H; auto.
  Qed.
End Proofs.
