From Coq Require Import List Arith NArith Bool Lia String.
From Verif.Base Require Import Res Arr.
From Verif.Heap Require Import Model.
From Verif.TourTree Require Import Model Proofs Faults FaultsProofs.
From Verif.PairQueue Require Import Model Faults.
Import ListNotations.
Local Open Scope N_scope.
Local Notation length := List.length.

(** * Without exceptions *)
Section Quiet.
  Context {P : Type}.
  Variable pdata : N -> N -> P.
  Variable lt : N * N * P -> N * N * P -> bool.
  Variable sup : bool.
  Let pdata' c r := Some (pdata c r).
  Let cmp' a b := Some (lt a b).

  Definition of_pq (k : nat) (s : pairqueue P) : faultqueue P :=
    mk_fq (map_tt Live (pq_queue s)) (pq_count s) (pq_ret s) (pq_log s) k.

  Lemma live_lt a b : slot_lt P cmp' (Live a) (Live b) = Ok (col_lt P lt a b).
  Proof. reflexivity. Qed.

  Lemma fadd_quiet k s rows s' : pq_add P pdata lt sup s rows = Ok s' -> fq_add P pdata' cmp' sup (of_pq k s) rows = Ok (of_pq k s', None).
  Proof.
    unfold pq_add, fq_add. cbn [of_pq fq_count fq_ret fq_queue fq_log fq_leaked]. destruct (index_max <=? pq_count s); [discriminate|].
    destruct rows as [|r rows]; [intros H; inversion H; reflexivity|].
    cbn [c_create c_create_f bind]. cbv beta zeta.
    intros H.
    match type of H with context [tt_push _ _ _ ?c] => set (cc := c) in * end.
    change (match pdata' _ _ with Some d => _ | None => _ end) with (Some (cc, EConstruct (to_index (pq_count s)) (to_index r))).
    cbn iota. rewrite (tt_push_map Live (col_lt P lt) (slot_lt P cmp') live_lt).
    destruct (tt_push _ (col_lt P lt) (pq_queue s) cc) as [q| | |]; cbn [bind] in H; try discriminate H.
    inversion H; subst. reflexivity.
  Qed.

  Lemma topColumn_quiet (q : tourtree (column P)) : fq_topColumn P (map_tt Live q) = tt_top _ q.
  Proof. unfold fq_topColumn. rewrite tt_top_map. destruct (tt_top _ q); reflexivity. Qed.

  Lemma round_quiet q ret log c q' log' : pop_round P pdata lt sup q ret log c = Ok (q', log') ->
    pop_round_f P pdata' cmp' sup (map_tt Live q) ret log c = Ok (map_tt Live q', log', None).
  Proof.
    unfold pop_round, pop_round_f. destruct (pq_retired sup ret (c_col c)) as [dead| | |]; cbn [bind]; try discriminate.
    destruct (negb sup || negb dead)%bool.
    - unfold c_increment, c_increment_f. destruct (c_rows c) as [|r rows]; cbn [bind]; try discriminate.
      destruct (skip_rows sup ret r rows) as [[rows' prev]| | |]; cbn [bind]; try discriminate.
      destruct rows' as [|r' rows'].
      + cbn [bind]. intros H. rewrite (tt_pop_map Live (col_lt P lt) (slot_lt P cmp') live_lt).
        destruct (tt_pop _ (col_lt P lt) q) as [[q2 x2]| | |]; cbn [bind] in H; try discriminate H. inversion H; subst. reflexivity.
      + unfold pdata' at 1. cbn [bind]. intros H. rewrite (tt_decreaseTop_map Live (col_lt P lt) (slot_lt P cmp') live_lt).
        destruct (tt_decreaseTop _ (col_lt P lt) q _) as [q2| | |]; cbn [bind] in H; try discriminate H. inversion H; subst. reflexivity.
    - destruct (c_rowIndex P c) as [r| | |]; cbn [bind]; try discriminate.
      intros H. rewrite (tt_pop_map Live (col_lt P lt) (slot_lt P cmp') live_lt).
      destruct (tt_pop _ (col_lt P lt) q) as [[q2 x2]| | |]; cbn [bind] in H; try discriminate H. inversion H; subst. reflexivity.
  Qed.

  Lemma loop_quiet fuel : forall q ret log c q' log', pop_loop P pdata lt sup fuel q ret log c = Ok (q', log') ->
    pop_loop_f P pdata' cmp' sup fuel (map_tt Live q) ret log c = Ok (map_tt Live q', log', None).
  Proof.
    induction fuel as [|f IH]; intros q ret log c q' log' H; [discriminate|]. cbn [pop_loop pop_loop_f] in *.
    destruct (pop_round P pdata lt sup q ret log c) as [[q1 log1]| | |] eqn:Hr; cbn [bind] in H; try discriminate H.
    rewrite (round_quiet _ _ _ _ _ _ Hr). cbn [bind].
    change (tt_empty (slot P) (map_tt Live q1)) with (tt_empty (column P) q1).
    destruct (negb sup || tt_empty _ q1)%bool; [inversion H; subst; reflexivity|].
    rewrite topColumn_quiet. destruct (tt_top _ q1) as [c1| | |]; cbn [bind] in H |- *; try discriminate H.
    destruct (pq_retired sup ret (c_col c1)) as [d1| | |]; cbn [bind] in H |- *; try discriminate H.
    match type of H with bind ?m _ = _ => destruct m as [again| | |]; cbn [bind] in H |- *; try discriminate H end.
    destruct again; [apply IH; exact H|inversion H; subst; reflexivity].
  Qed.

  Lemma size_quiet (l : list (column P)) : size_bound P (map Live l) = fold_left (fun sum c => (sum + length (c_rows c))%nat) l 0%nat.
  Proof.
    assert (H : forall l n, fold_left (fun sum c => (sum + length (c_rows c))%nat) l n = (n + size_bound P (map Live l))%nat).
    { clear. induction l as [|c l IH]; intros n; simpl; [lia|]. rewrite IH. unfold size_bound. lia. }
    rewrite H. reflexivity.
  Qed.
  Lemma sum_quiet (l : list (column P)) : sum_sizes P (map Live l) = Ok (fold_left (fun sum c => (sum + length (c_rows c))%nat) l 0%nat).
  Proof.
    rewrite <- size_quiet. induction l as [|c l IH]; simpl; auto. rewrite IH. reflexivity.
  Qed.

  Lemma fpop_quiet k s s' : pq_pop P pdata lt sup s = Ok s' -> fq_pop P pdata' cmp' sup (of_pq k s) = Ok (of_pq k s', None).
  Proof.
    unfold pq_pop, fq_pop. cbn [of_pq fq_count fq_ret fq_queue fq_log fq_leaked]. rewrite topColumn_quiet.
    destruct (tt_top _ (pq_queue s)) as [c| | |]; cbn [bind]; try discriminate.
    rewrite tt_forAll_map, size_quiet. change (fold_left _ _ _) with (pq_pairCount P s).
    destruct (pop_loop P pdata lt sup (pq_pairCount P s) (pq_queue s) (pq_ret s) (pq_log s) c) as [[q log]| | |] eqn:Hl;
      cbn [bind]; try discriminate.
    intros H; inversion H; subst. rewrite (loop_quiet _ _ _ _ _ _ _ Hl). reflexivity.
  Qed.
  Lemma ftopPair_quiet k s : fq_topPair P (of_pq k s) = pq_topPair P s.
  Proof. unfold fq_topPair, pq_topPair. cbn [of_pq fq_queue]. now rewrite topColumn_quiet. Qed.

  Lemma fretire_quiet k s i s' : pq_retireIndex P pdata lt sup s i = Ok s' ->
    fq_retireIndex P pdata' cmp' sup (of_pq k s) i = Ok (of_pq k s', None).
  Proof.
    unfold pq_retireIndex, fq_retireIndex. cbn [of_pq fq_count fq_ret fq_queue fq_log fq_leaked].
    match goal with |- bind ?m _ = _ -> _ => destruct m as [ret| | |]; cbn [bind]; try discriminate end.
    set (s1 := mk_pq (pq_queue s) (pq_count s) ret (pq_log s)).
    change (mk_fq (map_tt Live (pq_queue s)) (pq_count s) ret (pq_log s) k) with (of_pq k s1).
    change (tt_empty (slot P) (map_tt Live (pq_queue s))) with (pq_empty P s1).
    destruct (pq_empty P s1); [intros H; inversion H; subst; reflexivity|].
    rewrite ftopPair_quiet. destruct (pq_topPair P s1) as [p| | |]; cbn [bind]; try discriminate.
    destruct ((fst p =? i) || (snd p =? i))%bool; [apply fpop_quiet|intros H; inversion H; subst; reflexivity].
  Qed.

  Lemma fstep_quiet k s o s' r : pq_step P pdata lt sup s o = Ok (s', r) -> fq_step P pdata' cmp' sup (of_pq k s) o = Ok (of_pq k s', Some r).
  Proof.
    destruct o; cbn [pq_step fq_step].
    - destruct (pq_add P pdata lt sup s rows) as [s1| | |] eqn:Ha; cbn [bind]; try discriminate.
      rewrite (fadd_quiet k s rows s1 Ha). intros H; inversion H; subst. reflexivity.
    - rewrite ftopPair_quiet. destruct (pq_topPair P s) as [p| | |]; cbn [bind]; try discriminate.
      destruct (pq_pop P pdata lt sup s) as [s1| | |] eqn:Ha; cbn [bind]; try discriminate.
      rewrite (fpop_quiet k s s1 Ha). intros H; inversion H; subst. reflexivity.
    - rewrite ftopPair_quiet. destruct (pq_topPair P s) as [p| | |]; cbn [bind]; try discriminate.
      unfold fq_topPairData, pq_topPairData. cbn [of_pq fq_queue]. rewrite topColumn_quiet.
      destruct (tt_top _ (pq_queue s)) as [c| | |]; cbn [bind]; try discriminate. intros H; inversion H; subst. reflexivity.
    - destruct (pq_retireIndex P pdata lt sup s i) as [s1| | |] eqn:Ha; cbn [bind]; try discriminate.
      rewrite (fretire_quiet k s i s1 Ha). intros H; inversion H; subst. reflexivity.
    - cbn [of_pq fq_ret]. destruct (pq_retired sup (pq_ret s) i) as [b| | |]; cbn [bind]; try discriminate.
      intros H; inversion H; subst. reflexivity.
    - intros H; inversion H; subst. reflexivity.
    - unfold fq_pairCount. cbn [of_pq fq_queue]. rewrite tt_forAll_map, sum_quiet. intros H; inversion H; subst. reflexivity.
    - intros H; inversion H; subst. reflexivity.
  Qed.

  Lemma frun_quiet k ops : forall s s' rs, run (pq_step P pdata lt sup) s ops = Ok (s', rs) ->
    run (fq_step P pdata' cmp' sup) (of_pq k s) ops = Ok (of_pq k s', map Some rs).
  Proof.
    induction ops as [|o ops IH]; intros s s' rs H; cbn [run] in *; [inversion H; subst; reflexivity|].
    destruct (pq_step P pdata lt sup s o) as [[s1 r]| | |] eqn:Hs; cbn [bind] in H; try discriminate H.
    rewrite (fstep_quiet k _ _ _ _ Hs). cbn [bind].
    destruct (run (pq_step P pdata lt sup) s1 ops) as [[s2 rs2]| | |] eqn:Hr; cbn [bind] in H; try discriminate H.
    inversion H; subst. rewrite (IH _ _ _ Hr). reflexivity.
  Qed.

  Lemma fdestroy_quiet k s : fq_destroy P (of_pq k s) = Ok (pq_destroy P s).
  Proof.
    unfold fq_destroy, pq_destroy. cbn [of_pq fq_queue fq_log]. rewrite tt_forAll_map. generalize (pq_log s).
    induction (tt_forAll _ (pq_queue s)) as [|c l IH]; intros log; simpl; auto.
  Qed.
End Quiet.

(** * addColumnDescending *)
Section Add.
  Context {P : Type}.
  Variable pdata : N -> N -> option P.
  Variable cmp : N * N * P -> N * N * P -> option bool.
  Variable sup : bool.

  (** What a call may leave behind, without the leaked objects *)
  Definition same_queue (s s' : faultqueue P) : Prop :=
    fq_queue s' = fq_queue s /\ fq_count s' = fq_count s /\ fq_ret s' = fq_ret s /\ fq_log s' = fq_log s.

  Lemma add_strong s rows s' e : (forall a b, cmp a b <> None) -> fq_add P pdata cmp sup s rows = Ok (s', Some e) -> same_queue s s'.
  Proof.
    intros Hc. unfold fq_add. destruct (index_max <=? fq_count s); [intros H; inversion H; subst; repeat split; auto|].
    destruct rows as [|r rows]; [discriminate|]. cbn [c_create_f bind].
    destruct (pdata (to_index (fq_count s)) (to_index r)) as [d|] eqn:Hd.
    - destruct (tt_push_f _ (slot_lt P cmp) (fq_queue s) _) as [[q x]| | |] eqn:Hp; cbn [bind]; try discriminate.
      apply tt_push_quiet in Hp; [subst; discriminate|].
      intros [a|] [b|] x' Hx; simpl in Hx; try discriminate. specialize (Hc (triple P a) (triple P b)).
      destruct (cmp (triple P a) (triple P b)); [discriminate|congruence].
    - intros H; inversion H; subst. repeat split; cbn [fq_count fq_ret]; [lia|]. destruct sup; auto. now rewrite removelast_last.
  Qed.
End Add.

(** * Failed calls of addColumnDescending can be left out *)
Section LeaveOut.
  Context {P : Type}.
  Variable pdata : N -> N -> option P.
  Variable cmp : N * N * P -> N * N * P -> option bool.
  Variable sup : bool.
  Hypothesis Hcmp : forall a b, cmp a b <> None.
  Notation step := (fq_step P pdata cmp sup).

  Definition er (s : faultqueue P) : faultqueue P := mk_fq (fq_queue s) (fq_count s) (fq_ret s) (fq_log s) 0.
  Definition er1 {A} (r : res (faultqueue P * A)) : res (faultqueue P * A) := rmap (fun x => (er (fst x), snd x)) r.

  Lemma er_same s s' : same_queue s s' <-> er s' = er s.
  Proof.
    unfold same_queue, er. split; [intros (-> & -> & -> & ->); reflexivity|]. intros H; inversion H; auto.
  Qed.

  Lemma add_er s rows : er1 (fq_add P pdata cmp sup (er s) rows) = er1 (fq_add P pdata cmp sup s rows).
  Proof.
    unfold fq_add. cbn [er fq_count fq_queue fq_ret fq_log fq_leaked]. destruct (index_max <=? fq_count s); auto.
    destruct rows as [|r rows]; auto. destruct (c_create_f P pdata _ _) as [[[c e]|]| | |]; cbn [bind]; auto.
    destruct (tt_push_f _ _ _ _) as [[q [x|]]| | |]; cbn [bind]; auto. destruct (c_rowIndex P c); reflexivity.
  Qed.
  Lemma pop_er s : er1 (fq_pop P pdata cmp sup (er s)) = er1 (fq_pop P pdata cmp sup s).
  Proof.
    unfold fq_pop. cbn [er fq_count fq_queue fq_ret fq_log fq_leaked]. destruct (fq_topColumn P _) as [c| | |]; cbn [bind]; auto.
    destruct (pop_loop_f _ _ _ _ _ _ _ _ _) as [[[q log] x]| | |]; reflexivity.
  Qed.
  Lemma retire_er s i : er1 (fq_retireIndex P pdata cmp sup (er s) i) = er1 (fq_retireIndex P pdata cmp sup s i).
  Proof.
    unfold fq_retireIndex. cbn [er fq_count fq_queue fq_ret fq_log fq_leaked].
    match goal with |- er1 (bind ?m _) = _ => destruct m as [ret| | |]; cbn [bind]; auto end.
    destruct (tt_empty _ (fq_queue s)); auto. unfold fq_topPair. cbn [fq_queue].
    match goal with |- er1 (bind ?m _) = _ => destruct m as [p| | |]; cbn [bind]; auto end.
    destruct ((fst p =? i) || (snd p =? i))%bool; auto.
    rewrite <- pop_er. symmetry. rewrite <- pop_er. reflexivity.
  Qed.
  Lemma step_er s o : er1 (step (er s) o) = er1 (step s o).
  Proof.
    destruct o; cbn [fq_step]; auto.
    - pose proof (add_er s rows) as H. destruct (fq_add _ _ _ _ (er s) rows) as [[s1 x1]| | |], (fq_add _ _ _ _ s rows) as [[s2 x2]| | |];
        cbn [er1 rmap bind fst snd] in H |- *; try discriminate H;
        first [congruence | assert (Hx : x1 = x2) by congruence; assert (He : er s1 = er s2) by congruence; rewrite Hx, He; reflexivity].
    - change (fq_topPair P (er s)) with (fq_topPair P s). destruct (fq_topPair P s) as [p| | |]; cbn [bind]; auto.
      pose proof (pop_er s) as H. destruct (fq_pop _ _ _ _ (er s)) as [[s1 x1]| | |], (fq_pop _ _ _ _ s) as [[s2 x2]| | |];
        cbn [er1 rmap bind fst snd] in H |- *; try discriminate H;
        first [congruence | assert (Hx : x1 = x2) by congruence; assert (He : er s1 = er s2) by congruence; rewrite Hx, He; reflexivity].
    - change (fq_topPair P (er s)) with (fq_topPair P s). destruct (fq_topPair P s) as [p| | |]; cbn [bind]; auto.
      change (fq_topPairData P (er s)) with (fq_topPairData P s). destruct (fq_topPairData P s) as [d| | |]; cbn [bind]; auto.
    - pose proof (retire_er s i) as H.
      destruct (fq_retireIndex _ _ _ _ (er s) i) as [[s1 x1]| | |], (fq_retireIndex _ _ _ _ s i) as [[s2 x2]| | |];
        cbn [er1 rmap bind fst snd] in H |- *; try discriminate H;
        first [congruence | assert (Hx : x1 = x2) by congruence; assert (He : er s1 = er s2) by congruence; rewrite Hx, He; reflexivity].
    - cbn [er fq_ret]. destruct (pq_retired sup (fq_ret s) i); reflexivity.
    - change (fq_pairCount P (er s)) with (fq_pairCount P s). destruct (fq_pairCount P s); reflexivity.
  Qed.

  (** Calls with their answers, without the calls of addColumnDescending that threw *)
  Fixpoint kept (ops : list pq_op) (rs : list (option (pq_out P))) : list (pq_op * option (pq_out P)) :=
    match ops, rs with
    | PAdd _ :: ops', None :: rs' => kept ops' rs'
    | o :: ops', r :: rs' => (o, r) :: kept ops' rs'
    | _, _ => []
    end.

  Lemma kept_run ops : forall s s2 s' rs, same_queue s s2 -> run step s ops = Ok (s', rs) ->
    exists s2', run step s2 (map fst (kept ops rs)) = Ok (s2', map snd (kept ops rs)) /\ same_queue s' s2'.
  Proof.
    induction ops as [|o ops IH]; intros s s2 s' rs Hs H; cbn [run] in H.
    - inversion H; subst. exists s2. split; auto.
    - destruct (step s o) as [[s1 r]| | |] eqn:Ho; cbn [bind] in H; try discriminate H.
      destruct (run step s1 ops) as [[s3 rs1]| | |] eqn:Hr; cbn [bind] in H; try discriminate H. inversion H; subst.
      assert (Hkeep : exists s2', run step s2 (map fst ((o, r) :: kept ops rs1)) = Ok (s2', map snd ((o, r) :: kept ops rs1)) /\ same_queue s' s2').
      { apply er_same in Hs. pose proof (step_er s2 o) as H2. rewrite Hs, step_er, Ho in H2. cbn [er1 rmap bind fst snd] in H2.
        destruct (step s2 o) as [[s4 r4]| | |] eqn:H4; cbn [er1 rmap bind fst snd] in H2; inversion H2; subst.
        destruct (IH s1 s4 s' rs1) as (s5 & Hs5 & Hsame); auto.
        { repeat split; congruence. }
        exists s5. split; [|auto]. cbn [map fst snd run]. rewrite H4. cbn [bind]. rewrite Hs5. reflexivity. }
      destruct o; auto. destruct r as [r|]; auto.
      cbn [kept]. apply (IH s1 s2 s' rs1); auto.
      cbn [fq_step] in Ho. destruct (fq_add P pdata cmp sup s rows) as [[s4 [e|]]| | |] eqn:Ha; cbn [bind fst snd] in Ho; inversion Ho; subst.
      apply add_strong in Ha; auto. unfold same_queue in *. intuition congruence.
  Qed.
End LeaveOut.
