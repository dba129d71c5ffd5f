(** The memory of PairQueue over its histories. *)
From Coq Require Import List Arith NArith Bool String Lia Permutation.
From Verif.Base Require Import Res Arr Order FaultFacts.
From Verif.Spec Require Import PQ Pairs PairsFacts Reach.
From Verif.HeapMem Require Import Model Proofs Memory.
From Verif.TourTree Require Import Model Proofs.
From Verif.PairQueue Require Import Model Proofs Properties Bytes.
Import ListNotations.
Local Notation length := List.length.

(** What the columns of a history take, if [i] is the index of the next one *)
Fixpoint asked (z : psizes) (i : N) (ops : list pq_op) : nat :=
  match ops with
  | [] => 0
  | PAdd rows :: ops' => (match rows with [] => 0 | _ => c_bytes z i (length rows) end) + asked z (i + 1) ops'
  | _ :: ops' => asked z i ops'
  end.
(** How many columns with rows there are in a history, and how many pairs *)
Definition columns (ops : list pq_op) : nat := length (filter (fun o => match o with PAdd (_ :: _) => true | _ => false end) ops).
Definition pairs (ops : list pq_op) : nat := list_sum (map (fun o => match o with PAdd rows => length rows | _ => 0 end) ops).

Lemma asked_bounds z ops : forall i, columns ops * z_column z + pairs ops * Nat.min (z_small z) (z_index z) <= asked z i ops <= columns ops * z_column z + pairs ops * Nat.max (z_small z) (z_index z).
Proof.
  induction ops as [|o ops IH]; intros i; [cbn; lia|]. destruct o as [rows| | |j|j| | |]; try (exact (IH i)). cbn [asked]. specialize (IH (i + 1)%N).
  destruct rows as [|r rows]; [exact IH|].
  change (columns (PAdd (r :: rows) :: ops)) with (S (columns ops)). change (pairs (PAdd (r :: rows) :: ops)) with (length (r :: rows) + pairs ops).
  unfold c_bytes. set (n := length (r :: rows)) in *.
  assert (n * Nat.min (z_small z) (z_index z) <= n * (if c_big i then z_index z else z_small z) <= n * Nat.max (z_small z) (z_index z)) by (split; apply Nat.mul_le_mono_l; destruct (c_big i); lia).
  rewrite !Nat.mul_add_distr_r. cbn [Nat.mul]. lia.
Qed.

(** How many columns there are in a history *)
Definition adds (ops : list pq_op) : N := N.of_nat (length (filter (fun o => match o with PAdd _ => true | _ => false end) ops)).
Lemma asked_small z : forall ops i, (i + adds ops <= 65535)%N -> asked z i ops = columns ops * z_column z + pairs ops * z_small z.
Proof.
  induction ops as [|o ops IH]; intros i Hi; [reflexivity|]. destruct o as [rows| | |j|j| | |]; try (exact (IH i Hi)).
  assert (Ha : adds (PAdd rows :: ops) = (1 + adds ops)%N) by (unfold adds; cbn [filter length]; lia). rewrite Ha in Hi. cbn [asked]. rewrite IH by lia. destruct rows as [|r rows]; [reflexivity|].
  change (columns (PAdd (r :: rows) :: ops)) with (S (columns ops)). change (pairs (PAdd (r :: rows) :: ops)) with (length (r :: rows) + pairs ops).
  unfold c_bytes, c_big, small_max. destruct (N.leb_spec 65535 i); [lia|]. rewrite Nat.mul_add_distr_r. cbn [Nat.mul]. lia.
Qed.
Lemma reached_pre {St Op Out : Type} (step : St -> Op -> res (St * Out)) allowed init ops s rs : reached step allowed init ops s rs -> forall pre post, ops = pre ++ post ->
  exists s1 rs1, reached step allowed init pre s1 rs1.
Proof.
  induction 1 as [|ops s rs o s' r H IH Ha Hs]; intros pre post E.
  - destruct pre; [|discriminate]. eexists. eexists. constructor.
  - destruct post as [|o1 post] using rev_ind.
    + rewrite app_nil_r in E. subst pre. eexists. eexists. econstructor; eauto.
    + rewrite app_assoc in E. apply app_inj_tail in E as [E _]. eauto.
Qed.

Section Memory.
  Context {P : Type}.
  Variable pdata : N -> N -> P.
  Variable lt : N * N * P -> N * N * P -> bool.
  Variable sup : bool.
  Hypothesis sw : strict_weak lt.
  Variable z : psizes.
  Notation pairqueue := (pairqueue P).
  Notation column := (column P).
  Notation step := (pq_step P pdata lt sup).
  Notation mstep := (pm_step P pdata lt sup z).
  Notation clt := (col_lt P lt).
  Notation held s := (length (contents (pq_queue s))).


  Lemma asked_app o : forall ops i, asked z i (ops ++ [o]) = asked z i ops + asked z (i + adds ops) [o].
  Proof.
    induction ops as [|a ops IH]; intros i; [cbn [app]; change (adds []) with 0%N; now rewrite N.add_0_r|].
    destruct a; try exact (IH i). assert (Ha : adds (PAdd rows :: ops) = (1 + adds ops)%N) by (unfold adds; cbn [filter length]; lia).
    rewrite Ha, N.add_assoc. cbn [app]. change (asked z i (PAdd rows :: ops ++ [o])) with ((match rows with [] => 0 | _ => c_bytes z i (length rows) end) + asked z (i + 1) (ops ++ [o])).
    change (asked z i (PAdd rows :: ops)) with ((match rows with [] => 0 | _ => c_bytes z i (length rows) end) + asked z (i + 1) ops). rewrite IH. apply Nat.add_assoc.
  Qed.
  Lemma adds_app o ops : adds (ops ++ [o]) = (adds ops + match o with PAdd _ => 1 | _ => 0 end)%N.
  Proof. unfold adds. rewrite filter_app, app_length. destruct o; cbn; lia. Qed.

  Definition same_caps (q q' : tourtree column) : Prop := tt_cap q' = tt_cap q /\ tt_pcap q' = tt_pcap q.
  Lemma round_caps q ret log t q' log' : pop_round P pdata lt sup q ret log t = Ok (q', log') -> same_caps q q'.
  Proof.
    unfold pop_round, same_caps. intros H. apply bind_inv in H as (dead & _ & H). destruct (negb sup || negb dead)%bool.
    - apply bind_inv in H as ([[c'|] e] & _ & H).
      + apply bind_inv in H as (q1 & H & E). injection E as <- _. eapply tt_decreaseTop_cap; eauto.
      + apply bind_inv in H as ([q1 x] & H & E). injection E as <- _. eapply tt_pop_cap; eauto.
    - apply bind_inv in H as (r & _ & H). apply bind_inv in H as ([q1 x] & H & E). injection E as <- _. eapply tt_pop_cap; eauto.
  Qed.
  Lemma pop_loop_caps ret : forall fuel q log t q' log', pop_loop P pdata lt sup fuel q ret log t = Ok (q', log') -> same_caps q q'.
  Proof.
    induction fuel as [|f IH]; intros q log t q' log' H; cbn [pop_loop] in H; [discriminate|]. apply bind_inv in H as ([q1 log1] & H1 & H). apply round_caps in H1.
    destruct (negb sup || tt_empty column q1)%bool; [now injection H as <- _|]. apply bind_inv in H as (t' & _ & H). apply bind_inv in H as (d1 & _ & H). apply bind_inv in H as (again & _ & H).
    destruct again; [|now injection H as <- _]. apply IH in H. unfold same_caps in *. destruct H1, H. split; congruence.
  Qed.
  Lemma pop_caps s s' : pq_pop P pdata lt sup s = Ok s' -> same_caps (pq_queue s) (pq_queue s') /\ pq_count s' = pq_count s.
  Proof.
    unfold pq_pop. intros H. apply bind_inv in H as (t & _ & H). apply bind_inv in H as ([q log] & H & E). injection E as <-. cbn [pq_queue pq_count]. split; auto. eapply pop_loop_caps; eauto.
  Qed.
  Lemma step_caps s o s' r : pinv pdata lt sup s -> paired (pq_queue s) -> step s o = Ok (s', r) ->
    pq_count s' = (pq_count s + match o with PAdd _ => 1 | _ => 0 end)%N /\ paired (pq_queue s') /\ forall n, held s' <= n -> tcap_ok (tt_cap (pq_queue s)) n (tt_cap (pq_queue s')).
  Proof.
    intros Hi Hp H. assert (Hsame : same_caps (pq_queue s) (pq_queue s') -> paired (pq_queue s') /\ forall n, held s' <= n -> tcap_ok (tt_cap (pq_queue s)) n (tt_cap (pq_queue s'))).
    { intros [A B]. unfold paired, tcap_ok in *. rewrite A, B. split; auto. intros n _. split; [lia|]. split; [lia|auto]. }
    destruct o as [rows| | |i|i| | |]; cbn [pq_step] in H; rewrite ?N.add_0_r.
    - apply bind_inv in H as (s1 & H & E). injection E as <- _. unfold pq_add in H. destruct (index_max <=? pq_count s)%N; [discriminate|]. destruct rows as [|r0 rows].
      + injection H as <-. cbn [pq_queue pq_count] in *. split; auto. apply Hsame. now split.
      + apply bind_inv in H as ([c e] & _ & H). apply bind_inv in H as (q & Hq & E). injection E as <-. cbn [pq_queue pq_count] in *. split; auto.
        pose proof (k_inv _ _ _ _ _ _ (p_core _ _ _ _ Hi)) as Hinv.
        assert (Hlen : length (contents q) = S (held s)).
        { destruct (push_spec clt (col_lt_sw lt sw) (pq_queue s) c Hinv) as (q1 & Hs & _ & Hperm & _). rewrite Hq in Hs. injection Hs as <-. now apply Permutation_length in Hperm. }
        split; [eapply tt_push_grows with (n := S (held s)); eauto|]. intros n Hn. eapply tt_push_grows with (n := n); eauto. lia.
    - apply bind_inv in H as (p & _ & H). apply bind_inv in H as (s1 & H & E). injection E as <- _. apply pop_caps in H as [A B]. auto.
    - apply bind_inv in H as (p & _ & H). apply bind_inv in H as (d & _ & E). injection E as <- _. split; auto. apply Hsame. now split.
    - apply bind_inv in H as (s1 & H & E). injection E as <- _. unfold pq_retireIndex in H. apply bind_inv in H as (ret & _ & H). destruct (pq_empty _ _).
      + injection H as <-. cbn [pq_queue pq_count] in *. split; auto. apply Hsame. now split.
      + apply bind_inv in H as (p & _ & H). destruct ((fst p =? i) || (snd p =? i))%bool%N.
        * apply pop_caps in H as [A B]. auto.
        * injection H as <-. cbn [pq_queue pq_count] in *. split; auto. apply Hsame. now split.
    - apply bind_inv in H as (b & _ & E). injection E as <- _. split; auto. apply Hsame. now split.
    - injection H as <- _. split; auto. apply Hsame. now split.
    - injection H as <- _. split; auto. apply Hsame. now split.
    - injection H as <- _. split; auto. apply Hsame. now split.
  Qed.
  Lemma memory ops s rs : legal P pdata lt sup ops s rs -> run mstep (pq_new P, 0) ops = Ok ((s, asked z 0 ops), rs) /\ pq_count s = adds ops /\ paired (pq_queue s) /\ steps (tt_cap (pq_queue s)) /\
    (forall pre post s1 rs1, ops = pre ++ post -> run step (pq_new P) pre = Ok (s1, rs1) -> tt_cap (pq_queue s1) <= tt_cap (pq_queue s) /\ asked z 0 pre <= asked z 0 ops) /\
    forall n, (forall pre post s1 rs1, ops = pre ++ post -> run step (pq_new P) pre = Ok (s1, rs1) -> held s1 <= n) -> tt_cap (pq_queue s) <= Nat.max 16 (4 * n).
  Proof.
    intros Hl. induction Hl as [|ops s rs o s' r Hl (I1 & I2 & I3 & I4 & I5 & I6) Ha Hs].
    - split; [reflexivity|]. split; [reflexivity|]. split; [reflexivity|]. split; [right; exists 0; reflexivity|]. split.
      + intros [|? ?] post s1 rs1 E H1; [|discriminate]. injection H1 as <- _. auto.
      + intros n _. change (16 <= Nat.max 16 (4 * n)). lia.
    - pose proof (reached_pinv pdata lt sup sw _ _ _ Hl) as Hi. destruct (step_caps s o s' r Hi I3 Hs) as (Hc & Hp & Hg).
      assert (Hnow : run step (pq_new P) (ops ++ [o]) = Ok (s', rs ++ [r])) by (eapply run_one; eauto; eapply reached_run; eauto).
      split.
      { eapply run_one; [exact I1|]. unfold pm_step. rewrite Hs. cbn [bind]. rewrite asked_app, N.add_0_l, <- I2. do 3 f_equal.
        destruct o as [[|x rows]| | |i|i| | |]; cbn [asked]; try lia. unfold to_index. rewrite N.mod_small; [lia|]. pose proof (p_cnt _ _ _ _ Hi). lia. }
      split; [now rewrite adds_app, Hc, I2|]. split; auto. pose proof (Hg (held s') (le_n _)) as (G1 & _ & G3). split; auto. split.
      + intros pre post s1 rs1 E H1. destruct post as [|o1 post] using rev_ind.
        * rewrite app_nil_r in E. subst pre. rewrite Hnow in H1. injection H1 as <- _. lia.
        * rewrite app_assoc in E. apply app_inj_tail in E as [E _]. destruct (I5 pre post s1 rs1 E H1). rewrite asked_app. lia.
      + intros n Hn. destruct (Hg n) as (_ & G2 & _); [eapply Hn; [symmetry; apply app_nil_r|exact Hnow]|].
        assert (tt_cap (pq_queue s) <= Nat.max 16 (4 * n)); [|lia]. apply I6. intros pre post s1 rs1 E H1. eapply (Hn pre (post ++ [o])); eauto. now rewrite E, app_assoc.
  Qed.
  Lemma reached_cap ops s rs : legal P pdata lt sup ops s rs -> tt_cap (pq_queue s) <> 0.
  Proof. intros Hl. pose proof (reached_pinv pdata lt sup sw _ _ _ Hl) as Hi. destruct (k_inv _ _ _ _ _ _ (p_core _ _ _ _ Hi)) as ((_ & H) & _). lia. Qed.
  Lemma mrun_fst : forall ops s a m rs, run mstep (s, a) ops = Ok (m, rs) -> run step s ops = Ok (fst m, rs).
  Proof.
    induction ops as [|o ops IH]; intros s a m rs H; cbn [run] in *; [now injection H as <- <-|].
    apply bind_inv in H as ([m1 r] & H & H2). apply bind_inv in H2 as ([m2 rs2] & H2 & E). injection E as <- <-.
    unfold pm_step in H. apply bind_inv in H as ([s1 r1] & H & E). injection E as <- <-. rewrite H. cbn [bind]. now rewrite (IH _ _ _ _ H2).
  Qed.
  Lemma never_shrinks ops s rs : legal P pdata lt sup ops s rs -> forall pre post m1 rs1 m rs2, ops = pre ++ post ->
    run mstep (pq_new P, 0) pre = Ok (m1, rs1) -> run mstep (pq_new P, 0) ops = Ok (m, rs2) -> pm_getMemoryUse P z m1 <= pm_getMemoryUse P z m.
  Proof.
    intros Hl pre post m1 rs1 m rs2 E H1 H2. destruct (reached_pre _ _ _ _ _ _ Hl pre post E) as (s1 & rs1' & Hl1).
    destruct (memory ops s rs Hl) as (Hr & _ & Hp & _ & Hm & _). destruct (memory pre s1 rs1' Hl1) as (Hr1 & _ & Hp1 & _).
    rewrite Hr in H2. injection H2 as <- _. rewrite Hr1 in H1. injection H1 as <- _. destruct (Hm pre post s1 rs1' E (reached_run _ _ _ _ _ _ Hl1)) as [A B].
    unfold pm_getMemoryUse, tt_getMemoryUse. cbn [fst snd]. rewrite Hp, Hp1. pose proof (Nat.div_le_mono _ _ 2 ltac:(lia) A).
    assert (tt_cap (pq_queue s1) * z_node z <= tt_cap (pq_queue s) * z_node z) by (now apply Nat.mul_le_mono_r).
    assert ((tt_cap (pq_queue s1) / 2 + 2) * z_player z <= (tt_cap (pq_queue s) / 2 + 2) * z_player z) by (apply Nat.mul_le_mono_r; lia). lia.
  Qed.
End Memory.

(** One pair at a time *)
Section OneAtATime.
  Notation step := (pq_step unit (fun _ _ => tt) (fun _ _ => false) false).
  Notation allowed := (fun s => pallowed (fun _ _ => tt) (fun _ _ => false) false (pq_abs false s)).
  Definition idle (count : N) (log : list event) : pairqueue unit := mk_pq (tt_new _) count [] log.
  Fixpoint rounds (n : nat) : list pq_op := match n with 0 => [] | S n => PAdd [0%N] :: PPop :: rounds n end.
  Definition busy (count : N) (log : list event) : pairqueue unit := mk_pq (mk_tt [0] 16 [mk_player (mk_col count [0%N] tt) 1] 10) (count + 1) [] log.
  Lemma add_round count log : (count < index_max)%N -> step (idle count log) (PAdd [0%N]) = Ok (busy count (EConstruct count 0 :: log), PNone).
  Proof.
    intros H. unfold pq_step, pq_add, idle. cbn [pq_count pq_queue pq_ret pq_log]. destruct (N.leb_spec index_max count); [lia|]. cbn [c_create].
    assert (E : to_index count = count) by (unfold to_index; apply N.mod_small; lia). rewrite E.
    replace (if c_big count then map to_index [0%N] else map to_small [0%N]) with [0%N] by (destruct (c_big count); reflexivity). reflexivity.
  Qed.
  Lemma pop_round count log : step (busy count log) PPop = Ok (idle (count + 1) (EDestruct count 0 :: log), PPair (count, 0%N)).
  Proof. reflexivity. Qed.
  Lemma rounds_run : forall n count log, (0 < count)%N -> (count + N.of_nat n <= index_max)%N ->
    exists log' rs, run step (idle count log) (rounds n) = Ok (idle (count + N.of_nat n) log', rs) /\ keeps step allowed (idle count log) (rounds n) /\
    forall pre post s1 rs1, rounds n = pre ++ post -> run step (idle count log) pre = Ok (s1, rs1) -> pq_pairCount unit s1 <= 1.
  Proof.
    induction n as [|n IH]; intros count log H0 Hn.
    - exists log, []. split; [cbn [rounds run]; now rewrite N.add_0_r|]. split; [exact I|]. intros [|? ?] post s1 rs1 E H; [|discriminate]. injection H as <- _. cbn. lia.
    - set (log1 := EDestruct count 0 :: EConstruct count 0 :: log). destruct (IH (count + 1)%N log1 ltac:(lia) ltac:(lia)) as (log' & rs & Hr & Hk & Hp).
      assert (Ha : step (idle count log) (PAdd [0%N]) = Ok (busy count (EConstruct count 0 :: log), PNone)) by (apply add_round; lia).
      exists log', (PNone :: PPair (count, 0%N) :: rs). split; [|split].
      + cbn [rounds run]. rewrite Ha. cbn [bind]. rewrite pop_round. cbn [bind]. fold log1. rewrite Hr. cbn [bind]. now replace (count + 1 + N.of_nat n)%N with (count + N.of_nat (S n))%N by lia.
      + cbn [rounds keeps]. rewrite Ha, pop_round. split.
        * split; [|cbn; repeat split; contradiction]. intros r [<-|[]]. split; [exact H0|reflexivity].
        * split; [|exact Hk]. cbn. discriminate.
      + intros pre post s1 rs1 E H. destruct pre as [|o1 [|o2 pre]].
        * injection H as <- _. cbn. lia.
        * injection E as <- E. cbn [run] in H. rewrite Ha in H. injection H as <- _. cbn. lia.
        * injection E as <- <- E. cbn [run] in H. rewrite Ha in H. cbn [bind] in H. rewrite pop_round in H. cbn [bind] in H. fold log1 in H.
          apply bind_inv in H as ([s2 rs2] & H & E2). injection E2 as <- _. apply bind_inv in H as ([s3 rs3] & H & E3). injection E3 as <- _. eapply Hp; eauto.
  Qed.
  Lemma rounds_columns : forall n, columns (rounds n) = n.
  Proof. induction n as [|n IH]; [reflexivity|]. change (columns (rounds (S n))) with (S (columns (rounds n))). now rewrite IH. Qed.
  Lemma one_at_a_time z n : (N.of_nat n < index_max)%N -> exists ops s rs arena, legal unit (fun _ _ => tt) (fun _ _ => false) false ops s rs /\
    (forall pre post s1 rs1, ops = pre ++ post -> run step (pq_new unit) pre = Ok (s1, rs1) -> pq_pairCount unit s1 <= 1) /\ pq_pairCount unit s = 0 /\
    run (pm_step unit (fun _ _ => tt) (fun _ _ => false) false z) (pq_new unit, 0) ops = Ok ((s, arena), rs) /\ n * z_column z <= arena.
  Proof.
    intros Hn. destruct (rounds_run n 1 [] ltac:(lia) ltac:(lia)) as (log & rs & Hr & Hk & Hp).
    assert (H1 : step (pq_new unit) (PAdd []) = Ok (idle 1 [], PNone)) by reflexivity.
    assert (Hl : legal unit (fun _ _ => tt) (fun _ _ => false) false (PAdd [] :: rounds n) (idle (1 + N.of_nat n) log) (PNone :: rs)).
    { apply keeps_reached.
      - cbn [run]. rewrite H1. cbn [bind]. now rewrite Hr.
      - cbn [keeps]. rewrite H1. split; [|exact Hk]. split; [intros r []|exact I]. }
    exists (PAdd [] :: rounds n), (idle (1 + N.of_nat n) log), (PNone :: rs), (asked z 0 (PAdd [] :: rounds n)).
    split; [exact Hl|]. split; [|split; [reflexivity|split]].
    - intros [|o pre] post s1 rs1 E H; [injection H as <- _; cbn; lia|]. injection E as <- E. cbn [run] in H. rewrite H1 in H. cbn [bind] in H.
      apply bind_inv in H as ([s2 rs2] & H & E2). injection E2 as <- _. eapply Hp; eauto.
    - eapply memory; [|exact Hl]. split; intros; try discriminate; auto.
    - destruct (asked_bounds z (PAdd [] :: rounds n) 0) as [H _]. change (columns (PAdd [] :: rounds n)) with (columns (rounds n)) in H. rewrite rounds_columns in H. lia.
  Qed.
End OneAtATime.
