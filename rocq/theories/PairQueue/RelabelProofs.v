(** Lemmas for C112: PairQueue commutes with functions on pair data that the configuration does not notice. *)
From Coq Require Import List Arith NArith Bool String.
From Verif.Base Require Import Res Arr.
From Verif.TourTree Require Import Model.
From Verif.PairQueue Require Import Model.
From Verif.Queues Require Import RelabelProofs.
Import ListNotations.

Section Relabel.
  Context {P Q : Type} (f : P -> Q) (pdata : N -> N -> P) (pdata' : N -> N -> Q) (lt : N * N * P -> N * N * P -> bool) (lt' : N * N * Q -> N * N * Q -> bool) (sr : bool).
  Hypothesis Hpd : forall c r, pdata' c r = f (pdata c r).
  Hypothesis Hlt : forall c r p d s q, lt' (c, r, f p) (d, s, f q) = lt (c, r, p) (d, s, q).

  Definition colmap (c : column P) : column Q := mk_col (c_col c) (c_rows c) (f (c_pd c)).
  Notation qmap := (tmap colmap).
  Definition pqmap (s : pairqueue P) : pairqueue Q := mk_pq (qmap (pq_queue s)) (pq_count s) (pq_ret s) (pq_log s).
  Definition pqout_map (r : pq_out P) : pq_out Q :=
    match r with PNone => PNone | PPair p => PPair p | PPairData p d => PPairData p (f d) | PBool b => PBool b | PNat n => PNat n | PIndex n => PIndex n end.

  Lemma col_lt_map a b : col_lt Q lt' (colmap a) (colmap b) = col_lt P lt a b.
  Proof. apply Hlt. Qed.
  Lemma create_map col rows : c_create Q pdata' col rows = rmap (fun p => (colmap (fst p), snd p)) (c_create P pdata col rows).
  Proof. destruct rows; [reflexivity|]. cbn. now rewrite Hpd. Qed.
  Lemma increment_map ret c : c_increment Q pdata' sr ret (colmap c) = rmap (fun p => (option_map colmap (fst p), snd p)) (c_increment P pdata sr ret c).
  Proof. unfold c_increment. cbn [colmap c_rows c_col]. destruct (c_rows c); [reflexivity|]. go. destruct a as [[|r rows'] prev]; [reflexivity|]. cbn. now rewrite Hpd. Qed.
  Lemma top_map q : tt_top _ (qmap q) = rmap colmap (tt_top _ q).
  Proof. unfold tt_top. cbn [tmap tt_tree tt_players]. go. rewrite vget_map. go. reflexivity. Qed.
  Lemma forAll_map q : tt_forAll _ (qmap q) = map colmap (tt_forAll _ q).
  Proof. unfold tt_forAll. cbn [tmap tt_players]. now rewrite !map_map. Qed.
  Lemma tt_empty_map q : tt_empty _ (qmap q) = tt_empty _ q.
  Proof. reflexivity. Qed.
  Lemma pairCount_map s : pq_pairCount Q (pqmap s) = pq_pairCount P s.
  Proof.
    unfold pq_pairCount. cbn [pqmap pq_queue]. rewrite forAll_map. generalize 0%nat. induction (tt_forAll _ (pq_queue s)) as [|c l IH]; intros n; cbn [fold_left map]; [reflexivity|]. apply IH.
  Qed.
  Lemma add_map s rows : pq_add Q pdata' lt' sr (pqmap s) rows = rmap pqmap (pq_add P pdata lt sr s rows).
  Proof.
    unfold pq_add. cbv zeta. cbn [pqmap pq_queue pq_count pq_ret pq_log]. destruct (_ <=? _)%N; [reflexivity|]. destruct rows as [|r rows]; [reflexivity|]. rewrite create_map. go. destruct a as [c e]. cbn [fst snd].
    rewrite (tt_push_map colmap (col_lt P lt) (col_lt Q lt') col_lt_map). go. reflexivity.
  Qed.
  Lemma pop_round_map q ret log c : pop_round Q pdata' lt' sr (qmap q) ret log (colmap c) = rmap (fun p => (qmap (fst p), snd p)) (pop_round P pdata lt sr q ret log c).
  Proof.
    unfold pop_round. change (c_col (colmap c)) with (c_col c). go. destruct (_ || _)%bool.
    - rewrite increment_map. go. destruct a0 as [[c'|] e]; cbn [fst snd option_map].
      + rewrite (tt_decreaseTop_map colmap (col_lt P lt) (col_lt Q lt') col_lt_map). go. reflexivity.
      + rewrite (tt_pop_map colmap (col_lt P lt) (col_lt Q lt') col_lt_map). go. now destruct a0.
    - change (c_rowIndex Q (colmap c)) with (c_rowIndex P c). go. rewrite (tt_pop_map colmap (col_lt P lt) (col_lt Q lt') col_lt_map). go. now destruct a1.
  Qed.
  Lemma pop_loop_map n : forall q ret log c, pop_loop Q pdata' lt' sr n (qmap q) ret log (colmap c) = rmap (fun p => (qmap (fst p), snd p)) (pop_loop P pdata lt sr n q ret log c).
  Proof.
    induction n as [|n IH]; intros; cbn [pop_loop]; [reflexivity|]. rewrite pop_round_map. go. destruct a as [q' log']. cbn [fst snd]. rewrite tt_empty_map. destruct (_ || _)%bool; [reflexivity|]. rewrite top_map. go.
    change (c_col (colmap a)) with (c_col a). change (c_rowIndex Q (colmap a)) with (c_rowIndex P a). go. go. destruct a1; [apply IH|reflexivity].
  Qed.
  Lemma pqpop_map s : pq_pop Q pdata' lt' sr (pqmap s) = rmap pqmap (pq_pop P pdata lt sr s).
  Proof. unfold pq_pop. rewrite pairCount_map. cbn [pqmap pq_queue pq_count pq_ret pq_log]. rewrite top_map. go. rewrite pop_loop_map. go. now destruct a0. Qed.
  Lemma topPair_map s : pq_topPair Q (pqmap s) = pq_topPair P s.
  Proof. unfold pq_topPair. cbn [pqmap pq_queue]. rewrite top_map. go. reflexivity. Qed.
  Lemma topPairData_map s : pq_topPairData Q (pqmap s) = rmap f (pq_topPairData P s).
  Proof. unfold pq_topPairData. cbn [pqmap pq_queue]. rewrite top_map. go. reflexivity. Qed.
  Lemma retire_map s i : pq_retireIndex Q pdata' lt' sr (pqmap s) i = rmap pqmap (pq_retireIndex P pdata lt sr s i).
  Proof.
    unfold pq_retireIndex. cbn [pqmap pq_queue pq_count pq_ret pq_log]. go. cbv zeta. change (mk_pq (qmap (pq_queue s)) (pq_count s) a (pq_log s)) with (pqmap (mk_pq (pq_queue s) (pq_count s) a (pq_log s))).
    set (s' := mk_pq (pq_queue s) (pq_count s) a (pq_log s)). change (pq_empty Q (pqmap s')) with (pq_empty P s'). destruct (pq_empty P s'); [reflexivity|]. rewrite topPair_map. go. destruct (_ || _)%bool; [apply pqpop_map|reflexivity].
  Qed.
  Lemma pq_step_map s o : pq_step Q pdata' lt' sr (pqmap s) o = rmap (fun p => (pqmap (fst p), pqout_map (snd p))) (pq_step P pdata lt sr s o).
  Proof.
    destruct o; cbn [pq_step].
    - rewrite add_map. go. reflexivity.
    - rewrite topPair_map. go. rewrite pqpop_map. go. reflexivity.
    - rewrite topPair_map. go. rewrite topPairData_map. go. reflexivity.
    - rewrite retire_map. go. reflexivity.
    - cbn [pqmap pq_ret]. go. reflexivity.
    - reflexivity.
    - now rewrite pairCount_map.
    - reflexivity.
  Qed.
  Lemma pq_run_map ops : forall s, run (pq_step Q pdata' lt' sr) (pqmap s) ops = rmap (fun p => (pqmap (fst p), map pqout_map (snd p))) (run (pq_step P pdata lt sr) s ops).
  Proof. induction ops as [|o ops IH]; intros s; cbn [run]; [reflexivity|]. rewrite pq_step_map. go. destruct a as [s1 r]. cbn [fst snd]. rewrite IH. go. now destruct a as [s2 rs]. Qed.
  Lemma destroy_map s : pq_destroy Q (pqmap s) = pq_destroy P s.
  Proof.
    unfold pq_destroy. cbn [pqmap pq_queue pq_log]. rewrite forAll_map. generalize (pq_log s). induction (tt_forAll _ (pq_queue s)) as [|c l IH]; intros n; cbn [fold_left map]; [reflexivity|]. apply IH.
  Qed.
End Relabel.
