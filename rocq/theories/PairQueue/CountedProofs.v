(** Proofs about the counted model of PairQueue. *)
From Coq Require Import List Arith NArith Bool Permutation Lia.
From Verif.Base Require Import Res Order Arr.
From Verif.Spec Require Import PQ Pairs PairsFacts Reach.
From Verif.TourTree Require Import Model Counted.
From Verif.Heap Require Import CountedProofs.
From Verif.TourTree Require CountedProofs Proofs.
From Verif.PairQueue Require Import Model Proofs Counted.
Import ListNotations.
Local Open Scope N_scope.

(** The pairs whose data was computed, latest first. *)
Definition computed (log : list event) : list (N * N) := flat_map (fun e => match computes e with Some p => [p] | None => [] end) log.
(** The columns of a history that have rows. *)
Definition full_columns (ops : list pq_op) : nat := length (filter (fun o => match o with PAdd (_ :: _) => true | _ => false end) ops).

Lemma nodup_prefix {A} (a b : list A) : NoDup (a ++ b) -> NoDup a.
Proof.
  induction a as [|x a IH]; intros H; [constructor|]. cbn [app] in H. inversion H as [|? ? Hni Hnd]; subst. constructor; auto.
  intros Hx. apply Hni, in_or_app. now left.
Qed.

Section Proofs.
  Context {P : Type}.
  Variable pdata : N -> N -> P.
  Variable lt : N * N * P -> N * N * P -> bool.
  Variable sup : bool.
  Hypothesis Hsw : strict_weak lt.
  Notation column := (column P).
  Notation pairqueue := (pairqueue P).
  Notation clt := (col_lt P lt).
  Notation step := (pq_step P pdata lt sup).
  Notation stepc := (pq_step_c P pdata lt sup).
  Notation abs := (pq_abs sup).
  Notation allowed := (pallowed pdata lt sup).
  Notation contents := (@TourTree.Proofs.contents column).
  Notation core := (core pdata lt).
  Notation pinv := (pinv pdata lt sup).

  (** * Forgetting the counter *)
  Lemma pop_round_forget q ret log t n : forget (pop_round_c P pdata lt sup q ret log t n) = pop_round P pdata lt sup q ret log t.
  Proof.
    unfold pop_round_c, pop_round. apply forget_pure; intros d. destruct (negb sup || negb d)%bool.
    - apply forget_pure; intros [[c'|] e].
      + rewrite <- (TourTree.CountedProofs.tt_decreaseTop_forget clt q c' n). destruct (tt_decreaseTop_c _ _ q c' n) as [[? ?]| | |]; reflexivity.
      + rewrite <- (TourTree.CountedProofs.tt_pop_forget clt q n). destruct (tt_pop_c _ _ q n) as [[[? ?] ?]| | |]; reflexivity.
    - apply forget_pure; intros r. rewrite <- (TourTree.CountedProofs.tt_pop_forget clt q n). destruct (tt_pop_c _ _ q n) as [[[? ?] ?]| | |]; reflexivity.
  Qed.
  Lemma pop_loop_forget fuel : forall q ret log t n, forget (pop_loop_c P pdata lt sup fuel q ret log t n) = pop_loop P pdata lt sup fuel q ret log t.
  Proof.
    induction fuel as [|f IH]; intros q ret log t n; auto. cbn [pop_loop_c pop_loop]. rewrite <- (pop_round_forget q ret log t n).
    destruct (pop_round_c P pdata lt sup q ret log t n) as [[[q' log'] n']| | |]; try reflexivity. cbn [forget bind].
    destruct (negb sup || tt_empty _ q')%bool; auto. apply forget_pure; intros t'. apply forget_pure; intros d. apply forget_pure; intros [|]; auto.
  Qed.
  Lemma pq_pop_forget s n : forget (pq_pop_c P pdata lt sup s n) = pq_pop P pdata lt sup s.
  Proof.
    unfold pq_pop_c, pq_pop. apply forget_pure; intros t. rewrite <- (pop_loop_forget _ _ (pq_ret s) (pq_log s) t n).
    destruct (pop_loop_c _ _ _ _ _ _ _ _ t n) as [[[? ?] ?]| | |]; reflexivity.
  Qed.
  Lemma pq_add_forget s rows n : forget (pq_add_c P pdata lt sup s rows n) = pq_add P pdata lt sup s rows.
  Proof.
    unfold pq_add_c, pq_add. destruct (index_max <=? pq_count s); auto. destruct rows as [|r rows]; auto.
    apply forget_pure; intros [c e]. rewrite <- (TourTree.CountedProofs.tt_push_forget clt (pq_queue s) c n). destruct (tt_push_c _ _ _ c n) as [[? ?]| | |]; reflexivity.
  Qed.
  Lemma pq_retire_forget s i n : forget (pq_retireIndex_c P pdata lt sup s i n) = pq_retireIndex P pdata lt sup s i.
  Proof.
    unfold pq_retireIndex_c, pq_retireIndex. apply forget_pure; intros ret. cbn zeta. destruct (pq_empty P _); auto.
    apply forget_pure; intros p. destruct (_ || _)%bool; auto. apply pq_pop_forget.
  Qed.
  Definition drop {A : Type} (m : res (pairqueue * nat * A)) : res (pairqueue * A) := let* (s, _, r) := m in Ok (s, r).
  Lemma pq_step_forget s n o : drop (stepc (s, n) o) = step s o.
  Proof.
    destruct o; cbn [pq_step_c pq_step]; try reflexivity.
    - rewrite <- (pq_add_forget s rows n). destruct (pq_add_c _ _ _ _ s rows n) as [[? ?]| | |]; reflexivity.
    - destruct (pq_topPair P s) as [p| | |]; auto. cbn [bind]. rewrite <- (pq_pop_forget s n). destruct (pq_pop_c _ _ _ _ s n) as [[? ?]| | |]; reflexivity.
    - destruct (pq_topPair P s) as [p| | |]; auto. cbn [bind]. destruct (pq_topPairData P s); reflexivity.
    - rewrite <- (pq_retire_forget s i n). destruct (pq_retireIndex_c _ _ _ _ s i n) as [[? ?]| | |]; reflexivity.
    - destruct (pq_retired sup (pq_ret s) i); reflexivity.
  Qed.
  Lemma pq_run_forget ops : forall s n, drop (run stepc (s, n) ops) = run step s ops.
  Proof.
    induction ops as [|o ops IH]; intros s n; auto. cbn [run]. rewrite <- (pq_step_forget s n o).
    destruct (stepc (s, n) o) as [[[s1 n1] r]| | |]; simpl; auto. rewrite <- (IH s1 n1).
    destruct (run stepc (s1, n1) ops) as [[[s2 n2] rs]| | |]; reflexivity.
  Qed.

  (** * Comparisons *)
  Notation len q := (length (tt_players q)).
  Ltac inv_ok H v E := match type of H with (bind ?m _) = Ok _ => destruct m as [v| | |] eqn:E; cbn [bind] in H; try discriminate H end.

  Lemma log2_le a b : (a <= b -> Nat.log2 a <= Nat.log2 b)%nat.
  Proof. apply Nat.log2_le_mono. Qed.

  Lemma pop_round_count q ret log t n q' log' n' : TourTree.Proofs.inv clt q -> pop_round_c P pdata lt sup q ret log t n = Ok (q', log', n') ->
    (len q' <= len q /\ n' <= n + Nat.log2 (2 * len q - 1))%nat.
  Proof.
    intros Hi H. unfold pop_round_c in H. inv_ok H d Ed.
    assert (Hpop : forall x n1 q1, tt_pop_c _ clt q n = Ok (q1, x, n1) -> (len q1 <= len q /\ n1 <= n + Nat.log2 (2 * len q - 1))%nat).
    { intros x n1 q1 Hp. destruct (TourTree.CountedProofs.tt_pop_count clt (col_lt_sw lt Hsw) q n q1 x n1 Hi Hp) as (_ & Hl & Hn). split; [lia|].
      pose proof (log2_le (2 * len q1 - 1) (2 * len q - 1)). lia. }
    destruct (negb sup || negb d)%bool; inv_ok H p Ep.
    - destruct p as [[c'|] e]; inv_ok H w E1; [destruct w as [q1 n1]|destruct w as [[q1 x] n1]]; injection H as <- <- <-.
      + destruct (TourTree.CountedProofs.tt_decreaseTop_count clt (col_lt_sw lt Hsw) q c' n q1 n1 Hi E1) as (_ & Hl & Hn). lia.
      + eapply Hpop; eauto.
    - inv_ok H p2 E1. destruct p2 as [[q1 x] n2]. injection H as <- <- <-. eapply Hpop; eauto.
  Qed.

  Lemma pop_loop_count cnt ret : ret_ok sup cnt ret -> forall fuel q log t n q' log' n', core cnt ret q log -> tt_top _ q = Ok t ->
    pop_loop_c P pdata lt sup fuel q ret log t n = Ok (q', log', n') ->
    (len q' <= len q /\ total (contents q') <= total (contents q) /\
     n' <= n + (total (contents q) - total (contents q')) * Nat.log2 (2 * len q - 1))%nat.
  Proof.
    intros Hr. induction fuel as [|f IH]; intros q log t n q' log' n' Hk Ht H; cbn [pop_loop_c] in H; [discriminate|].
    destruct (pop_round_spec pdata lt sup Hsw cnt ret q log t Hr Hk Ht) as (q1 & log1 & e & Hround & Hk1 & _ & Htot & _).
    pose proof (pop_round_forget q ret log t n) as Hf. rewrite Hround in Hf. inv_ok H p E. destruct p as [[q1' log1'] n1]. injection Hf as -> ->.
    destruct (pop_round_count _ _ _ _ _ _ _ _ (k_inv _ _ _ _ _ _ Hk) E) as [Hl Hn].
    assert (Hone : (n1 <= n + (total (contents q) - total (contents q1)) * Nat.log2 (2 * len q - 1))%nat) by nia.
    destruct (negb sup || tt_empty _ q1)%bool; [injection H as <- <- <-; lia|].
    inv_ok H t1 E0. inv_ok H d1 E1. inv_ok H again E2. destruct again; [|injection H as <- <- <-; lia].
    destruct (IH _ _ _ _ _ _ _ Hk1 E0 H) as (Hl2 & Ht2 & Hn2). split; [lia|]. split; [lia|].
    pose proof (log2_le (2 * len q1 - 1) (2 * len q - 1)) as Hlog.
    assert (((total (contents q1) - total (contents q')) * Nat.log2 (2 * len q1 - 1) <= (total (contents q1) - total (contents q')) * Nat.log2 (2 * len q - 1))%nat)
      by (apply Nat.mul_le_mono_l; lia).
    nia.
  Qed.

  Lemma pop_count s n s' n' : pinv s -> pq_pop_c P pdata lt sup s n = Ok (s', n') ->
    (len (pq_queue s') <= len (pq_queue s) /\ pq_pairCount P s' <= pq_pairCount P s /\
     n' <= n + (pq_pairCount P s - pq_pairCount P s') * Nat.log2 (2 * len (pq_queue s) - 1))%nat.
  Proof.
    intros Hi H. unfold pq_pop_c in H. inv_ok H t Et. inv_ok H w Ew. destruct w as [[q log] n1]. injection H as <- <-.
    exact (pop_loop_count _ _ (p_ret _ _ _ _ Hi) _ _ _ _ _ _ _ _ (p_core _ _ _ _ Hi) Et Ew).
  Qed.

  Lemma retire_count s i n s' n' : pinv s -> i < pq_count s -> pq_retireIndex_c P pdata lt sup s i n = Ok (s', n') ->
    (len (pq_queue s') <= len (pq_queue s) /\ pq_pairCount P s' <= pq_pairCount P s /\
     n' <= n + (pq_pairCount P s - pq_pairCount P s') * Nat.log2 (2 * len (pq_queue s) - 1))%nat.
  Proof.
    intros Hi Hlt H. unfold pq_retireIndex_c in H. inv_ok H ret Er. cbn zeta in H.
    assert (Hr : ret_ok sup (pq_count s) ret).
    { intros Hs. rewrite Hs in Er. pose proof (p_ret _ _ _ _ Hi Hs) as Hl.
      rewrite vset_ok in Er by lia. injection Er as <-. now rewrite upd_length. }
    assert (Hk : core (pq_count s) ret (pq_queue s) (pq_log s)) by (destruct (p_core _ _ _ _ Hi); split; auto).
    destruct (pq_empty P _). { injection H as <- <-. cbn [pq_queue]. unfold pq_pairCount. cbn [pq_queue]. lia. }
    inv_ok H p Ep. destruct (_ || _)%bool; [|injection H as <- <-; cbn [pq_queue]; unfold pq_pairCount; cbn [pq_queue]; lia].
    unfold pq_pop_c in H. cbn [pq_queue pq_ret pq_log pq_count] in H. inv_ok H t Et. inv_ok H w Ew. destruct w as [[q log] n1]. injection H as <- <-.
    exact (pop_loop_count _ _ Hr _ _ _ _ _ _ _ _ Hk Et Ew).
  Qed.

  Lemma add_count s rows n s' n' : pinv s -> allowed (abs s) (PAdd rows) -> pq_add_c P pdata lt sup s rows n = Ok (s', n') ->
    (len (pq_queue s') = len (pq_queue s) + (match rows with [] => 0 | _ => 1 end) /\ pq_pairCount P s' = pq_pairCount P s + length rows /\
     n' <= n + match rows with [] => 0 | _ => Nat.log2 (2 * len (pq_queue s) + 1) end)%nat.
  Proof.
    intros Hi Ha H. unfold pq_add_c in H.
    destruct (N.leb_spec index_max (pq_count s)) as [|Hlt]; [discriminate|]. destruct rows as [|r0 rows0] eqn:Hr0.
    { injection H as <- <-. cbn [pq_queue length]. unfold pq_pairCount; cbn [pq_queue]. lia. }
    rewrite <- Hr0 in *. rewrite (to_index_id pdata (pq_count s)) in H by lia. destruct Ha as [Hrows _]. cbn [cols pq_abs] in Hrows.
    rewrite create_ok in H; [|congruence|intros r Hr; now apply Hrows|lia].
    cbn [bind] in H. set (c := mk_col (pq_count s) rows _) in *.
    destruct (TourTree.Proofs.push_spec clt (col_lt_sw lt Hsw) (pq_queue s) c (k_inv _ _ _ _ _ _ (p_core _ _ _ _ Hi))) as (q & Hq & _ & Hqp & _).
    inv_ok H w Ew. destruct w as [q1 n1]. injection H as <- <-. cbn [pq_queue].
    destruct (TourTree.CountedProofs.tt_push_count clt (col_lt_sw lt Hsw) _ _ _ _ _ (k_inv _ _ _ _ _ _ (p_core _ _ _ _ Hi)) Ew) as (_ & Hl & Hn).
    pose proof (TourTree.CountedProofs.tt_push_forget clt (pq_queue s) c n) as Hf2. rewrite Ew, Hq in Hf2. injection Hf2 as ->.
    split; [auto|]. split; [|auto].
    change (total (contents q) = total (contents (pq_queue s)) + length rows)%nat. rewrite (total_perm _ _ Hqp), total_cons. cbn [c c_rows]. lia.
  Qed.

  Lemma call_count s o s' r n : pinv s -> allowed (abs s) o -> step s o = Ok (s', r) -> exists n', stepc (s, n) o = Ok (s', n', r) /\
    let k := len (pq_queue s) in let k' := len (pq_queue s') in let m := pq_pairCount P s in let m' := pq_pairCount P s' in
    match o with
    | PAdd [] => k' = k /\ m' = m /\ n' = n
    | PAdd rows => (k' = k + 1 /\ m' = m + length rows /\ n' <= n + Nat.log2 (2 * k + 1))%nat
    | PPop | PRetire _ => (k' <= k /\ m' <= m /\ n' <= n + (m - m') * Nat.log2 (2 * k - 1))%nat
    | _ => k' = k /\ m' = m /\ n' = n
    end.
  Proof.
    intros Hi Ha H. pose proof (pq_step_forget s n o) as Hf. rewrite H in Hf.
    destruct (stepc (s, n) o) as [[[s1 n1] r1]| | |] eqn:E; try discriminate. injection Hf as -> ->. exists n1. split; auto. cbn zeta.
    destruct o as [rows| | |i|i| | |]; cbn [pq_step_c pq_step] in E.
    - inv_ok E w Ew. destruct w as [s2 n2]. injection E as -> -> _. pose proof (add_count _ _ _ _ _ Hi Ha Ew) as (H1 & H2 & H3).
      pose proof (pq_add_forget s rows n) as Hf. rewrite Ew in Hf. destruct rows; cbn [length] in *; [|lia].
      assert (n1 = n); [|lia]. unfold pq_add_c in Ew. destruct (index_max <=? pq_count s); [discriminate|]. injection Ew as _ <-. reflexivity.
    - inv_ok E p Ep. inv_ok E w Ew. destruct w as [s2 n2]. injection E as -> -> _. eapply pop_count; eauto.
    - inv_ok E w Ew. destruct w as [s2 r2]. injection E as -> <- _. inv_ok Ew p Ep. inv_ok Ew d Ed. injection Ew as <- _. auto.
    - inv_ok E w Ew. destruct w as [s2 n2]. injection E as -> -> _. destruct Ha as [Ha _]. cbn [cols pq_abs] in Ha. eapply retire_count; eauto.
    - inv_ok E w Ew. destruct w as [s2 r2]. injection E as -> <- _. inv_ok Ew b Eb. injection Ew as <- _. auto.
    - cbn [bind] in E. injection E as <- <- _. auto.
    - cbn [bind] in E. injection E as <- <- _. auto.
    - cbn [bind] in E. injection E as <- <- _. auto.
  Qed.

  Notation reached := (reached step (fun s => allowed (abs s)) (pq_new P)).

  Lemma full_columns_snoc ops o : full_columns (ops ++ [o]) = (full_columns ops + match o with PAdd (_ :: _) => 1 | _ => 0 end)%nat.
  Proof. unfold full_columns. rewrite filter_app, app_length. f_equal. destruct o as [[|]| | | | | | |]; reflexivity. Qed.

  Lemma run_snoc {S O R} (st : S -> O -> res (S * R)) ops : forall s s1 rs o s2 r, run st s ops = Ok (s1, rs) -> st s1 o = Ok (s2, r) ->
    run st s (ops ++ [o]) = Ok (s2, rs ++ [r]).
  Proof. intros. eapply run_one; eauto. Qed.

  Lemma history_count L ops s rs : reached ops s rs -> (Nat.log2 (2 * full_columns ops) <= L)%nat ->
    exists n, run stepc (pq_new P, 0%nat) ops = Ok (s, n, rs) /\ (len (pq_queue s) <= full_columns ops)%nat /\
      (n + pq_pairCount P s * L <= (full_columns ops + length (handed 0 ops)) * L)%nat.
  Proof.
    induction 1 as [|ops s rs o s' r Hr IH Ha Hst]; intros HL.
    - exists 0%nat. split; [reflexivity|]. cbn. lia.
    - rewrite full_columns_snoc in HL. destruct IH as (n & Hrun & Hlen & Hn).
      { etransitivity; [|exact HL]. apply log2_le. lia. }
      pose proof (reached_pinv pdata lt sup Hsw ops s rs Hr) as Hi.
      destruct (call_count s o s' r n Hi Ha Hst) as (n' & Hc & Hb). exists n'. split; [eapply run_one; eauto|]. cbn zeta in Hb.
      rewrite full_columns_snoc, handed_app, app_length.
      assert (Hq : forall m m' k k', (k <= full_columns ops)%nat -> (m' <= m /\ k' <= k /\ n' <= n + (m - m') * Nat.log2 (2 * k - 1))%nat ->
        (n + m * L <= (full_columns ops + length (handed 0 ops)) * L)%nat -> (Nat.log2 (2 * full_columns ops) <= L)%nat ->
        (k' <= full_columns ops + 0 /\ n' + m' * L <= (full_columns ops + 0 + (length (handed 0 ops) + 0)) * L)%nat).
      { intros m m' k k' Hk (Hm & Hk' & Hn') Hnm HL'. split; [lia|]. pose proof (log2_le (2 * k - 1) (2 * full_columns ops)) as Hlog.
        assert ((m - m') * Nat.log2 (2 * k - 1) <= (m - m') * L)%nat by (apply Nat.mul_le_mono_l; lia).
        assert ((m - m') * L + m' * L = m * L)%nat by nia. lia. }
      destruct o as [[|r0 rows]| | |i|i| | |]; cbn [handed length app map] in *; rewrite ?Nat.add_0_r in *; try (destruct Hb as (Hb1 & Hb2 & Hb3)).
      + rewrite Hb1, Hb2, Hb3. auto.
      + rewrite Hb2. split; [lia|]. rewrite app_nil_r, map_length. pose proof (log2_le (2 * len (pq_queue s) + 1) (2 * (full_columns ops + 1))). cbn [length]. nia.
      + eapply (Hq (pq_pairCount P s) (pq_pairCount P s') (len (pq_queue s)) (len (pq_queue s'))); eauto.
      + rewrite Hb1, Hb2, Hb3. auto.
      + eapply (Hq (pq_pairCount P s) (pq_pairCount P s') (len (pq_queue s)) (len (pq_queue s'))); eauto.
      + rewrite Hb1, Hb2, Hb3. auto.
      + rewrite Hb1, Hb2, Hb3. auto.
      + rewrite Hb1, Hb2, Hb3. auto.
      + rewrite Hb1, Hb2, Hb3. auto.
  Qed.

  (** * Computed pair data *)
  Definition waiting1 (c : column) : list (N * N) := map (pair (c_col c)) (tl (c_rows c)).
  Definition waiting (q : tourtree column) : list (N * N) := flat_map waiting1 (contents q).
  Definition event_pair (e : event) : list (N * N) := match computes e with Some p => [p] | None => [] end.

  Lemma waiting_perm q l : Permutation (contents q) l -> Permutation (waiting q) (flat_map waiting1 l).
  Proof. apply Permutation_flat_map. Qed.

  Lemma skip_suffix ret : forall rows prev rows' prev', skip_rows sup ret prev rows = Ok (rows', prev') -> exists d, rows = d ++ rows'.
  Proof.
    induction rows as [|r rows IH]; intros prev rows' prev' H; cbn [skip_rows] in H.
    - injection H as <- _. now exists [].
    - inv_ok H d Ed. destruct d.
      + destruct (IH _ _ _ H) as [d ->]. now exists (r :: d).
      + injection H as <- _. now exists [].
  Qed.

  Lemma increment_waiting ret c c' e : c_increment P pdata sup ret c = Ok (c', e) ->
    exists d, Permutation (waiting1 c) (event_pair e ++ flat_map waiting1 (opt_list c') ++ d).
  Proof.
    intros H. unfold c_increment in H. unfold waiting1 at 1. destruct (c_rows c) as [|r rows]; [discriminate|]. cbn [tl].
    inv_ok H w Ew. destruct w as [rows' prev]. destruct (skip_suffix _ _ _ _ _ Ew) as [d ->]. exists (map (pair (c_col c)) d). rewrite map_app.
    destruct rows' as [|r' rows']; injection H as <- <-; cbn [event_pair computes opt_list flat_map app].
    - now rewrite app_nil_r.
    - unfold waiting1. cbn [c_col c_rows tl]. rewrite app_nil_r. rewrite Permutation_app_comm. reflexivity.
  Qed.

  Lemma pop_round_waiting cnt ret q log t q' log' : core cnt ret q log -> tt_top _ q = Ok t -> pop_round P pdata lt sup q ret log t = Ok (q', log') ->
    exists e d, log' = e :: log /\ Permutation (waiting q) (event_pair e ++ waiting q' ++ d).
  Proof.
    intros Hk Ht H. pose proof (k_inv _ _ _ _ _ _ Hk) as Hi. destruct (top_in lt Hsw q t Hi Ht) as [Hne _].
    destruct (TourTree.Proofs.pop_spec clt (col_lt_sw lt Hsw) q Hi Hne) as (q1 & t1 & Hpop & _ & _ & Hp1 & Ht1).
    assert (t1 = t) as -> by congruence. unfold pop_round in H. inv_ok H d0 Ed. destruct (negb sup || negb d0)%bool; inv_ok H w Ew.
    - destruct w as [c' e]. destruct (increment_waiting _ _ _ _ Ew) as [d Hd]. exists e, d. destruct c' as [c'|].
      + destruct (TourTree.Proofs.decreaseTop_spec clt (col_lt_sw lt Hsw) q c' Hi Hne) as (q2 & t2 & m & Hdec & _ & Hp2 & _ & Hp2' & Ht2).
        assert (t2 = t) as -> by congruence. rewrite Hdec in H. injection H as <- <-. split; auto.
        rewrite (waiting_perm _ _ Hp2), (waiting_perm _ _ Hp2'). cbn [flat_map]. rewrite Hd. cbn [opt_list flat_map]. rewrite app_nil_r, <- !app_assoc.
        apply Permutation_app_head, Permutation_app_head, Permutation_app_comm.
      + rewrite Hpop in H. injection H as <- <-. split; auto. rewrite (waiting_perm _ _ Hp1). cbn [flat_map]. rewrite Hd. cbn [opt_list flat_map app].
        rewrite <- app_assoc. apply Permutation_app_head, Permutation_app_comm.
    - rewrite Hpop in H. injection H as <- <-. eexists _, (waiting1 t). split; [reflexivity|]. rewrite (waiting_perm _ _ Hp1). cbn [flat_map event_pair computes app].
      apply Permutation_app_comm.
  Qed.

  Lemma pop_loop_waiting cnt ret : ret_ok sup cnt ret -> forall fuel q log t q' log', core cnt ret q log -> tt_top _ q = Ok t ->
    pop_loop P pdata lt sup fuel q ret log t = Ok (q', log') ->
    exists new d, log' = new ++ log /\ Permutation (waiting q) (computed new ++ waiting q' ++ d).
  Proof.
    intros Hr. induction fuel as [|f IH]; intros q log t q' log' Hk Ht H; cbn [pop_loop] in H; [discriminate|].
    destruct (pop_round_spec pdata lt sup Hsw cnt ret q log t Hr Hk Ht) as (q1 & log1 & e0 & Hround & Hk1 & _).
    destruct (pop_round_waiting _ _ _ _ _ _ _ Hk Ht Hround) as (e & d & -> & Hp). rewrite Hround in H. cbn [bind] in H.
    assert (Hone : exists new d, e :: log = new ++ log /\ Permutation (waiting q) (computed new ++ waiting q1 ++ d)).
    { exists [e], d. split; auto. unfold computed. cbn [flat_map]. now rewrite app_nil_r. }
    destruct (negb sup || tt_empty _ q1)%bool; [injection H as <- <-; auto|].
    inv_ok H t1 E0. inv_ok H d1 E1. inv_ok H again E2. destruct again; [|injection H as <- <-; auto].
    destruct (IH _ _ _ _ _ Hk1 E0 H) as (new & d2 & -> & Hp2). exists (new ++ [e]), (d2 ++ d). split; [now rewrite <- app_assoc|].
    rewrite Hp, Hp2. unfold computed. rewrite flat_map_app. cbn [flat_map]. rewrite app_nil_r. fold (event_pair e) (computed new). rewrite !app_assoc.
    rewrite (Permutation_app_comm (event_pair e)). reflexivity.
  Qed.

  Lemma step_waiting s o s' r : pinv s -> allowed (abs s) o -> step s o = Ok (s', r) ->
    exists new d, pq_log s' = new ++ pq_log s /\
      Permutation (handed (pq_count s) [o] ++ waiting (pq_queue s)) (computed new ++ waiting (pq_queue s') ++ d).
  Proof.
    intros Hi Ha H.
    assert (Hsame : s' = s -> handed (pq_count s) [o] = [] -> exists new d, pq_log s' = new ++ pq_log s /\
      Permutation (handed (pq_count s) [o] ++ waiting (pq_queue s)) (computed new ++ waiting (pq_queue s') ++ d)).
    { intros -> ->. exists [], []. split; auto. cbn. now rewrite app_nil_r. }
    destruct o as [rows| | |i|i| | |]; cbn [pq_step] in H.
    - inv_ok H w Ew. injection H as -> _. unfold pq_add in Ew. destruct (N.leb_spec index_max (pq_count s)) as [|Hlt]; [discriminate|].
      destruct rows as [|r0 rows0] eqn:Hr0.
      { injection Ew as <-. exists [], []. split; auto. cbn. now rewrite app_nil_r. }
      rewrite <- Hr0 in *. rewrite (to_index_id pdata (pq_count s)) in Ew by lia. destruct Ha as [Hrows _]. cbn [cols pq_abs] in Hrows.
      rewrite create_ok in Ew; [|congruence|intros x Hx; now apply Hrows|lia]. cbn [bind] in Ew. set (c := mk_col (pq_count s) rows _) in *.
      destruct (TourTree.Proofs.push_spec clt (col_lt_sw lt Hsw) (pq_queue s) c (k_inv _ _ _ _ _ _ (p_core _ _ _ _ Hi))) as (q & Hq & _ & Hqp & _).
      rewrite Hq in Ew. injection Ew as <-. cbn [pq_log pq_queue]. eexists [_], []. split; [reflexivity|].
      rewrite (waiting_perm _ _ Hqp). cbn [handed flat_map computed computes app]. unfold waiting1 at 1. cbn [c c_col c_rows]. rewrite Hr0. cbn [map tl hd].
      rewrite !app_nil_r. reflexivity.
    - inv_ok H p Ep. inv_ok H w Ew. injection H as -> _. unfold pq_pop in Ew. inv_ok Ew t Et. inv_ok Ew v Ev. destruct v as [q log]. injection Ew as <-.
      exact (pop_loop_waiting _ _ (p_ret _ _ _ _ Hi) _ _ _ _ _ _ (p_core _ _ _ _ Hi) Et Ev).
    - inv_ok H p Ep. inv_ok H d Ed. injection H as <- _. auto.
    - inv_ok H w Ew. injection H as -> _. destruct Ha as [Ha _]. cbn [cols pq_abs] in Ha. unfold pq_retireIndex in Ew. inv_ok Ew ret Er. cbn zeta in Ew.
      assert (Hr : ret_ok sup (pq_count s) ret).
      { intros Hs. rewrite Hs in Er. pose proof (p_ret _ _ _ _ Hi Hs) as Hl. rewrite vset_ok in Er by lia. injection Er as <-. now rewrite upd_length. }
      assert (Hk : core (pq_count s) ret (pq_queue s) (pq_log s)) by (destruct (p_core _ _ _ _ Hi); split; auto).
      assert (Hs0 : exists new d, pq_log s = new ++ pq_log s /\ Permutation ([] ++ waiting (pq_queue s)) (computed new ++ waiting (pq_queue s) ++ d)).
      { exists [], []. split; auto. cbn. now rewrite app_nil_r. }
      destruct (pq_empty P _); [injection Ew as <-; exact Hs0|]. inv_ok Ew p Ep. destruct (_ || _)%bool; [|injection Ew as <-; exact Hs0].
      unfold pq_pop in Ew. cbn [pq_queue pq_ret pq_log pq_count] in Ew. inv_ok Ew t Et. inv_ok Ew v Ev. destruct v as [q log]. injection Ew as <-.
      exact (pop_loop_waiting _ _ Hr _ _ _ _ _ _ Hk Et Ev).
    - inv_ok H b Eb. injection H as <- _. auto.
    - injection H as <- _. auto.
    - injection H as <- _. auto.
    - injection H as <- _. auto.
  Qed.

  Lemma step_count s o s' r : step s o = Ok (s', r) -> pq_count s' = columns (pq_count s) [o].
  Proof.
    intros H. destruct o as [rows| | |i|i| | |]; cbn [pq_step columns] in *.
    - inv_ok H w Ew. injection H as -> _. unfold pq_add in Ew. destruct (_ <=? _); [discriminate|]. destruct rows; [injection Ew as <-; auto|].
      inv_ok Ew c Ec. destruct c as [c e]. inv_ok Ew q Eqq. injection Ew as <-. auto.
    - inv_ok H p Ep. inv_ok H w Ew. injection H as -> _. unfold pq_pop in Ew. inv_ok Ew t Et. inv_ok Ew v Ev. destruct v as [q log]. injection Ew as <-. auto.
    - inv_ok H p Ep. inv_ok H d Ed. injection H as <- _. auto.
    - inv_ok H w Ew. injection H as -> _. unfold pq_retireIndex in Ew. inv_ok Ew ret Er. cbn zeta in Ew. destruct (pq_empty P _); [injection Ew as <-; auto|].
      inv_ok Ew p Ep. destruct (_ || _)%bool; [|injection Ew as <-; auto].
      unfold pq_pop in Ew. inv_ok Ew t Et. inv_ok Ew v Ev. destruct v as [q log]. injection Ew as <-. auto.
    - inv_ok H b Eb. injection H as <- _. auto.
    - injection H as <- _. auto.
    - injection H as <- _. auto.
    - injection H as <- _. auto.
  Qed.

  Lemma ledger ops s rs : reached ops s rs -> pq_count s = columns 0 ops /\
    exists d, Permutation (handed 0 ops) (computed (pq_log s) ++ waiting (pq_queue s) ++ d).
  Proof.
    induction 1 as [|ops s rs o s' r Hr [Hc (d & IH)] Ha Hst]; [split; [reflexivity|now exists []]|].
    split. { rewrite columns_app, <- Hc. eapply step_count; eauto. }
    destruct (step_waiting s o s' r (reached_pinv pdata lt sup Hsw ops s rs Hr) Ha Hst) as (new & d2 & Hlog & Hp).
    exists (d2 ++ d). rewrite handed_app, <- Hc, IH, Hlog. unfold computed at 2. rewrite flat_map_app. fold (computed new) (computed (pq_log s)).
    transitivity (computed (pq_log s) ++ (handed (pq_count s) [o] ++ waiting (pq_queue s)) ++ d).
    - rewrite <- !app_assoc. apply Permutation_app_head. rewrite !app_assoc. rewrite (Permutation_app_comm _ (handed _ _)). now rewrite !app_assoc.
    - rewrite Hp. rewrite <- !app_assoc. rewrite !(app_assoc (computed _)). apply Permutation_app_tail, Permutation_app_comm.
  Qed.

  Lemma waiting_total q : (forall c, In c (contents q) -> c_rows c <> []) -> (length (waiting q) + len q = total (contents q))%nat.
  Proof.
    assert (Hl : len q = length (contents q)) by (unfold TourTree.Proofs.contents; now rewrite map_length). rewrite Hl. clear Hl. unfold waiting.
    induction (contents q) as [|c l IH]; intros H; [reflexivity|]. rewrite total_cons. cbn [flat_map length]. rewrite app_length.
    rewrite <- IH by (intros; apply H; now right). unfold waiting1 at 1. rewrite map_length. specialize (H c (or_introl eq_refl)). destruct (c_rows c); [congruence|].
    cbn [tl length]. lia.
  Qed.

  Lemma computed_once ops s rs : reached ops s rs ->
    (exists rest, Permutation (handed 0 ops) (computed (pq_log s) ++ rest)) /\
    (length (computed (pq_log s)) + pq_pairCount P s <= length (handed 0 ops) + len (pq_queue s))%nat.
  Proof.
    intros H. destruct (ledger _ _ _ H) as [_ (d & Hp)]. split; [eauto|]. apply Permutation_length in Hp. rewrite !app_length in Hp.
    pose proof (p_core _ _ _ _ (reached_pinv pdata lt sup Hsw ops s rs H)) as Hk.
    change (pq_pairCount P s) with (total (contents (pq_queue s))). rewrite <- (waiting_total (pq_queue s)); [lia|].
    intros c Hc. apply (k_good _ _ _ _ _ _ Hk c Hc).
  Qed.

  Lemma live_count s : (forall i, dead (abs s) i = false) -> length (live (abs s)) = pq_pairCount P s.
  Proof.
    intros Hd. change (pq_pairCount P s) with (total (contents (pq_queue s))). rewrite total_pairs, abs_live. unfold live_pairs. f_equal.
    induction (flat_map all_pairs (contents (pq_queue s))) as [|p l IH]; simpl; auto.
    assert (Hp : pair_dead sup (pq_ret s) p = false) by (unfold pair_dead; now rewrite <- !abs_dead, !Hd).
    rewrite Hp. simpl. now rewrite IH.
  Qed.

  Lemma pop_log s s' r n : pinv s -> (forall i, dead (abs s) i = false) -> allowed (abs s) PPop -> step s PPop = Ok (s', r) ->
    exists n', stepc (s, n) PPop = Ok (s', n', r) /\ (n' <= n + Nat.log2 (2 * len (pq_queue s) - 1))%nat.
  Proof.
    intros Hi Hd Ha Hst. destruct (call_count s PPop s' r n Hi Ha Hst) as (n' & Hc & _ & _ & Hn). exists n'. split; auto.
    destruct (step_ok pdata lt sup Hsw s PPop Hi Ha) as [(s1 & r1 & Hs1 & Hi1 & Hp & _)|(? & ? & _)]; [|discriminate].
    assert (s1 = s' /\ r1 = r) as [-> ->] by (split; congruence).
    inversion Hp as [|p st' _ Hl _ Hd' [E1 E2] E3| | | | | |]. apply Permutation_length in Hl. cbn [length] in Hl.
    rewrite !live_count in Hl by (auto; intros i; rewrite Hd'; auto). assert (pq_pairCount P s - pq_pairCount P s' = 1)%nat as E by lia. rewrite E in Hn. lia.
  Qed.
End Proofs.
