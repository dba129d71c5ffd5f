From Coq Require Import List Arith NArith Bool Lia String Permutation.
From Verif.Base Require Import Res Arr Order.
From Verif.Spec Require Import PQ PQFacts Reach Pairs.
From Verif.TourTree Require Import Model Proofs PartialProofs Debug DebugProofs.
From Verif.Queues Require Import InPlace.
From Verif.PairQueue Require Import Model Proofs Debug.
Import ListNotations.
Local Open Scope N_scope.
Local Notation length := List.length.

Section Proofs.
  Context {P : Type}.
  Variable pdata : N -> N -> P.
  Variable lt : N * N * P -> N * N * P -> bool.
  Variable sup : bool.
  Hypothesis Hsw : strict_weak lt.
  Notation clt := (col_lt P lt).
  Notation cltd := (col_lt_d P lt).
  Notation column := (column P).
  Notation pairqueue := (pairqueue P).
  Notation contents := (@TourTree.Proofs.contents column).
  Notation tinv := (TourTree.Proofs.inv clt).
  Notation csw := (col_lt_sw lt Hsw).
  Notation good := (good pdata lt).
  Notation core := (core pdata lt).
  Notation ret_ok := (ret_ok sup).
  Notation isdead := (isdead sup).
  Notation step := (pq_step P pdata lt sup).
  Notation stepd := (pq_step_d P pdata lt sup).
  Notation abs := (pq_abs sup).
  Notation allowed := (pallowed pdata lt sup).
  Notation pinv := (pinv pdata lt sup).
  Notation reached := (reached step (fun s => allowed (abs s)) (pq_new P)).

  Lemma good_nonempty cnt c : good cnt c -> negb (c_empty P c) = true.
  Proof. intros [H _ _ _ _]. unfold c_empty. destruct (c_rows c); [congruence|auto]. Qed.
  Lemma good_agree cnt l : (forall c, In c l -> good cnt c) -> agree (fun e : column => e) clt cltd l.
  Proof.
    intros H a b Ha Hb. unfold col_lt_d. rewrite !check_ok by (eapply good_nonempty; eauto). reflexivity.
  Qed.
  Lemma core_agree cnt ret q log : core cnt ret q log -> agree (fun e : column => e) clt cltd (contents q).
  Proof. intros H. apply (good_agree cnt). apply H. Qed.

  Lemma retired_d_ok cnt ret i : ret_ok cnt ret -> i < cnt -> pq_retired_d sup cnt ret i = Ok (isdead ret i).
  Proof. intros Hr Hi. unfold pq_retired_d. rewrite check_ok by now apply N.ltb_lt. cbn [bind]. now apply (retired_ok pdata sup cnt). Qed.
  Lemma retired_opt cnt ret i : ret_ok cnt ret -> i < cnt -> (if sup then pq_retired_d sup cnt ret i else Ok false) = Ok (isdead ret i).
  Proof. intros Hr Hi. pose proof (retired_d_ok cnt ret i Hr Hi) as H. unfold Proofs.isdead in *. destruct sup; auto. Qed.

  Lemma skip_rows_d_ok cnt ret : ret_ok cnt ret -> forall rows prev, (forall r, In r rows -> r < cnt) ->
    skip_rows_d sup cnt ret prev rows = skip_rows sup ret prev rows.
  Proof.
    intros Hr. induction rows as [|r rows IH]; intros prev Hb; cbn [skip_rows skip_rows_d]; auto.
    assert (Hlt : r < cnt) by (apply Hb; now left).
    replace (if sup then pq_retired_d sup cnt ret r else Ok false) with (if sup then pq_retired sup ret r else Ok false).
    2:{ case_eq sup; auto. intros Hs. pose proof (retired_d_ok cnt ret r Hr Hlt) as H1. pose proof (retired_ok pdata sup cnt ret r Hr Hlt) as H2. congruence. }
    destruct (if sup then pq_retired sup ret r else Ok false) as [[|]| | |]; cbn [bind]; auto. apply IH. intros x Hx. apply Hb. now right.
  Qed.
  Lemma skip_rows_prev ret : forall rows prev rows' prev', skip_rows sup ret prev rows = Ok (rows', prev') -> In prev' (prev :: rows).
  Proof.
    induction rows as [|r rows IH]; intros prev rows' prev'; cbn [skip_rows].
    - intros H. injection H as <- <-. now left.
    - destruct (if sup then pq_retired sup ret r else Ok false) as [[|]| | |]; cbn [bind]; try discriminate.
      + intros H. right. eapply IH; eauto.
      + intros H. injection H as <- <-. now left.
  Qed.

  Lemma increment_d_ok cnt ret c c' e : ret_ok cnt ret -> good cnt c -> isdead ret (c_col c) = false ->
    c_increment P pdata sup ret c = Ok (c', e) ->
    c_increment_d P pdata sup cnt ret c = Ok (match c' with Some d => d | None => mk_col (c_col c) [] (c_pd c) end, e).
  Proof.
    intros Hr Hg Hnd H.
    destruct (increment_spec pdata lt sup cnt ret c Hr Hg Hnd) as (c1 & e1 & H1 & Hsome & _). rewrite H in H1. injection H1 as <- <-.
    destruct Hg as [Hrows Hpd Hdesc Hcol Hrow]. unfold c_increment_d. unfold c_increment in H.
    destruct (c_rows c) as [|r rows] eqn:Hc; [congruence|].
    rewrite skip_rows_d_ok; auto. 2:{ intros x Hx. specialize (Hrow x (or_intror Hx)). lia. }
    destruct (skip_rows sup ret r rows) as [[rows' prev]| | |] eqn:Hs; cbn [bind] in *; try discriminate.
    destruct rows' as [|r' rows'].
    - injection H as <- <-. unfold pair_checked. rewrite check_ok; auto. apply N.ltb_lt. apply Hrow. eapply skip_rows_prev; eauto.
    - injection H as <- <-. destruct (Hsome _ eq_refl) as (Hgd & _ & _ & Hdead & _).
      unfold pair_dead, head_pair in Hdead. cbn [fst snd c_rows c_col hd] in Hdead. apply orb_false_iff in Hdead.
      rewrite (retired_d_ok cnt); auto. 2:{ apply (head_row_lt _ _ _ _ Hgd). }
      rewrite (proj2 Hdead). reflexivity.
  Qed.

  Lemma top_d q t : tinv q -> tt_top _ q = Ok t -> tt_top_d _ q = Ok t.
  Proof. intros Hi Ht. destruct (top_in lt Hsw q t Hi Ht) as [Hne _]. now rewrite (top_d_ok clt q Hi Hne). Qed.
  Lemma empty_d_ok cnt ret q log : core cnt ret q log -> empty_d P q = Ok (tt_empty _ q).
  Proof.
    intros Hk. unfold empty_d. destruct (tt_empty _ q) eqn:He; auto.
    assert (Hne : tt_players q <> []).
    { intros H. apply (inv_nil _ q (k_inv _ _ _ _ _ _ Hk)) in H. unfold tt_empty in He. rewrite H in He. discriminate. }
    destruct (pop_spec clt csw q (k_inv _ _ _ _ _ _ Hk) Hne) as (? & t & _ & _ & _ & _ & Ht).
    rewrite (top_d q t (k_inv _ _ _ _ _ _ Hk) Ht). cbn [bind].
    destruct (top_in lt Hsw q t (k_inv _ _ _ _ _ _ Hk) Ht) as [_ Hin].
    rewrite check_ok; auto. eapply good_nonempty. apply (k_good _ _ _ _ _ _ Hk _ Hin).
  Qed.
  Lemma top_nonempty q t : tt_top _ q = Ok t -> tt_empty column q = false.
  Proof. unfold tt_top, tt_empty. destruct (tt_tree q); auto. discriminate. Qed.
  Lemma topPair_d_ok cnt ret q log t : core cnt ret q log -> tt_top _ q = Ok t -> topPair_d P q = Ok (head_pair t).
  Proof.
    intros Hk Ht. unfold topPair_d. rewrite (top_nonempty q t Ht). cbn [negb check Geobucket.Debug.asserted bind].
    rewrite (top_d q t (k_inv _ _ _ _ _ _ Hk) Ht). cbn [bind].
    destruct (top_in lt Hsw q t (k_inv _ _ _ _ _ _ Hk) Ht) as [_ Hin]. pose proof (k_good _ _ _ _ _ _ Hk _ Hin) as Hg.
    rewrite check_ok by (eapply good_nonempty; eauto). cbn [bind]. now rewrite (head_row _ _ _ _ Hg).
  Qed.

  Lemma pop_round_d_ok cnt ret q log t q' log' : ret_ok cnt ret -> core cnt ret q log -> tt_top _ q = Ok t ->
    pop_round P pdata lt sup q ret log t = Ok (q', log') -> pop_round_d P pdata lt sup cnt q ret log t = Ok (q', log').
  Proof.
    intros Hr Hk Ht Hrd.
    destruct (pop_round_spec pdata lt sup Hsw cnt ret q log t Hr Hk Ht) as (q1 & log1 & e1 & H1 & Hk' & _). rewrite Hrd in H1. injection H1 as <- <-.
    pose proof (core_agree _ _ _ _ Hk') as Ha. pose proof (k_inv _ _ _ _ _ _ Hk) as Hi.
    destruct (top_in lt Hsw q t Hi Ht) as [Hne Hin]. pose proof (k_good _ _ _ _ _ _ Hk _ Hin) as Hg.
    unfold pop_round_d. rewrite (empty_d_ok cnt ret q log Hk), (top_nonempty q t Ht). cbn [bind negb check Geobucket.Debug.asserted].
    rewrite (top_d q t Hi Ht). cbn [bind]. rewrite check_ok by apply N.eqb_refl. cbn [bind].
    rewrite check_ok by (eapply good_nonempty; eauto). cbn [bind].
    rewrite (retired_opt cnt); auto; [|apply Hg]. cbn [bind].
    unfold pop_round in Hrd. rewrite (retired_ok pdata sup cnt) in Hrd; auto; [|apply Hg]. cbn [bind] in Hrd.
    destruct (negb sup || negb (isdead ret (c_col t)))%bool eqn:Hcond.
    - assert (Hnd : isdead ret (c_col t) = false).
      { unfold Proofs.isdead in *. destruct sup; simpl in *; auto. now apply negb_true_iff in Hcond. }
      destruct (c_increment P pdata sup ret t) as [[c' e]| | |] eqn:Hinc; cbn [bind] in Hrd; try discriminate.
      rewrite (increment_d_ok cnt ret t c' e Hr Hg Hnd Hinc). cbn [bind].
      destruct (increment_spec pdata lt sup cnt ret t Hr Hg Hnd) as (c1 & e2 & H1 & Hsome & _). rewrite Hinc in H1. injection H1 as <- <-.
      destruct c' as [d|].
      + destruct (Hsome d eq_refl) as (Hgd & Hcd & _ & Hdead & _).
        destruct (decreaseTop_d_changed clt csw cltd q d d Hi Hne) as (qc & q2 & Hc & Hd2 & Hdd). rewrite Hc. cbn [bind].
        rewrite Hd2 in Hrd. cbn [bind] in Hrd. injection Hrd as <- <-.
        pose proof (good_nonempty _ _ Hgd) as Hne2. apply negb_true_iff in Hne2. rewrite Hne2.
        unfold pair_dead, head_pair in Hdead. cbn [fst snd] in Hdead. apply orb_false_iff in Hdead. destruct Hdead as [Hd1 Hd3].
        rewrite (retired_d_ok cnt ret (c_col d)), Hd1; auto; [|apply Hgd]. cbn [bind negb check Geobucket.Debug.asserted].
        rewrite (head_row _ _ _ _ Hgd). cbn [bind]. rewrite (retired_d_ok cnt), Hd3; auto; [|apply (head_row_lt _ _ _ _ Hgd)].
        cbn [bind negb check Geobucket.Debug.asserted]. rewrite (Hdd Ha). reflexivity.
      + destruct (pop_d_changed clt csw cltd q (mk_col (c_col t) [] (c_pd t)) Hi Hne) as (qc & q2 & t2 & Hc & Hd2 & Hdd).
        rewrite Hc. cbn [bind c_empty c_rows]. rewrite Hd2 in Hrd. cbn [bind] in Hrd. injection Hrd as <- <-. rewrite (Hdd Ha). reflexivity.
    - rewrite (head_row _ _ _ _ Hg) in *. cbn [bind] in *. unfold pair_checked. rewrite check_ok.
      2:{ apply N.ltb_lt. apply Hg. destruct Hg as [Hrows _ _ _ _]. destruct (c_rows t); [congruence|now left]. }
      cbn [bind].
      destruct (pop_d_changed clt csw cltd q (mk_col (c_col t) [] (c_pd t)) Hi Hne) as (qc & q2 & t2 & Hc & Hd2 & Hdd).
      rewrite Hc. cbn [bind]. rewrite Hd2 in Hrd. cbn [bind] in Hrd. injection Hrd as <- <-. rewrite (Hdd Ha). reflexivity.
  Qed.

  Lemma pop_loop_d_ok cnt ret : ret_ok cnt ret -> forall fuel q log t q' log', core cnt ret q log -> tt_top _ q = Ok t ->
    pop_loop P pdata lt sup fuel q ret log t = Ok (q', log') -> pop_loop_d P pdata lt sup fuel cnt q ret log t = Ok (q', log').
  Proof.
    intros Hr. induction fuel as [|f IH]; intros q log t q' log' Hk Ht; cbn [pop_loop pop_loop_d]; [discriminate|].
    destruct (pop_round_spec pdata lt sup Hsw cnt ret q log t Hr Hk Ht) as (q1 & log1 & e & H1 & Hk1 & _).
    rewrite H1, (pop_round_d_ok cnt ret q log t q1 log1 Hr Hk Ht H1). cbn [bind].
    destruct (negb sup || tt_empty _ q1)%bool; auto.
    destruct (tt_top _ q1) as [t'| | |] eqn:Ht'; cbn [bind]; try discriminate. rewrite (top_d q1 t' (k_inv _ _ _ _ _ _ Hk1) Ht'). cbn [bind].
    destruct (top_in lt Hsw q1 t' (k_inv _ _ _ _ _ _ Hk1) Ht') as [_ Hin]. pose proof (k_good _ _ _ _ _ _ Hk1 _ Hin) as Hg.
    rewrite (retired_ok pdata sup cnt), (retired_d_ok cnt); auto; try apply Hg. cbn [bind].
    destruct (isdead ret (c_col t')); cbn [bind]; auto.
    rewrite (head_row _ _ _ _ Hg). cbn [bind]. rewrite (retired_ok pdata sup cnt), (retired_d_ok cnt); auto; try apply (head_row_lt _ _ _ _ Hg). cbn [bind].
    destruct (isdead ret _); auto.
  Qed.

  Lemma top_not_retired_ok part cnt ret q log : (part = fst \/ part = snd) -> ret_ok cnt ret -> core cnt ret q log -> top_alive sup ret q ->
    top_not_retired P sup part cnt q ret = Ok tt.
  Proof.
    intros Hpart Hr Hk Hta. unfold top_not_retired. destruct sup eqn:Hs; auto. cbn [negb]. rewrite (empty_d_ok _ _ _ _ Hk). cbn [bind].
    destruct (tt_empty _ q) eqn:He; auto.
    assert (Hne : tt_players q <> []).
    { intros H. apply (inv_nil _ q (k_inv _ _ _ _ _ _ Hk)) in H. unfold tt_empty in He. rewrite H in He. discriminate. }
    destruct (pop_spec clt csw q (k_inv _ _ _ _ _ _ Hk) Hne) as (? & t & _ & _ & _ & _ & Ht).
    rewrite (topPair_d_ok _ _ _ _ _ Hk Ht). cbn [bind].
    destruct (top_in lt Hsw q t (k_inv _ _ _ _ _ _ Hk) Ht) as [_ Hin]. pose proof (k_good _ _ _ _ _ _ Hk _ Hin) as Hg.
    specialize (Hta t Ht). unfold pair_dead in Hta. apply orb_false_iff in Hta. destruct Hta as [H1 H2].
    rewrite <- Hs in *.
    destruct Hpart as [-> | ->].
    - rewrite (retired_d_ok cnt), H1; auto. apply Hg.
    - rewrite (retired_d_ok cnt), H2; auto. apply (head_row_lt _ _ _ _ Hg).
  Qed.

  Lemma pop_d_ok cnt ret q log t s' : ret_ok cnt ret -> core cnt ret q log -> tt_top _ q = Ok t -> cnt <= index_max ->
    pq_pop P pdata lt sup (mk_pq q cnt ret log) = Ok s' -> pq_pop_d P pdata lt sup (mk_pq q cnt ret log) = Ok s'.
  Proof.
    intros Hr Hk Ht Hc Hpop. destruct (pop_ok pdata lt sup Hsw cnt ret q log t Hr Hk Ht Hc) as (s1 & new & H1 & Hi1 & Hc1 & Hret1 & _).
    rewrite Hpop in H1. injection H1 as <-.
    unfold pq_pop_d. unfold pq_pop in Hpop. cbn [pq_queue pq_ret pq_log pq_count] in *.
    rewrite (empty_d_ok _ _ _ _ Hk), (top_nonempty q t Ht). cbn [bind negb check Geobucket.Debug.asserted].
    rewrite (top_d q t (k_inv _ _ _ _ _ _ Hk) Ht). rewrite Ht in Hpop. cbn [bind] in *.
    destruct (pop_loop P pdata lt sup _ q ret log t) as [[q2 log2]| | |] eqn:Hl; cbn [bind] in Hpop; try discriminate.
    rewrite (pop_loop_d_ok cnt ret Hr _ _ _ _ _ _ Hk Ht Hl). cbn [bind]. injection Hpop as <-.
    destruct Hi1 as [_ Hk2 Hta _]. cbn [pq_queue pq_ret pq_log pq_count] in *.
    rewrite (top_not_retired_ok fst cnt ret q2 log2), (top_not_retired_ok snd cnt ret q2 log2); auto.
  Qed.

  Lemma check_descending_ok col rows : (forall r, In r rows -> r < col) -> col <= index_max ->
    descending (pair_lt pdata lt) (map (pair col) rows) -> check_descending P pdata lt col rows = Ok tt.
  Proof.
    intros Hb Hc. induction rows as [|a rows IH]; cbn [check_descending]; auto. destruct rows as [|b rows]; auto.
    intros [H1 H2]. assert (Ha : a < col) by (apply Hb; now left). assert (Hb' : b < col) by (apply Hb; right; now left).
    rewrite !(to_index_id pdata) by lia. unfold pair_checked. rewrite !(check_ok (_ <? col)) by now apply N.ltb_lt. cbn [bind].
    specialize (H1 (col, b) (or_introl eq_refl)). unfold pair_lt in H1. cbn [fst snd] in H1. rewrite H1. cbn [negb check Geobucket.Debug.asserted bind].
    apply IH; auto. intros r Hr. apply Hb. now right.
  Qed.
  Lemma check_rows_ok col max rows : (forall r, In r rows -> r < col /\ r < max) -> check_rows col max rows = Ok tt.
  Proof.
    induction rows as [|a rows IH]; intros H; cbn [check_rows]; auto. destruct (H a (or_introl eq_refl)).
    rewrite !check_ok by now apply N.ltb_lt. cbn [bind]. apply IH. intros r Hr. apply H. now right.
  Qed.
  Lemma create_d_ok col rows : rows <> [] -> (forall r, In r rows -> r < col) -> col <= index_max ->
    descending (pair_lt pdata lt) (map (pair col) rows) -> c_create_d P pdata lt col rows = c_create P pdata col rows.
  Proof.
    intros Hne Hb Hc Hd. unfold c_create_d. rewrite check_descending_ok by auto. cbn [bind].
    rewrite check_rows_ok.
    2:{ intros r Hr. specialize (Hb r Hr). split; auto. unfold c_big. destruct (N.leb_spec small_max col); lia. }
    cbn [bind]. rewrite (create_ok pdata col rows) by auto. cbn [bind c_rows]. rewrite check_ok by apply Nat.eqb_refl. cbn [bind].
    rewrite check_ok. 2:{ unfold c_empty; cbn [c_rows]. destruct rows; [congruence|reflexivity]. }
    cbn [bind]. unfold pair_checked. rewrite check_ok; auto. apply N.ltb_lt.
    destruct rows as [|r rows]; [congruence|]. cbn [hd]. specialize (Hb r (or_introl eq_refl)). rewrite (to_index_id pdata) by lia. auto.
  Qed.

  Lemma check_alive_ok cnt ret rows : ret_ok cnt ret -> (forall r, In r rows -> r < cnt /\ isdead ret r = false) -> check_alive sup cnt ret rows = Ok tt.
  Proof.
    intros Hr. induction rows as [|r rows IH]; intros H; cbn [check_alive]; auto. destruct (H r (or_introl eq_refl)) as [H1 H2].
    rewrite (retired_d_ok cnt), H2; auto. cbn [bind negb check Geobucket.Debug.asserted]. apply IH. intros x Hx. apply H. now right.
  Qed.

  Lemma add_d_ok (s : pairqueue) rows : pinv s -> allowed (abs s) (PAdd rows) -> pq_add_d P pdata lt sup s rows = pq_add P pdata lt sup s rows.
  Proof.
    intros Hi Ha. destruct Ha as [Hrows Hdesc]. cbn [cols abs pq_abs] in *.
    assert (Hal : (if sup then check_alive sup (pq_count s) (pq_ret s) rows else Ok tt) = Ok tt).
    { destruct sup eqn:Hs; auto. rewrite <- Hs in *. apply check_alive_ok; [apply Hi|]. intros r Hr. exact (Hrows r Hr). }
    unfold pq_add_d. rewrite Hal. cbn [bind]. unfold pq_add. destruct (N.leb_spec index_max (pq_count s)) as [Hle|Hlt]; auto.
    rewrite (to_index_id pdata (pq_count s)) by lia.
    assert (Hadd := add_ok pdata lt sup Hsw s rows Hi (conj Hrows Hdesc) Hlt). destruct Hadd as (s' & new & Hadd & Hi' & _).
    unfold pq_add in Hadd. destruct (N.leb_spec index_max (pq_count s)); [lia|]. rewrite (to_index_id pdata (pq_count s)) in Hadd by lia.
    destruct rows as [|r0 rows0]; auto.
    rewrite create_d_ok; auto; [|discriminate|intros r Hr; apply (Hrows r Hr)|lia].
    destruct (c_create P pdata (pq_count s) (r0 :: rows0)) as [[c e]| | |]; cbn [bind] in *; auto.
    destruct (tt_push _ clt (pq_queue s) c) as [q| | |] eqn:Hq; cbn [bind] in *; try discriminate.
    injection Hadd as <-. rewrite (push_d_ok clt csw cltd (pq_queue s) c q); auto.
    - apply (p_core _ _ _ _ Hi).
    - destruct Hi' as [_ Hk' _ _]. cbn [pq_queue] in Hk'. eapply core_agree; eauto.
  Qed.

  Lemma step_d_same (s : pairqueue) o : pinv s -> allowed (abs s) o -> stepd s o = step s o.
  Proof.
    intros Hi Ha. pose proof (p_core _ _ _ _ Hi) as Hk. pose proof (p_ret _ _ _ _ Hi) as Hr.
    assert (Heta : mk_pq (pq_queue s) (pq_count s) (pq_ret s) (pq_log s) = s) by (destruct s; reflexivity).
    destruct o as [rows| | |i|i| | |]; cbn [pq_step pq_step_d]; auto.
    - now rewrite (add_d_ok s rows Hi Ha).
    - cbn [pallowed] in Ha. assert (Hne : contents (pq_queue s) <> []) by (intros H; apply Ha; now apply (live_nil_iff pdata lt sup Hsw s Hi)).
      destruct (top_exists pdata lt sup Hsw s Hi Hne) as [t Ht]. rewrite (topPair_ok pdata lt sup Hsw s t Hi Ht), (topPair_d_ok _ _ _ _ t Hk Ht). cbn [bind].
      destruct (pop_ok pdata lt sup Hsw _ _ _ _ t Hr Hk Ht (p_cnt _ _ _ _ Hi)) as (s' & new & Hpop & _).
      pose proof (pop_d_ok _ _ _ _ t s' Hr Hk Ht (p_cnt _ _ _ _ Hi) Hpop) as Hpd. rewrite Heta in *. now rewrite Hpop, Hpd.
    - cbn [pallowed] in Ha. assert (Hne : contents (pq_queue s) <> []) by (intros H; apply Ha; now apply (live_nil_iff pdata lt sup Hsw s Hi)).
      destruct (top_exists pdata lt sup Hsw s Hi Hne) as [t Ht]. rewrite (topPair_ok pdata lt sup Hsw s t Hi Ht), (topPair_d_ok _ _ _ _ t Hk Ht). cbn [bind].
      unfold topPairData_d, pq_topPairData. rewrite (top_nonempty _ t Ht), (top_d _ t (k_inv _ _ _ _ _ _ Hk) Ht), Ht.
      cbn [bind negb check Geobucket.Debug.asserted].
      destruct (top_in lt Hsw _ t (k_inv _ _ _ _ _ _ Hk) Ht) as [_ Hin].
      rewrite check_ok; auto. eapply good_nonempty. apply (k_good _ _ _ _ _ _ Hk _ Hin).
    - destruct Ha as [Hlt Hs]. cbn [cols abs pq_abs] in Hlt.
      destruct (retire_ok pdata lt sup Hsw s i Hi Hlt Hs) as (s' & new & Hret & _). rewrite Hret.
      unfold pq_retireIndex_d. rewrite (check_ok sup) by auto. rewrite check_ok by now apply N.ltb_lt. cbn [bind].
      unfold pq_retireIndex in Hret.
      assert (Hlen : (N.to_nat i < length (pq_ret s))%nat) by (rewrite (Hr Hs); lia).
      replace (if sup then vset (pq_ret s) (N.to_nat i) true else Ok (pq_ret s)) with (vset (pq_ret s) (N.to_nat i) true) in Hret
        by (now rewrite Hs).
      rewrite vset_ok in * by auto. set (ret' := upd (pq_ret s) (N.to_nat i) true) in *. cbn [bind] in *.
      rewrite (empty_d_ok _ _ _ _ Hk). cbn [bind]. unfold pq_empty in Hret. cbn [pq_queue] in Hret.
      destruct (tt_empty _ (pq_queue s)) eqn:He; [injection Hret as <-; reflexivity|].
      assert (Hne : contents (pq_queue s) <> []).
      { intros Hn. apply contents_nil in Hn. apply (inv_nil _ _ (k_inv _ _ _ _ _ _ Hk)) in Hn. unfold tt_empty in He. rewrite Hn in He. discriminate. }
      destruct (top_exists pdata lt sup Hsw s Hi Hne) as [t Ht]. rewrite (topPair_d_ok _ _ _ _ t Hk Ht). cbn [bind].
      assert (Htp : pq_topPair P (mk_pq (pq_queue s) (pq_count s) ret' (pq_log s)) = Ok (head_pair t)).
      { exact (topPair_ok pdata lt sup Hsw s t Hi Ht). }
      rewrite Htp in Hret. cbn [bind] in Hret.
      destruct ((fst (head_pair t) =? i) || (snd (head_pair t) =? i))%bool; [|injection Hret as <-; reflexivity].
      assert (Hr' : ret_ok (pq_count s) ret') by (intros Hs'; unfold ret'; rewrite upd_length; now apply Hr).
      assert (Hk' : core (pq_count s) ret' (pq_queue s) (pq_log s)) by (destruct Hk; split; auto).
      now rewrite (pop_d_ok _ _ _ _ t s' Hr' Hk' Ht (p_cnt _ _ _ _ Hi) Hret).
    - cbn [pallowed] in Ha. now rewrite (retired_d_ok (pq_count s)), (retired_ok pdata sup (pq_count s)).
    - now rewrite (empty_d_ok _ _ _ _ Hk).
  Qed.

  Lemma reached_d ops s rs : reached ops s rs -> run stepd (pq_new P) ops = Ok (s, rs).
  Proof.
    induction 1 as [|ops s rs o s' r Hre IH Ha Hs]; [reflexivity|].
    eapply run_one; [exact IH|]. rewrite step_d_same; auto. eapply reached_pinv; eauto.
  Qed.

  Lemma destroy_d_ok : forall l log cnt, (forall c, In c l -> good cnt c) ->
    destroy_d P l log = Ok (fold_left (fun log c => match c_rows c with [] => log | r :: _ => EDestruct (c_col c) r :: log end) l log).
  Proof.
    induction l as [|c l IH]; intros log cnt Hg; cbn [destroy_d fold_left]; auto.
    pose proof (Hg c (or_introl eq_refl)) as [Hrows _ _ _ Hrow]. destruct (c_rows c) as [|r rows]; [congruence|].
    unfold pair_checked. rewrite check_ok by (apply N.ltb_lt; apply Hrow; now left). cbn [bind]. eapply IH. intros x Hx. apply Hg. now right.
  Qed.

  Lemma pairqueue_d_ok ops s rs : reached ops s rs ->
    (let* q := tt_new_d _ cltd in run stepd (mk_pq q 0 [] []) ops) = Ok (s, rs) /\
    (forall o, allowed (abs s) o -> stepd s o = step s o) /\
    destroy_d P (tt_forAll _ (pq_queue s)) (pq_log s) = Ok (pq_destroy P s).
  Proof.
    intros H. pose proof (reached_pinv pdata lt sup Hsw ops s rs H) as Hi. split; [|split].
    - exact (reached_d ops s rs H).
    - intros o Ho. now apply step_d_same.
    - apply (destroy_d_ok _ _ (pq_count s)). apply (k_good _ _ _ _ _ _ (p_core _ _ _ _ Hi)).
  Qed.
End Proofs.

Lemma second_retirement {P : Type} (pdata : N -> N -> P) (lt : N * N * P -> N * N * P -> bool) : strict_weak lt ->
  forall ops s rs i, Reach.reached (pq_step P pdata lt true) (fun s => pallowed pdata lt true (pq_abs true s)) (pq_new P) ops s rs ->
  i < pq_count s -> is_dead true s i = true ->
  exists s', pq_step_d P pdata lt true s (PRetire i) = Ok (s', PNone).
Proof.
  intros Hsw ops s rs i Hre Hlt _. pose proof (reached_pinv pdata lt true Hsw ops s rs Hre) as Hi.
  rewrite (step_d_same pdata lt true Hsw s (PRetire i) Hi); [|split; auto].
  destruct (retire_ok pdata lt true Hsw s i Hi Hlt eq_refl) as (s' & new & Hr & _). exists s'. cbn [pq_step]. now rewrite Hr.
Qed.
