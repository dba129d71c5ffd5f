(** What the clients of the divisor finders in src/divsim do, in terms of the multiset of monomials they hold. *)
From Coq Require Import List Arith Bool ZArith Lia Permutation.
From Verif.Base Require Import Res Order Sort StdAlg.
From Verif.Spec Require Import DivFinder DivFinderFacts DivAgree DivAgreeFacts DivClient.
From Verif.DivMask Require Import Model Defined.
From Verif.DivList Require Import Model Properties.
From Verif.DivList Require Proofs.
From Verif.KD Require Import EntryArray Model Legal Properties.
From Verif.KD Require Proofs.
From Verif.Finders Require Import Model Proofs.
From Verif.DivSim Require Import Model.
Import ListNotations.
Local Notation length := List.length.

Lemma filter_perm {A} (p : A -> bool) l l' : Permutation l l' -> Permutation (filter p l) (filter p l').
Proof. induction 1; cbn [filter]; repeat match goal with |- context [if p ?x then _ else _] => destruct (p x) end; auto; try constructor; auto. etransitivity; eauto. Qed.
Lemma existsb_perm {A} (p : A -> bool) l l' : Permutation l l' -> existsb p l = existsb p l'.
Proof. induction 1; cbn [existsb]; auto; [now f_equal|destruct (p x), (p y); auto|congruence]. Qed.

Section Spec.
  Variable nvars : nat.
  Notation divides := (m_divides nvars).
  Notation same := (same_exps m_ex nvars).
  Variable minimize : bool.

  (** What is held after a call, and what the call answers. *)
  Definition after_call (l : list monomial) (o : cop monomial) : list monomial :=
    match o with CInsert e => put divides minimize l e | CAsk _ => l end.
  Notation removed := (thrown divides minimize).
  Definition answers (l : list monomial) (o : cop monomial) (r : dout monomial) : Prop :=
    match o with
    | CInsert e => exists xs, r = DOList xs /\ Permutation xs (removed l e)
    | CAsk (DFindDivisor m) => exists x, r = DOFound x /\ is_divisor divides m l x
    | CAsk (DAllDivisors m _) => exists xs, r = DOList xs /\ Permutation xs (divisors divides m l)
    | CAsk DSize => r = DOSize (length l)
    | _ => True
    end.
  (** The calls the simulation makes; [room] bounds the number of copies of a monomial without minimizeOnInsert. *)
  Definition allowed (room : monomial -> nat) (l : list monomial) (o : cop monomial) : Prop :=
    match o with
    | CInsert e => int_exponents m_ex nvars e = true /\ (minimize = false -> copies same e l < room e)
    | CAsk (DFindDivisor _) | CAsk DSize => True
    | CAsk (DAllDivisors _ cb) => forall p, cb p = true
    | _ => False
    end.
  Definition behaves (room : monomial -> nat) (sub : subject) : Prop :=
    exists R : d_state sub -> list monomial -> Prop,
      (exists s0, d_new sub = Ok s0 /\ R s0 []) /\
      forall s l o, R s l -> allowed room l o -> exists s' r, d_call sub s o = Ok (s', r) /\ R s' (after_call l o) /\ answers l o r.

  Lemma divides_spec a b : divides a b = true <-> forall var, var < nvars -> (m_ex a var <= m_ex b var)%Z.
  Proof.
    unfold m_divides. rewrite forallb_forall. split.
    - intros H var Hv. specialize (H var ltac:(apply in_seq; lia)). apply negb_true_iff, Z.ltb_ge in H. exact H.
    - intros H var Hv. apply in_seq in Hv. apply negb_true_iff, Z.ltb_ge. apply H. lia.
  Qed.
  Lemma same_spec a b : same a b = true <-> forall var, var < nvars -> m_ex a var = m_ex b var.
  Proof.
    unfold same_exps. rewrite forallb_forall. split.
    - intros H var Hv. apply Z.eqb_eq. apply H. apply in_seq. lia.
    - intros H var Hv. apply in_seq in Hv. apply Z.eqb_eq. apply H. lia.
  Qed.
  Lemma same_divides a b : same a b = true -> divides b a = true.
  Proof. rewrite same_spec, divides_spec. intros H var Hv. rewrite H by auto. lia. Qed.

  Lemma full_reported (cb : callback monomial) all xs : (forall p, cb p = true) -> reported cb all xs -> Permutation xs all.
  Proof.
    intros Hcb (rest & Hp & _ & Hr). destruct rest as [|x rest]; [now rewrite app_nil_r in Hp|]. destruct Hr as [_ Hr]; [discriminate|]. rewrite Hcb in Hr. discriminate.
  Qed.
  Lemma is_divisor_perm m l l' r : Permutation l l' -> is_divisor divides m l r -> is_divisor divides m l' r.
  Proof.
    intros Hp. destruct r as [e|]; cbn [is_divisor].
    - intros [H1 H2]. split; auto. eapply Permutation_in; eauto.
    - intros H e He. apply H. eapply Permutation_in; [symmetry; exact Hp|exact He].
  Qed.
  Lemma is_divisor_exists m l r : is_divisor divides m l r -> existsb (fun d => divides d m) l = match r with Some _ => true | None => false end.
  Proof.
    destruct r as [e|]; cbn [is_divisor].
    - intros [H1 H2]. apply existsb_exists. eauto.
    - intros H. destruct (existsb _ l) eqn:He; auto. apply existsb_exists in He as (d & H1 & H2). rewrite H in H2; auto.
  Qed.

  Section Generic.
    Context {St : Type}.
    Variable step : St -> dop monomial -> res (St * dout monomial).
    Variable abs : St -> list monomial.
    Variable pre : list monomial -> dop monomial -> bool.
    Variable inv : St -> Prop.
    Hypothesis step_ok : forall s o, inv s -> pre (abs s) o = true -> exists s' r, step s o = Ok (s', r) /\ inv s' /\ dstep divides same (abs s) o r (abs s').
    Variable find : monomial -> dop monomial.
    Variable after : St -> bool -> res St.
    Hypothesis find_pre : forall l m, pre l (find m) = true.
    Hypothesis find_ok : forall l m r l', dstep divides same l (find m) r l' -> exists x, r = DOFound x /\ is_divisor divides m l x /\ Permutation l' l.
    Hypothesis remove_pre : minimize = true -> forall l m, pre l (DRemoveMultiples m) = true.
    Hypothesis insert_pre : minimize = true -> forall l e, int_exponents m_ex nvars e = true -> copies same e l = 0 -> pre l (DInsert e) = true.
    Variable room : monomial -> nat.
    Hypothesis plain_pre : minimize = false -> forall l e, int_exponents m_ex nvars e = true -> copies same e l < room e -> pre l (DInsert e) = true.
    Hypothesis query_pre : forall l o, is_query o = true -> pre l o = true.
    Hypothesis after_ok : forall s b, inv s -> abs s <> [] -> exists s', after s b = Ok s' /\ inv s' /\ Permutation (abs s') (abs s).

    Definition rel (s : St) (l : list monomial) : Prop := inv s /\ Permutation (abs s) l.

    Lemma client_query s l o : rel s l -> is_query o = true -> (forall m, o <> DFindDivisor m) ->
      exists s' r, step s o = Ok (s', r) /\ rel s' l /\ dstep divides same (abs s) o r (abs s').
    Proof.
      intros [Hi Hp] Hq Hn. destruct (step_ok s o Hi (query_pre _ _ Hq)) as (s1 & r1 & H1 & H2 & H3). exists s1, r1. split; auto. split; auto.
      split; auto. rewrite <- Hp. inversion H3; subst; auto; discriminate Hq.
    Qed.
    Lemma client_find s l m : rel s l -> exists s' x, step s (find m) = Ok (s', DOFound x) /\ rel s' l /\ is_divisor divides m l x.
    Proof.
      intros [Hi Hp]. destruct (step_ok s (find m) Hi (find_pre _ _)) as (s1 & r1 & H1 & H2 & H3). destruct (find_ok _ _ _ _ H3) as (x & -> & Hx & Hp1).
      exists s1, x. split; auto. split; [split; auto; now rewrite Hp1|]. eapply is_divisor_perm; eauto.
    Qed.
    Lemma client_min_insert s l e : minimize = true -> rel s l -> int_exponents m_ex nvars e = true ->
      exists s' xs, min_insert step find after s e = Ok (s', DOList xs) /\ rel s' (after_call l (CInsert e)) /\ Permutation xs (removed l e).
    Proof.
      intros Hmin Hr Hv. unfold min_insert, after_call, put, thrown. rewrite Hmin. pose proof (remove_pre Hmin) as Hrem. pose proof (insert_pre Hmin) as Hins. clear Hmin. destruct (client_find s l e Hr) as (s1 & x & -> & [Hi1 Hp1] & Hx). cbn [bind].
      rewrite (is_divisor_exists e l x Hx). destruct x as [d|].
      - exists s1, []. split; auto. split; [split; auto|constructor].
      - cbn [is_divisor] in Hx. destruct (step_ok s1 (DRemoveMultiples e) Hi1 (Hrem _ _)) as (s2 & r2 & -> & Hi2 & Hd2). cbn [bind].
        inversion Hd2 as [| |m xs l' Hxs Hl'| | | | | | | | |]; subst.
        assert (H2 : Permutation (abs s2) (non_multiples divides e l)) by (rewrite Hl'; now apply filter_perm).
        assert (H3 : Permutation xs (multiples divides e l)) by (rewrite Hxs; now apply filter_perm).
        assert (Hc : copies same e (abs s2) = 0).
        { unfold copies. assert (G : forall z, In z (abs s2) -> same e z = false).
          { intros z Hz. eapply Permutation_in in Hz; [|exact H2]. apply filter_In in Hz as [Hz _]. destruct (same e z) eqn:Hs; auto. apply same_divides in Hs. apply Hx in Hz. congruence. }
          revert G. generalize (abs s2). intros k G. induction k as [|z k IH]; auto. cbn [filter]. rewrite G by (now left). apply IH. intros w Hw. apply G. now right. }
        destruct (step_ok s2 (DInsert e) Hi2 (Hins _ _ Hv Hc)) as (s3 & r3 & -> & Hi3 & Hd3). cbn [bind]. inversion Hd3 as [e0 l0 Hl0| | | | | | | | | | |]; subst.
        destruct (after_ok s3 (match xs with [] => false | _ => true end) Hi3) as (s4 & -> & Hi4 & Hp4).
        { intros E. rewrite E in Hl0. apply Permutation_nil in Hl0. discriminate. }
        cbn [bind]. exists s4, xs. split; auto. split; auto. split; auto. rewrite Hp4, Hl0. now constructor.
    Qed.
    Lemma client_call s l o : rel s l -> allowed room l o ->
      exists s' r, client_step step find after minimize s o = Ok (s', r) /\ rel s' (after_call l o) /\ answers l o r.
    Proof.
      intros Hr Ha. destruct o as [e|q].
      - destruct Ha as [Hv Hroom]. unfold client_step. case_eq minimize; intros Hm.
        + cbn [min_step]. destruct (client_min_insert s l e Hm Hr Hv) as (s' & xs & H1 & H2 & H3). exists s', (DOList xs). split; auto. split; auto.
          cbn [answers]. eauto.
        + destruct Hr as [Hi Hp]. assert (Hc : copies same e (abs s) < room e).
          { replace (copies same e (abs s)) with (copies same e l); [auto|]. unfold copies. apply Permutation_length. now apply filter_perm. }
          destruct (step_ok s (DInsert e) Hi (plain_pre Hm _ _ Hv Hc)) as (s1 & r1 & -> & Hi1 & Hd1). cbn [bind]. inversion Hd1 as [e0 l0 Hl0| | | | | | | | | | |]; subst.
          exists s1, (DOList []). split; auto. split; [split; auto; cbn [after_call]; unfold put; rewrite Hm, Hl0; now constructor|]. cbn [answers]. exists []. unfold thrown. now rewrite Hm.
      - assert (He : client_step step find after minimize s (CAsk q) = match q with DFindDivisor m => step s (find m) | o => step s o end).
        { unfold client_step. destruct minimize; reflexivity. }
        rewrite He. cbn [after_call]. destruct q; cbn [allowed] in Ha; try contradiction.
        + destruct (client_find s l m Hr) as (s1 & x & H1 & H2 & H3). exists s1, (DOFound x). split; auto. split; auto. cbn [answers]. eauto.
        + destruct (client_query s l (DAllDivisors m cb) Hr eq_refl ltac:(discriminate)) as (s1 & r1 & H1 & H2 & H3). exists s1, r1. split; auto. split; auto.
          inversion H3; subst. cbn [answers]. eexists. split; [reflexivity|]. destruct Hr as [_ Hp]. etransitivity; [eapply full_reported; eauto|]. now apply filter_perm.
        + destruct (client_query s l DSize Hr eq_refl ltac:(discriminate)) as (s1 & r1 & H1 & H2 & H3). exists s1, r1. split; auto. split; auto.
          inversion H3; subst. cbn [answers]. f_equal. destruct Hr as [_ Hp]. now apply Permutation_length.
    Qed.
  End Generic.

  (** ** The configurations are legal *)
  Lemma m_less_sw : strict_weak (m_less nvars).
  Proof.
    unfold m_less. generalize (seq 0 nvars). intros vars. induction vars as [|v vars [I1 I2 I3]]; split; cbn [m_less_from]; auto.
    - intros a. rewrite Z.ltb_irrefl. auto.
    - intros a b c. destruct (Z.ltb_spec (m_ex a v) (m_ex b v)), (Z.ltb_spec (m_ex b v) (m_ex a v)), (Z.ltb_spec (m_ex b v) (m_ex c v)), (Z.ltb_spec (m_ex c v) (m_ex b v)),
        (Z.ltb_spec (m_ex a v) (m_ex c v)), (Z.ltb_spec (m_ex c v) (m_ex a v)); intros; try discriminate; auto; try lia. eauto.
    - intros a b c. destruct (Z.ltb_spec (m_ex a v) (m_ex b v)), (Z.ltb_spec (m_ex b v) (m_ex a v)), (Z.ltb_spec (m_ex b v) (m_ex c v)), (Z.ltb_spec (m_ex c v) (m_ex b v)),
        (Z.ltb_spec (m_ex a v) (m_ex c v)), (Z.ltb_spec (m_ex c v) (m_ex a v)); intros; try discriminate; auto; try lia. eauto.
  Qed.
  Lemma m_less_compatible a b : divides a b = true -> m_less nvars b a = false.
  Proof.
    rewrite divides_spec. intros H. unfold m_less. assert (Hv : forall var, In var (seq 0 nvars) -> (m_ex a var <= m_ex b var)%Z) by (intros v Hv; apply in_seq in Hv; apply H; lia).
    clear H. induction (seq 0 nvars) as [|v vars IH]; cbn [m_less_from]; auto. pose proof (Hv v (or_introl eq_refl)).
    destruct (Z.ltb_spec (m_ex b v) (m_ex a v)); [lia|]. destruct (Z.ltb_spec (m_ex a v) (m_ex b v)); auto. apply IH. intros. apply Hv. now right.
  Qed.

  (** The algorithms of the standard library do what they should. *)
  Record std_ok (std : stdlib) : Prop := {
    std_data : sorts (fun a b => d_split b <? d_split a) (s_data std);
    std_ext : sorts (fun a b : ext monomial => m_less nvars (x_t a) (x_t b)) (s_ext std);
    std_part_ext : partitions (s_part_ext std);
    std_part : partitions (s_part std) }.

  Variable std : stdlib.
  Hypothesis Hstd : std_ok std.

  Lemma list_conf_legal ULL UDM sorted r min : (UDM = true -> nvars <> 1) -> legal (list_conf std nvars ULL UDM sorted r min).
  Proof.
    intros Hn. split; cbn [list_conf f_divides f_ex f_nvars f_sort_data f_less f_sort_ext f_use f_type f_valid].
    - intros a b. apply divides_spec.
    - apply Hstd.
    - intros _. exact (std_ext std Hstd).
    - intros Hu. apply int_calc_defined; auto. intros l. apply (std_data std Hstd l).
  Qed.
  Lemma list_conf_compatible ULL UDM sorted r min : compatible_order (list_conf std nvars ULL UDM sorted r min).
  Proof. split; [exact m_less_sw|exact m_less_compatible]. Qed.

  Lemma int_in a var : int_exponents m_ex nvars a = true -> var < nvars -> (0 <= m_ex a var <= 2 ^ 31 - 1 - 31)%Z.
  Proof.
    unfold int_exponents. rewrite forallb_forall. intros H Hv. specialize (H var ltac:(apply in_seq; lia)). apply andb_true_iff in H as [H1 H2]. apply Z.leb_le in H1, H2. lia.
  Qed.
  Lemma tree_conf_legal UDM UTDM LS AR sorted cache r min : (UDM = true -> nvars <> 1) -> (UTDM = true -> UDM = true) -> 0 < LS ->
    klegal (tree_conf std nvars UDM UTDM LS AR sorted cache r min) (int_exponents m_ex nvars).
  Proof.
    intros Hn Ht Hl. split; cbn [tree_conf c_divides c_nvars c_ex c_leaf c_tree c_use c_sorted c_less c_sort_data c_sort_ext c_part_ext c_part c_type]; auto.
    - intros a b. apply divides_spec.
    - intros _. split; [exact m_less_sw|exact m_less_compatible].
    - apply Hstd.
    - intros _. exact (std_ext std Hstd).
    - apply Hstd.
    - apply Hstd.
    - intros Hu. apply int_calc_defined; auto. intros l. apply (std_data std Hstd l).
    - intros a b var Ha Hb Hv Hab. pose proof (int_in a var Ha Hv). pose proof (int_in b var Hb Hv).
      assert (Hn' : forall z, (0 <= z <= 2 ^ 31 - 1 - 31)%Z -> norm (Signed 32) z = Ok z).
      { intros z Hz. unfold norm. cbn [Z.of_N]. change (32 - 1)%Z with 31%Z.
        destruct (Z.leb_spec (- 2 ^ 31) z); [|lia]. destruct (Z.ltb_spec z (2 ^ 31)); [reflexivity|lia]. }
      split; [apply Hn'; lia|]. intros z Hz. apply Hn'. lia.
  Qed.

  Lemma list_behaves ULL UDM front sorted r min room : (UDM = true -> nvars <> 1) -> front && sorted = false ->
    behaves room (list_model std nvars ULL UDM minimize front sorted r min).
  Proof.
    intros Hn Hfs. set (c := list_conf std nvars ULL UDM sorted r min). assert (H : legal c) by now apply list_conf_legal.
    assert (Ho : f_sorted c = true -> compatible_order c) by (intros _; apply list_conf_compatible).
    destruct (DivList.Proofs.construct_ok (f_ex c) (f_nvars c) (f_type c) (f_sort_data c) (fun l => proj1 (k_sort c H l)) (f_use c) (f_less c) (f_sorted c) (f_auto c)
      (f_ratio c) (f_min c) (f_valid c) (k_defined c H)) as (s0 & H0 & Hi & He).
    assert (Hst := DivList.Proofs.step_ok (f_ex c) (f_nvars c) (f_type c) (f_sort_data c) (fun l => proj1 (k_sort c H l)) (f_use c) (f_divides c) (f_less c)
      (k_divides c H) (f_linked c) (f_sorted c) (f_auto c) Ho (f_ratio c) (f_min c) (f_sort_ext c) (fun Hs => k_sort_ext c H (proj1 (Ho Hs))) (f_valid c) (k_defined c H)).
    assert (Hfr : front = true -> sorted = false) by (intros ->; exact Hfs).
    exists (rel contents (DivList.Proofs.inv (f_ex c) (f_nvars c) (f_use c) (f_less c) (f_sorted c) (f_valid c))). split.
    - exists s0. split; auto. split; auto. rewrite He. constructor.
    - intros s l o. apply (client_call (lstep c) contents (lpre c)); auto.
      + intros l' m. unfold list_find. destruct front; auto. cbn [lpre]. change (f_sorted c) with sorted. now rewrite Hfr.
      + intros l' m r' l'' Hd. unfold list_find in Hd. destruct front; inversion Hd; subst; eauto.
      + intros l' q Hq. destruct q; auto; discriminate Hq.
      + intros t b Hi' Hne. unfold list_after. destruct (front && b) eqn:Hfb; [|exists t; auto]. apply andb_true_iff in Hfb as [Hf _].
        unfold contents in Hne. destruct Hi' as [I1 I2 I3 I4]. destruct (@exists_last _ (l_list t)) as (l1 & x & Hl); [intros E; rewrite E in Hne; now apply Hne|].
        unfold contents in *. rewrite Hl in *. destruct (l1 ++ [x]) as [|y k] eqn:Hk; [now destruct l1|]. rewrite <- Hk in *. rewrite app_length. cbn [List.length].
        replace (length l1 + 1 - 1) with (length l1) by lia. rewrite DivList.Proofs.move_to_front_ok. cbn [bind]. eexists. split; [reflexivity|].
        assert (Hp : Permutation (map x_t (x :: l1 ++ [])) (map x_t (l1 ++ [x]))) by (apply Permutation_map; rewrite app_nil_r; apply Permutation_cons_append).
        split; [|exact Hp]. split; cbn [l_list l_bits]; unfold contents; cbn [l_list]; auto.
        * rewrite app_nil_r. rewrite !map_app in I1. apply app_inj_tail in I1 as [I1 I1']. cbn [map]. f_equal; auto.
        * intros Hs. change (f_sorted c) with sorted in Hs. rewrite Hfr in Hs; auto; discriminate.
        * rewrite forallb_forall in *. intros z Hz. apply I4. eapply Permutation_in; [|exact Hz]. exact Hp.
  Qed.

  Lemma tree_behaves UDM UTDM PT LS AR sorted cache r min room : (UDM = true -> nvars <> 1) -> (UTDM = true -> UDM = true) -> 0 < LS ->
    (minimize = true -> AR = true) -> (minimize = false -> forall e, room e <= LS) ->
    behaves room (tree_model std nvars UDM UTDM PT LS AR minimize sorted cache r min).
  Proof.
    intros Hn Ht Hl Hr Hroom. set (C := tree_conf std nvars UDM UTDM LS AR sorted cache r min).
    assert (H : klegal C (int_exponents m_ex nvars)) by now apply tree_conf_legal.
    destruct (KD.Proofs.construct_ok C _ H false ltac:(discriminate)) as (s0 & H0 & Hi & He).
    assert (Hst := KD.Proofs.step_ok C _ H PT false ltac:(discriminate)).
    eexists (rel kcontents _). split.
    - exists s0. split; [exact H0|]. split; [exact Hi|]. rewrite He. constructor.
    - intros s l o. apply (client_call (KD.Model.step C PT) kcontents (KD.Proofs.kpre C (int_exponents m_ex nvars) PT false)); auto.
      + intros l' m r' l'' Hd. inversion Hd; subst; eauto.
      + intros Hm l' e Hv Hc. cbn [KD.Proofs.kpre]. change (same_exps (c_ex C) (c_nvars C)) with same. rewrite Hv, Hc. cbn [andb]. apply Nat.ltb_lt. exact Hl.
      + intros Hm l' e Hv Hc. cbn [KD.Proofs.kpre]. change (same_exps (c_ex C) (c_nvars C)) with same. rewrite Hv. cbn [andb]. apply Nat.ltb_lt. specialize (Hroom Hm e).
        change (c_leaf C) with LS. lia.
      + intros l' q Hq. destruct q; auto; discriminate Hq.
      + intros t b Hi' _. exists t. auto.
  Qed.
End Spec.
