(** When DivList rebuilds. *)
From Coq Require Import List Arith Bool ZArith NArith Lia Permutation Sorted.
From Verif.Base Require Import Res Arr ResList StdAlg Order Sort.
From Verif.DivMask Require Import Model Proofs.
From Verif.Spec Require Import DivFinder DivFinderFacts Schedule.
From Verif.DivList Require Import Model Proofs.
Import ListNotations.

Section Sched.
  Context {M : Type}.
  Variable ex : M -> nat -> Z.
  Variable nvars : nat.
  Variable T : exptype.
  Variable sort_data : list var_data -> list var_data.
  Variable use : bool.
  Variable divides less : M -> M -> bool.
  Variables linked sorted auto : bool.
  Variable ratio : nat -> nat.
  Variable rmin : nat.
  Variable sort_ext : list (ext M) -> list (ext M).
  Hypothesis Hsort : sorted = true -> forall l, length (sort_ext l) = length l.
  Notation dlist := (dlist M).
  Notation change := (change auto ratio rmin).
  Notation account := (account auto ratio rmin).

  Definition sync (s : dlist) (c : count) : Prop :=
    length (l_list s) = c_size c /\ l_rebuilds s = c_rebuilds c /\ (auto = true -> l_left s = allowance ratio rmin (c_base c) - c_since c).

  Lemma sync_reset l bits left n : sync (reset_left M auto ratio rmin (mk_dlist l bits left n)) (mk_count (length l) (length l) 0 n).
  Proof.
    unfold sync, reset_left, allowance. destruct auto; cbn [negb l_list l_rebuilds l_left c_size c_base c_since c_rebuilds];
      (split; [auto|split; [auto|]]); [lia|congruence].
  Qed.
  Lemma sync_rebuild s c s' : sync s c -> rebuild_list M ex nvars T sort_data use auto ratio rmin s = Ok s' -> sync s' (rebuilt c).
  Proof.
    intros (H1 & H2 & _). unfold rebuild_list. destruct (calc_rebuild _ _ _ _ _ _ _) as [bits| | |]; cbn [bind]; try discriminate.
    intros H. injection H as <-. unfold rebuilt. rewrite <- H1, <- H2. rewrite <- (map_length (recalculate M ex use bits)). apply sync_reset.
  Qed.
  (** [s] is the state before, [s1] the state after the change of the sequence. *)
  Lemma sync_change s c l bits k s' : sync s c ->
    report_changes M ex nvars T sort_data use auto ratio rmin (mk_dlist l bits (l_left s) (l_rebuilds s)) k = Ok s' ->
    sync s' (change k (length l) c).
  Proof.
    intros (H1 & H2 & H3) H. unfold report_changes in H. unfold Schedule.change.
    assert (Hr := sync_rebuild (mk_dlist l bits (l_left s) (l_rebuilds s)) (mk_count (length l) (c_base c) (c_since c) (c_rebuilds c)) s').
    unfold sync in Hr at 1. cbn [l_list l_left l_rebuilds c_size c_base c_since c_rebuilds] in Hr.
    destruct auto eqn:Ha; cbn [negb andb] in *.
    - cbn [l_left] in H. specialize (H3 eq_refl). destruct (Nat.ltb_spec k (l_left s)).
      + injection H as <-. destruct (Nat.leb_spec (allowance ratio rmin (c_base c)) (c_since c + k)); [lia|].
        unfold sync. cbn [l_list l_left l_rebuilds c_size c_base c_since c_rebuilds]. split; auto. split; auto. intros _. cbn in *. lia.
      + destruct (Nat.leb_spec (allowance ratio rmin (c_base c)) (c_since c + k)); [|lia]. apply Hr; auto.
    - injection H as <-. unfold sync. cbn [l_list l_left l_rebuilds c_size c_base c_since c_rebuilds]. rewrite Ha. split; auto. split; auto. congruence.
  Qed.

  Lemma insert_list_length l e : length (insert_list M less l e) = S (length l).
  Proof. induction l as [|x l IH]; cbn [insert_list]; auto. destruct (less _ _); cbn [length]; auto. Qed.
  Lemma sync_insert s c e s' : sync s c -> insert M ex nvars T sort_data use less linked sorted auto ratio rmin s e = Ok s' ->
    sync s' (change 1 (S (c_size c)) c).
  Proof.
    intros Hs H. unfold insert in H.
    destruct (if negb sorted then _ else _) as [l| | |] eqn:Hl; cbn [bind] in H; try discriminate.
    assert (E : length l = S (length (l_list s))).
    { destruct (negb sorted).
      - injection Hl as <-. rewrite app_length. cbn [length]. lia.
      - unfold insert_sort in Hl. destruct linked; [injection Hl as <-; apply insert_list_length|].
        destruct (upper_bound _ _ _) as [i| | |]; cbn [bind] in Hl; try discriminate. injection Hl as <-.
        rewrite app_length. cbn [length]. rewrite firstn_length, skipn_length. lia. }
    apply sync_change with (c := c) in H; auto. rewrite E in H. now rewrite (proj1 Hs) in H.
  Qed.
  Lemma sync_insert_each es : forall s c s', sync s c -> insert_each M ex nvars T sort_data use less linked sorted auto ratio rmin s es = Ok s' ->
    sync s' (Nat.iter (length es) (fun c => change 1 (S (c_size c)) c) c).
  Proof.
    induction es as [|e es IH]; intros s c s' Hs H; cbn [insert_each] in H; [injection H as <-; exact Hs|].
    destruct (insert _ _ _ _ _ _ _ _ _ _ _ _ s e) as [s1| | |] eqn:H1; cbn [bind] in H; try discriminate.
    assert (H2 := sync_insert _ _ _ _ Hs H1). specialize (IH _ _ _ H2 H).
    cbn [length]. rewrite iter_shift. exact IH.
  Qed.

  Lemma remove_list_lengths m (l : list (ext M)) :
    let '(kept, out, n) := remove_multiples_list M use divides m l in n = length out /\ length kept = length l - length out /\ length out <= length l.
  Proof.
    rewrite remove_list_ok. rewrite map_length. pose proof (filter_lengths (ext_divides M use divides m) l). lia.
  Qed.
  Lemma sync_step s c o s' r : sync s c ->
    step M ex nvars T sort_data use divides less linked sorted auto ratio rmin sort_ext s o = Ok (s', r) -> sync s' (account c o r).
  Proof.
    intros Hs H. destruct o as [e|es|m|m|m|m cb|m cb|cb|m| |]; cbn [step] in H.
    - destruct (insert _ _ _ _ _ _ _ _ _ _ _ _ s e) as [s1| | |] eqn:H1; cbn [bind] in H; try discriminate. injection H as <- <-.
      now apply (sync_insert s c e).
    - destruct (insert_range _ _ _ _ _ _ _ _ _ _ _ _ _ s es) as [s1| | |] eqn:H1; cbn [bind] in H; try discriminate. injection H as <- <-.
      cbn [Schedule.account]. unfold insert_range in H1. rewrite <- (proj1 Hs). destruct (l_list s) as [|x l] eqn:Hl; cbn [length Nat.eqb].
      + destruct es as [|e es]; [injection H1 as <-; auto|].
        destruct (calc_rebuild _ _ _ _ _ _ _) as [bits| | |]; cbn [bind] in H1; try discriminate. injection H1 as <-.
        set (l' := if sorted then _ else _). assert (E : length l' = length (e :: es)).
        { subst l'. destruct sorted; [rewrite Hsort by auto|]; apply (map_length (extend M ex use bits) (e :: es)). }
        rewrite <- E. destruct Hs as (_ & <- & _). apply sync_reset.
      + now apply (sync_insert_each es s).
    - destruct (remove_multiples _ _ _ _ _ _ _ _ _ _ _ s m) as [[[s1 b] out]| | |] eqn:H1; cbn [bind] in H; try discriminate. injection H as <- <-.
      cbn [Schedule.account]. unfold remove_multiples in H1. set (em := extend M ex use (l_bits s) m) in *.
      replace (if linked then _ else _) with (Ok (filter (fun x => negb (ext_divides M use divides em x)) (l_list s),
          map x_t (filter (ext_divides M use divides em) (l_list s)), length (filter (ext_divides M use divides em) (l_list s)))) in H1.
      2: { destruct linked; [now rewrite remove_list_ok|now rewrite remove_vector_ok]. }
      cbn [bind] in H1. destruct (report_changes _ _ _ _ _ _ _ _ _ _ _) as [s2| | |] eqn:H2; cbn [bind] in H1; try discriminate.
      injection H1 as <- _ <-. apply sync_change with (c := c) in H2; auto. rewrite map_length.
      replace (c_size c - length (filter (ext_divides M use divides em) (l_list s))) with (length (filter (fun x => negb (ext_divides M use divides em x)) (l_list s))); auto.
      pose proof (filter_lengths (ext_divides M use divides em) (l_list s)). rewrite <- (proj1 Hs). lia.
    - destruct (remove_element M ex nvars s m) as [s1 b] eqn:H1. injection H as <- <-. unfold remove_element in H1.
      destruct (scan M _ (l_list s)) as [i|] eqn:Hi; pose proof (f_equal fst H1) as E1; pose proof (f_equal snd H1) as E2; cbn [fst snd] in E1, E2; subst s1 b; clear H1; auto.
      cbn [Schedule.account].
      apply scan_some in Hi as (l1 & x & l2 & Hl & <- & _). destruct Hs as (H1 & H2 & H3). unfold sync.
      cbn [l_list l_left l_rebuilds c_size c_base c_since c_rebuilds]. split; auto. rewrite <- H1.
      rewrite app_length, firstn_length, skipn_length, Hl, app_length. cbn [length]. lia.
    - destruct (find_divisor _ _ _ _ _ _ _ s m); cbn [bind] in H; try discriminate. injection H as <- <-. exact Hs.
    - destruct (all_divisors _ _ _ _ _ _ _ s m cb); cbn [bind] in H; try discriminate. injection H as <- <-. exact Hs.
    - injection H as <- <-. exact Hs.
    - injection H as <- <-. exact Hs.
    - destruct (to_front _ _ _ _ _ _ _ s m) as [[s1 r1]| | |] eqn:H1; cbn [bind] in H; try discriminate. injection H as <- <-. cbn [Schedule.account].
      unfold to_front in H1. destruct (find_iterator _ _ _ _ _ _ _ s m) as [[i|]| | |]; cbn [bind] in H1; try discriminate; [|injection H1 as <- _; exact Hs].
      destruct (move_to_front M linked (l_list s) i) as [l| | |] eqn:Hm; cbn [bind] in H1; try discriminate.
      destruct (vget l 0) as [front| | |]; cbn [bind] in H1; try discriminate. injection H1 as <- _. destruct Hs as (H1 & H2 & H3). unfold sync. cbn [l_list l_left l_rebuilds].
      split; auto. rewrite <- H1. destruct (vget (l_list s) i) as [x| | |] eqn:Hg; unfold move_to_front in Hm; rewrite Hg in Hm;
        destruct linked; cbn [bind] in Hm; try discriminate.
      + assert (E : forall a b : list (ext M), Ok a = Ok b -> length a = length b) by congruence. apply E in Hm. rewrite <- Hm. apply vget_ok in Hg. assert (Hl := nth_error_some_lt _ _ _ Hg). cbn [length]. rewrite app_length, firstn_length, skipn_length. lia.
      + destruct (shift_up M (l_list s) i) as [a| | |] eqn:Hu; cbn [bind] in Hm; try discriminate.
        assert (Ha : length a = length (l_list s)).
        { revert Hu. generalize (l_list s). clear. induction i as [|i IH]; intros l H; cbn [shift_up] in H; [now injection H as <-|].
          destruct (vget l i) as [y| | |]; cbn [bind] in H; try discriminate. unfold vset in H at 1. destruct (S i <? length l); cbn [bind] in H; try discriminate.
          apply IH in H. now rewrite upd_length in H. }
        unfold vset in Hm. destruct (0 <? length a); try discriminate. injection Hm as <-. now rewrite upd_length.
    - destruct (rebuild_list _ _ _ _ _ _ _ _ _ s) as [s1| | |] eqn:H1; cbn [bind] in H; try discriminate. injection H as <- <-.
      now apply (sync_rebuild s c).
    - injection H as <- <-. exact Hs.
  Qed.
  Lemma sync_run ops : forall s c s' rs, sync s c ->
    run (step M ex nvars T sort_data use divides less linked sorted auto ratio rmin sort_ext) s ops = Ok (s', rs) ->
    sync s' (accounts auto ratio rmin c ops rs).
  Proof.
    induction ops as [|o ops IH]; intros s c s' rs Hs H; cbn [run] in H; [injection H as <- <-; exact Hs|].
    destruct (step _ _ _ _ _ _ _ _ _ _ _ _ _ _ s o) as [[s1 r]| | |] eqn:H1; cbn [bind] in H; try discriminate.
    destruct (run _ s1 ops) as [[s2 rs1]| | |] eqn:H2; cbn [bind] in H; try discriminate. injection H as <- <-.
    cbn [accounts]. eapply IH; [|exact H2]. eapply sync_step; eauto.
  Qed.
  Lemma sync_construct s : construct M ex nvars T sort_data use auto ratio rmin = Ok s -> sync s fresh.
  Proof.
    unfold construct. destruct (calc_rebuild _ _ _ _ _ _ _) as [bits| | |]; cbn [bind]; try discriminate. intros H. injection H as <-. apply (sync_reset []).
  Qed.
  (** The rebuilds of a DivList follow the schedule. *)
  Theorem divlist_schedule s0 ops s rs :
    construct M ex nvars T sort_data use auto ratio rmin = Ok s0 ->
    run (step M ex nvars T sort_data use divides less linked sorted auto ratio rmin sort_ext) s0 ops = Ok (s, rs) ->
    l_rebuilds s = c_rebuilds (accounts auto ratio rmin fresh ops rs) /\ length (l_list s) = c_size (accounts auto ratio rmin fresh ops rs).
  Proof.
    intros H0 H. apply sync_construct in H0. destruct (sync_run ops s0 fresh s rs H0 H) as (H1 & H2 & _). auto.
  Qed.
End Sched.

Lemma accounts_insertions {M : Type} auto ratio rmin (es : list M) : forall rs c, length rs = length es ->
  accounts auto ratio rmin c (map DInsert es) rs = Nat.iter (length es) (fun c => change auto ratio rmin 1 (S (c_size c)) c) c.
Proof.
  induction es as [|e es IH]; intros [|r rs] c H; cbn [length] in H; try discriminate; auto. cbn [map accounts account length].
  rewrite IH by lia. now rewrite iter_shift.
Qed.
Lemma run_length {St Op Out} (step : St -> Op -> res (St * Out)) ops : forall s s' rs, run step s ops = Ok (s', rs) -> length rs = length ops.
Proof.
  induction ops as [|o ops IH]; intros s s' rs H; cbn [run] in H; [now injection H as <- <-|].
  destruct (step s o) as [[s1 r]| | |]; cbn [bind] in H; try discriminate. destruct (run step s1 ops) as [[s2 rs1]| | |] eqn:H2; cbn [bind] in H; try discriminate.
  injection H as <- <-. cbn [length]. f_equal. eauto.
Qed.
