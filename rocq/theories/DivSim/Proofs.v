(** Proofs about the divisor simulation. *)
From Coq Require Import List Arith Bool ZArith Lia Permutation Sorted.
From Verif.Base Require Import Res Order Sort StdAlg.
From Verif.Spec Require Import DivFinder DivFinderFacts DivClient.
From Verif.DivMask Require Import Model Defined.
From Verif.Finders Require Import Model.
From Verif.DivSim Require Import Model ClientProofs.
Import ListNotations.
Local Notation length := List.length.

(** ** Sorting pointers *)
Definition sorts_pointers (sort : list monomial -> list monomial) : Prop := sorts (fun a b => m_ptr a <? m_ptr b) sort.

Lemma sorted_perm_eq l : forall l', StronglySorted le l -> StronglySorted le l' -> Permutation l l' -> l = l'.
Proof.
  induction l as [|x l IH]; intros [|y l'] H H' Hp; auto.
  - apply Permutation_nil in Hp. discriminate.
  - symmetry in Hp. apply Permutation_nil in Hp. discriminate.
  - apply StronglySorted_inv in H as [H1 H2]. apply StronglySorted_inv in H' as [H1' H2']. rewrite Forall_forall in H2, H2'.
    assert (x = y).
    { assert (Hx : In x (y :: l')) by (eapply Permutation_in; [exact Hp|now left]). assert (Hy : In y (x :: l)) by (eapply Permutation_in; [symmetry; exact Hp|now left]).
      destruct Hx as [Hx|Hx]; auto. destruct Hy as [Hy|Hy]; auto. specialize (H2 _ Hy). specialize (H2' _ Hx). lia. }
    subst. f_equal. apply IH; auto. now apply Permutation_cons_inv in Hp.
Qed.
Lemma sort_pointers sort xs ys : sorts_pointers sort -> Permutation (map m_ptr xs) (map m_ptr ys) -> map m_ptr (sort xs) = map m_ptr (sort ys).
Proof.
  intros Hs Hp. assert (G : forall l, StronglySorted le (map m_ptr (sort l))).
  { intros l. destruct (Hs l) as [_ Hs']. unfold in_order in Hs'. induction Hs' as [|a k Hk IH Ha]; cbn [map]; constructor; auto.
    rewrite Forall_forall in *. intros z Hz. apply in_map_iff in Hz as (w & <- & Hw). apply Ha in Hw. apply Nat.ltb_ge in Hw. exact Hw. }
  apply sorted_perm_eq; auto. etransitivity; [apply Permutation_map; apply Hs|]. etransitivity; [exact Hp|]. symmetry. apply Permutation_map. apply Hs.
Qed.

(** ** No false errors *)
Definition fresh (q : request monomial) : event := match q with Put m => new_event InsertUnknown m | Seek m => new_event QueryUnknown m end.

Section Sim.
  Variable nvars : nat.
  Notation divides := (m_divides nvars).
  Notation same := (same_exps m_ex nvars).
  Variable minimize debug : bool.
  Variable sort : list monomial -> list monomial.
  Hypothesis Hsort : sorts_pointers sort.
  Variable findAll : bool.

  Definition expected (l : list monomial) (q : request monomial) : list monomial :=
    match q with Put m => thrown divides minimize l m | Seek m => divisors divides m l end.
  Definition counted (l : list monomial) (q : request monomial) (e : event) : Prop :=
    if debug then map m_ptr (e_all e) = map m_ptr (sort (expected l q)) else e_count e = length (expected l q).
  Definition known (l : list monomial) (q : request monomial) (e : event) : Prop :=
    e_monomial e = subject_of q /\
    match q with
    | Put _ => e_type e = InsertKnown /\ counted l q e
    | Seek m => e_type e = (if existsb (fun d => divides d m) l then QueryHasDivisor else QueryNoDivisor) /\ (findAll = true -> counted l q e)
    end.
  Definition unknown (q : request monomial) (e : event) : Prop :=
    e_monomial e = subject_of q /\ e_type e = match q with Put _ => InsertUnknown | Seek _ => QueryUnknown end.
  Definition right (l : list monomial) (q : request monomial) (e : event) : Prop := unknown q e \/ known l q e.
  Fixpoint along (P : list monomial -> request monomial -> event -> Prop) (l : list monomial) (qs : list (request monomial)) (evs : list event) : Prop :=
    match qs, evs with
    | [], [] => True
    | q :: qs', e :: evs' => P l q e /\ along P (held_after divides minimize l q) qs' evs'
    | _, _ => False
    end.
  Lemma along_impl (P Q : list monomial -> request monomial -> event -> Prop) : (forall l q e, P l q e -> Q l q e) -> forall qs l evs, along P l qs evs -> along Q l qs evs.
  Proof. intros H. induction qs as [|q qs IH]; intros l [|e evs]; cbn [along]; auto. intros [H1 H2]. auto. Qed.

  Definition good_monomial (m : monomial) : Prop := length (m_exps m) = nvars /\ int_exponents m_ex nvars m = true.

  Lemma below_divides m d : length (m_exps m) = nvars -> divides d m = true -> below m d = true.
  Proof.
    intros Hl. rewrite divides_spec. intros H. unfold below. rewrite Hl. apply forallb_forall. intros v Hv. apply in_seq in Hv. apply Z.leb_le. apply H. lia.
  Qed.
  Lemma divisors_empty m l : match divisors divides m l with [] => false | _ => true end = existsb (fun d => divides d m) l.
  Proof. unfold divisors. induction l as [|x l IH]; auto. cbn [filter existsb]. destruct (divides x m); auto. Qed.
  Lemma check_all_same xs : forall all, map m_ptr all = map m_ptr xs -> check_all xs all = Ok true.
  Proof.
    induction xs as [|x xs IH]; intros [|y all] H; auto; [discriminate|]. cbn [map] in H. cbn [check_all]. injection H as H1 H2.
    rewrite H1, Nat.eqb_refl. auto.
  Qed.
  Lemma same_pointers_refl xs ys : map m_ptr xs = map m_ptr ys -> same_pointers xs ys = true.
  Proof. intros H. unfold same_pointers. destruct (list_eq_dec _ _ _); congruence. Qed.

  Section One.
    Variable sub : subject.
    Variable room : monomial -> nat.
    Variable R : d_state sub -> list monomial -> Prop.
    Hypothesis Hcall : forall s l o, R s l -> allowed nvars minimize room l o ->
      exists s' r, d_call sub s o = Ok (s', r) /\ R s' (after_call nvars minimize l o) /\ answers nvars minimize l o r.

    Lemma run_event_ok s l q e : R s l -> right l q e -> good_monomial (subject_of q) -> (minimize = false -> forall m, q = Put m -> copies same m l < room m) ->
      exists s' e', run_event debug sort findAll sub s e = Ok (Goes (s', e')) /\ R s' (held_after divides minimize l q) /\ known l q e'.
    Proof.
      intros HR Hright [Hlen Hint] Hroom. destruct q as [m|m]; cbn [subject_of] in *.
      - destruct (Hcall s l (CInsert m) HR) as (s' & r & Hc & HR' & xs & -> & Hxs). { split; auto. }
        cbn [after_call] in HR'. destruct Hright as [[Hm Ht]|[Hm [Ht Hk]]]; cbn [subject_of] in Hm; unfold run_event; rewrite Ht, Hm, Hc; cbn [bind]; unfold with_state, check_insert; rewrite Ht.
        + cbn [next bind]. eexists s', _. split; [reflexivity|]. split; auto. unfold known, counted. destruct debug; cbn [e_monomial e_type e_all e_count expected subject_of]; split; auto; split; auto.
          * apply sort_pointers; auto. now apply Permutation_map.
          * now apply Permutation_length.
        + exists s', e. unfold counted in Hk. unfold known, counted. cbn [expected] in *. destruct debug.
          * rewrite same_pointers_refl; [cbn [next bind]; auto|]. rewrite Hk. apply sort_pointers; auto. now apply Permutation_map.
          * rewrite Hk. rewrite (Permutation_length Hxs), Nat.eqb_refl. cbn [next bind]. auto.
      - unfold run_event. assert (Hq : forall A (x y z : A), match e_type e with InsertKnown | InsertUnknown => x | StateUnknown | StateKnown => y | _ => z end = z).
        { intros. destruct Hright as [[Hm Ht]|[Hm [Ht Hk]]]; rewrite Ht; auto. destruct (existsb _ _); auto. }
        assert (Hm : e_monomial e = m) by (destruct Hright as [[Hm _]|[Hm _]]; exact Hm).
        destruct findAll eqn:Hf; cbn [negb].
        + destruct (Hcall s l (CAsk (DAllDivisors m (fun _ => true))) HR) as (s' & r & Hc & HR' & xs & -> & Hxs). { cbn [allowed]. auto. }
          cbn [after_call] in HR'. cbn [held_after].
          assert (Hcq : exists e', check_query debug sort e xs = Ok (Goes e') /\ known l (Seek m) e').
          { unfold check_query. assert (Hb : debug && negb (forallb (below (e_monomial e)) xs) = false).
            { replace (forallb _ xs) with true; [now destruct debug|]. symmetry. apply forallb_forall. intros d Hd. rewrite Hm. apply below_divides; auto.
              eapply Permutation_in in Hd; [|exact Hxs]. now apply filter_In in Hd. }
            rewrite Hb. assert (Hemp : match xs with [] => QueryNoDivisor | _ => QueryHasDivisor end = if existsb (fun d => divides d m) l then QueryHasDivisor else QueryNoDivisor).
            { rewrite <- divisors_empty. destruct xs as [|x xs]; destruct (divisors divides m l) as [|y ys]; auto; apply Permutation_length in Hxs; discriminate. }
            destruct Hright as [[Hm' Ht]|[Hm' [Ht Hk]]].
            - rewrite Ht, Hemp. eexists. split; [reflexivity|]. unfold known, counted. destruct debug; cbn [e_monomial e_type e_all e_count expected subject_of]; split; auto; split; auto; intros _.
              + apply sort_pointers; auto. now apply Permutation_map.
              + now apply Permutation_length.
            - specialize (Hk Hf). exists e. split; [|split; auto]. assert (Hn : forall A (x y : A), match e_type e with QueryUnknown => x | _ => y end = y) by (intros; rewrite Ht; destruct (existsb _ _); auto).
              rewrite Hn. unfold counted in Hk. cbn [expected] in Hk. destruct debug.
              + rewrite check_all_same; [reflexivity|]. rewrite Hk. apply sort_pointers; auto. apply Permutation_map. now symmetry.
              + rewrite Hk, (Permutation_length Hxs), Nat.eqb_refl. auto. }
          destruct Hcq as (e' & He & Hk). exists s', e'. split; auto. rewrite Hq, Hm, Hc. cbn [bind]. rewrite He. reflexivity.
        + destruct (Hcall s l (CAsk (DFindDivisor m)) HR I) as (s' & r & Hc & HR' & x & -> & Hx). cbn [after_call] in HR'. cbn [held_after].
          assert (Hcq : exists e', check_find debug e x = Goes e' /\ known l (Seek m) e').
          { pose proof (is_divisor_exists nvars m l x Hx) as Hex. unfold check_find. destruct x as [d|].
            - destruct Hx as [_ Hx]. rewrite Hm. rewrite below_divides by auto. rewrite andb_false_r.
              destruct Hright as [[Hm' Ht]|[Hm' [Ht Hk]]]; rewrite Ht; rewrite ?Hex; eexists; (split; [reflexivity|]); unfold known; cbn [e_monomial e_type subject_of]; rewrite Hex;
                (split; [auto|]); (split; [auto|]); congruence.
            - destruct Hright as [[Hm' Ht]|[Hm' [Ht Hk]]]; rewrite Ht; rewrite ?Hex; eexists; (split; [reflexivity|]); unfold known; cbn [e_monomial e_type subject_of]; rewrite Hex;
                (split; [auto|]); (split; [auto|]); congruence. }
          destruct Hcq as (e' & He & Hk). exists s', e'. split; auto. rewrite Hq, Hm, Hc. cbn [bind]. rewrite He. reflexivity.
    Qed.

    Definition roomy (l : list monomial) (qs : list (request monomial)) : Prop := minimize = false -> forall m, copies same m (put_in qs ++ l) <= room m.
    Lemma copies_cons m x l : copies same m (x :: l) = (if same m x then 1 else 0) + copies same m l.
    Proof. unfold copies. cbn [filter]. destruct (same m x); auto. Qed.
    Lemma copies_app m l l' : copies same m (l ++ l') = copies same m l + copies same m l'.
    Proof. induction l as [|x l IH]; auto. cbn [app]. rewrite !copies_cons, IH. lia. Qed.
    Lemma same_self m : same m m = true.
    Proof. apply same_spec. auto. Qed.
    Lemma roomy_now l q qs : roomy l (q :: qs) -> minimize = false -> forall m, q = Put m -> copies same m l < room m.
    Proof.
      intros H Hm m ->. specialize (H Hm m). cbn [put_in flat_map app] in H. rewrite copies_cons, same_self, copies_app in H. lia.
    Qed.
    Lemma roomy_later l q qs : roomy l (q :: qs) -> roomy (held_after divides minimize l q) qs.
    Proof.
      intros H Hm m. specialize (H Hm m). destruct q as [x|x]; cbn [held_after]; auto. unfold put. rewrite Hm.
      change (put_in (Put x :: qs)) with (x :: put_in qs) in H. cbn [app] in H. rewrite copies_cons, copies_app in H. rewrite copies_app, copies_cons. lia.
    Qed.

    Lemma run_events_ok qs : forall evs s l, R s l -> along right l qs evs -> Forall (fun q => good_monomial (subject_of q)) qs -> roomy l qs ->
      exists s' evs', run_events debug sort findAll sub s evs = Ok (Goes (s', evs')) /\ R s' (fold_left (held_after divides minimize) qs l) /\ along known l qs evs'.
    Proof.
      induction qs as [|q qs IH]; intros [|e evs] s l HR Ha Hg Hr; try contradiction.
      - exists s, []. auto.
      - destruct Ha as [Hq Ha]. inversion Hg as [|? ? Hg1 Hg2]; subst. destruct (run_event_ok s l q e HR Hq Hg1 (roomy_now _ _ _ Hr)) as (s1 & e1 & H1 & HR1 & K1).
        destruct (IH evs s1 _ HR1 Ha Hg2 (roomy_later _ _ _ Hr)) as (s2 & evs2 & H2 & HR2 & K2). exists s2, (e1 :: evs2).
        cbn [run_events]. unfold next at 1. rewrite H1. cbn [bind fst snd]. unfold next. rewrite H2. cbn [bind fst snd]. cbn [fold_left along]. auto.
    Qed.
  End One.

  Lemma run_finder_ok sub room qs evs : behaves nvars minimize room sub -> along right [] qs evs -> Forall (fun q => good_monomial (subject_of q)) qs ->
    roomy room [] qs -> exists evs', run_finder debug sort findAll sub 1 evs = Ok (Goes (length (held divides minimize qs), evs')) /\ along known [] qs evs'.
  Proof.
    intros (R & (s0 & Hn & HR0) & Hcall) Ha Hg Hr. destruct (run_events_ok sub room R Hcall qs evs s0 [] HR0 Ha Hg Hr) as (s1 & evs1 & H1 & HR1 & K1).
    destruct (Hcall s1 _ (CAsk DSize) HR1 I) as (s2 & r & H2 & _ & Hrr). cbn [answers] in Hrr. subst r. exists evs1. split; auto.
    unfold run_finder. rewrite Hn. cbn [bind run_steps]. unfold next. rewrite H1. cbn [bind fst snd]. rewrite H2. reflexivity.
  Qed.

  Lemma simulate_ok room qs : Forall (fun q => good_monomial (subject_of q)) qs -> roomy room [] qs -> forall subs evs,
    Forall (behaves nvars minimize room) subs -> along right [] qs evs ->
    exists evs', simulate debug sort findAll 1 subs evs = Ok (Goes (map (fun _ => length (held divides minimize qs)) subs, evs')) /\
      (subs <> [] -> along known [] qs evs').
  Proof.
    intros Hg Hr. induction subs as [|sub subs IH]; intros evs Hb Ha.
    - exists evs. split; auto. congruence.
    - inversion Hb as [|? ? Hb1 Hb2]; subst. destruct (run_finder_ok sub room qs evs Hb1 Ha Hg Hr) as (evs1 & H1 & K1).
      destruct (IH evs1 Hb2) as (evs2 & H2 & K2). { eapply along_impl; [|exact K1]. intros. now right. }
      exists evs2. cbn [simulate map]. unfold next at 1. rewrite H1. cbn [bind fst snd]. unfold next. rewrite H2. cbn [bind fst snd]. split; auto. intros _.
      destruct subs as [|s2 subs]; [|apply K2; discriminate]. cbn [simulate] in H2. injection H2 as <-. exact K1.
  Qed.

  Lemma fresh_right qs : forall l, along right l qs (map fresh qs).
  Proof. induction qs as [|q qs IH]; intros l; cbn [along map]; auto. split; auto. left. destruct q; split; reflexivity. Qed.
End Sim.
