(** What a simulation that ran through says about finders of which nothing is known. *)
From Coq Require Import List Arith Bool ZArith Lia Permutation.
From Verif.Base Require Import Res Order Sort.
From Verif.Spec Require Import DivFinder DivClient.
From Verif.Finders Require Import Model.
From Verif.DivSim Require Import Model ClientProofs Proofs.
Import ListNotations.
Local Notation length := List.length.

(** The answers of a finder to requests, without any simulation. *)
Definition ask (findAll : bool) (q : request monomial) : cop monomial :=
  match q with
  | Put m => CInsert m
  | Seek m => CAsk (if findAll then DAllDivisors m (fun _ => true) else DFindDivisor m)
  end.
Fixpoint transcript_from (findAll : bool) (sub : subject) (s : d_state sub) (qs : list (request monomial)) : res (list (request monomial * dout monomial)) :=
  match qs with
  | [] => Ok []
  | q :: qs' =>
      let* (s1, r) := d_call sub s (ask findAll q) in
      let* rest := transcript_from findAll sub s1 qs' in
      Ok ((q, r) :: rest)
  end.
Definition transcript (findAll : bool) (sub : subject) (qs : list (request monomial)) : res (list (request monomial * dout monomial)) :=
  let* s := d_new sub in transcript_from findAll sub s qs.

(** Two answers to the same request agree as far as the simulation compares them: in number, or with DEBUG in the monomials, where
    the second list of divisors may be shorter. *)
Definition agree (debug : bool) (a b : request monomial * dout monomial) : Prop :=
  match a, b with
  | (Put _, DOList xs), (Put _, DOList ys) => if debug then Permutation (map m_ptr xs) (map m_ptr ys) else length xs = length ys
  | (Seek _, DOList xs), (Seek _, DOList ys) => if debug then exists rest, Permutation (map m_ptr xs) (map m_ptr ys ++ rest) else length xs = length ys
  | (Seek _, DOFound x), (Seek _, DOFound y) => x = None <-> y = None
  | _, _ => False
  end.
(** With DEBUG everything answered to a search divides. *)
Definition sound (a : request monomial * dout monomial) : Prop :=
  match a with
  | (Seek m, DOList xs) => forall d, In d xs -> forall var, var < length (m_exps m) -> (m_ex d var <= m_ex m var)%Z
  | (Seek m, DOFound (Some d)) => forall var, var < length (m_exps m) -> (m_ex d var <= m_ex m var)%Z
  | _ => True
  end.

Section Detect.
  Variable debug : bool.
  Variable sort : list monomial -> list monomial.
  Hypothesis Hsort : sorts_pointers sort.
  Variable findAll : bool.

  Definition settled (q : request monomial) (e : event) : Prop :=
    e_monomial e = subject_of q /\ match q with Put _ => e_type e = InsertKnown | Seek _ => e_type e = QueryHasDivisor \/ e_type e = QueryNoDivisor end.
  Definition fits (a : request monomial * dout monomial) (e : event) : Prop :=
    match a with
    | (Put _, DOList xs) => if debug then map m_ptr (sort xs) = map m_ptr (e_all e) else length xs = e_count e
    | (Seek _, DOList xs) => findAll = true /\ if debug then exists rest, map m_ptr (e_all e) = map m_ptr (sort xs) ++ rest else length xs = e_count e
    | (Seek _, DOFound x) => findAll = false /\ e_type e = match x with None => QueryNoDivisor | Some _ => QueryHasDivisor end
    | _ => False
    end.
  Definition fits_first (a : request monomial * dout monomial) (e : event) : Prop :=
    fits a e /\ match a with (Seek _, DOList xs) => debug = true -> map m_ptr (e_all e) = map m_ptr (sort xs) | _ => True end.

  Lemma fits_agree a b e : fst a = fst b -> fits_first a e -> fits b e -> agree debug a b.
  Proof.
    destruct a as [q r], b as [q' r']. cbn [fst]. intros <-. unfold fits_first, fits, agree. destruct q as [m|m].
    - destruct r as [| | | |xs|]; intros [H _] H'; try contradiction. destruct r' as [| | | |ys|]; try contradiction. destruct debug; [|congruence].
      assert (Hs : map m_ptr (sort xs) = map m_ptr (sort ys)) by congruence.
      etransitivity; [apply Permutation_map; symmetry; apply (proj1 (Hsort xs))|]. rewrite Hs. apply Permutation_map. apply Hsort.
    - destruct r as [| | |x|xs|]; intros [H Hx] H'; try contradiction; destruct r' as [| | |y|ys|]; try contradiction; destruct H as [Hf H], H' as [Hf' H']; try congruence.
      + rewrite H in H'. destruct x, y; split; congruence.
      + destruct debug; [|congruence]. destruct H' as [rest H']. exists rest. rewrite Hx in H' by auto.
        etransitivity; [apply Permutation_map; symmetry; apply (proj1 (Hsort xs))|]. rewrite H'. apply Permutation_app_tail. apply Permutation_map. apply Hsort.
  Qed.

  Lemma check_all_prefix xs : forall all, check_all xs all = Ok true -> exists rest, map m_ptr all = map m_ptr xs ++ rest.
  Proof.
    induction xs as [|x xs IH]; intros all H; [exists (map m_ptr all); auto|]. destruct all as [|y all]; cbn [check_all] in H; [discriminate|].
    destruct (m_ptr x =? m_ptr y) eqn:He; [|discriminate]. apply Nat.eqb_eq in He. destruct (IH all H) as [rest Hr]. exists rest. cbn [map app]. congruence.
  Qed.
  Lemma below_spec m d : below m d = true -> forall var, var < length (m_exps m) -> (m_ex d var <= m_ex m var)%Z.
  Proof. unfold below. rewrite forallb_forall. intros H var Hv. apply Z.leb_le. apply H. apply in_seq. lia. Qed.

  Section One.
    Variable sub : subject.

    Lemma run_event_fits s e q s' e' : unknown q e \/ settled q e -> run_event debug sort findAll sub s e = Ok (Goes (s', e')) ->
      exists r, d_call sub s (ask findAll q) = Ok (s', r) /\ settled q e' /\ fits (q, r) e' /\ (unknown q e -> fits_first (q, r) e') /\ (settled q e -> e' = e) /\
        (debug = true -> sound (q, r)).
    Proof.
      intros Hu. unfold run_event. destruct q as [m|m].
      - assert (Hm : e_monomial e = m) by (destruct Hu as [[H _]|[H _]]; exact H). rewrite Hm.
        assert (Hq : forall A (x y z : A), match e_type e with InsertKnown | InsertUnknown => x | StateUnknown | StateKnown => y | _ => z end = x).
        { intros. destruct Hu as [[_ Ht]|[_ Ht]]; rewrite Ht; auto. }
        rewrite Hq. cbn [ask]. destruct (d_call sub s (CInsert m)) as [[s1 r]| | |]; try discriminate. cbn [bind]. destruct r as [| | | |xs|]; try discriminate.
        unfold with_state, next, bind, check_insert. intros H. exists (DOList xs). destruct Hu as [[_ Ht]|[_ Ht]]; rewrite Ht in H.
        + injection H as <- <-. split; auto. unfold settled, fits_first, fits, unknown. destruct debug; cbn [e_monomial e_type e_all e_count subject_of sound]; repeat split; auto; intros [_ Hx]; congruence.
        + unfold settled, fits_first, fits, unknown. destruct debug.
          * unfold same_pointers in H. destruct (list_eq_dec _ _ _) as [He|]; try discriminate. injection H as <- <-. cbn [subject_of sound]. repeat split; auto. 
          * destruct (length xs =? e_count e) eqn:He; try discriminate. apply Nat.eqb_eq in He. injection H as <- <-. cbn [subject_of sound]. repeat split; auto.
      - assert (Hm : e_monomial e = m) by (destruct Hu as [[H _]|[H _]]; exact H). rewrite Hm.
        assert (Hq : forall A (x y z : A), match e_type e with InsertKnown | InsertUnknown => x | StateUnknown | StateKnown => y | _ => z end = z).
        { intros. destruct Hu as [[_ Ht]|[_ [Ht|Ht]]]; rewrite Ht; auto. }
        rewrite Hq. cbn [ask]. destruct findAll eqn:Hf; cbn [negb].
        + destruct (d_call sub s (CAsk (DAllDivisors m (fun _ => true)))) as [[s1 r]| | |]; try discriminate. cbn [bind]. destruct r as [| | | |xs|]; try discriminate.
          unfold with_state, next. destruct (check_query debug sort e xs) as [[e1|]| | |] eqn:Hc; try discriminate. cbn [bind]. intros H. injection H as <- <-.
          exists (DOList xs). split; auto. unfold check_query in Hc. destruct (debug && negb (forallb (below (e_monomial e)) xs)) eqn:Hb; try discriminate.
          assert (Hs : debug = true -> sound (Seek m, DOList xs)).
          { intros Hd. rewrite Hd in Hb. cbn [andb] in Hb. apply negb_false_iff in Hb. rewrite forallb_forall in Hb. cbn [sound]. intros d Hin. rewrite <- Hm. apply below_spec. auto. }
          destruct Hu as [[_ Ht]|[_ Ht]].
          * rewrite Ht in Hc. injection Hc as <-. unfold settled, fits_first, fits, unknown.
            split; [|split; [|split; [|split; [|exact Hs]]]].
            -- destruct debug; cbn [e_monomial e_type subject_of]; split; auto; destruct xs; auto.
            -- rewrite Hf. split; auto. destruct debug; cbn [e_all e_count]; auto. exists []. now rewrite app_nil_r.
            -- intros _. rewrite Hf. destruct debug; cbn [e_all e_count]; split; auto; [split; auto; exists []; now rewrite app_nil_r|discriminate].
            -- intros [_ [Hx|Hx]]; congruence.
          * assert (Hn : forall A (x y : A), match e_type e with QueryUnknown => x | _ => y end = y) by (intros; destruct Ht as [Ht|Ht]; rewrite Ht; auto).
            rewrite Hn in Hc. assert (He : e1 = e /\ (if debug then exists rest, map m_ptr (e_all e) = map m_ptr (sort xs) ++ rest else length xs = e_count e)).
            { destruct debug.
              - destruct (check_all (sort xs) (e_all e)) as [[|]| | |] eqn:Hca; try discriminate. cbn [bind] in Hc. injection Hc as <-. split; auto. now apply check_all_prefix.
              - destruct (length xs =? e_count e) eqn:He; try discriminate. injection Hc as <-. apply Nat.eqb_eq in He. auto. }
            destruct He as [-> He]. unfold settled, fits_first, fits, unknown. cbn [subject_of].
            split; [auto|]. split; [auto|]. split; [intros [_ Hx]; destruct Ht; congruence|]. auto.
        + destruct (d_call sub s (CAsk (DFindDivisor m))) as [[s1 r]| | |]; try discriminate. cbn [bind]. destruct r as [| | |x| |]; try discriminate.
          unfold with_state, next, bind. destruct (check_find debug e x) as [e1|] eqn:Hc; try discriminate. intros H. injection H as <- <-.
          exists (DOFound x). split; auto. unfold check_find in Hc. destruct x as [d|].
          * destruct (debug && negb (below (e_monomial e) d)) eqn:Hb; try discriminate.
            assert (Hs : debug = true -> sound (Seek m, DOFound (Some d))).
            { intros Hd. rewrite Hd in Hb. cbn [andb] in Hb. apply negb_false_iff in Hb. cbn [sound]. rewrite <- Hm. apply below_spec. auto. }
            assert (He : e1 = mk_event QueryHasDivisor (e_monomial e) (e_state e) (e_all e) (e_count e) /\ e_type e <> QueryNoDivisor) by (destruct (e_type e); try discriminate; injection Hc as <-; split; auto; discriminate).
            destruct He as [-> Hne]. unfold settled, fits_first, fits, unknown. cbn [e_monomial e_type subject_of]. repeat split; auto.
            intros [_ [Hx|Hx]]; [|congruence]. rewrite <- Hx. now destruct e.
          * assert (He : e1 = mk_event QueryNoDivisor (e_monomial e) (e_state e) (e_all e) (e_count e) /\ e_type e <> QueryHasDivisor) by (destruct (e_type e); try discriminate; injection Hc as <-; split; auto; discriminate).
            destruct He as [-> Hne]. unfold settled, fits_first, fits, unknown. cbn [e_monomial e_type subject_of sound]. repeat split; auto.
            intros [_ [Hx|Hx]]; [congruence|]. rewrite <- Hx. now destruct e.
    Qed.

    Lemma run_events_fits qs : forall evs s s' evs', (Forall2 unknown qs evs \/ Forall2 settled qs evs) -> run_events debug sort findAll sub s evs = Ok (Goes (s', evs')) ->
      exists tr, transcript_from findAll sub s qs = Ok tr /\ map fst tr = qs /\ Forall2 settled qs evs' /\ Forall2 fits tr evs' /\
        (Forall2 unknown qs evs -> Forall2 fits_first tr evs') /\ (Forall2 settled qs evs -> evs' = evs) /\ (debug = true -> Forall sound tr).
    Proof.
      induction qs as [|q qs IH]; intros evs s s' evs' Hu Hrun.
      - assert (evs = []) by (destruct Hu as [H|H]; inversion H; auto). subst. cbn [run_events] in Hrun. injection Hrun as <- <-. exists []. cbn [map transcript_from]. repeat split; auto; constructor.
      - destruct evs as [|e evs]; [destruct Hu as [H|H]; inversion H|].
        assert (Hh : (unknown q e \/ settled q e) /\ (Forall2 unknown qs evs \/ Forall2 settled qs evs)) by (destruct Hu as [H|H]; inversion H; auto).
        destruct Hh as [Hh Ht]. cbn [run_events] in Hrun. unfold next at 1 in Hrun. destruct (run_event debug sort findAll sub s e) as [[[s1 e1]|]| | |] eqn:He; try discriminate.
        cbn [bind fst snd] in Hrun. unfold next in Hrun. destruct (run_events debug sort findAll sub s1 evs) as [[[s2 evs1]|]| | |] eqn:Hes; try discriminate. cbn [bind fst snd] in Hrun.
        injection Hrun as <- <-. destruct (run_event_fits s e q s1 e1 Hh He) as (r & H1 & H2 & H3 & H4 & H5 & H6).
        destruct (IH evs s1 s2 evs1 Ht Hes) as (tr & T1 & T2 & T3 & T4 & T5 & T6 & T7). exists ((q, r) :: tr). cbn [transcript_from map fst]. rewrite H1. cbn [bind]. rewrite T1. cbn [bind].
        split; auto. split; [congruence|]. split; [auto|]. split; [auto|]. split; [intros H; inversion H; auto|]. split; [intros H; inversion H; f_equal; auto|]. auto.
    Qed.
    Lemma run_finder_fits qs evs n evs' : (Forall2 unknown qs evs \/ Forall2 settled qs evs) -> run_finder debug sort findAll sub 1 evs = Ok (Goes (n, evs')) ->
      exists tr, transcript findAll sub qs = Ok tr /\ map fst tr = qs /\ Forall2 settled qs evs' /\ Forall2 fits tr evs' /\
        (Forall2 unknown qs evs -> Forall2 fits_first tr evs') /\ (Forall2 settled qs evs -> evs' = evs) /\ (debug = true -> Forall sound tr).
    Proof.
      intros Hu. unfold run_finder, transcript. destruct (d_new sub) as [s0| | |]; try discriminate. cbn [bind run_steps]. unfold next.
      destruct (run_events debug sort findAll sub s0 evs) as [[[s1 evs1]|]| | |] eqn:Hes; try discriminate. cbn [bind fst snd].
      destruct (d_call sub s1 (CAsk DSize)) as [[s2 r]| | |]; try discriminate. cbn [bind]. destruct r; try discriminate. intros H. injection H as <- <-.
      eapply run_events_fits; eauto.
    Qed.
  End One.

  Lemma simulate_settled qs subs : forall evs sizes evs', Forall2 settled qs evs -> simulate debug sort findAll 1 subs evs = Ok (Goes (sizes, evs')) ->
    forall sub, In sub subs -> exists tr, transcript findAll sub qs = Ok tr /\ map fst tr = qs /\ Forall2 fits tr evs /\ (debug = true -> Forall sound tr).
  Proof.
    induction subs as [|s subs IH]; intros evs sizes evs' Hs Hrun sub Hin; [contradiction|]. cbn [simulate] in Hrun. unfold next at 1 in Hrun.
    destruct (run_finder debug sort findAll s 1 evs) as [[[n evs1]|]| | |] eqn:Hr; try discriminate. cbn [bind fst snd] in Hrun. unfold next in Hrun.
    destruct (simulate debug sort findAll 1 subs evs1) as [[[ns evs2]|]| | |] eqn:Hr2; try discriminate.
    destruct (run_finder_fits s qs evs n evs1 (or_intror Hs) Hr) as (tr & T1 & T2 & T3 & T4 & _ & T6 & T7). specialize (T6 Hs). subst evs1.
    destruct Hin as [<-|Hin]; [exists tr; auto|]. eapply IH; eauto.
  Qed.

  Lemma Forall2_agree tr : forall tr' evs, map fst tr = map fst tr' -> Forall2 fits_first tr evs -> Forall2 fits tr' evs -> Forall2 (agree debug) tr tr'.
  Proof.
    induction tr as [|a tr IH]; intros [|b tr'] evs Hm H1 H2; try discriminate; constructor; inversion H1; subst; inversion H2; subst; cbn [map] in Hm; [|eapply IH; eauto; congruence].
    eapply fits_agree; eauto. congruence.
  Qed.
  Lemma fresh_unknown qs : Forall2 unknown qs (map fresh qs).
  Proof. induction qs as [|q qs IH]; cbn [map]; constructor; auto. destruct q; split; reflexivity. Qed.

  Lemma simulate_agree qs first subs out : simulate debug sort findAll 1 (first :: subs) (map fresh qs) = Ok (Goes out) ->
    exists tr, transcript findAll first qs = Ok tr /\ map fst tr = qs /\ (debug = true -> Forall sound tr) /\
      forall sub, In sub subs -> exists tr', transcript findAll sub qs = Ok tr' /\ Forall2 (agree debug) tr tr' /\ (debug = true -> Forall sound tr').
  Proof.
    intros Hrun. cbn [simulate] in Hrun. unfold next at 1 in Hrun.
    destruct (run_finder debug sort findAll first 1 (map fresh qs)) as [[[n evs1]|]| | |] eqn:Hr; try discriminate. cbn [bind fst snd] in Hrun. unfold next in Hrun.
    destruct (simulate debug sort findAll 1 subs evs1) as [[[ns evs2]|]| | |] eqn:Hr2; try discriminate.
    destruct (run_finder_fits first qs _ n evs1 (or_introl (fresh_unknown qs)) Hr) as (tr & T1 & T2 & T3 & T4 & T5 & _ & T7). specialize (T5 (fresh_unknown qs)).
    exists tr. split; auto. split; auto. split; auto. intros sub Hin. destruct (simulate_settled qs subs evs1 ns evs2 T3 Hr2 sub Hin) as (tr' & U1 & U2 & U3 & U4).
    exists tr'. split; auto. split; auto. eapply Forall2_agree; eauto. congruence.
  Qed.
End Detect.
