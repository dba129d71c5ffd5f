(** Proofs about the counted divisor list. *)
From Coq Require Import List Arith Bool ZArith NArith Lia.
From Verif.Base Require Import Res Arr ResList StdAlg Count.
From Verif.DivMask Require Import Model.
From Verif.Spec Require Import DivFinder.
From Verif.DivList Require Import Model Counted.
Import ListNotations.

(** What a test of all entries counts *)
Definition asked {M} (p : test M) (l : list (ext M)) : nat := list_sum (map (fun x => snd (p x)) l).
Lemma asked_app {M} (p : test M) l1 l2 : asked p (l1 ++ l2) = asked p l1 + asked p l2.
Proof. unfold asked. rewrite map_app. apply list_sum_app. Qed.
Lemma asked_cons {M} (p : test M) x l : asked p (x :: l) = snd (p x) + asked p l.
Proof. reflexivity. Qed.
Lemma asked_firstn {M} (p : test M) i l : asked p (firstn i l) <= asked p l.
Proof. rewrite <- (firstn_skipn i l) at 2. rewrite asked_app. lia. Qed.
Lemma asked_filter {M} (p : test M) f l : asked p (filter f l) <= asked p l.
Proof. induction l as [|x l IH]; cbn [filter]; auto. destruct (f x); rewrite ?asked_cons; lia. Qed.

(** The entries before the upper bound are those that [x] is not less than. *)
Lemma firstn_upper {A B} (lt : B -> A -> bool) l x i : upper_bound lt l x = Ok i -> firstn i l = filter (fun y => negb (lt x y)) l.
Proof.
  intros H. apply upper_bound_ok in H as (_ & H1 & H2). rewrite <- (firstn_skipn i l) at 2. rewrite filter_app.
  assert (E1 : forall k, (forall y, In y k -> lt x y = false) -> filter (fun y => negb (lt x y)) k = k).
  { induction k as [|y k IH]; intros Hk; cbn [filter]; auto. rewrite (Hk y (or_introl eq_refl)). cbn [negb]. f_equal. apply IH. intros z Hz. apply Hk. now right. }
  assert (E2 : forall k, (forall y, In y k -> lt x y = true) -> filter (fun y => negb (lt x y)) k = []).
  { induction k as [|y k IH]; intros Hk; cbn [filter]; auto. rewrite (Hk y (or_introl eq_refl)). cbn [negb]. apply IH. intros z Hz. apply Hk. now right. }
  now rewrite E1, E2, app_nil_r.
Qed.

Section Tests.
  Variable M : Type.
  Notation ext := (ext M).

  Lemma forget_scan (p : test M) (q : ext -> bool) l : (forall x, fst (p x) = q x) -> forget (scan_c M p l) = Ok (scan M q l).
  Proof.
    intros Hq. induction l as [|x l IH]; cbn [scan_c scan]; auto. rewrite forget_bind. specialize (Hq x). destruct (p x) as [b c]. cbn [fst] in Hq. subst b.
    cbn [forget bind]. destruct (q x); auto. rewrite forget_bind, IH. reflexivity.
  Qed.
  Lemma scan_bound (p : test M) l : forall r n, scan_c M p l = Ok (r, n) -> n <= asked p l /\ (r = None -> n = asked p l).
  Proof.
    induction l as [|x l IH]; intros r n H; cbn [scan_c] in H.
    - injection H as <- <-. auto.
    - rewrite asked_cons. apply cbind_ok in H as (b & c & d & H1 & H2 & ->). injection H1 as H1. rewrite H1. cbn [snd]. destruct b.
      + injection H2 as <- <-. split; [lia|discriminate].
      + apply cbind_ok in H2 as (o & c' & d' & H2 & H3 & ->). injection H3 as <- <-. destruct (IH _ _ H2) as [G1 G2]. split; [lia|].
        destruct o; cbn; [discriminate|]. intros _. rewrite G2; auto.
  Qed.
  Lemma forget_feed cb (p : test M) (q : ext -> bool) l : (forall x, fst (p x) = q x) -> forall seen, forget (feed_c M cb p l seen) = Ok (feed M cb q l seen).
  Proof.
    intros Hq. induction l as [|x l IH]; intros seen; cbn [feed_c feed]; auto. rewrite forget_bind. specialize (Hq x). destruct (p x) as [b c]. cbn [fst] in Hq. subst b.
    cbn [forget bind]. destruct (q x); auto. destruct (cb (seen ++ [x_t x])); auto.
  Qed.
  Lemma feed_bound cb (p : test M) l : forall seen xs go n, feed_c M cb p l seen = Ok (xs, go, n) -> n <= asked p l /\ (go = true -> n = asked p l).
  Proof.
    induction l as [|x l IH]; intros seen xs go n H; cbn [feed_c] in H.
    - injection H as <- <- <-. auto.
    - rewrite asked_cons. apply cbind_ok in H as (b & c & d & H1 & H2 & ->). injection H1 as H1. rewrite H1. cbn [snd]. destruct b.
      + destruct (cb (seen ++ [x_t x])).
        * destruct (IH _ _ _ _ H2) as [G1 G2]. split; [lia|]. intros Hg. rewrite G2; auto.
        * injection H2 as <- <- <-. split; [lia|discriminate].
      + destruct (IH _ _ _ _ H2) as [G1 G2]. split; [lia|]. intros Hg. rewrite G2; auto.
  Qed.

  Variable use : bool.
  Variable divides : M -> M -> bool.
  Variable w : M -> nat.
  Notation mt := (multiple_test M use divides w).

  Lemma forget_first m a : forall k, forget (first_multiple_c M use divides w m a k) = first_multiple M use divides m a k.
  Proof.
    induction k as [|k IH]; cbn [first_multiple_c first_multiple]; auto. rewrite forget_bind, forget_free. apply bind_ext; auto. intros x.
    rewrite forget_bind. cbn [multiple_test forget bind]. destruct (ext_divides M use divides m x); auto.
  Qed.
  Lemma forget_compact m : forall k a newEnd out, forget (compact_c M use divides w m a k newEnd out) = compact M use divides m a k newEnd out.
  Proof.
    induction k as [|k IH]; intros a newEnd out; cbn [compact_c compact]; auto. rewrite forget_bind, forget_free. apply bind_ext; auto. intros x.
    rewrite forget_bind. cbn [multiple_test forget bind]. destruct (ext_divides M use divides m x); cbn [negb]; auto.
    rewrite forget_bind, forget_free. apply bind_ext; auto.
  Qed.
  Lemma forget_vector m a : forget (remove_multiples_vector_c M use divides w m a) = remove_multiples_vector M use divides m a.
  Proof.
    unfold remove_multiples_vector_c, remove_multiples_vector. rewrite forget_bind, forget_first. apply bind_ext; auto. intros it.
    destruct (it =? length a); auto. rewrite forget_bind, forget_free. apply bind_ext; auto. intros x.
    rewrite forget_bind, forget_compact. apply bind_ext; auto. now intros [[a' e] out].
  Qed.
  Lemma forget_list m l : forget (remove_multiples_list_c M use divides w m l) = Ok (remove_multiples_list M use divides m l).
  Proof.
    induction l as [|x l IH]; cbn [remove_multiples_list_c remove_multiples_list]; auto. rewrite forget_bind, IH. cbn [bind].
    destruct (remove_multiples_list M use divides m l) as [[kept out] count]. rewrite forget_bind. cbn [multiple_test forget bind].
    now destruct (ext_divides M use divides m x).
  Qed.

  (** Removal asks about every entry that is not ruled out by its mask, exactly once. *)
  Lemma skipn_cons (a : list ext) i x : nth_error a i = Some x -> skipn i a = x :: skipn (S i) a.
  Proof. revert a. induction i as [|i IH]; intros [|y a] H; cbn [nth_error] in H; try discriminate; [now injection H as <-|]. cbn [skipn]. now rewrite IH. Qed.
  Lemma first_bound m a : forall k it n, k <= length a -> first_multiple_c M use divides w m a k = Ok (it, n) ->
    length a - k <= it <= length a /\ n + asked (mt m) (skipn (S it) a) = asked (mt m) (skipn (length a - k) a).
  Proof.
    induction k as [|k IH]; intros it n Hk H; cbn [first_multiple_c] in H.
    - injection H as <- <-. split; [lia|]. rewrite Nat.sub_0_r, !skipn_all2; auto.
    - apply cbind_ok in H as (x & c & d & H1 & H2 & ->). apply free_ok in H1 as [H1 ->]. apply vget_ok in H1.
      apply cbind_ok in H2 as (b & c & d' & H2 & H3 & ->). injection H2 as H2 H2'. rewrite (skipn_cons a _ x H1), asked_cons. cbn [multiple_test snd]. destruct b.
      + injection H3 as <- <-. split; [lia|]. lia.
      + destruct (IH it d' ltac:(lia) H3) as [G1 G2]. split; [lia|]. replace (S (length a - S k)) with (length a - k) by lia. lia.
  Qed.
  Lemma skipn_upd (a : list ext) i j v : i < j -> skipn j (upd a i v) = skipn j a.
  Proof.
    revert i j. induction a as [|x a IH]; intros i j H; [now destruct i|]. destruct j as [|j]; [lia|]. destruct i as [|i]; cbn [upd skipn]; auto. apply IH. lia.
  Qed.
  Lemma compact_bound m : forall k a newEnd out r n, k <= length a -> newEnd < length a - k -> compact_c M use divides w m a k newEnd out = Ok (r, n) ->
    n = asked (mt m) (skipn (length a - k) a).
  Proof.
    induction k as [|k IH]; intros a newEnd out r n Hk He H; cbn [compact_c] in H.
    - injection H as <- <-. rewrite Nat.sub_0_r, skipn_all2; auto.
    - apply cbind_ok in H as (x & c & d & H1 & H2 & ->). apply free_ok in H1 as [H1 ->]. apply vget_ok in H1.
      apply cbind_ok in H2 as (b & c & d' & H2 & H3 & ->). injection H2 as H2 H2'. rewrite (skipn_cons a _ x H1), asked_cons. cbn [multiple_test snd].
      replace (S (length a - S k)) with (length a - k) by lia. destruct b; cbn [negb] in H3.
      + apply IH in H3; lia.
      + apply cbind_ok in H3 as (a' & c' & e & H3 & H4 & ->). apply free_ok in H3 as [H3 ->]. rewrite vset_ok in H3 by lia. injection H3 as <-.
        apply IH in H4; rewrite ?upd_length in *; [|lia|lia]. rewrite skipn_upd in H4 by lia. lia.
  Qed.
  Lemma vector_bound m a r n : remove_multiples_vector_c M use divides w m a = Ok (r, n) -> n = asked (mt m) a.
  Proof.
    intros H. unfold remove_multiples_vector_c in H. apply cbind_ok in H as (it & c & d & H1 & H2 & ->). apply first_bound in H1 as [G1 G2]; auto.
    rewrite Nat.sub_diag in G2. change (skipn 0 a) with a in G2. destruct (Nat.eqb_spec it (length a)) as [->|Hne].
    - injection H2 as <- <-. rewrite (skipn_all2 (n := S (length a)) a) in G2 by lia. change (asked (mt m) []) with 0 in G2. lia.
    - apply cbind_ok in H2 as (x & c' & d' & H2 & H3 & ->). apply free_ok in H2 as [_ ->]. apply cbind_ok in H3 as ([[a' e] out] & c' & d'' & H3 & H4 & ->).
      injection H4 as <- <-. apply compact_bound in H3; [|lia|lia]. replace (length a - (length a - S it)) with (S it) in H3 by lia. lia.
  Qed.
  Lemma list_bound m l : forall r n, remove_multiples_list_c M use divides w m l = Ok (r, n) -> n = asked (mt m) l.
  Proof.
    induction l as [|x l IH]; intros r n H; cbn [remove_multiples_list_c] in H.
    - now injection H as <- <-.
    - apply cbind_ok in H as ([[kept out] count] & c & d & H1 & H2 & ->). apply IH in H1. apply cbind_ok in H2 as (b & c' & d' & H2 & H3 & ->).
      injection H2 as H2 H2'. injection H3 as H3 <-. rewrite asked_cons. cbn [multiple_test snd]. lia.
  Qed.
End Tests.

Section Counted.
  Variable M : Type.
  Variable ex : M -> nat -> Z.
  Variable nvars : nat.
  Variable T : exptype.
  Variable sort_data : list var_data -> list var_data.
  Variable use : bool.
  Variable divides : M -> M -> bool.
  Variable less : M -> M -> bool.
  Variable linked : bool.
  Variable sorted : bool.
  Variable auto : bool.
  Variable ratio : nat -> nat.
  Variable rmin : nat.
  Variable sort_ext : list (ext M) -> list (ext M).
  Variable w : M -> nat.
  Notation ext := (ext M).
  Notation dlist := (dlist M).
  Notation step := (step M ex nvars T sort_data use divides less linked sorted auto ratio rmin sort_ext).
  Notation step_c := (step_c M ex nvars T sort_data use divides less linked sorted auto ratio rmin sort_ext w).
  Notation dt := (divisor_test M use divides w).
  Notation mt := (multiple_test M use divides w).

  Lemma forget_scan_list m l : forall count, forget (scan_list_c M use divides less w m count l) = Ok (scan_list M use divides less m count l).
  Proof.
    induction l as [|x l IH]; intros count; cbn [scan_list_c scan_list]; auto.
    assert (Hr : forall c, forget (let@ b := Ok (dt m x) in if b then Ok (Some 0, 0) else (let@ r := scan_list_c M use divides less w m c l in Ok (option_map S r, 0))) =
      Ok (if ext_divides M use divides x m then Some 0 else option_map S (scan_list M use divides less m c l))).
    { intros c. rewrite forget_bind. cbn [divisor_test forget bind]. destruct (ext_divides M use divides x m); auto. now rewrite forget_bind, IH. }
    destruct (S count =? 35); auto. destruct (less (x_t m) (x_t x)); auto.
  Qed.
  Lemma forget_find_iterator s m :
    forget (find_iterator_c M ex use divides less linked sorted w s m) = find_iterator M ex use divides less linked sorted s m.
  Proof.
    unfold find_iterator_c, find_iterator. destruct sorted; cbn [negb]; [|now apply forget_scan]. unfold find_sorted_c, find_sorted.
    destruct linked; [apply forget_scan_list|]. rewrite forget_bind, forget_free. apply bind_ext; auto. intros i. now apply forget_scan.
  Qed.
  Lemma forget_feed_list cb m l : forall count seen, forget (feed_list_c M use divides less w cb m count l seen) = Ok (feed_list M use divides less cb m count l seen).
  Proof.
    induction l as [|x l IH]; intros count seen; cbn [feed_list_c feed_list]; auto.
    destruct (if S count =? 35 then less (x_t m) (x_t x) else false); auto. rewrite forget_bind. cbn [divisor_test forget bind].
    destruct (ext_divides M use divides x m); auto. destruct (cb (seen ++ [x_t x])); auto.
  Qed.
  Lemma forget_fst_feed cb (p : test M) (q : ext -> bool) l : (forall x, fst (p x) = q x) ->
    forget (let@ (xs, _) := feed_c M cb p l [] in Ok (xs, 0)) = Ok (fst (feed M cb q l [])).
  Proof. intros H. rewrite forget_bind, (forget_feed M cb p q l H). cbn [bind]. now destruct (feed M cb q l []). Qed.
  Lemma step_forget s o : forget (step_c s o) = step s o.
  Proof.
    destruct o as [e|es|m|m|m|m cb|m cb|cb|m| |]; cbn [Counted.step_c]; try apply forget_free; rewrite forget_bind; unfold Model.step.
    - unfold remove_multiples_c, remove_multiples. rewrite forget_bind.
      replace (forget (if linked then remove_multiples_list_c M use divides w (extend M ex use (l_bits s) m) (l_list s)
                       else remove_multiples_vector_c M use divides w (extend M ex use (l_bits s) m) (l_list s)))
        with (if linked then Ok (remove_multiples_list M use divides (extend M ex use (l_bits s) m) (l_list s))
              else remove_multiples_vector M use divides (extend M ex use (l_bits s) m) (l_list s)).
      2: { destruct linked; [now rewrite forget_list|now rewrite forget_vector]. }
      destruct (if linked then Ok (remove_multiples_list M use divides (extend M ex use (l_bits s) m) (l_list s))
                else remove_multiples_vector M use divides (extend M ex use (l_bits s) m) (l_list s)) as [[[l out] count]| | |]; cbn [bind]; auto.
      rewrite forget_bind, forget_free. destruct (report_changes _ _ _ _ _ _ _ _ _ _ count); auto.
    - unfold find_divisor_c, find_divisor. rewrite forget_bind, forget_find_iterator. destruct (find_iterator _ _ _ _ _ _ _ s m) as [[i|]| | |]; cbn [bind]; auto.
      rewrite forget_bind, forget_free. destruct (vget (l_list s) i); auto.
    - apply bind_ext; auto. unfold all_divisors_c, all_divisors. destruct sorted; cbn [negb]; [|now apply forget_fst_feed].
      destruct linked; [now rewrite forget_feed_list|]. rewrite forget_bind, forget_free. apply bind_ext; auto. intros i. now apply forget_fst_feed.
    - unfold all_multiples_c, all_multiples. rewrite (forget_fst_feed cb _ (fun x => ext_divides M use divides (extend M ex use (l_bits s) m) x)); auto.
    - unfold to_front_c, to_front. rewrite forget_bind, forget_find_iterator. destruct (find_iterator _ _ _ _ _ _ _ s m) as [[i|]| | |]; cbn [bind]; auto.
      rewrite forget_bind, forget_free. destruct (move_to_front M linked (l_list s) i) as [l| | |]; cbn [bind]; auto.
      rewrite forget_bind, forget_free. destruct (vget l 0); auto.
  Qed.

  Lemma scan_list_bound m l : forall count r n, scan_list_c M use divides less w m count l = Ok (r, n) -> n <= asked (dt m) l.
  Proof.
    induction l as [|x l IH]; intros count r n H; cbn [scan_list_c] in H.
    - injection H as <- <-. auto.
    - assert (Hr : forall c, (let@ b := Ok (dt m x) in if b then Ok (Some 0, 0) else (let@ r := scan_list_c M use divides less w m c l in Ok (option_map S r, 0))) = Ok (r, n) ->
        n <= asked (dt m) (x :: l)).
      { intros c H'. rewrite asked_cons. apply cbind_ok in H' as (b & c' & d & H1 & H2 & ->). injection H1 as H1 H1'. cbn [divisor_test snd]. destruct b.
        - injection H2 as <- <-. lia.
        - apply cbind_ok in H2 as (o & c2 & d2 & H2 & H3 & ->). injection H3 as <- <-. apply IH in H2. lia. }
      destruct (S count =? 35); eauto. destruct (less (x_t m) (x_t x)); eauto. injection H as <- <-. lia.
  Qed.
  Lemma feed_list_bound cb m l : forall count seen xs n, feed_list_c M use divides less w cb m count l seen = Ok (xs, n) -> n <= asked (dt m) l.
  Proof.
    induction l as [|x l IH]; intros count seen xs n H; cbn [feed_list_c] in H.
    - injection H as <- <-. auto.
    - destruct (if S count =? 35 then less (x_t m) (x_t x) else false); [injection H as <- <-; lia|]. rewrite asked_cons.
      apply cbind_ok in H as (b & c & d & H1 & H2 & ->). injection H1 as H1 H1'. cbn [divisor_test snd]. destruct b.
      + destruct (cb (seen ++ [x_t x])); [apply IH in H2; lia|injection H2 as <- <-; lia].
      + apply IH in H2. lia.
  Qed.
  (** The entries a search for divisors looks at *)
  Definition candidates (m : ext) (l : list ext) : list ext := if sorted && negb linked then filter (fun x => negb (comp M less m x)) l else l.
  Lemma find_iterator_bound s m r n : find_iterator_c M ex use divides less linked sorted w s m = Ok (r, n) ->
    n <= asked (dt (extend M ex use (l_bits s) m)) (candidates (extend M ex use (l_bits s) m) (l_list s)) /\
    (r = None -> sorted && linked = false -> n = asked (dt (extend M ex use (l_bits s) m)) (candidates (extend M ex use (l_bits s) m) (l_list s))).
  Proof.
    unfold find_iterator_c, candidates. destruct sorted; cbn [negb andb].
    - unfold find_sorted_c. destruct linked; cbn [negb].
      + intros H. split; [eapply scan_list_bound; eauto|discriminate].
      + intros H. apply cbind_ok in H as (i & c & d & H1 & H2 & ->). apply free_ok in H1 as [H1 ->]. apply firstn_upper in H1. rewrite H1 in H2.
        apply scan_bound in H2 as [G1 G2]. auto.
    - intros H. apply scan_bound in H as [G1 G2]. auto.
  Qed.
  Lemma all_divisors_bound s m cb r n : all_divisors_c M ex use divides less linked sorted w s m cb = Ok (r, n) ->
    n <= asked (dt (extend M ex use (l_bits s) m)) (candidates (extend M ex use (l_bits s) m) (l_list s)).
  Proof.
    unfold all_divisors_c, candidates. destruct sorted; cbn [negb andb].
    - destruct linked; cbn [negb].
      + intros H. eapply feed_list_bound; eauto.
      + intros H. apply cbind_ok in H as (i & c & d & H1 & H2 & ->). apply free_ok in H1 as [H1 ->]. apply firstn_upper in H1. rewrite H1 in H2.
        apply cbind_ok in H2 as ([xs go] & c & d' & H2 & H3 & ->). injection H3 as <- <-. apply feed_bound in H2 as [G _]. lia.
    - intros H. apply cbind_ok in H as ([xs go] & c & d' & H2 & H3 & ->). injection H3 as <- <-. apply feed_bound in H2 as [G _]. lia.
  Qed.
  Lemma find_divisor_bound s m r n : find_divisor_c M ex use divides less linked sorted w s m = Ok (r, n) ->
    n <= asked (dt (extend M ex use (l_bits s) m)) (candidates (extend M ex use (l_bits s) m) (l_list s)) /\
    (r = None -> sorted && linked = false -> n = asked (dt (extend M ex use (l_bits s) m)) (candidates (extend M ex use (l_bits s) m) (l_list s))).
  Proof.
    unfold find_divisor_c. intros H. apply cbind_ok in H as (it & c & d & H1 & H2 & ->). apply find_iterator_bound in H1 as [G1 G2].
    destruct it as [i|]; [|injection H2 as <- <-; rewrite Nat.add_0_r; auto]. apply cbind_ok in H2 as (x & c' & d' & H2 & H3 & ->). apply free_ok in H2 as [_ ->].
    injection H3 as <- <-. split; [lia|discriminate].
  Qed.
  Lemma to_front_bound s m r n : to_front_c M ex use divides less linked sorted w s m = Ok (r, n) ->
    n <= asked (dt (extend M ex use (l_bits s) m)) (candidates (extend M ex use (l_bits s) m) (l_list s)).
  Proof.
    unfold to_front_c. intros H. apply cbind_ok in H as (it & c & d & H1 & H2 & ->). apply find_iterator_bound in H1 as [G1 _].
    destruct it as [i|]; [|injection H2 as <- <-; lia]. apply cbind_ok in H2 as (x & c' & d' & H2 & H3 & ->). apply free_ok in H2 as [_ ->].
    apply cbind_ok in H3 as (y & c' & e & H3 & H4 & ->). apply free_ok in H3 as [_ ->]. injection H4 as <- <-. lia.
  Qed.
  Lemma all_multiples_bound s m cb r n : all_multiples_c M ex use divides w s m cb = Ok (r, n) ->
    n <= asked (mt (extend M ex use (l_bits s) m)) (l_list s).
  Proof.
    unfold all_multiples_c. intros H. apply cbind_ok in H as ([xs go] & c & d & H2 & H3 & ->). injection H3 as <- <-. apply feed_bound in H2 as [G _]. lia.
  Qed.
  Lemma remove_multiples_bound s m r n : remove_multiples_c M ex nvars T sort_data use divides linked auto ratio rmin w s m = Ok (r, n) ->
    n = asked (mt (extend M ex use (l_bits s) m)) (l_list s).
  Proof.
    unfold remove_multiples_c. intros H. apply cbind_ok in H as ([[l out] count] & c & d & H1 & H2 & ->).
    apply cbind_ok in H2 as (s' & c' & e & H2 & H3 & ->). apply free_ok in H2 as [_ ->]. injection H3 as <- <-.
    destruct linked; [apply list_bound in H1|apply vector_bound in H1]; lia.
  Qed.
End Counted.
