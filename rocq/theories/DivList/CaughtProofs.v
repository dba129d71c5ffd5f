(** Proofs about DivList when client functions throw: histories of a client that catches the exceptions. *)
From Coq Require Import List Arith Bool ZArith NArith Lia Permutation Sorted.
From Verif.Base Require Import Res Arr ResList StdAlg Order Sort Fault FaultFacts.
From Verif.DivMask Require Import Model Proofs.
From Verif.Spec Require Import DivFinder DivFinderFacts DivCaught.
From Verif.DivList Require Import Model Proofs Throws ThrowsProofs LeftProofs.
Import ListNotations.

Section Correct.
  Context {M : Type}.
  Variable ex : M -> nat -> Z.
  Variable nvars : nat.
  Variable T : exptype.
  Variable sort_data : list var_data -> list var_data.
  Hypothesis sort_perm : forall l, Permutation (sort_data l) l.
  Variable use : bool.
  Variable divides less : M -> M -> bool.
  Hypothesis Hdiv : forall a b, divides a b = true -> forall var, var < nvars -> (ex a var <= ex b var)%Z.
  Variables linked sorted auto : bool.
  Hypothesis Hord : sorted = true -> strict_weak less /\ forall a b, divides a b = true -> less b a = false.
  Variable ratio : nat -> nat.
  Variable rmin : nat.
  Variable sort_ext : list (ext M) -> list (ext M).
  Hypothesis Hsort : sorted = true -> sorts (comp M less) sort_ext.
  Variable valid : M -> bool.
  Hypothesis Hcalc : use = true -> forall l, forallb valid l = true -> exists bits, rebuild M ex nvars T sort_data l = Ok bits.
  Variable ub_calls : list (ext M) -> ext M -> nat.
  Variable sort_x : nat -> list (ext M) -> fout (list (ext M)) (list (ext M)).
  Hypothesis Hsort_x : forall b l b' l', sort_x b l = Fine b' l' -> l' = sort_ext l.
  Hypothesis Hsort_left : linked = true -> forall b l l', sort_x b l = Left l' -> Permutation l' l.

  Notation ext := (ext M).
  Notation dlist := (dlist M).
  Notation ediv := (ext_divides M use divides).
  Notation inv := (inv ex nvars use less sorted valid).
  Notation calls := (calls sorted valid).
  Notation ext_of := (extend M ex use).
  Notation step := (step M ex nvars T sort_data use divides less linked sorted auto ratio rmin sort_ext).
  Notation step_x := (step_x M ex nvars T sort_data use divides less linked sorted auto ratio rmin ub_calls sort_x).
  Notation catch_x := (catch_x M ex nvars T sort_data use divides less linked sorted auto ratio rmin ub_calls sort_x).
  Notation insert_x := (insert_x M ex nvars T sort_data use less linked sorted auto ratio rmin ub_calls).
  Notation insert_each_x := (insert_each_x M ex nvars T sort_data use less linked sorted auto ratio rmin ub_calls).

  Definition safe (o : dop M) : bool :=
    match o with
    | DRebuild => negb use
    | DInsert _ => negb (use && auto)
    | DInsertRange _ => negb (use && auto) && negb sorted
    | DRemoveMultiples _ => negb (use && auto) && (linked || negb sorted)
    | _ => true
    end.
  Definition wild (o : dop M) : bool := match o with DInsertRange _ => sorted && negb linked | _ => false end.

  Lemma use_auto : use = true -> auto = true -> negb (use && auto) = true -> False.
  Proof. intros -> ->. discriminate. Qed.

  Lemma insert_left s e b s' xs : inv s -> insert_x b s e = Ok (Left (s', xs)) ->
    xs = [] /\ (s' = s \/ Permutation (contents s') (e :: contents s) /\ use = true /\ auto = true).
  Proof.
    intros Hi H. unfold Throws.insert_x in H. apply clients_left in H as [H|[_ H]]; [injection H as -> ->; auto|].
    apply fbind_left in H as [H|(b1 & l & Hl & H)].
    - destruct (negb sorted); [discriminate|]. apply insert_sort_left in H. injection H as -> ->. auto.
    - apply fleft_left in H as (s1 & H & Hs). injection Hs as -> ->. split; auto. right. apply report_left in H as (H1 & H2 & H3). split; auto.
      rewrite H3. unfold contents, with_list. cbn [l_list].
      assert (Hp : Permutation l (ext_of (l_bits s) e :: l_list s)); [|rewrite Hp; reflexivity].
      destruct (bool_dec sorted true) as [Hs|Hs].
      + replace (negb sorted) with false in Hl by now rewrite Hs. destruct (insert_sort_ok less (proj1 (Hord Hs)) linked (l_list s) (ext_of (l_bits s) e) (i_sorted _ _ _ _ _ _ _ Hi Hs)) as (l' & I1 & I2 & _).
        destruct (tot_insert_sort less linked ub_calls s (ext_of (l_bits s) e) (b - mask_calls use (l_bits s)) l' I1) as (f & F1 & F2). rewrite Hl in F1. injection F1 as <-. now subst l'.
      + replace (negb sorted) with true in Hl by (now destruct sorted). injection Hl as _ <-. symmetry. apply Permutation_cons_append.
  Qed.
  Lemma insert_each_left : forall es b s s' xs, inv s -> forallb valid es = true -> insert_each_x b s es = Ok (Left (s', xs)) ->
    xs = [] /\ (exists es1 es2, es = es1 ++ es2 /\ Permutation (contents s') (es1 ++ contents s)) /\ (negb (use && auto) = true -> inv s').
  Proof.
    induction es as [|e es IH]; intros b s s' xs Hi Hv H; cbn [Throws.insert_each_x] in H; [discriminate|].
    cbn [forallb] in Hv. apply andb_true_iff in Hv as [Hv1 Hv2]. apply fbind_left in H as [H|(b1 & s1 & H1 & H)].
    - apply insert_left in H as [-> H]; auto. split; auto. destruct H as [->|(Hp & Hu & Ha)].
      + split; auto. exists [], (e :: es). auto.
      + split; [exists [e], es; auto|]. intros Hn. destruct (use_auto Hu Ha Hn).
    - destruct (insert_ok ex nvars T sort_data sort_perm use divides less linked sorted auto Hord ratio rmin sort_ext Hsort valid Hcalc s e Hi Hv1) as (s2 & I1 & I2 & I3).
      destruct (tot_insert ex nvars T sort_data use less linked sorted auto ratio rmin ub_calls s e b s2 I1) as (f & F1 & F2).
      unfold Throws.insert_each_x in H1. rewrite H1 in F1. injection F1 as <-. subst s2.
      apply IH in H as (-> & (es1 & es2 & -> & Hp) & Hk); auto. split; auto. split; auto. exists (e :: es1), es2. split; auto.
      rewrite Hp, I3. symmetry. apply Permutation_middle.
  Qed.
  Lemma insert_range_left s es b s' xs : inv s -> forallb valid es = true ->
    insert_range_x M ex nvars T sort_data use less linked sorted auto ratio rmin ub_calls sort_x b s es = Ok (Left (s', xs)) ->
    xs = [] /\ (sorted && negb linked = false -> exists es1 es2, es = es1 ++ es2 /\ Permutation (contents s') (es1 ++ contents s)) /\
    (negb (use && auto) && negb sorted = true -> inv s').
  Proof.
    intros Hi Hv. unfold insert_range_x. destruct (l_list s) as [|y l] eqn:Hl.
    2: { intros H. apply insert_each_left in H as (H1 & H2 & H3); auto. split; auto. split; auto. intros Hs. apply andb_true_iff in Hs as [Hs _]. auto. }
    assert (Hc : contents s = []) by (unfold contents; now rewrite Hl). rewrite Hc. destruct es as [|e es]; [discriminate|]. set (all := e :: es) in *. intros H.
    assert (Hsub : forall bits es1 es2, all = es1 ++ es2 -> (forall v thr, In (v, thr) bits -> v < nvars) -> sorted = false ->
      inv (mk_dlist (map (ext_of bits) es1) bits (l_left s) (l_rebuilds s))).
    { intros bits es1 es2 He Hb Hs. split; unfold contents; cbn [l_list l_bits]; auto.
      - now rewrite map_ext_t.
      - intros Ht. congruence.
      - rewrite map_ext_t. rewrite He, forallb_app in Hv. now apply andb_true_iff in Hv. }
    apply fbind_left in H as [H|(b1 & bits & Hb & H)].
    - apply fleft_left in H as (bits & H & Hs). injection Hs as -> ->. apply calc_left in H as [_ H]. split; auto. split; [exists [], all; auto|].
      intros Hs. apply andb_true_iff in Hs as [_ Hs]. apply negb_true_iff in Hs. now apply (Hsub bits [] all).
    - apply fleft_fine in Hb. destruct (calc_rebuild_ok ex nvars T sort_data use valid Hcalc all Hv) as [bits' Hb'].
      destruct (tot_calc ex nvars T sort_data use all b bits' Hb') as (f & F1 & F2). rewrite Hb in F1. injection F1 as <-. subst bits'.
      assert (Hvars := calc_rebuild_vars ex nvars T sort_data sort_perm use ratio valid Hcalc all bits Hb').
      apply fbind_left in H as [H|(b2 & l & Hl2 & H)].
      + apply append_left in H as (-> & es1 & es2 & He & ->). cbn [app]. split; auto. split.
        * exists es1, es2. split; auto. unfold contents. cbn [l_list]. rewrite map_ext_t, app_nil_r. reflexivity.
        * intros Hs. apply andb_true_iff in Hs as [_ Hs]. apply negb_true_iff in Hs. now apply (Hsub bits es1 es2).
      + destruct (tot_append ex use s bits all b1 [] _ eq_refl) as (f & F1 & F2). rewrite Hl2 in F1. injection F1 as <-. subst l. cbn [app] in *.
        apply fbind_left in H as [H|(b3 & l & _ & H)]; [|discriminate].
        destruct (bool_dec sorted true) as [Hs|Hs]; [|replace sorted with false in H by (now destruct sorted); discriminate].
        rewrite Hs in H. apply fleft_left in H as (l & H & He). injection He as -> ->. assert (Hx : sort_x b2 (map (ext_of bits) all) = Left l) by congruence. clear H. split; auto. split.
        * intros Hk. rewrite Hs in Hk. cbn [andb] in Hk. apply negb_false_iff in Hk. apply (Hsort_left Hk) in Hx. exists all, []. rewrite !app_nil_r. split; auto.
          unfold contents. cbn [l_list]. rewrite (Permutation_map x_t Hx). now rewrite map_ext_t.
        * rewrite Hs, andb_false_r. discriminate.
  Qed.

  Lemma in_order_filter_app f l1 : forall l2 : list ext, in_order (comp M less) (l1 ++ l2) -> in_order (comp M less) (filter f l1 ++ l2).
  Proof.
    unfold in_order. induction l1 as [|x l1 IH]; intros l2 H; cbn [filter app] in *; auto. inversion_clear H as [|? ? Hs Hf]. destruct (f x); auto. cbn [app]. constructor; auto.
    rewrite Forall_forall in *. intros y Hy. apply Hf. apply in_app_or in Hy as [Hy|Hy]; apply in_or_app; auto. apply filter_In in Hy as [Hy _]. auto.
  Qed.
  Lemma filter_both {A} f (l : list A) : Permutation l (filter (fun x => negb (f x)) l ++ filter f l).
  Proof. rewrite Permutation_app_comm. symmetry. apply filter_split. Qed.

  Lemma remove_multiples_left s m b s' xs : inv s ->
    remove_multiples_x M ex nvars T sort_data use divides linked auto ratio rmin b s m = Ok (Left (s', xs)) ->
    dcaught divides linked (contents s) (DRemoveMultiples m) xs (contents s') /\ (negb (use && auto) && (linked || negb sorted) = true -> inv s').
  Proof.
    intros Hi H. unfold remove_multiples_x in H. set (em := ext_of (l_bits s) m) in *. destruct (filter_multiples ex nvars use divides less Hdiv sorted valid s m Hi) as [F1 F2]. fold em in F1, F2.
    assert (G1 : map x_t (filter (ediv em) (l_list s)) = multiples divides m (contents s)) by now rewrite F1, map_ext_t.
    assert (G2 : map x_t (filter (fun x => negb (ediv em x)) (l_list s)) = non_multiples divides m (contents s)) by now rewrite F2, map_ext_t.
    assert (Hat : forall done rest extra, l_list s = done ++ rest -> incl extra (l_list s) -> length extra <= length (filter (ediv em) done) -> (linked = true -> extra = []) ->
      dcaught divides linked (contents s) (DRemoveMultiples m) (map x_t (filter (ediv em) done)) (map x_t (filter (fun x => negb (ediv em x)) done ++ extra ++ rest))).
    { intros done rest extra Hl He Hlen Hk. apply c_multiples with (rest := map x_t (filter (ediv em) rest)) (extra := map x_t extra).
      - rewrite <- G1, Hl, filter_app, map_app. reflexivity.
      - rewrite <- G2, Hl, filter_app, map_app, !map_app. rewrite (Permutation_map x_t (filter_both (ediv em) rest)) at 1. rewrite map_app.
        rewrite <- !app_assoc. apply Permutation_app_head. rewrite Permutation_app_comm, <- app_assoc. reflexivity.
      - unfold contents. apply incl_map, He.
      - rewrite !map_length. lia.
      - intros Ht. now rewrite (Hk Ht). }
    apply clients_left in H as [H|[_ H]].
    { injection H as -> ->. split; auto. apply (Hat [] (l_list s) []); auto. intros ? [].  }
    apply fbind_left in H as [H|(b1 & [[l out] n] & Hr & H)].
    - destruct linked eqn:Hlk.
      + apply list_left in H as (done & rest & Hl & -> & ->). cbn [app]. split.
        * apply (Hat done rest []); auto; [intros ? []|cbn [length]; lia].
        * intros _. apply inv_sub; auto.
          -- intros x Hx. rewrite Hl. apply in_app_or in Hx as [Hx|Hx]; apply in_or_app; auto. apply filter_In in Hx as [Hx _]. auto.
          -- intros Hs. apply in_order_filter_app. rewrite <- Hl. now apply (i_sorted _ _ _ _ _ _ _ Hi).
      + apply vector_left in H as (done & rest & extra & Hl & -> & -> & He & Hlen). split.
        * apply (Hat done rest extra); auto; [lia|discriminate].
        * intros Hs. apply andb_true_iff in Hs as [_ Hs]. cbn [orb] in Hs. apply negb_true_iff in Hs. apply inv_sub; auto; [|congruence].
          intros x Hx. rewrite Hl. apply in_app_or in Hx as [Hx|Hx]; [apply filter_In in Hx as [Hx _]; apply in_or_app; auto|].
          apply in_app_or in Hx as [Hx|Hx]; [rewrite <- Hl; auto|apply in_or_app; auto].
    - apply fbind_left in H as [H|(b2 & s2 & _ & H)]; [|discriminate]. apply fleft_left in H as (s2 & H & He). injection He as -> ->.
      apply report_left in H as (H1 & H2 & H3). split; [|intros Hs; apply andb_true_iff in Hs as [Hs _]; destruct (use_auto H1 H2 Hs)].
      rewrite H3. unfold contents at 2, with_list. cbn [l_list].
      assert (Hlo : l = filter (fun x => negb (ediv em x)) (l_list s) /\ out = map x_t (filter (ediv em) (l_list s))).
      { destruct linked.
        - destruct (tot_list use divides s em (l_list s) (b - mask_calls use (l_bits s)) [] [] 0 _ eq_refl) as (f & T1 & T2). rewrite Hr in T1. injection T1 as <-.
          rewrite remove_list_ok in T2. cbn [app Nat.add] in T2. injection T2 as -> -> _. auto.
        - destruct (tot_vector use divides s em (b - mask_calls use (l_bits s)) _ (remove_vector_ok use divides em (l_list s))) as (f & T1 & T2). rewrite Hr in T1. injection T1 as <-.
          injection T2 as -> -> _. auto. }
      destruct Hlo as [-> ->]. apply c_multiples with (rest := []) (extra := []).
      + rewrite app_nil_r, G1. reflexivity.
      + cbn [app]. rewrite app_nil_r, G2. reflexivity.
      + intros ? [].
      + cbn [length]. lia.
      + auto.
  Qed.

  Lemma step_left s o b s' xs : inv s -> calls o = true -> step_x b s o = Ok (Left (s', xs)) ->
    (wild o = false -> dcaught divides linked (contents s) o xs (contents s')) /\ (safe o = true -> inv s').
  Proof.
    intros Hi Hc H. destruct o as [e|es|m|m|m|m cb|m cb|cb|m| |]; cbn [Throws.step_x Proofs.calls safe wild] in *.
    - apply fbind_left in H as [H|(b1 & r & _ & H)]; [|discriminate]. apply insert_left in H as [-> H]; auto. destruct H as [->|(Hp & Hu & Ha)].
      + split; auto. intros _. now constructor; left.
      + split; [intros _; now constructor; right|]. intros Hs. destruct (use_auto Hu Ha Hs).
    - apply fbind_left in H as [H|(b1 & r & _ & H)]; [|discriminate]. apply insert_range_left in H as (-> & H1 & H2); auto. split; auto.
      intros Hw. destruct (H1 Hw) as (es1 & es2 & He & Hp). now apply c_range with es1 es2.
    - apply fbind_left in H as [H|(b1 & [[? ?] ?] & _ & H)]; [|discriminate]. apply remove_multiples_left in H as (H1 & H2); auto.
    - apply fbind_left in H as [H|(b1 & [? ?] & _ & H)]; [|discriminate]. apply remove_element_left in H. injection H as -> ->. split; auto. intros _. now constructor.
    - apply fbind_left in H as [H|(b1 & r & _ & H)]; [|discriminate]. unfold find_divisor_x in H. apply fbind_left in H as [H|(b1 & r & _ & H)].
      + apply find_iterator_left in H. injection H as -> ->. split; auto. intros _. now constructor.
      + destruct r; [|discriminate]. apply bind_inv in H as (x & _ & H). discriminate.
    - apply fbind_left in H as [H|(b1 & r & _ & H)]; [|discriminate]. apply all_divisors_left in H as [-> H]. split; auto. intros _. constructor; auto.
      apply so_far_agreed in H. rewrite (filter_divisors ex nvars use divides less Hdiv sorted valid s m Hi), map_ext_t in H. exact H.
    - apply fbind_left in H as [H|(b1 & r & _ & H)]; [|discriminate]. apply all_multiples_left in H as [-> H]. split; auto. intros _. constructor; auto.
      apply so_far_agreed in H. destruct (filter_multiples ex nvars use divides less Hdiv sorted valid s m Hi) as [F _].
      change (fun x => ediv (ext_of (l_bits s) m) x) with (ediv (ext_of (l_bits s) m)) in H. rewrite F, map_ext_t in H. exact H.
    - apply fbind_left in H as [H|(b1 & r & _ & H)]; [|discriminate]. apply for_all_left in H as [-> H]. split; auto. intros _. constructor; auto.
      apply so_far_agreed in H. replace (filter (fun _ => true) (l_list s)) with (l_list s) in H; [exact H|]. clear. induction (l_list s) as [|x l IH]; cbn [filter]; congruence.
    - apply fbind_left in H as [H|(b1 & [? ?] & _ & H)]; [|discriminate]. unfold to_front_x in H. apply fbind_left in H as [H|(b1 & r & _ & H)].
      + apply find_iterator_left in H. injection H as -> ->. split; auto. intros _. now constructor.
      + destruct r; [|discriminate]. apply bind_inv in H as (x & _ & H). apply bind_inv in H as (y & _ & H). discriminate.
    - apply fbind_left in H as [H|(b1 & r & _ & H)]; [|discriminate]. apply fleft_left in H as (s1 & H & He). injection He as -> ->. apply rebuild_left in H as [Hu H]. split.
      + intros _. constructor. now rewrite H.
      + rewrite Hu. discriminate.
    - discriminate.
  Qed.

  (** One call of a client that catches exceptions. *)
  Lemma catch_ok s o b : inv s -> calls o = true ->
    exists s' r, catch_x s (o, b) = Ok (s', r) /\
      (cstep divides (same_exps ex nvars) linked (contents s) o r (contents s') /\ inv s' \/
       safe o = false /\ exists xs, r = Threw xs /\ (wild o = false -> dcaught divides linked (contents s) o xs (contents s'))).
  Proof.
    intros Hi Hc.
    destruct (step_ok ex nvars T sort_data sort_perm use divides less Hdiv linked sorted auto Hord ratio rmin sort_ext Hsort valid Hcalc s o Hi Hc) as (s1 & r & H1 & H2 & H3).
    destruct (tot_step ex nvars T sort_data use divides less linked sorted auto ratio rmin sort_ext ub_calls sort_x Hsort_x b s o _ H1) as (f & F1 & F2).
    unfold Throws.catch_x. cbn [fst snd]. rewrite F1. cbn [bind]. destruct f as [b' [s' r']|[s' xs]].
    - injection F2 as -> ->. exists s1, (Answered r). split; auto.
    - exists s', (Threw xs). split; auto. destruct (step_left s o b s' xs Hi Hc F1) as [K1 K2]. destruct (safe o) eqn:Hs.
      + left. split; auto. cbn [cstep]. apply K1. destruct o; cbn [safe wild] in *; auto. apply andb_true_iff in Hs as [_ Hs]. apply negb_true_iff in Hs. now rewrite Hs.
      + right. split; auto. exists xs. auto.
  Qed.

  Theorem goes_on_from s0 : inv s0 -> goes_on divides (same_exps ex nvars) linked catch_x s0 contents (fun _ o => calls o) safe wild.
  Proof.
    intros Hi h. revert s0 Hi. induction h as [|[o b] h IH]; intros s0 Hi.
    - left. exists s0, []. split; auto. constructor.
    - destruct (calls o) eqn:Hc.
      2: { right. exists [], o, b, h, s0, []. repeat split; auto. constructor. }
      destruct (catch_ok s0 o b Hi Hc) as (s1 & r & H1 & [[H2 H3]|(H2 & xs & -> & H3)]).
      + destruct (IH s1 H3) as [(s & rs & K1 & K2)|(h1 & o' & b' & h2 & s & rs & -> & K1 & K2 & K3)].
        * left. exists s, (r :: rs). cbn [run map fst]. rewrite H1. cbn [bind]. rewrite K1. cbn [bind]. split; auto. econstructor; eauto.
        * right. exists ((o, b) :: h1), o', b', h2, s, (r :: rs). cbn [app run map fst]. rewrite H1. cbn [bind]. rewrite K1. cbn [bind].
          repeat split; auto. econstructor; eauto.
      + right. exists [], o, b, h, s0, []. repeat split; auto; [constructor|]. right. eauto 6.
  Qed.
End Correct.
