(** Proofs about DivList when client functions throw: what an exception leaves. *)
From Coq Require Import List Arith Bool ZArith NArith Lia Permutation Sorted.
From Verif.Base Require Import Res Arr ResList StdAlg Order Sort Fault FaultFacts.
From Verif.DivMask Require Import Model Proofs.
From Verif.Spec Require Import DivFinder DivFinderFacts DivCaught.
From Verif.DivList Require Import Model Proofs Throws ThrowsProofs.
Import ListNotations.

Section Loops.
  Context {M : Type}.
  Variable ex : M -> nat -> Z.
  Variable nvars : nat.
  Variable T : exptype.
  Variable use : bool.
  Variable divides less : M -> M -> bool.
  Notation ext := (ext M).
  Notation dlist := (dlist M).
  Notation ediv := (ext_divides M use divides).
  Notation ediv_x := (ediv_x M use divides).

  Lemma ediv_left {St} b (st st' : St) x y : ediv_x b st x y = Ok (Left st') -> st' = st.
  Proof. unfold Throws.ediv_x. destruct (has_can_divide _ _ _); [destruct b; cbn; congruence|discriminate]. Qed.
  Lemma ediv_fine {St} b (st : St) x y b' c : ediv_x b st x y = Ok (Fine b' c) -> c = ediv x y.
  Proof. unfold Throws.ediv_x, ext_divides. destruct (has_can_divide _ _ _); [destruct b; cbn; congruence|congruence]. Qed.

  (** The calculator. *)
  Lemma thresholds_var var mn inc : forall k i bs, thresholds T var mn inc k i = Ok bs -> forall v thr, In (v, thr) bs -> v = var.
  Proof.
    induction k as [|k IH]; intros i bs H v thr Hi; cbn [thresholds] in H.
    - injection H as <-. destruct Hi.
    - apply bind_inv in H as (p & _ & H). apply bind_inv in H as (e & _ & H). apply bind_inv in H as (r & Hr & H). injection H as <-.
      destruct Hi as [Hi|Hi]; [congruence|eauto].
  Qed.
  Lemma var_bits_var l first var k bs : var_bits M ex T l first var k = Ok bs -> forall v thr, In (v, thr) bs -> v = var.
  Proof.
    unfold var_bits. destruct (k =? 0); [intros H v thr Hi; injection H as <-; destruct Hi|].
    destruct (min_max M ex l first var) as [mn mx]. intros H. apply bind_inv in H as (d & _ & H). eapply thresholds_var, H.
  Qed.
  Lemma datas_left l first : forall vars b bits, datas_x M ex T b l first vars = Ok (Left bits) -> bits = [].
  Proof.
    induction vars as [|v vars IH]; intros b bits H; cbn [datas_x] in H; [discriminate|].
    apply clients_left in H as [?|[_ H]]; auto. apply bind_inv in H as (d & _ & H). apply clients_left in H as [?|[_ H]]; auto.
    apply fbind_left in H as [H|(b1 & r & _ & H)]; [eauto|discriminate].
  Qed.
  Lemma bits_left l first : forall ps b bits bits', bits_x M ex T b l first ps bits = Ok (Left bits') ->
    forall v thr, In (v, thr) bits' -> In (v, thr) bits \/ In v (map fst ps).
  Proof.
    induction ps as [|[var k] ps IH]; intros b bits bits' H v thr Hi; cbn [bits_x] in H; [discriminate|].
    apply clients_left in H as [->|[_ H]]; auto. apply bind_inv in H as (bs & Hb & H). cbn [map fst].
    destruct (IH _ _ _ H v thr Hi) as [Ha|Ha]; [|right; now right]. apply in_app_or in Ha as [Ha|Ha]; auto.
    right. left. symmetry. eapply var_bits_var; eauto.
  Qed.
  Lemma calc_left sort_data l b bits : calc_rebuild_x M ex nvars T sort_data use b l = Ok (Left bits) ->
    use = true /\ forall v thr, In (v, thr) bits -> v < nvars.
  Proof.
    unfold calc_rebuild_x. destruct use; [|discriminate]. destruct l as [|x l].
    - intros H. apply bind_inv in H as (r & _ & H). discriminate.
    - intros H. split; auto. intros v thr Hi. apply fbind_left in H as [H|(b1 & datas & _ & H)].
      + apply datas_left in H. subst bits. destruct Hi.
      + apply bind_inv in H as (bv & _ & H). destruct (bits_left _ _ _ _ _ _ H v thr Hi) as [[]|Hm].
        apply in_map_iff in Hm as ([v' k] & Hv & Hm). cbn in Hv. subst v'. apply in_combine_l, in_seq in Hm. lia.
  Qed.

  (** removeMultiples *)
  Lemma first_left s m : forall k b st, first_multiple_x M use divides b s m k = Ok (Left st) -> st = (s, []).
  Proof.
    induction k as [|k IH]; intros b st H; cbn [first_multiple_x] in H; [discriminate|]. apply bind_inv in H as (x & _ & H).
    apply fbind_left in H as [H|(b1 & c & _ & H)]; [eapply ediv_left, H|]. destruct c; [discriminate|eauto].
  Qed.
  Lemma compact_left s m : forall rest b kept gap out s' xs, gap <> [] ->
    compact_x M use divides b s m (kept ++ gap ++ rest) (length rest) (length kept) out = Ok (Left (s', xs)) ->
    exists done rest' gap', rest = done ++ rest' /\ s' = with_list M s ((kept ++ filter (fun x => negb (ediv m x)) done) ++ gap' ++ rest') /\
      xs = out ++ map x_t (filter (ediv m) done) /\ incl gap' (gap ++ done) /\ length gap' = length gap + length (filter (ediv m) done).
  Proof.
    induction rest as [|x rest IH]; intros b kept gap out s' xs Hg H; cbn [compact_x length] in H; [discriminate|].
    assert (Hl : length (kept ++ gap ++ x :: rest) - S (length rest) = length (kept ++ gap)) by (rewrite !app_length; cbn [length]; lia).
    rewrite Hl in H. clear Hl. apply bind_inv in H as (y & Hy & H). rewrite app_assoc in Hy. apply vget_ok in Hy. rewrite nth_error_app2 in Hy by lia.
    rewrite Nat.sub_diag in Hy. injection Hy as <-.
    assert (Here : s' = with_list M s (kept ++ gap ++ x :: rest) -> xs = out ->
      exists done rest' gap', x :: rest = done ++ rest' /\ s' = with_list M s ((kept ++ filter (fun x => negb (ediv m x)) done) ++ gap' ++ rest') /\
      xs = out ++ map x_t (filter (ediv m) done) /\ incl gap' (gap ++ done) /\ length gap' = length gap + length (filter (ediv m) done)).
    { intros -> ->. exists [], (x :: rest), gap. cbn [filter map length app]. rewrite !app_nil_r, Nat.add_0_r. repeat split; auto. apply incl_refl. }
    apply fbind_left in H as [H|(b1 & c & Hc & H)].
    { apply ediv_left in H. injection H as H1 H2. auto. }
    apply ediv_fine in Hc. subst c. destruct (ediv m x) eqn:Hm; cbn [negb] in H.
    - apply client_left in H as [H|(b2 & -> & H)]; [injection H as H1 H2; auto|].
      replace (kept ++ gap ++ x :: rest) with (kept ++ (gap ++ [x]) ++ rest) in H by (rewrite <- !app_assoc; reflexivity).
      apply IH in H as (done & rest' & gap' & -> & -> & -> & H4 & H5); [|now destruct gap].
      exists (x :: done), rest', gap'. cbn [filter map app]. rewrite Hm. cbn [negb]. split; [reflexivity|]. split; [reflexivity|]. split; [|split].
      + rewrite <- app_assoc. reflexivity.
      + rewrite <- app_assoc in H4. exact H4.
      + rewrite H5, app_length. cbn [length]. lia.
    - apply bind_inv in H as (a' & Ha & H). destruct gap as [|g gap]; [congruence|]. cbn [app] in Ha.
      rewrite vset_ok in Ha by (rewrite !app_length; cbn [length]; lia). injection Ha as <-.
      assert (He : upd (kept ++ g :: gap ++ x :: rest) (length kept) x = (kept ++ [x]) ++ (gap ++ [x]) ++ rest).
      { rewrite upd_app_r by lia. rewrite Nat.sub_diag. cbn [upd]. now rewrite <- !app_assoc. }
      cbn [app] in H. rewrite He in H. replace (S (length kept)) with (length (kept ++ [x])) in H by (rewrite app_length; cbn [length]; lia).
      apply IH in H as (done & rest' & gap' & -> & -> & -> & H4 & H5); [|now destruct gap].
      exists (x :: done), rest', gap'. cbn [filter map app]. rewrite Hm. cbn [negb]. split; [reflexivity|]. split; [|split; [reflexivity|split]].
      + now rewrite <- !app_assoc.
      + intros z Hz. apply H4 in Hz. rewrite <- app_assoc in Hz. right. exact Hz.
      + rewrite H5, app_length. cbn [length]. lia.
  Qed.
  Lemma vector_left s m b s' xs : remove_multiples_vector_x M use divides b s m = Ok (Left (s', xs)) ->
    exists done rest extra, l_list s = done ++ rest /\ s' = with_list M s (filter (fun x => negb (ediv m x)) done ++ extra ++ rest) /\
      xs = map x_t (filter (ediv m) done) /\ incl extra (l_list s) /\ length extra = length (filter (ediv m) done).
  Proof.
    unfold remove_multiples_vector_x. intros H.
    assert (Here : (s', xs) = (s, []) -> exists done rest extra, l_list s = done ++ rest /\ s' = with_list M s (filter (fun x => negb (ediv m x)) done ++ extra ++ rest) /\
      xs = map x_t (filter (ediv m) done) /\ incl extra (l_list s) /\ length extra = length (filter (ediv m) done)).
    { intros Hs. injection Hs as -> ->. exists [], (l_list s), []. cbn. repeat split; auto. 2: intros ? []. destruct s; reflexivity. }
    apply fbind_left in H as [H|(b1 & it & Hf & H)]; [apply first_left in H; auto|].
    destruct (first_multiple_ok use divides m (l_list s) (length (l_list s))) as (it' & F1 & F2 & F3 & F4); [lia|].
    destruct (tot_first use divides s m (length (l_list s)) b it' F1) as (f & F5 & F6). rewrite Hf in F5. injection F5 as <-. subst it'.
    destruct (Nat.eqb_spec it (length (l_list s))) as [He|He]; [discriminate|].
    apply bind_inv in H as (x & Hx & H). apply vget_ok in Hx. apply client_left in H as [H|(b2 & -> & H)]; auto.
    apply fbind_left in H as [H|(b3 & [[a' n] o] & _ & H)]; [|discriminate].
    destruct (nth_error_split _ _ Hx) as (l1 & l2 & Hl & Hlen). rewrite Hl in H.
    replace (length (l1 ++ x :: l2) - S it) with (length l2) in H by (rewrite app_length; cbn [length]; lia). subst it.
    change (l1 ++ x :: l2) with (l1 ++ [x] ++ l2) in H. apply compact_left in H as (done & rest & gap & -> & -> & -> & H4 & H5); [|discriminate].
    assert (Hx1 : ediv m x = true).
    { destruct F4 as (y & Hy & Hd); [rewrite Hl, app_length; cbn [length]; lia|]. congruence. }
    assert (Hl1 : forall y, In y l1 -> ediv m y = false).
    { intros y Hy. apply In_nth_error in Hy as [j Hj]. assert (j < length l1) by (apply nth_error_Some; congruence).
      apply (F3 j); [lia|]. rewrite Hl, nth_error_app1; auto. }
    assert (Hn : filter (ediv m) l1 = [] /\ filter (fun x => negb (ediv m x)) l1 = l1).
    { clear - Hl1. induction l1 as [|y l1 IH]; cbn [filter]; auto. rewrite Hl1 by now left. cbn [negb].
      destruct IH as [-> ->]; [intros; apply Hl1; now right|]. auto. }
    destruct Hn as [Hn1 Hn2].
    exists (l1 ++ x :: done), rest, gap. rewrite Hl, <- app_assoc. split; [reflexivity|]. rewrite !filter_app. cbn [filter]. rewrite Hx1, Hn1, Hn2. cbn [negb app map length].
    split; [reflexivity|]. split; [reflexivity|]. split; [|exact H5].
    intros z Hz. apply H4 in Hz. apply in_or_app. cbn [app] in Hz. destruct Hz as [<-|Hz]; [right; now left|]. right. right. apply in_or_app. auto.
  Qed.
  Lemma list_left s m : forall l b kept out n s' xs, remove_multiples_list_x M use divides b s m kept l out n = Ok (Left (s', xs)) ->
    exists done rest, l = done ++ rest /\ s' = with_list M s (kept ++ filter (fun x => negb (ediv m x)) done ++ rest) /\
      xs = out ++ map x_t (filter (ediv m) done).
  Proof.
    induction l as [|x l IH]; intros b kept out n s' xs H; cbn [remove_multiples_list_x] in H; [discriminate|].
    assert (Here : (s', xs) = (with_list M s (kept ++ x :: l), out) -> exists done rest, x :: l = done ++ rest /\ s' = with_list M s (kept ++ filter (fun x => negb (ediv m x)) done ++ rest) /\
      xs = out ++ map x_t (filter (ediv m) done)).
    { intros Hs. injection Hs as -> ->. exists [], (x :: l). cbn. now rewrite app_nil_r. }
    apply fbind_left in H as [H|(b1 & c & Hc & H)]; [apply ediv_left in H; auto|]. apply ediv_fine in Hc. subst c. destruct (ediv m x) eqn:Hm.
    - apply client_left in H as [H|(b2 & -> & H)]; auto. apply IH in H as (done & rest & -> & -> & ->). exists (x :: done), rest. cbn [filter map app]. rewrite Hm. cbn [negb map].
      rewrite <- app_assoc. auto.
    - apply IH in H as (done & rest & -> & -> & ->). exists (x :: done), rest. cbn [filter map app]. rewrite Hm. cbn [negb]. rewrite <- !app_assoc. auto.
  Qed.

  (** Functions that change nothing before they are done. *)
  Lemma insert_list_left s e : forall l b st, insert_list_x M less b s l e = Ok (Left st) -> st = (s, []).
  Proof.
    induction l as [|x l IH]; intros b st H; cbn [insert_list_x] in H; [discriminate|]. apply client_left in H as [H|(b1 & -> & H)]; auto.
    destruct (less (x_t e) (x_t x)); [discriminate|]. apply fbind_left in H as [H|(b2 & r & _ & H)]; [eauto|discriminate].
  Qed.
  Lemma insert_sort_left linked ub_calls s e b st : insert_sort_x M less linked ub_calls b s e = Ok (Left st) -> st = (s, []).
  Proof.
    unfold insert_sort_x. destruct linked; [apply insert_list_left|]. intros H. apply bind_inv in H as (i & _ & H). apply clients_left in H as [H|[_ H]]; [auto|discriminate].
  Qed.
  Lemma scan_left p st0 : (forall b x st, p b x = Ok (Left st) -> st = st0) -> forall l b st, scan_x M p b l = Ok (Left st) -> st = st0.
  Proof.
    intros Hp. induction l as [|x l IH]; intros b st H; cbn [scan_x] in H; [discriminate|].
    apply fbind_left in H as [H|(b1 & c & _ & H)]; [eauto|]. destruct c; [discriminate|]. apply fbind_left in H as [H|(b2 & r & _ & H)]; [eauto|discriminate].
  Qed.
  Lemma scan_list_left s m : forall l b count st, scan_list_x M use divides less b s m count l = Ok (Left st) -> st = (s, []).
  Proof.
    induction l as [|x l IH]; intros b count st H; cbn [scan_list_x] in H; [discriminate|]. cbv zeta in H.
    assert (Ht : forall b count', fbind (ediv_x b (s, []) x m) (fun b c => if c then Ok (Fine b (Some 0))
      else fbind (scan_list_x M use divides less b s m count' l) (fun b r => Ok (Fine b (option_map S r)))) = Ok (Left st) -> st = (s, [])).
    { clear H. intros b0 count' H. apply fbind_left in H as [H|(b1 & c & _ & H)]; [eapply ediv_left, H|]. destruct c; [discriminate|].
      apply fbind_left in H as [H|(b2 & r & _ & H)]; [eauto|discriminate]. }
    destruct (S count =? 35); [|eauto]. apply client_left in H as [H|(b1 & -> & H)]; auto. destruct (less (x_t m) (x_t x)); [discriminate|eauto].
  Qed.
  Lemma find_iterator_left linked sorted ub_calls s m b st : find_iterator_x M ex use divides less linked sorted ub_calls b s m = Ok (Left st) -> st = (s, []).
  Proof.
    unfold find_iterator_x, find_sorted_x. intros H. apply clients_left in H as [H|[_ H]]; auto. destruct (negb sorted).
    - eapply scan_left in H; eauto. intros. eapply ediv_left; eauto.
    - destruct linked; [eapply scan_list_left, H|]. apply bind_inv in H as (i & _ & H). apply clients_left in H as [H|[_ H]]; auto.
      eapply scan_left in H; eauto. intros. eapply ediv_left; eauto.
  Qed.
  Lemma equal_left s a x : forall vars b st, equal_exps_x M ex b s a x vars = Ok (Left st) -> st = (s, []).
  Proof.
    induction vars as [|v vars IH]; intros b st H; cbn [equal_exps_x] in H; [discriminate|]. apply clients_left in H as [H|[_ H]]; auto.
    destruct (ex a v =? ex x v)%Z; [eauto|discriminate].
  Qed.
  Lemma remove_element_left s m b st : remove_element_x M ex nvars b s m = Ok (Left st) -> st = (s, []).
  Proof.
    unfold remove_element_x. intros H. apply fbind_left in H as [H|(b1 & r & _ & H)]; [|destruct r; discriminate].
    eapply scan_left in H; eauto. intros. eapply equal_left; eauto.
  Qed.

  (** The callbacks *)
  Definition so_far (cb : callback M) (q : ext -> bool) (l : list ext) (seen xs : list M) : Prop :=
    exists done rest, l = done ++ rest /\ xs = seen ++ map x_t (filter q done) /\
      forall p r, map x_t (filter q done) = p ++ r -> p <> [] -> cb (seen ++ p) = true.
  Lemma so_far_nil cb q l seen : so_far cb q l seen seen.
  Proof. exists [], l. cbn. rewrite app_nil_r. repeat split; auto. intros p r Hp Hn. destruct p; [congruence|discriminate]. Qed.
  Lemma so_far_yes cb q x l seen xs : q x = true -> cb (seen ++ [x_t x]) = true -> so_far cb q l (seen ++ [x_t x]) xs -> so_far cb q (x :: l) seen xs.
  Proof.
    intros Hq Hcb (done & rest & -> & -> & H). exists (x :: done), rest. cbn [filter]. rewrite Hq. cbn [map app]. split; auto. split; [now rewrite <- app_assoc|].
    intros p r Hp Hn. destruct p as [|y p]; [congruence|]. injection Hp as <- Hp. destruct p as [|z p]; [exact Hcb|].
    replace (seen ++ x_t x :: z :: p) with ((seen ++ [x_t x]) ++ z :: p) by (rewrite <- app_assoc; reflexivity). eapply H; [exact Hp|discriminate].
  Qed.
  Lemma so_far_no cb q x l seen xs : q x = false -> so_far cb q l seen xs -> so_far cb q (x :: l) seen xs.
  Proof. intros Hq (done & rest & -> & -> & H). exists (x :: done), rest. cbn [filter]. rewrite Hq. auto. Qed.
  Lemma so_far_agreed cb q l xs : so_far cb q l [] xs -> agreed cb (map x_t (filter q l)) xs.
  Proof.
    intros (done & rest & -> & -> & H). exists (map x_t (filter q rest)). cbn [app] in *. rewrite filter_app, map_app. split; [reflexivity|].
    intros p r Hp. now apply H with r.
  Qed.
  Lemma so_far_firstn cb q i l seen xs : so_far cb q (firstn i l) seen xs -> so_far cb q l seen xs.
  Proof.
    intros (done & rest & Hl & -> & H). exists done, (rest ++ skipn i l). split; [|auto]. rewrite app_assoc, <- Hl. symmetry. apply firstn_skipn.
  Qed.
  Lemma feed_left s cb p q : (forall b seen x st, p b seen x = Ok (Left st) -> st = (s, seen)) -> (forall b seen x b' c, p b seen x = Ok (Fine b' c) -> c = q x) ->
    forall l b seen s' xs, feed_x M s cb p b l seen = Ok (Left (s', xs)) -> s' = s /\ so_far cb q l seen xs.
  Proof.
    intros Hp Hq. induction l as [|x l IH]; intros b seen s' xs H; cbn [feed_x] in H; [discriminate|].
    apply fbind_left in H as [H|(b1 & c & Hc & H)]; [apply Hp in H; injection H as -> ->; split; auto; apply so_far_nil|].
    apply Hq in Hc. subst c. destruct (q x) eqn:Hx.
    - apply client_left in H as [H|(b2 & -> & H)]; [injection H as -> ->; split; auto; apply so_far_nil|].
      destruct (cb (seen ++ [x_t x])) eqn:Hcb; [|discriminate]. apply IH in H as [-> H]. split; auto. now apply so_far_yes.
    - apply IH in H as [-> H]. split; auto. now apply so_far_no.
  Qed.
  Lemma feed_list_left s cb m : forall l b count seen s' xs, feed_list_x M use divides less b s cb m count l seen = Ok (Left (s', xs)) ->
    s' = s /\ so_far cb (fun x => ediv x m) l seen xs.
  Proof.
    induction l as [|x l IH]; intros b count seen s' xs H; cbn [feed_list_x] in H; [discriminate|]. cbv zeta in H.
    assert (Ht : forall b count', fbind (ediv_x b (s, seen) x m) (fun b c => if c then client b (s, seen) (fun b =>
        if cb (seen ++ [x_t x]) then feed_list_x M use divides less b s cb m count' l (seen ++ [x_t x]) else Ok (Fine b (seen ++ [x_t x])))
      else feed_list_x M use divides less b s cb m count' l seen) = Ok (Left (s', xs)) -> s' = s /\ so_far cb (fun x => ediv x m) (x :: l) seen xs).
    { clear H. intros b0 count' H. apply fbind_left in H as [H|(b1 & c & Hc & H)]; [apply ediv_left in H; injection H as -> ->; split; auto; apply so_far_nil|].
      apply ediv_fine in Hc. subst c. destruct (ediv x m) eqn:Hx.
      - apply client_left in H as [H|(b2 & -> & H)]; [injection H as -> ->; split; auto; apply so_far_nil|].
        destruct (cb (seen ++ [x_t x])) eqn:Hcb; [|discriminate]. apply IH in H as [-> H]. split; auto. now apply so_far_yes.
      - apply IH in H as [-> H]. split; auto. now apply so_far_no. }
    destruct (S count =? 35); [|eauto]. apply client_left in H as [H|(b1 & -> & H)]; [injection H as -> ->; split; auto; apply so_far_nil|].
    destruct (less (x_t m) (x_t x)); [discriminate|eauto].
  Qed.
  Lemma all_divisors_left linked sorted ub_calls s m cb b s' xs : all_divisors_x M ex use divides less linked sorted ub_calls b s m cb = Ok (Left (s', xs)) ->
    s' = s /\ so_far cb (fun x => ediv x (extend M ex use (l_bits s) m)) (l_list s) [] xs.
  Proof.
    unfold all_divisors_x. intros H. apply clients_left in H as [H|[_ H]]; [injection H as -> ->; split; auto; apply so_far_nil|]. cbv zeta in H. destruct (negb sorted).
    - eapply feed_left in H; eauto; [intros; eapply ediv_left; eauto|intros; cbv beta; eapply ediv_fine; eauto].
    - destruct linked; [apply feed_list_left in H; exact H|]. apply bind_inv in H as (i & _ & H).
      apply clients_left in H as [H|[_ H]]; [injection H as -> ->; split; auto; apply so_far_nil|].
      eapply feed_left with (q := fun x => ediv x (extend M ex use (l_bits s) m)) in H; [|intros; eapply ediv_left; eauto|intros; eapply ediv_fine; eauto].
      destruct H as [-> H]. split; auto. now apply so_far_firstn in H.
  Qed.
  Lemma all_multiples_left s m cb b s' xs : all_multiples_x M ex use divides b s m cb = Ok (Left (s', xs)) ->
    s' = s /\ so_far cb (fun x => ediv (extend M ex use (l_bits s) m) x) (l_list s) [] xs.
  Proof.
    unfold all_multiples_x. intros H. apply clients_left in H as [H|[_ H]]; [injection H as -> ->; split; auto; apply so_far_nil|]. cbv zeta in H.
    eapply feed_left in H; eauto; [intros; eapply ediv_left; eauto|intros; cbv beta; eapply ediv_fine; eauto].
  Qed.
  Lemma for_all_left s cb b s' xs : for_all_x M b s cb = Ok (Left (s', xs)) -> s' = s /\ so_far cb (fun _ => true) (l_list s) [] xs.
  Proof. unfold for_all_x. intros H. eapply feed_left in H; eauto; [discriminate|]. intros. cbv beta. congruence. Qed.

  (** rebuild *)
  Lemma recalculate_left bits : forall l b done l', recalculate_x M ex use b bits done l = Ok (Left l') -> map x_t l' = map x_t done ++ map x_t l.
  Proof.
    induction l as [|x l IH]; intros b done l' H; cbn [recalculate_x] in H; [discriminate|]. apply clients_left in H as [->|[_ H]]; [apply map_app|].
    apply IH in H. rewrite H, map_app, <- app_assoc. reflexivity.
  Qed.
  Lemma recalculate_unused bits : use = false -> forall l b done l', recalculate_x M ex use b bits done l = Ok (Left l') -> False.
  Proof.
    intros Hu. assert (Hz : mask_calls use bits = 0) by (unfold mask_calls; now rewrite Hu).
    induction l as [|x l IH]; intros b done l' H; cbn [recalculate_x] in H; [discriminate|]. rewrite Hz in H. unfold clients in H. cbn [Nat.leb] in H. eauto.
  Qed.
  Lemma rebuild_left sort_data auto ratio rmin s b s' : rebuild_list_x M ex nvars T sort_data use auto ratio rmin b s = Ok (Left s') ->
    use = true /\ contents s' = contents s.
  Proof.
    unfold rebuild_list_x. intros H. apply fbind_left in H as [H|(b1 & bits & _ & H)].
    - apply fleft_left in H as (bits & H & ->). apply calc_left in H as [H _]. auto.
    - apply fbind_left in H as [H|(b2 & l & _ & H)]; [|discriminate]. apply fleft_left in H as (l & H & ->). split.
      + destruct use eqn:Hu; auto. exfalso. rewrite <- Hu in H. eapply recalculate_unused in H; auto.
      + apply recalculate_left in H. exact H.
  Qed.
  Lemma report_left sort_data auto ratio rmin s n b s' : report_changes_x M ex nvars T sort_data use auto ratio rmin b s n = Ok (Left s') ->
    use = true /\ auto = true /\ contents s' = contents s.
  Proof.
    unfold report_changes_x. destruct auto; [|discriminate]. cbn [negb]. destruct (n <? l_left s); [discriminate|]. intros H. apply rebuild_left in H as [H1 H2]. auto.
  Qed.
  Lemma append_left s bits : forall es b l s' xs, append_x M ex use b s bits l es = Ok (Left (s', xs)) ->
    xs = [] /\ exists es1 es2, es = es1 ++ es2 /\ s' = mk_dlist (l ++ map (extend M ex use bits) es1) bits (l_left s) (l_rebuilds s).
  Proof.
    induction es as [|e es IH]; intros b l s' xs H; cbn [append_x] in H; [discriminate|]. apply clients_left in H as [H|[_ H]].
    - injection H as -> ->. split; auto. exists [], (e :: es). cbn. now rewrite app_nil_r.
    - apply IH in H as (-> & es1 & es2 & -> & ->). split; auto. exists (e :: es1), es2. cbn [map app]. rewrite <- app_assoc. auto.
  Qed.
End Loops.
