(** Proofs about DivList. *)
From Coq Require Import List Arith Bool ZArith NArith Lia Permutation Sorted.
From Verif.Base Require Import Res Arr ResList StdAlg Order Sort.
From Verif.DivMask Require Import Model Proofs.
From Verif.Spec Require Import DivFinder DivFinderFacts.
From Verif.DivList Require Import Model.
Import ListNotations.

(** * Loops over the container *)
Section Loops.
  Context {M : Type}.
  Variable use : bool.
  Variable divides less : M -> M -> bool.
  Notation ext := (ext M).
  Notation ediv := (ext_divides M use divides).

  Lemma skipn_nth {A} (l : list A) k x : nth_error l k = Some x -> skipn k l = x :: skipn (S k) l.
  Proof. revert k. induction l as [|y l IH]; intros [|k] H; cbn in *; try discriminate; [now injection H as -> | now apply IH]. Qed.

  Lemma first_multiple_ok m (a : list ext) k : k <= length a ->
    exists it, first_multiple M use divides m a k = Ok it /\ length a - k <= it <= length a /\
      (forall j x, length a - k <= j < it -> nth_error a j = Some x -> ediv m x = false) /\
      (it < length a -> exists x, nth_error a it = Some x /\ ediv m x = true).
  Proof.
    induction k as [|k IH]; intros Hk; cbn [first_multiple].
    - exists (length a). split; auto. split; [lia|]. split; [intros j x Hj; lia|lia].
    - destruct (nth_error_lt a (length a - S k)) as [x Hx]; [lia|]. pose proof Hx as Hg. apply vget_ok in Hg. rewrite Hg. cbn [bind].
      destruct (ediv m x) eqn:Hm.
      + exists (length a - S k). split; auto. split; [lia|]. split; [intros j y Hj; lia|eauto].
      + destruct IH as (it & H1 & H2 & H3 & H4); [lia|]. exists it. split; auto. split; [lia|]. split; auto.
        intros j y Hj Hy. destruct (Nat.eq_dec j (length a - S k)) as [->|Hne]; [congruence|]. apply (H3 j); auto. lia.
  Qed.

  Lemma compact_ok m : forall rest (kept gap : list ext) out,
    exists a', compact M use divides m (kept ++ gap ++ rest) (length rest) (length kept) out =
        Ok (a', length kept + length (filter (fun x => negb (ediv m x)) rest), out ++ map x_t (filter (ediv m) rest)) /\
      firstn (length kept + length (filter (fun x => negb (ediv m x)) rest)) a' = kept ++ filter (fun x => negb (ediv m x)) rest.
  Proof.
    induction rest as [|x rest IH]; intros kept gap out; cbn [compact length filter map].
    - exists (kept ++ gap ++ []). rewrite !app_nil_r, Nat.add_0_r. split; auto.
      rewrite firstn_app, Nat.sub_diag, firstn_all. cbn. now rewrite app_nil_r.
    - replace (length (kept ++ gap ++ x :: rest) - S (length rest)) with (length kept + length gap)
        by (rewrite !app_length; cbn [length]; lia).
      replace (vget (kept ++ gap ++ x :: rest) (length kept + length gap)) with (Ok x).
      2: { symmetry. apply vget_ok. rewrite app_assoc, nth_error_app2 by (rewrite app_length; lia).
           rewrite app_length, Nat.sub_diag. reflexivity. }
      cbn [bind]. destruct (ediv m x) eqn:Hm; cbn [negb].
      + destruct (IH kept (gap ++ [x]) (out ++ [x_t x])) as (a' & H1 & H2). exists a'. split; auto.
        rewrite <- app_assoc in H1. cbn [app] in H1. rewrite H1. cbn [map]. now rewrite <- app_assoc.
      + cbn [length map]. destruct gap as [|g gap].
        * rewrite vset_ok by (rewrite !app_length; cbn [app length]; lia). cbn [bind app].
          rewrite upd_app_r by lia. rewrite Nat.sub_diag. cbn [upd].
          destruct (IH (kept ++ [x]) [] out) as (a' & H1 & H2). exists a'.
          rewrite app_length in H1, H2. cbn [length] in H1, H2. rewrite <- app_assoc in H1, H2. cbn [app] in H1, H2.
          replace (length kept + 1) with (S (length kept)) in H1, H2 by lia. cbn [Nat.add] in H1, H2.
          rewrite <- plus_n_Sm. split; auto.
        * rewrite vset_ok by (rewrite !app_length; cbn [app length]; lia). cbn [bind app].
          rewrite upd_app_r by lia. rewrite Nat.sub_diag. cbn [upd].
          destruct (IH (kept ++ [x]) (gap ++ [x]) out) as (a' & H1 & H2). exists a'.
          rewrite app_length in H1, H2. cbn [length] in H1, H2. rewrite <- !app_assoc in H1. rewrite <- app_assoc in H2. cbn [app] in H1, H2.
          replace (length kept + 1) with (S (length kept)) in H1, H2 by lia. cbn [Nat.add] in H1, H2.
          rewrite <- plus_n_Sm. split; auto.
  Qed.

  Lemma filter_lengths {A} (f : A -> bool) l : length (filter f l) + length (filter (fun x => negb (f x)) l) = length l.
  Proof. rewrite <- app_length. apply Permutation_length, filter_split. Qed.

  Lemma remove_vector_ok m (a : list ext) :
    remove_multiples_vector M use divides m a =
    Ok (filter (fun x => negb (ediv m x)) a, map x_t (filter (ediv m) a), length (filter (ediv m) a)).
  Proof.
    unfold remove_multiples_vector. destruct (first_multiple_ok m a (length a)) as (it & -> & H2 & H3 & H4); [lia|]. cbn [bind].
    assert (Hpre : forall x, In x (firstn it a) -> ediv m x = false).
    { intros x Hx. apply In_nth_error in Hx as [j Hj]. assert (Hl := nth_error_some_lt _ _ _ Hj). rewrite firstn_length in Hl.
      apply (H3 j); [lia|]. rewrite <- Hj. rewrite <- (firstn_skipn it a) at 1. apply nth_error_app1. rewrite firstn_length. lia. }
    destruct (Nat.eqb_spec it (length a)) as [->|Hne].
    - rewrite firstn_all in Hpre. rewrite (filter_none (ediv m)) by exact Hpre. rewrite filter_all by (intros x Hx; now rewrite Hpre). reflexivity.
    - destruct H4 as (x & Hx & Hm); [lia|]. pose proof Hx as Hg. apply vget_ok in Hg. rewrite Hg. cbn [bind].
      assert (Ha : a = firstn it a ++ [x] ++ skipn (S it) a).
      { rewrite <- (firstn_skipn it a) at 1. f_equal. cbn [app]. now apply skipn_nth. }
      destruct (compact_ok m (skipn (S it) a) (firstn it a) [x] [x_t x]) as (a' & H5 & H6).
      rewrite <- Ha in H5. rewrite skipn_length, firstn_length, Nat.min_l in H5 by lia. rewrite H5. cbn [bind].
      rewrite firstn_length, Nat.min_l in H6 by lia. rewrite H6.
      assert (F1 : filter (fun x => negb (ediv m x)) a = firstn it a ++ filter (fun x => negb (ediv m x)) (skipn (S it) a)).
      { rewrite Ha at 1. rewrite !filter_app. cbn [filter]. rewrite Hm. cbn [negb app]. f_equal. apply filter_all. intros y Hy. now rewrite Hpre. }
      assert (F2 : filter (ediv m) a = x :: filter (ediv m) (skipn (S it) a)).
      { rewrite Ha at 1. rewrite !filter_app. cbn [filter]. rewrite Hm. rewrite (filter_none _ (firstn it a)) by exact Hpre. reflexivity. }
      rewrite <- F1, F2. cbn [map app]. f_equal. f_equal.
      assert (H7 := filter_lengths (ediv m) a). rewrite F1, F2 in H7. rewrite app_length, firstn_length, Nat.min_l in H7 by lia.
      cbn [length] in *. lia.
  Qed.

  Lemma remove_list_ok m (l : list ext) :
    remove_multiples_list M use divides m l = (filter (fun x => negb (ediv m x)) l, map x_t (filter (ediv m) l), length (filter (ediv m) l)).
  Proof.
    induction l as [|x l IH]; cbn [remove_multiples_list filter]; auto. rewrite IH. destruct (ediv m x); reflexivity.
  Qed.

  (** moveToFront *)
  Lemma shift_up_ok (l1 : list ext) : forall x l2,
    exists z, shift_up M (l1 ++ x :: l2) (length l1) = Ok (z :: l1 ++ l2).
  Proof.
    induction l1 as [|y l1 IH] using rev_ind; intros x l2; [exists x; reflexivity|].
    rewrite app_length. cbn [length]. rewrite Nat.add_1_r. cbn [shift_up].
    replace (vget ((l1 ++ [y]) ++ x :: l2) (length l1)) with (Ok y).
    2: { symmetry. apply vget_ok. rewrite <- app_assoc. rewrite nth_error_app2, Nat.sub_diag by lia. reflexivity. }
    cbn [bind]. rewrite vset_ok by (rewrite !app_length; cbn [length]; lia). cbn [bind].
    rewrite upd_app_r by (rewrite app_length; cbn [length]; lia).
    replace (S (length l1) - length (l1 ++ [y])) with 0 by (rewrite app_length; cbn [length]; lia). cbn [upd].
    rewrite <- !app_assoc. cbn [app]. destruct (IH y (y :: l2)) as [z ->]. exists z. reflexivity.
  Qed.
  Lemma move_to_front_ok linked (l1 : list ext) x l2 : move_to_front M linked (l1 ++ x :: l2) (length l1) = Ok (x :: l1 ++ l2).
  Proof.
    unfold move_to_front. replace (vget (l1 ++ x :: l2) (length l1)) with (Ok x).
    2: { symmetry. apply vget_ok. rewrite nth_error_app2, Nat.sub_diag by lia. reflexivity. }
    cbn [bind]. destruct linked.
    - rewrite firstn_app, Nat.sub_diag, firstn_all. cbn [firstn]. rewrite app_nil_r. f_equal. f_equal. f_equal.
      replace (S (length l1)) with (length l1 + 1) by lia. rewrite skipn_app, skipn_all2 by lia.
      replace (length l1 + 1 - length l1) with 1 by lia. reflexivity.
    - destruct (shift_up_ok l1 x l2) as [z ->]. cbn [bind]. rewrite vset_ok by (cbn [length]; lia). reflexivity.
  Qed.

  (** searching *)
  Lemma scan_some p (l : list ext) i : scan M p l = Some i ->
    exists l1 x l2, l = l1 ++ x :: l2 /\ length l1 = i /\ p x = true /\ forall y, In y l1 -> p y = false.
  Proof.
    revert i. induction l as [|x l IH]; intros i H; cbn [scan] in H; [discriminate|]. destruct (p x) eqn:Hp.
    - injection H as <-. exists [], x, l. repeat split; auto. intros y [].
    - destruct (scan M p l) as [j|]; [|discriminate]. injection H as <-. destruct (IH j eq_refl) as (l1 & y & l2 & -> & H1 & H2 & H3).
      exists (x :: l1), y, l2. cbn [length]. repeat split; auto. intros z [<-|Hz]; auto.
  Qed.
  Lemma scan_none p (l : list ext) : scan M p l = None -> forall y, In y l -> p y = false.
  Proof.
    induction l as [|x l IH]; intros H y Hy; cbn [scan] in H; [destruct Hy|]. destruct (p x) eqn:Hp; [discriminate|].
    destruct (scan M p l) as [j|]; [discriminate|]. destruct Hy as [<-|Hy]; auto.
  Qed.
  Lemma scan_app_none p (l1 l2 : list ext) : (forall y, In y l2 -> p y = false) -> scan M p (l1 ++ l2) = scan M p l1.
  Proof.
    intros H. induction l1 as [|x l1 IH]; cbn [scan app].
    - induction l2 as [|y l2 IH]; cbn [scan]; auto. rewrite (H y) by now left. rewrite IH by (intros z Hz; apply H; now right). reflexivity.
    - now rewrite IH.
  Qed.

  (** reporting *)
  Lemma feed_ok (cb : callback M) p (l : list ext) : forall seen,
    exists zs rest go, feed M cb p l seen = (seen ++ zs, go) /\ zs ++ rest = map x_t (filter p l) /\
      (forall u v, zs = u ++ v -> u <> [] -> v <> [] -> cb (seen ++ u) = true) /\
      (go = true -> rest = [] /\ (zs <> [] -> cb (seen ++ zs) = true)) /\
      (go = false -> zs <> [] /\ cb (seen ++ zs) = false).
  Proof.
    induction l as [|x l IH]; intros seen; cbn [feed filter].
    - exists [], [], true. rewrite app_nil_r. split; auto. split; auto. split; [intros [|] [|] H; cbn in H; congruence|].
      split; [split; congruence|congruence].
    - destruct (p x) eqn:Hp; [|apply IH]. cbn [map]. destruct (cb (seen ++ [x_t x])) eqn:Hc.
      + destruct (IH (seen ++ [x_t x])) as (zs & rest & go & H1 & H2 & H3 & H4 & H5).
        exists (x_t x :: zs), rest, go. rewrite <- app_assoc in H1, H4, H5. cbn [app] in *.
        split; auto. split; [now rewrite H2|]. split.
        { intros [|u0 u] v Hz Hu Hv; [congruence|]. cbn [app] in Hz. injection Hz as <- Hz.
          destruct u as [|u1 u]; auto. specialize (H3 (u1 :: u) v Hz ltac:(discriminate) Hv). now rewrite <- app_assoc in H3. }
        split.
        { intros Hg. destruct (H4 Hg) as [-> Hz]. split; auto. intros _. destruct zs; auto. apply Hz. discriminate. }
        { intros Hg. split; [discriminate|]. now apply H5. }
      + exists [x_t x], (map x_t (filter p l)), false. split; auto. split; auto. split; [|split; [congruence|split; [discriminate|auto]]].
        intros [|u0 [|u1 u]] [|v0 v] Hz Hu Hv; cbn in Hz; congruence.
  Qed.
  Lemma feed_reported (cb : callback M) p (l : list ext) : reported cb (map x_t (filter p l)) (fst (feed M cb p l [])).
  Proof.
    destruct (feed_ok cb p l []) as (zs & rest & go & H1 & H2 & H3 & H4 & H5). rewrite H1. cbn [fst app] in *.
    exists rest. split; [now rewrite H2|]. split; auto. intros Hr. destruct go; [|auto]. destruct (H4 eq_refl) as [-> _]. congruence.
  Qed.
  Lemma feed_app_none cb p (l1 l2 : list ext) seen : (forall y, In y l2 -> p y = false) -> feed M cb p (l1 ++ l2) seen = feed M cb p l1 seen.
  Proof.
    intros H. revert seen. induction l1 as [|x l1 IH]; intros seen; cbn [feed app].
    - induction l2 as [|y l2 IH]; cbn [feed]; auto. rewrite (H y) by now left. apply IH. intros z Hz. apply H. now right.
    - now rewrite !IH.
  Qed.

  (** sorted containers *)
  Hypothesis Hsw : strict_weak less.
  Hypothesis Hcompat : forall a b, divides a b = true -> less b a = false.
  Notation comp := (comp M less).

  Lemma comp_sw : strict_weak comp.
  Proof.
    split; unfold Model.comp.
    - intros a. apply (sw_irrefl _ Hsw).
    - intros a b c. apply (sw_trans _ Hsw).
    - intros a b c. apply (sw_neg_trans _ Hsw).
  Qed.
  Lemma ediv_comp a b : comp b a = true -> ediv a b = false.
  Proof.
    unfold ext_divides, Model.comp. intros H. destruct (has_can_divide _ _ _); auto.
    destruct (divides (x_t a) (x_t b)) eqn:Hd; auto. apply Hcompat in Hd. congruence.
  Qed.

  Lemma scan_list_ok m l : in_order comp l -> forall count, scan_list M use divides less m count l = scan M (fun x => ediv x m) l.
  Proof.
    induction 1 as [|x l Hs IH Hf]; intros count; cbn [scan_list scan]; auto. rewrite !IH.
    destruct (S count =? 35); auto. destruct (less (x_t m) (x_t x)) eqn:Hl; auto.
    symmetry. assert (Hx : forall y, In y (x :: l) -> ediv y m = false).
    { intros y [<-|Hy]; apply ediv_comp; [exact Hl|]. rewrite Forall_forall in Hf. specialize (Hf y Hy).
      exact (sw_lt_le _ comp_sw _ _ _ Hl Hf). }
    rewrite (Hx x) by now left. rewrite <- (app_nil_l l). rewrite scan_app_none; auto. intros y Hy. apply Hx. now right.
  Qed.
  Lemma find_sorted_ok linked m l : in_order comp l -> find_sorted M use divides less linked l m = Ok (scan M (fun x => ediv x m) l).
  Proof.
    intros Hs. unfold find_sorted. destruct linked; [now rewrite scan_list_ok|].
    destruct (upper_bound_sorted comp l m comp_sw Hs) as [i Hi]. rewrite Hi. cbn [bind]. apply upper_bound_ok in Hi as (_ & _ & H3).
    f_equal. rewrite <- (firstn_skipn i l) at 2. symmetry. apply scan_app_none. intros y Hy. now apply ediv_comp, H3.
  Qed.
  Lemma feed_list_ok cb m l : in_order comp l -> forall count seen,
    feed_list M use divides less cb m count l seen = fst (feed M cb (fun x => ediv x m) l seen).
  Proof.
    induction 1 as [|x l Hs IH Hf]; intros count seen; cbn [feed_list feed]; auto. rewrite !IH.
    destruct (S count =? 35).
    - destruct (less (x_t m) (x_t x)) eqn:Hl.
      + assert (Hx : forall y, In y (x :: l) -> ediv y m = false).
        { intros y [<-|Hy]; apply ediv_comp; [exact Hl|]. rewrite Forall_forall in Hf. specialize (Hf y Hy).
          exact (sw_lt_le _ comp_sw _ _ _ Hl Hf). }
        rewrite (Hx x) by now left. rewrite <- (app_nil_l l). rewrite feed_app_none; auto. intros y Hy. apply Hx. now right.
      + destruct (ediv x m); auto. destruct (cb _); auto.
    - destruct (ediv x m); auto. destruct (cb _); auto.
  Qed.

  Lemma in_order_app (l1 l2 : list ext) : in_order comp (l1 ++ l2) <->
    in_order comp l1 /\ in_order comp l2 /\ forall a b, In a l1 -> In b l2 -> comp b a = false.
  Proof.
    unfold in_order. induction l1 as [|x l1 IH]; cbn [app].
    - split; [intros H; repeat split; auto; [constructor|intros a b []]|tauto].
    - split.
      + intros H. apply StronglySorted_inv in H as [H1 H2]. apply IH in H1 as (H3 & H4 & H5). rewrite Forall_forall in H2.
        split; [constructor; auto; apply Forall_forall; intros y Hy; apply H2, in_or_app; auto|]. split; auto.
        intros a b [<-|Ha] Hb; auto. apply H2, in_or_app; auto.
      + intros (H1 & H2 & H3). apply StronglySorted_inv in H1 as [H4 H5]. constructor.
        * apply IH. repeat split; auto. intros a b Ha Hb. apply H3; auto. now right.
        * apply Forall_forall. intros y Hy. rewrite Forall_forall in H5. apply in_app_or in Hy as [Hy|Hy]; auto. apply H3; auto. now left.
  Qed.
  Lemma insert_list_ok l e : in_order comp l -> Permutation (insert_list M less l e) (e :: l) /\ in_order comp (insert_list M less l e).
  Proof.
    unfold in_order. induction 1 as [|x l Hs IH Hf]; cbn [insert_list]; [split; auto; repeat constructor|].
    destruct (less (x_t e) (x_t x)) eqn:Hl.
    - split; auto. constructor; [now constructor|]. constructor; [apply (sw_asym _ comp_sw e x Hl)|].
      rewrite Forall_forall in *. intros y Hy. specialize (Hf y Hy). apply (sw_asym _ comp_sw). exact (sw_lt_le _ comp_sw _ _ _ Hl Hf).
    - destruct IH as [H1 H2]. split; [rewrite H1; constructor|]. constructor; auto. apply Forall_forall. intros y Hy.
      apply (Permutation_in _ H1) in Hy as [<-|Hy]; [exact Hl|]. rewrite Forall_forall in Hf. auto.
  Qed.
  Lemma insert_sort_ok linked l e : in_order comp l ->
    exists l', insert_sort M less linked l e = Ok l' /\ Permutation l' (e :: l) /\ in_order comp l'.
  Proof.
    intros Hs. unfold insert_sort. destruct linked; [eexists; split; [reflexivity|now apply insert_list_ok]|].
    destruct (upper_bound_sorted comp l e comp_sw Hs) as [i Hi]. rewrite Hi. cbn [bind]. eexists. split; [reflexivity|].
    apply upper_bound_ok in Hi as (_ & H2 & H3). split.
    - rewrite <- Permutation_middle, firstn_skipn. reflexivity.
    - rewrite <- (firstn_skipn i l) in Hs. apply in_order_app in Hs as (H4 & H5 & H6). apply in_order_app. split; auto. split.
      + constructor; auto. apply Forall_forall. intros y Hy. apply (sw_asym _ comp_sw). now apply H3.
      + intros a b Ha [<-|Hb]; auto.
  Qed.
End Loops.

(** * The container *)
Section Correct.
  Context {M : Type}.
  Variable ex : M -> nat -> Z.
  Variable nvars : nat.
  Variable T : exptype.
  Variable sort_data : list var_data -> list var_data.
  Hypothesis sort_perm : forall l, Permutation (sort_data l) l.
  Variable use : bool.
  Variable divides less : M -> M -> bool.
  Hypothesis Hdiv : forall a b, divides a b = true -> forall var, var < nvars -> (ex a var <= ex b var)%Z.
  Variables linked sorted auto : bool.
  Hypothesis Hord : sorted = true -> strict_weak less /\ forall a b, divides a b = true -> less b a = false.
  Variable ratio : nat -> nat.
  Variable rmin : nat.
  Variable sort_ext : list (ext M) -> list (ext M).
  Hypothesis Hsort : sorted = true -> sorts (comp M less) sort_ext.
  (** entries for which the arithmetic of the divmask calculator does not overflow *)
  Variable valid : M -> bool.
  Hypothesis Hcalc : use = true -> forall l, forallb valid l = true -> exists bits, rebuild M ex nvars T sort_data l = Ok bits.

  Notation ext := (ext M).
  Notation ediv := (ext_divides M use divides).
  Notation ext_of bits := (extend M ex use bits).
  Notation dlist := (dlist M).
  Notation calc_rebuild := (calc_rebuild M ex nvars T sort_data use).

  Lemma calc_rebuild_ok l : forallb valid l = true -> exists bits, calc_rebuild l = Ok bits.
  Proof. unfold Model.calc_rebuild. destruct use; eauto. Qed.
  Lemma calc_rebuild_vars l bits : calc_rebuild l = Ok bits -> forall v thr, In (v, thr) bits -> v < nvars.
  Proof.
    unfold Model.calc_rebuild. destruct use.
    - intros H. apply rebuild_shape in H; tauto.
    - intros H v thr Hi. injection H as <-. destruct Hi.
  Qed.

  Record inv (s : dlist) : Prop := {
    i_ext : l_list s = map (ext_of (l_bits s)) (contents s);
    i_bits : forall v thr, In (v, thr) (l_bits s) -> v < nvars;
    i_sorted : sorted = true -> in_order (comp M less) (l_list s);
    i_valid : forallb valid (contents s) = true }.

  Lemma map_ext_t bits (l : list M) : map x_t (map (ext_of bits) l) = l.
  Proof. rewrite map_map. apply map_id. Qed.

  (** Facts about filters through the extension. *)
  Lemma filter_map {A B} (f : A -> B) p l : filter p (map f l) = map f (filter (fun x => p (f x)) l).
  Proof. induction l as [|x l IH]; cbn [map filter]; auto. destruct (p (f x)); cbn [map]; now rewrite IH. Qed.
  Lemma ediv_ext bits a b : (forall v thr, In (v, thr) bits -> v < nvars) -> ediv (ext_of bits a) (ext_of bits b) = divides a b.
  Proof. intros H. apply (ext_divides_ok ex nvars divides Hdiv bits H). Qed.
  Lemma filter_multiples s m : inv s ->
    filter (ediv (ext_of (l_bits s) m)) (l_list s) = map (ext_of (l_bits s)) (multiples divides m (contents s)) /\
    filter (fun x => negb (ediv (ext_of (l_bits s) m) x)) (l_list s) = map (ext_of (l_bits s)) (non_multiples divides m (contents s)).
  Proof.
    intros Hi. rewrite (i_ext _ Hi), !filter_map. unfold multiples, non_multiples.
    split; f_equal; apply filter_ext; intros a; rewrite ediv_ext; auto; apply (i_bits _ Hi).
  Qed.
  Lemma filter_divisors s m : inv s ->
    filter (fun x => ediv x (ext_of (l_bits s) m)) (l_list s) = map (ext_of (l_bits s)) (divisors divides m (contents s)).
  Proof.
    intros Hi. rewrite (i_ext _ Hi), !filter_map. unfold divisors.
    f_equal; apply filter_ext; intros a; rewrite ediv_ext; auto; apply (i_bits _ Hi).
  Qed.

  (** Changing the sequence without touching the masks. *)
  Lemma inv_sub s l' n k : inv s -> (forall x, In x l' -> In x (l_list s)) -> (sorted = true -> in_order (comp M less) l') ->
    inv (mk_dlist l' (l_bits s) n k).
  Proof.
    intros Hi Hsub Hs. assert (He : forall x, In x l' -> x = ext_of (l_bits s) (x_t x)).
    { intros x Hx. apply Hsub in Hx. rewrite (i_ext _ Hi) in Hx. apply in_map_iff in Hx as (y & <- & _). reflexivity. }
    split; cbn [l_list l_bits]; auto.
    - unfold contents. cbn [l_list]. rewrite map_map. rewrite <- (map_id l') at 1. apply map_ext_in. exact He.
    - apply (i_bits _ Hi).
    - unfold contents. cbn [l_list]. apply forallb_forall. intros y Hy. apply in_map_iff in Hy as (x & <- & Hx).
      assert (Hv := i_valid _ Hi). rewrite forallb_forall in Hv. apply Hv. unfold contents. apply in_map. now apply Hsub.
  Qed.
  Lemma in_order_filter f l : in_order (comp M less) l -> in_order (comp M less) (filter f l).
  Proof.
    unfold in_order. induction 1 as [|x l Hs IH Hf]; cbn [filter]; [constructor|]. destruct (f x); auto. constructor; auto.
    rewrite Forall_forall in *. intros y Hy. apply filter_In in Hy as [Hy _]. auto.
  Qed.

  Lemma reset_left_same s : l_list (reset_left M auto ratio rmin s) = l_list s /\ l_bits (reset_left M auto ratio rmin s) = l_bits s.
  Proof. unfold reset_left. destruct auto; auto. Qed.
  Lemma inv_reset s : inv s -> inv (reset_left M auto ratio rmin s).
  Proof.
    intros Hi. destruct (reset_left_same s) as [H1 H2]. split; unfold contents; rewrite ?H1, ?H2; apply Hi.
  Qed.
  Lemma contents_reset s : contents (reset_left M auto ratio rmin s) = contents s.
  Proof. unfold contents. now rewrite (proj1 (reset_left_same s)). Qed.

  (** rebuild and reportChanges keep the sequence of entries *)
  Lemma rebuild_ok s : inv s -> exists s', rebuild_list M ex nvars T sort_data use auto ratio rmin s = Ok s' /\ inv s' /\ contents s' = contents s.
  Proof.
    intros Hi. unfold rebuild_list. destruct (calc_rebuild_ok (map x_t (l_list s))) as [bits Hb]; [apply (i_valid _ Hi)|].
    rewrite Hb. cbn [bind]. eexists. split; [reflexivity|]. rewrite contents_reset.
    assert (Hc : contents (mk_dlist (map (recalculate M ex use bits) (l_list s)) bits (l_left s) (S (l_rebuilds s))) = contents s).
    { unfold contents. cbn [l_list]. rewrite map_map. apply map_ext. reflexivity. }
    split; auto. apply inv_reset. split; rewrite ?Hc; cbn [l_list l_bits].
    - unfold contents. rewrite map_map. apply map_ext_in. intros x Hx. unfold recalculate, extend. destruct use eqn:Hu; auto.
      rewrite (i_ext _ Hi) in Hx. apply in_map_iff in Hx as (y & <- & _). unfold extend. cbn [x_t x_mask]. now rewrite Hu.
    - apply (calc_rebuild_vars _ _ Hb).
    - intros Hs. specialize (i_sorted _ Hi Hs). generalize (l_list s). clear. unfold in_order. induction 1 as [|x l H IH Hf]; cbn [map]; constructor; auto.
      apply Forall_map. exact Hf.
    - apply (i_valid _ Hi).
  Qed.
  Lemma report_ok s k : inv s ->
    exists s', report_changes M ex nvars T sort_data use auto ratio rmin s k = Ok s' /\ inv s' /\ contents s' = contents s.
  Proof.
    intros Hi. assert (Hr := rebuild_ok s Hi). unfold report_changes. destruct auto; cbn [negb]; [|eauto]. destruct (k <? l_left s); [|exact Hr].
    eexists. split; [reflexivity|]. split; auto. apply inv_sub; auto. apply (i_sorted _ Hi).
  Qed.

  Lemma construct_ok : exists s, construct M ex nvars T sort_data use auto ratio rmin = Ok s /\ inv s /\ contents s = [].
  Proof.
    unfold construct. destruct (calc_rebuild_ok []) as [bits Hb]; auto. rewrite Hb. cbn [bind]. eexists. split; [reflexivity|].
    rewrite contents_reset. split; auto. apply inv_reset. split; cbn [l_list l_bits contents map]; auto.
    - apply (calc_rebuild_vars _ _ Hb).
    - intros _. constructor.
  Qed.

  Notation insert := (insert M ex nvars T sort_data use less linked sorted auto ratio rmin).
  Lemma insert_ok s e : inv s -> valid e = true -> exists s', insert s e = Ok s' /\ inv s' /\ Permutation (contents s') (e :: contents s).
  Proof.
    intros Hi Hv. unfold Model.insert.
    assert (Hl : exists l, (if negb sorted then Ok (l_list s ++ [ext_of (l_bits s) e]) else insert_sort M less linked (l_list s) (ext_of (l_bits s) e)) = Ok l /\
      Permutation l (ext_of (l_bits s) e :: l_list s) /\ (sorted = true -> in_order (comp M less) l)).
    { assert (Hs := i_sorted _ Hi). destruct sorted; cbn [negb].
      - destruct (insert_sort_ok less (proj1 (Hord eq_refl)) linked (l_list s) (ext_of (l_bits s) e) (Hs eq_refl)) as (l & H1 & H2 & H3). eauto.
      - eexists. split; [reflexivity|]. split; [symmetry; apply Permutation_cons_append|discriminate]. }
    destruct Hl as (l & -> & Hp & Hs). cbn [bind].
    assert (Hi' : inv (mk_dlist l (l_bits s) (l_left s) (l_rebuilds s))).
    { split; unfold contents; cbn [l_list l_bits]; auto.
      - rewrite map_map. rewrite <- (map_id l) at 1. apply map_ext_in. intros x Hx. apply (Permutation_in _ Hp) in Hx as [<-|Hx]; auto.
        rewrite (i_ext _ Hi) in Hx. apply in_map_iff in Hx as (y & <- & _). reflexivity.
      - apply (i_bits _ Hi).
      - apply forallb_forall. intros y Hy. apply (Permutation_in _ (Permutation_map x_t Hp)) in Hy as [<-|Hy]; auto.
        assert (Hv' := i_valid _ Hi). rewrite forallb_forall in Hv'. auto. }
    destruct (report_ok _ 1 Hi') as (s' & -> & H1 & H2). exists s'. split; auto. split; auto. rewrite H2. unfold contents. cbn [l_list].
    rewrite Hp. reflexivity.
  Qed.
  Lemma insert_each_ok es : forall s, inv s -> forallb valid es = true ->
    exists s', insert_each M ex nvars T sort_data use less linked sorted auto ratio rmin s es = Ok s' /\ inv s' /\ Permutation (contents s') (es ++ contents s).
  Proof.
    induction es as [|e es IH]; intros s Hi Hv; cbn [insert_each]; [eauto|]. cbn [forallb] in Hv. apply andb_true_iff in Hv as [Hv Hvs].
    destruct (insert_ok s e Hi Hv) as (s1 & -> & H1 & H2). cbn [bind]. destruct (IH s1 H1 Hvs) as (s2 & -> & H3 & H4).
    exists s2. split; auto. split; auto. rewrite H4, H2. rewrite <- Permutation_middle. reflexivity.
  Qed.
  Lemma insert_range_ok s es : inv s -> forallb valid es = true ->
    exists s', insert_range M ex nvars T sort_data use less linked sorted auto ratio rmin sort_ext s es = Ok s' /\ inv s' /\ Permutation (contents s') (es ++ contents s).
  Proof.
    intros Hi Hv. unfold insert_range. destruct (l_list s) as [|x l] eqn:Hl; [|now apply insert_each_ok].
    assert (Hc : contents s = []) by (unfold contents; now rewrite Hl).
    destruct es as [|e es]; [exists s; rewrite Hc; auto|]. destruct (calc_rebuild_ok (e :: es) Hv) as [bits Hb]. rewrite Hb. cbn [bind].
    eexists. split; [reflexivity|]. rewrite contents_reset. remember (e :: es) as l eqn:Heq. clear Heq e es.
    assert (Hp : Permutation (if sorted then sort_ext (map (ext_of bits) l) else map (ext_of bits) l) (map (ext_of bits) l)).
    { destruct sorted; auto. apply (Hsort eq_refl). }
    assert (Hpt : Permutation (map x_t (if sorted then sort_ext (map (ext_of bits) l) else map (ext_of bits) l)) l).
    { rewrite Hp. now rewrite map_ext_t. }
    split.
    - apply inv_reset. split; unfold contents; cbn [l_list l_bits].
      + rewrite map_map. rewrite <- map_id at 1. apply map_ext_in. intros x Hx. apply (Permutation_in _ Hp) in Hx.
        apply in_map_iff in Hx as (y & <- & _). reflexivity.
      + apply (calc_rebuild_vars _ _ Hb).
      + intros Hs. rewrite Hs. apply (Hsort Hs).
      + apply forallb_forall. intros y Hy. apply (Permutation_in _ Hpt) in Hy. rewrite forallb_forall in Hv. auto.
    - unfold contents. cbn [l_list]. rewrite Hl. cbn [map]. now rewrite app_nil_r.
  Qed.

  Lemma remove_multiples_ok s m : inv s ->
    exists s', remove_multiples M ex nvars T sort_data use divides linked auto ratio rmin s m =
      Ok (s', match multiples divides m (contents s) with [] => false | _ => true end, multiples divides m (contents s)) /\
      inv s' /\ contents s' = non_multiples divides m (contents s).
  Proof.
    intros Hi. unfold remove_multiples. set (em := ext_of (l_bits s) m).
    replace (if linked then Ok (remove_multiples_list M use divides em (l_list s)) else remove_multiples_vector M use divides em (l_list s))
      with (Ok (filter (fun x => negb (ediv em x)) (l_list s), map x_t (filter (ediv em) (l_list s)), length (filter (ediv em) (l_list s)))).
    2: { destruct linked; [now rewrite remove_list_ok|now rewrite remove_vector_ok]. }
    cbn [bind]. assert (Hi' : inv (mk_dlist (filter (fun x => negb (ediv em x)) (l_list s)) (l_bits s) (l_left s) (l_rebuilds s))).
    { apply inv_sub; auto; [intros x Hx; now apply filter_In in Hx|]. intros Hs. apply in_order_filter, (i_sorted _ Hi Hs). }
    destruct (report_ok _ (length (filter (ediv em) (l_list s))) Hi') as (s' & -> & H1 & H2). cbn [bind].
    destruct (filter_multiples s m Hi) as [F1 F2]. fold em in F1, F2. exists s'. rewrite F1, map_ext_t, map_length. split.
    - f_equal. f_equal. f_equal. destruct (multiples divides m (contents s)); reflexivity.
    - split; auto. rewrite H2. unfold contents at 1. cbn [l_list]. rewrite F2. apply map_ext_t.
  Qed.

  Lemma remove_element_ok s m : inv s ->
    inv (fst (remove_element M ex nvars s m)) /\
    dstep divides (same_exps ex nvars) (contents s) (DRemoveElement m) (DOBool (snd (remove_element M ex nvars s m))) (contents (fst (remove_element M ex nvars s m))).
  Proof.
    intros Hi. unfold remove_element. destruct (scan M _ (l_list s)) as [i|] eqn:Hs; cbn [fst snd].
    - apply scan_some in Hs as (l1 & x & l2 & Hl & <- & Hx & _).
      assert (E : firstn (length l1) (l_list s) ++ skipn (S (length l1)) (l_list s) = l1 ++ l2).
      { rewrite Hl. rewrite firstn_app, Nat.sub_diag, firstn_all. cbn [firstn]. rewrite app_nil_r. f_equal.
        replace (S (length l1)) with (length l1 + 1) by lia. rewrite skipn_app, skipn_all2 by lia.
        replace (length l1 + 1 - length l1) with 1 by lia. reflexivity. }
      rewrite E. split.
      + apply inv_sub; auto.
        * intros y Hy. rewrite Hl. apply in_app_or in Hy. apply in_or_app. cbn [In]. tauto.
        * intros Hs. assert (H := i_sorted _ Hi Hs). rewrite Hl in H. apply in_order_app in H as (H1 & H2 & H3).
          apply StronglySorted_inv in H2 as [H2 _]. apply in_order_app. split; auto. split; auto. intros a b Ha Hb. apply H3; auto. now right.
      + unfold contents. cbn [l_list]. rewrite Hl. apply d_element with (x_t x).
        * rewrite !map_app. cbn [map]. symmetry. apply Permutation_middle.
        * exact Hx.
    - split; auto. apply d_no_element; auto. intros e He. unfold contents in He. apply in_map_iff in He as (x & <- & Hx).
      exact (scan_none _ _ Hs x Hx).
  Qed.

  Lemma find_iterator_ok s m : inv s ->
    find_iterator M ex use divides less linked sorted s m = Ok (scan M (fun x => ediv x (ext_of (l_bits s) m)) (l_list s)).
  Proof.
    intros Hi. unfold find_iterator. assert (Hs := i_sorted _ Hi). destruct sorted; cbn [negb]; auto.
    destruct (Hord eq_refl) as [Hsw Hc]. apply find_sorted_ok; auto.
  Qed.
  Lemma scan_divisor s m : inv s ->
    match scan M (fun x => ediv x (ext_of (l_bits s) m)) (l_list s) with
    | Some i => exists l1 x l2, l_list s = l1 ++ x :: l2 /\ length l1 = i /\ is_divisor divides m (contents s) (Some (x_t x))
    | None => is_divisor divides m (contents s) None
    end.
  Proof.
    intros Hi. destruct (scan M _ (l_list s)) as [i|] eqn:Hs.
    - apply scan_some in Hs as (l1 & x & l2 & Hl & H1 & Hx & _). exists l1, x, l2. split; auto. split; auto. cbn [is_divisor].
      assert (Hin : In x (l_list s)) by (rewrite Hl; apply in_or_app; right; now left). split.
      + unfold contents. now apply in_map.
      + rewrite (i_ext _ Hi) in Hin. apply in_map_iff in Hin as (y & <- & _). rewrite ediv_ext in Hx; auto. apply (i_bits _ Hi).
    - cbn [is_divisor]. intros e He. assert (Hn := scan_none _ _ Hs (ext_of (l_bits s) e)). cbn beta in Hn.
      rewrite ediv_ext in Hn by apply (i_bits _ Hi). apply Hn. rewrite (i_ext _ Hi). now apply in_map.
  Qed.
  Lemma find_divisor_ok s m : inv s ->
    exists r, find_divisor M ex use divides less linked sorted s m = Ok r /\ is_divisor divides m (contents s) r.
  Proof.
    intros Hi. unfold find_divisor. rewrite find_iterator_ok by auto. cbn [bind]. assert (H := scan_divisor s m Hi).
    destruct (scan M _ (l_list s)) as [i|]; [|eauto]. destruct H as (l1 & x & l2 & Hl & <- & H).
    replace (vget (l_list s) (length l1)) with (Ok x).
    2: { symmetry. apply vget_ok. rewrite Hl. rewrite nth_error_app2, Nat.sub_diag by lia. reflexivity. }
    cbn [bind]. eauto.
  Qed.
  Lemma to_front_ok s m : inv s -> sorted = false ->
    exists s' r, to_front M ex use divides less linked sorted s m = Ok (s', r) /\ inv s' /\ is_divisor divides m (contents s) r /\
      Permutation (contents s') (contents s).
  Proof.
    intros Hi Hns. unfold to_front. rewrite find_iterator_ok by auto. cbn [bind]. assert (H := scan_divisor s m Hi).
    destruct (scan M _ (l_list s)) as [i|].
    - destruct H as (l1 & x & l2 & Hl & <- & H). rewrite Hl, move_to_front_ok. cbn [bind]. unfold vget. cbn [nth_error of_option bind].
      eexists. eexists. split; [reflexivity|]. split; [|split; auto].
      + apply inv_sub; auto; [|congruence]. intros y Hy. rewrite Hl. apply in_or_app. cbn [In] in *. destruct Hy as [<-|Hy]; auto.
        apply in_app_or in Hy. tauto.
      + unfold contents. cbn [l_list]. rewrite Hl. rewrite Permutation_middle. reflexivity.
    - eexists. eexists. split; [reflexivity|]. auto.
  Qed.
  Lemma all_divisors_ok s m cb : inv s ->
    exists xs, all_divisors M ex use divides less linked sorted s m cb = Ok xs /\ reported cb (divisors divides m (contents s)) xs.
  Proof.
    intros Hi. exists (fst (feed M cb (fun x => ediv x (ext_of (l_bits s) m)) (l_list s) [])). split.
    - unfold all_divisors. assert (Hs := i_sorted _ Hi). destruct sorted; cbn [negb]; auto. destruct (Hord eq_refl) as [Hsw Hc]. specialize (Hs eq_refl).
      destruct linked; [now rewrite feed_list_ok|]. destruct (upper_bound_sorted _ (l_list s) (ext_of (l_bits s) m) (comp_sw less Hsw) Hs) as [i Hu].
      rewrite Hu. cbn [bind]. f_equal. f_equal. apply upper_bound_ok in Hu as (_ & _ & H3). rewrite <- (firstn_skipn i (l_list s)) at 2.
      symmetry. apply feed_app_none. intros y Hy. apply (ediv_comp use divides less Hc). now apply H3.
    - rewrite <- (map_ext_t (l_bits s) (divisors divides m (contents s))). rewrite <- filter_divisors by auto. apply feed_reported.
  Qed.
  Lemma all_multiples_ok s m cb : inv s -> reported cb (multiples divides m (contents s)) (all_multiples M ex use divides s m cb).
  Proof.
    intros Hi. unfold all_multiples. rewrite <- (map_ext_t (l_bits s) (multiples divides m (contents s))).
    rewrite <- (proj1 (filter_multiples s m Hi)). apply feed_reported.
  Qed.
  Lemma for_all_ok s cb : reported cb (contents s) (for_all M s cb).
  Proof.
    unfold for_all, contents. rewrite <- (filter_all (fun _ => true) (l_list s)) at 1 by auto. apply feed_reported.
  Qed.

  (** Inserted entries must be valid; with sortOnInsert there is no moving to the front. *)
  Definition calls (o : dop M) : bool :=
    match o with
    | DInsert e => valid e
    | DInsertRange es => forallb valid es
    | DToFront _ => negb sorted
    | _ => true
    end.

  Notation step := (step M ex nvars T sort_data use divides less linked sorted auto ratio rmin sort_ext).
  Lemma step_ok s o : inv s -> calls o = true ->
    exists s' r, step s o = Ok (s', r) /\ inv s' /\ dstep divides (same_exps ex nvars) (contents s) o r (contents s').
  Proof.
    intros Hi Hc. destruct o as [e|es|m|m|m|m cb|m cb|cb|m| |]; cbn [Model.step calls] in *.
    - destruct (insert_ok s e Hi Hc) as (s' & -> & H1 & H2). cbn [bind]. eexists. eexists. split; [reflexivity|]. split; auto. now constructor.
    - destruct (insert_range_ok s es Hi Hc) as (s' & -> & H1 & H2). cbn [bind]. eexists. eexists. split; [reflexivity|]. split; auto. now constructor.
    - destruct (remove_multiples_ok s m Hi) as (s' & -> & H1 & H2). cbn [bind]. eexists. eexists. split; [reflexivity|]. split; auto.
      constructor; auto. now rewrite H2.
    - destruct (remove_element_ok s m Hi) as [H1 H2]. destruct (remove_element M ex nvars s m) as [s' b]. eauto.
    - destruct (find_divisor_ok s m Hi) as (r & -> & H1). cbn [bind]. eexists. eexists. split; [reflexivity|]. split; auto. now constructor.
    - destruct (all_divisors_ok s m cb Hi) as (r & -> & H1). cbn [bind]. eexists. eexists. split; [reflexivity|]. split; auto. now constructor.
    - eexists. eexists. split; [reflexivity|]. split; auto. constructor; auto. now apply all_multiples_ok.
    - eexists. eexists. split; [reflexivity|]. split; auto. constructor; auto. apply for_all_ok.
    - apply negb_true_iff in Hc. destruct (to_front_ok s m Hi Hc) as (s' & r & -> & H1 & H2 & H3). cbn [bind]. eexists. eexists.
      split; [reflexivity|]. split; auto. now constructor.
    - destruct (rebuild_ok s Hi) as (s' & -> & H1 & H2). cbn [bind]. eexists. eexists. split; [reflexivity|]. split; auto. constructor. now rewrite H2.
    - eexists. eexists. split; [reflexivity|]. split; auto. replace (length (l_list s)) with (length (contents s)) by apply map_length. now constructor.
  Qed.

  Theorem divlist_steps :
    df_steps divides (same_exps ex nvars) step (construct M ex nvars T sort_data use auto ratio rmin) contents (fun _ o => calls o).
  Proof.
    destruct construct_ok as (s0 & H1 & H2 & H3). apply df_steps_by_inv with inv s0; auto. intros s o Hi Hc. now apply step_ok.
  Qed.
  Theorem divlist_correct :
    df_correct divides (same_exps ex nvars) step (construct M ex nvars T sort_data use auto ratio rmin) contents (fun _ o => calls o).
  Proof. apply df_steps_correct, divlist_steps. Qed.
End Correct.
