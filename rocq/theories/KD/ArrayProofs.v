(** Proofs about the entries in a leaf. *)
From Coq Require Import List Arith Bool ZArith NArith String Lia Permutation Sorted.
From Verif.Base Require Import Res Arr ResList StdAlg Order Sort.
From Verif.DivMask Require Import Model Proofs Defined.
From Verif.Spec Require Import DivFinder DivFinderFacts.
From Verif.DivList Require Model Proofs.
From Verif.KD Require Import EntryArray Legal.
Import ListNotations.
Local Notation length := List.length.

(** ** Feeding a callback *)
(** Having been told [seen], the callback was told what is in [r] of [all]; the boolean says whether it still wants more. *)
Definition feeds {M : Type} (cb : callback M) (seen all : list M) (r : list M * bool) : Prop :=
  exists zs rest, fst r = seen ++ zs /\ Permutation (zs ++ rest) all /\
    (forall u v, zs = u ++ v -> u <> [] -> v <> [] -> cb (seen ++ u) = true) /\
    (if snd r then rest = [] /\ (zs <> [] -> cb (seen ++ zs) = true) else zs <> [] /\ cb (seen ++ zs) = false).

Section Feeds.
  Context {M : Type}.
  Variable cb : callback M.

  Lemma feeds_nil seen : feeds cb seen [] (seen, true).
  Proof.
    exists [], []. cbn [fst snd app]. rewrite app_nil_r. split; auto. split; auto. split; [intros [|] [|] H; cbn in H; congruence|].
    split; [auto|congruence].
  Qed.
  Lemma feeds_perm seen all all' r : Permutation all all' -> feeds cb seen all r -> feeds cb seen all' r.
  Proof. intros Hp (zs & rest & H1 & H2 & H3). exists zs, rest. split; auto. split; [now rewrite H2|auto]. Qed.
  Lemma feeds_stop seen all1 all2 seen' : feeds cb seen all1 (seen', false) -> feeds cb seen (all1 ++ all2) (seen', false).
  Proof.
    intros (zs & rest & H1 & H2 & H3 & H4). exists zs, (rest ++ all2). cbn [fst snd] in *. split; auto. split; auto. now rewrite app_assoc, H2.
  Qed.
  Lemma app_split {A} (x y u v : list A) : x ++ y = u ++ v -> (exists w, x = u ++ w /\ v = w ++ y) \/ (exists w, w <> [] /\ u = x ++ w /\ y = w ++ v).
  Proof.
    revert u. induction x as [|a x IH]; intros u H; cbn [app] in H.
    - destruct u as [|b u]; [left; exists []; auto|right; exists (b :: u); split; [discriminate|auto]].
    - destruct u as [|b u]; cbn [app] in H.
      + left. exists (a :: x). split; auto.
      + injection H as <- H. destruct (IH u H) as [(w & -> & ->)|(w & Hw & -> & ->)]; [left|right]; exists w; auto.
  Qed.
  Lemma feeds_app seen all1 all2 seen1 r : feeds cb seen all1 (seen1, true) -> feeds cb seen1 all2 r -> feeds cb seen (all1 ++ all2) r.
  Proof.
    intros (z1 & rest1 & H1 & H2 & H3 & H4) (z2 & rest2 & G1 & G2 & G3 & G4). cbn [fst snd] in *. subst seen1. destruct H4 as [-> H4].
    rewrite app_nil_r in H2. exists (z1 ++ z2), rest2. split; [now rewrite G1, app_assoc|]. split; [now rewrite <- app_assoc, G2, H2|]. split.
    - intros u v He Hu Hv. apply app_split in He as [(w & -> & ->)|(w & Hw & -> & ->)].
      + destruct w as [|a w]; [rewrite app_nil_r in H4; auto|]. apply (H3 u (a :: w)); auto. discriminate.
      + rewrite app_assoc. apply (G3 w v); auto.
    - rewrite <- app_assoc in G4. destruct (snd r).
      + destruct G4 as [-> G4]. split; auto. intros Hz. destruct z2 as [|a z2]; [|now apply G4]. rewrite app_nil_r in *. auto.
      + destruct G4 as [Hz G4]. split; auto. intros H. apply app_eq_nil in H. tauto.
  Qed.
  Lemma feeds_reported all xs go : feeds cb [] all (xs, go) -> reported cb all xs.
  Proof.
    intros (zs & rest & H1 & H2 & H3 & H4). cbn [fst snd app] in *. subst zs. exists rest. split; auto. split; auto.
    intros Hr. destruct go; [|auto]. destruct H4 as [-> _]. congruence.
  Qed.
  Lemma feeds_all seen all r : (forall p, cb p = true) -> feeds cb seen all r -> snd r = true /\ Permutation (fst r) (seen ++ all).
  Proof.
    intros Hc (zs & rest & H1 & H2 & H3 & H4). destruct (snd r); [|destruct H4 as [_ H4]; congruence]. split; auto.
    destruct H4 as [-> _]. rewrite app_nil_r in H2. now rewrite H1, H2.
  Qed.
  Lemma feed_feeds p (l : list (ext M)) seen : feeds cb seen (map x_t (filter p l)) (Model.feed M cb p l seen).
  Proof.
    destruct (Proofs.feed_ok cb p l seen) as (zs & rest & go & H1 & H2 & H3 & H4 & H5). rewrite H1. exists zs, rest. cbn [fst snd].
    split; auto. split; [now rewrite H2|]. split; auto. destruct go; auto.
  Qed.
End Feeds.

Section Arrays.
  Context {M : Type}.
  Variable C : kconf M.
  Variable valid : M -> bool.
  Hypothesis HL : klegal C valid.
  Notation ext := (ext M).
  Notation earray := (earray M).
  Notation ex := (c_ex C).
  Notation nvars := (c_nvars C).
  Notation kdiv := (kdiv C).
  Notation kcomp := (kcomp C).

  (** The mask [m] is a lower bound of the masks in [l]. *)
  Definition below (m : N) (l : list ext) : Prop := narrow m /\ forall x, In x l -> forall i, N.testbit m i = true -> N.testbit (x_mask x) i = true.

  Lemma below_incl m l l' : (forall x, In x l' -> In x l) -> below m l -> below m l'.
  Proof. intros Hs [H1 H2]. split; auto. Qed.
  Lemma below_nil : below max_mask [].
  Proof. split; [apply narrow_max|intros x []]. Qed.
  Lemma below_lower m m' l : c_tree C = true -> below m l -> below (klower C m m') l.
  Proof.
    intros Ht [H1 H2]. unfold klower, lower_bound. rewrite Ht. split; [now apply combine_narrow|].
    intros x Hx i Hi. rewrite combine_bit in Hi. apply andb_prop in Hi as [Hi _]. eauto.
  Qed.
  Lemma below_lower_r m m' l l' : c_tree C = true -> below m l -> (forall x, In x l' -> forall i, N.testbit m' i = true -> N.testbit (x_mask x) i = true) ->
    below (klower C m m') (l ++ l').
  Proof.
    intros Ht [H1 H2] H3. unfold klower, lower_bound. rewrite Ht. split; [now apply combine_narrow|].
    intros x Hx i Hi. rewrite combine_bit in Hi. apply andb_prop in Hi as [Hi Hi']. apply in_app_or in Hx as [Hx|Hx]; eauto.
  Qed.
  Lemma below_cons m l e : c_tree C = true -> below m l -> below (klower C m (x_mask e)) (e :: l).
  Proof.
    intros Ht Hb. apply (below_incl _ (l ++ [e])).
    - intros x [<-|Hx]; apply in_or_app; [right; now left|now left].
    - apply below_lower_r; auto. intros x [<-|[]]. auto.
  Qed.

  (** ** Extended entries *)
  Definition is_ext (bits : list (nat * Z)) (x : ext) : Prop := x = kext C bits (x_t x).
  Definition good_bits (bits : list (nat * Z)) : Prop := forall v thr, In (v, thr) bits -> v < nvars.

  Lemma kext_is_ext bits m : is_ext bits (kext C bits m).
  Proof. reflexivity. Qed.
  Lemma x_t_kext bits m : x_t (kext C bits m) = m.
  Proof. reflexivity. Qed.
  Lemma kdiv_ok bits x y : good_bits bits -> is_ext bits x -> is_ext bits y -> kdiv x y = c_divides C (x_t x) (x_t y).
  Proof.
    intros Hb -> ->. apply (ext_divides_ok (c_ex C) nvars (c_divides C) (kl_divides C valid HL) bits Hb).
  Qed.
  Lemma kdiv_divides x y : kdiv x y = true -> c_divides C (x_t x) (x_t y) = true.
  Proof. unfold EntryArray.kdiv, ext_divides. destruct (has_can_divide _ _ _); congruence. Qed.
  Lemma kdiv_le x y v : kdiv x y = true -> v < nvars -> (ex (x_t x) v <= ex (x_t y) v)%Z.
  Proof. intros H. apply (kl_divides C valid HL). now apply kdiv_divides. Qed.
  Lemma ext_narrow bits x : c_tree C = true -> is_ext bits x -> narrow (x_mask x).
  Proof. intros Ht ->. unfold kext, extend. cbn [x_mask]. rewrite (kl_tree C valid HL Ht). apply compute_narrow. Qed.

  (** A mask that does not divide rules out every entry it is a lower bound of. *)
  Lemma below_rules_out bits mask l m x : c_tree C = true -> below mask l -> In x l -> is_ext bits x ->
    can_divide mask (x_mask m) = false -> kdiv x m = false.
  Proof.
    intros Ht [Hn Hb] Hx He Hc. destruct (kdiv x m) eqn:Hd; auto. rewrite <- Hc. symmetry. apply can_divide_spec; auto. intros i Hi.
    unfold EntryArray.kdiv, ext_divides, has_can_divide in Hd. rewrite (kl_tree C valid HL Ht) in Hd.
    destruct (can_divide (x_mask x) (x_mask m)) eqn:Hm; [|discriminate]. apply (proj1 (can_divide_spec _ _ (ext_narrow bits x Ht He)) Hm).
    now apply (Hb x).
  Qed.

  Lemma kcomp_sw : c_sorted C = true -> strict_weak kcomp.
  Proof. intros H. apply Proofs.comp_sw, (kl_order C valid HL H). Qed.
  Lemma kdiv_kcomp a b : c_sorted C = true -> kcomp b a = true -> kdiv a b = false.
  Proof. intros H. apply Proofs.ediv_comp. apply (kl_order C valid HL H). Qed.

  (** ** The invariant *)
  Record arr_inv (bits : list (nat * Z)) (a : earray) : Prop := {
    r_ext : forall x, In x (a_list a) -> is_ext bits x;
    r_valid : forall x, In x (a_list a) -> valid (x_t x) = true;
    r_len : length (a_list a) <= c_leaf C;
    r_sorted : c_sorted C = true -> in_order kcomp (a_list a);
    r_mask : c_tree C = true -> below (a_mask a) (a_list a) }.

  Lemma empty_inv bits : arr_inv bits arr_empty.
  Proof.
    split; cbn [arr_empty a_list a_mask]; try (intros x []).
    - cbn. lia.
    - intros _. constructor.
    - intros _. apply below_nil.
  Qed.

  (** ** Construction *)
  Lemma push_all_ok l : forall a, length (a_list a) + length l <= c_leaf C ->
    exists m, push_all C a l = Ok (mk_arr (a_list a ++ l) m) /\ (c_tree C = true -> below (a_mask a) (a_list a) -> below m (a_list a ++ l)).
  Proof.
    induction l as [|e l IH]; intros a Hl; cbn [push_all].
    - exists (a_mask a). rewrite app_nil_r. split; [now destruct a|auto].
    - unfold push_back. cbn [length] in Hl. replace (length (a_list a) <? c_leaf C) with true by (symmetry; apply Nat.ltb_lt; lia). cbn [bind].
      destruct (IH (mk_arr (a_list a ++ [e]) (klower C (a_mask a) (x_mask e)))) as (m & H1 & H2); cbn [a_list a_mask] in *.
      { rewrite app_length. cbn [length]. lia. }
      exists m. rewrite <- app_assoc in H1, H2. split; auto. intros Ht Hb. apply H2; auto. apply below_lower_r; auto. intros x [<-|[]]. auto.
  Qed.
  Lemma sort_arr_ok a : Permutation (a_list (sort_arr C a)) (a_list a) /\ a_mask (sort_arr C a) = a_mask a /\
    (c_sorted C = true -> in_order kcomp (a_list (sort_arr C a))).
  Proof.
    unfold sort_arr. destruct (c_sorted C) eqn:Hs; cbn [a_list a_mask].
    - destruct (kl_sort_ext C valid HL Hs (a_list a)) as [H1 H2]. auto.
    - split; auto. split; auto. discriminate.
  Qed.
  Lemma arr_of_ok bits l : length l <= c_leaf C -> (forall x, In x l -> is_ext bits x) -> (forall x, In x l -> valid (x_t x) = true) ->
    exists a, arr_of C l = Ok a /\ arr_inv bits a /\ Permutation (a_list a) l.
  Proof.
    intros Hl He Hv. unfold arr_of. destruct (push_all_ok l arr_empty) as (m & -> & Hm); [exact Hl|]. cbn [bind arr_empty a_list a_mask app] in *.
    eexists. split; [reflexivity|]. destruct (sort_arr_ok (mk_arr l m)) as (H1 & H2 & H3). cbn [a_list a_mask] in *.
    assert (Hin : forall x, In x (a_list (sort_arr C (mk_arr l m))) -> In x l) by (intros x; apply (Permutation_in _ H1)).
    split; auto. split; auto.
    - now rewrite (Permutation_length H1).
    - intros Ht. rewrite H2. apply (below_incl _ l); auto. apply Hm; auto. apply below_nil.
  Qed.

  Lemma recalculate_below l : c_tree C = true -> below (fold_left (fun m e => klower C m (x_mask e)) l max_mask) l.
  Proof.
    intros Ht. assert (H : forall l m l0, below m l0 -> below (fold_left (fun m e => klower C m (x_mask e)) l m) (l0 ++ l)).
    { clear l. induction l as [|e l IH]; intros m l0 Hb; cbn [fold_left]; [now rewrite app_nil_r|].
      replace (l0 ++ e :: l) with ((l0 ++ [e]) ++ l) by (now rewrite <- app_assoc). apply IH. apply below_lower_r; auto. intros x [<-|[]]. auto. }
    apply (H l max_mask [] below_nil).
  Qed.
  Lemma arr_recalculate_list a : a_list (arr_recalculate C a) = a_list a.
  Proof. unfold arr_recalculate. now destruct (c_tree C). Qed.
  (** The part of a leaf kept in place by a split *)
  Lemma kept_ok bits l m : length l <= c_leaf C -> (forall x, In x l -> is_ext bits x) -> (forall x, In x l -> valid (x_t x) = true) ->
    arr_inv bits (arr_recalculate C (sort_arr C (mk_arr l m))) /\ Permutation (a_list (arr_recalculate C (sort_arr C (mk_arr l m)))) l.
  Proof.
    intros Hl He Hv. destruct (sort_arr_ok (mk_arr l m)) as (H1 & H2 & H3). cbn [a_list a_mask] in *. set (a := sort_arr C (mk_arr l m)) in *.
    assert (Hin : forall x, In x (a_list a) -> In x l) by (intros x; apply (Permutation_in _ H1)).
    rewrite arr_recalculate_list. split; auto. split; rewrite ?arr_recalculate_list; auto.
    - now rewrite (Permutation_length H1).
    - intros Ht. unfold arr_recalculate. rewrite Ht. cbn [negb a_mask]. now apply recalculate_below.
  Qed.

  (** ** Insertion *)
  Lemma vget_mid {A} (p : list A) x r i : i = length p -> vget (p ++ x :: r) i = Ok x.
  Proof. intros ->. apply vget_ok. rewrite nth_error_app2, Nat.sub_diag by lia. reflexivity. Qed.
  Lemma vset_mid {A} (p : list A) x r i y : i = length p -> vset (p ++ x :: r) i y = Ok (p ++ y :: r).
  Proof.
    intros ->. rewrite vset_ok by (rewrite app_length; cbn [length]; lia). rewrite upd_app_r by lia. now rewrite Nat.sub_diag.
  Qed.
  Lemma move_up_ok (p : list ext) : forall q y r, exists z, move_up (p ++ q ++ y :: r) (length p) (length q) = Ok (p ++ z :: q ++ r).
  Proof.
    induction q as [|x q IH] using rev_ind; intros y r.
    - exists y. reflexivity.
    - rewrite app_length. cbn [length]. rewrite Nat.add_1_r. cbn [move_up].
      rewrite <- !app_assoc. cbn [app]. rewrite (app_assoc p q). rewrite vget_mid by now rewrite app_length. cbn [bind].
      replace ((p ++ q) ++ x :: y :: r) with ((p ++ q ++ [x]) ++ y :: r) by (rewrite <- !app_assoc; reflexivity).
      rewrite vset_mid by (rewrite !app_length; cbn [length]; lia). cbn [bind].
      destruct (IH x (x :: r)) as [z Hz]. exists z. rewrite <- !app_assoc. cbn [app]. exact Hz.
  Qed.
  Lemma insert_at_ok a it e : it <= length (a_list a) -> length (a_list a) < c_leaf C ->
    exists m, insert_at C a it e = Ok (mk_arr (firstn it (a_list a) ++ e :: skipn it (a_list a)) m) /\
      (c_tree C = true -> below (a_mask a) (a_list a) -> below m (e :: a_list a)).
  Proof.
    intros Hi Hl. unfold insert_at, push_back. replace (length (a_list a) <? c_leaf C) with true by (symmetry; now apply Nat.ltb_lt).
    destruct (Nat.eqb_spec it (length (a_list a))) as [->|Hne].
    - rewrite firstn_all, skipn_all. eexists. split; [reflexivity|]. intros Ht Hb. now apply below_cons.
    - destruct (nth_error_lt (a_list a) (length (a_list a) - 1)) as [b Hb]; [lia|]. pose proof Hb as Hg. apply vget_ok in Hg. rewrite Hg. cbn [bind a_list a_mask].
      rewrite app_length. cbn [length].
      assert (He : a_list a ++ [b] = firstn it (a_list a) ++ skipn it (a_list a) ++ [b]) by (now rewrite app_assoc, firstn_skipn).
      replace (length (a_list a) + 1 - 1 - it) with (length (skipn it (a_list a))) by (rewrite skipn_length; lia). rewrite He.
      destruct (move_up_ok (firstn it (a_list a)) (skipn it (a_list a)) b []) as [z Hz]. rewrite firstn_length_le in Hz by lia.
      rewrite Hz. cbn [bind]. rewrite vset_mid by (now rewrite firstn_length_le). cbn [bind]. rewrite app_nil_r. eexists. split; [reflexivity|].
      intros Ht Hbl. apply below_cons; auto. now apply below_lower.
  Qed.
  Lemma arr_insert_ok bits a e : arr_inv bits a -> length (a_list a) < c_leaf C -> is_ext bits e -> valid (x_t e) = true ->
    exists a', arr_insert C a e = Ok a' /\ arr_inv bits a' /\ Permutation (a_list a') (e :: a_list a).
  Proof.
    intros Ha Hl He Hv.
    assert (H : exists l m, arr_insert C a e = Ok (mk_arr l m) /\ Permutation l (e :: a_list a) /\ (c_sorted C = true -> in_order kcomp l) /\
      (c_tree C = true -> below m (e :: a_list a))).
    { unfold arr_insert. destruct (c_sorted C) eqn:Hs; cbn [negb].
      - pose proof (r_sorted _ _ Ha Hs) as Ho. destruct (upper_bound_sorted kcomp (a_list a) e (kcomp_sw Hs) Ho) as [i Hi].
        destruct (Proofs.insert_sort_ok (c_less C) (proj1 (kl_order C valid HL Hs)) false (a_list a) e Ho) as (l & H1 & H2 & H3).
        unfold Model.insert_sort in H1. change (Model.comp M (c_less C)) with kcomp in H1. rewrite Hi in *. cbn [bind] in *.
        injection H1 as <-. apply upper_bound_ok in Hi as (H4 & _ & _). destruct (insert_at_ok a i e H4 Hl) as (m & H5 & H6).
        eexists. exists m. split; [exact H5|]. split; auto. split; auto. intros Ht. apply H6; auto. apply (r_mask _ _ Ha Ht).
      - unfold push_back. replace (length (a_list a) <? c_leaf C) with true by (symmetry; now apply Nat.ltb_lt). do 2 eexists. split; [reflexivity|].
        split; [symmetry; apply Permutation_cons_append|]. split; [discriminate|]. intros Ht. apply below_cons; auto. apply (r_mask _ _ Ha Ht). }
    destruct H as (l & m & H1 & H2 & H3 & H4). eexists. split; [exact H1|]. cbn [a_list]. split; auto.
    assert (Hin : forall x, In x l -> x = e \/ In x (a_list a)) by (intros x Hx; apply (Permutation_in _ H2) in Hx as [<-|Hx]; auto).
    split; cbn [a_list a_mask]; auto.
    - intros x Hx. destruct (Hin x Hx) as [->|Hx']; auto. now apply (r_ext _ _ Ha).
    - intros x Hx. destruct (Hin x Hx) as [->|Hx']; auto. now apply (r_valid _ _ Ha).
    - rewrite (Permutation_length H2). cbn [length]. lia.
    - intros Ht. apply (below_incl _ (e :: a_list a)); auto. intros x Hx. now apply (Permutation_in _ H2).
  Qed.

  (** ** Removal *)
  Lemma arr_inv_sub bits a l m : arr_inv bits a -> (forall x, In x l -> In x (a_list a)) -> length l <= length (a_list a) ->
    (c_sorted C = true -> in_order kcomp l) -> m = a_mask a -> arr_inv bits (mk_arr l m).
  Proof.
    intros Ha Hin Hl Ho ->. split; cbn [a_list a_mask]; auto.
    - intros x Hx. apply (r_ext _ _ Ha). auto.
    - intros x Hx. apply (r_valid _ _ Ha). auto.
    - pose proof (r_len _ _ Ha). lia.
    - intros Ht. apply (below_incl _ (a_list a)); auto. apply (r_mask _ _ Ha Ht).
  Qed.
  Lemma in_order_filter f (l : list ext) : in_order kcomp l -> in_order kcomp (filter f l).
  Proof. apply Proofs.in_order_filter. Qed.
  Lemma filter_len {A} (f : A -> bool) l : length (filter f l) <= length l.
  Proof. induction l as [|x l IH]; cbn [filter length]; [lia|]. destruct (f x); cbn [length]; lia. Qed.

  Lemma arr_remove_ok bits a m : arr_inv bits a ->
    exists a', arr_remove C a m = Ok (a', map x_t (filter (kdiv m) (a_list a)), length (filter (kdiv m) (a_list a))) /\ arr_inv bits a' /\
      a_list a' = filter (fun x => negb (kdiv m x)) (a_list a).
  Proof.
    intros Ha. assert (Hsub : arr_inv bits (mk_arr (filter (fun x => negb (kdiv m x)) (a_list a)) (a_mask a))).
    { apply (arr_inv_sub bits a); auto.
      - intros x Hx. apply filter_In in Hx. tauto.
      - apply filter_len.
      - intros Hs. apply in_order_filter, (r_sorted _ _ Ha Hs). }
    unfold arr_remove. destruct (Nat.eqb_spec (c_leaf C) 1) as [H1|H1].
    - pose proof (r_len _ _ Ha) as Hl. rewrite H1 in Hl. destruct a as [[|x [|y l]] mask]; cbn [a_list a_mask length] in *; [| |lia].
      + eexists. split; [reflexivity|]. split; auto.
      + cbn [filter]. destruct (kdiv m x) eqn:Hd; cbn [negb].
        * unfold pop_back. cbn [a_list a_mask removelast bind]. eexists. split; [reflexivity|]. cbn [filter] in Hsub. rewrite Hd in Hsub. split; auto.
        * eexists. split; [reflexivity|]. cbn [a_list filter length map]. split; auto.
    - rewrite Proofs.remove_vector_ok. cbn [bind]. eexists. split; [reflexivity|]. split; [exact Hsub|reflexivity].
  Qed.

  Lemma move_down_ok : forall l2 (l1 : list ext) x, exists l, move_down (l1 ++ x :: l2) (length l2) = Ok l /\ l <> [] /\ removelast l = l1 ++ l2.
  Proof.
    induction l2 as [|y l2 IH]; intros l1 x.
    - exists (l1 ++ [x]). split; [reflexivity|]. split; [destruct l1; discriminate|]. now rewrite removelast_snoc, app_nil_r.
    - cbn [length move_down].
      replace (l1 ++ x :: y :: l2) with ((l1 ++ [x]) ++ y :: l2) by (now rewrite <- app_assoc).
      rewrite vget_mid by (rewrite !app_length; cbn [length]; lia). cbn [bind]. rewrite <- app_assoc. cbn [app].
      rewrite vset_mid by (rewrite !app_length; cbn [length]; lia). cbn [bind]. destruct (IH (l1 ++ [y]) y) as (l & H1 & H2 & H3).
      rewrite <- !app_assoc in H1, H3. cbn [app] in H1, H3. exists l. auto.
  Qed.
  Lemma arr_remove_element_ok bits a m : arr_inv bits a ->
    exists a' b, arr_remove_element C a m = Ok (a', b) /\ arr_inv bits a' /\
      (if b then exists x, Permutation (a_list a) (x :: a_list a') /\ kequal C m x = true
       else a' = a /\ forall x, In x (a_list a) -> kequal C m x = false).
  Proof.
    intros Ha. unfold arr_remove_element. destruct (Model.scan M (kequal C m) (a_list a)) as [it|] eqn:Hs.
    - apply Proofs.scan_some in Hs as (l1 & x & l2 & Hl & <- & Hx & _). rewrite Hl. rewrite app_length. cbn [length].
      replace (length l1 + S (length l2) - 1 - length l1) with (length l2) by lia. destruct (move_down_ok l2 l1 x) as (l & -> & Hn & Hr). cbn [bind].
      unfold pop_back. cbn [a_list a_mask]. destruct l as [|y l]; [congruence|]. cbn [bind]. rewrite Hr. do 2 eexists. split; [reflexivity|].
      split; [|exists x; split; auto; cbn [a_list]; symmetry; apply Permutation_middle].
      apply (arr_inv_sub bits a); auto.
      + intros z Hz. rewrite Hl. apply in_app_or in Hz as [Hz|Hz]; apply in_or_app; [auto|right; now right].
      + rewrite Hl, !app_length. cbn [length]. lia.
      + intros Hs. pose proof (r_sorted _ _ Ha Hs) as Ho. rewrite Hl in Ho. apply Proofs.in_order_app in Ho as (O1 & O2 & O3). apply Proofs.in_order_app.
        split; auto. apply StronglySorted_inv in O2 as [O2 _]. split; auto. intros u w Hu Hw. apply O3; auto. now right.
    - exists a, false. split; auto. split; auto. split; auto. apply (Proofs.scan_none _ _ Hs).
  Qed.

  (** ** Searches *)
  Lemma ruled_out_none bits a m x : arr_inv bits a -> ruled_out C a m = true -> In x (a_list a) -> kdiv x m = false.
  Proof.
    intros Ha H Hx. unfold ruled_out in H. apply andb_prop in H as [H H2]. apply andb_prop in H as [Ht _]. apply negb_true_iff in H2.
    apply (below_rules_out bits (a_mask a) (a_list a)); auto; [apply (r_mask _ _ Ha Ht)|now apply (r_ext _ _ Ha)].
  Qed.
  (** With removals disabled no leaf is empty. *)
  Definition filled (a : earray) : Prop := c_removals C = false -> a_list a <> [].

  Lemma arr_find_ok bits a m : arr_inv bits a -> filled a ->
    exists r, arr_find C a m = Ok r /\
      match r with
      | Some i => exists x, nth_error (a_list a) i = Some x /\ kdiv x m = true
      | None => forall x, In x (a_list a) -> kdiv x m = false
      end.
  Proof.
    intros Ha Hf. unfold arr_find. destruct (ruled_out C a m) eqn:Hr; [exists None; split; [reflexivity|intros x; now apply (ruled_out_none bits)]|].
    destruct (Nat.eqb_spec (c_leaf C) 1) as [H1|H1].
    - pose proof (r_len _ _ Ha) as Hl. rewrite H1 in Hl. destruct (a_list a) as [|x [|y l]] eqn:Hal; cbn [length] in Hl; [| |lia].
      + exists None. destruct (c_removals C) eqn:Hrem; [split; [auto|intros x []]|]. exfalso. now apply (Hf Hrem).
      + eexists. split; [reflexivity|]. destruct (kdiv x m) eqn:Hd; [exists x; auto|]. intros y [<-|[]]. auto.
    - assert (Hscan : forall l : list ext, match Model.scan M (fun x => kdiv x m) l with
        | Some i => exists x, nth_error l i = Some x /\ kdiv x m = true | None => forall x, In x l -> kdiv x m = false end).
      { intros l. destruct (Model.scan M (fun x => kdiv x m) l) as [i|] eqn:Hs.
        - apply Proofs.scan_some in Hs as (l1 & x & l2 & -> & <- & Hx & _). exists x. split; auto. rewrite nth_error_app2, Nat.sub_diag by lia. reflexivity.
        - apply (Proofs.scan_none _ _ Hs). }
      destruct (c_sorted C) eqn:Hs; cbn [negb]; [|eexists; split; [reflexivity|apply Hscan]].
      destruct (upper_bound_sorted kcomp (a_list a) m (kcomp_sw Hs) (r_sorted _ _ Ha Hs)) as [i Hi]. rewrite Hi. cbn [bind].
      apply upper_bound_ok in Hi as (_ & _ & H3). eexists. split; [reflexivity|]. specialize (Hscan (firstn i (a_list a))).
      destruct (Model.scan M (fun x => kdiv x m) (firstn i (a_list a))) as [j|].
      + destruct Hscan as (x & H4 & H5). exists x. split; auto. rewrite <- (firstn_skipn i (a_list a)). rewrite nth_error_app1; auto.
        now apply nth_error_some_lt in H4.
      + intros x Hx. rewrite <- (firstn_skipn i (a_list a)) in Hx. apply in_app_or in Hx as [Hx|Hx]; auto.
        apply kdiv_kcomp; auto.
  Qed.

  Lemma arr_report_ok cb p l seen : (c_leaf C = 1 -> length l <= 1 /\ (c_removals C = false -> l <> [])) ->
    exists r, arr_report C cb p l seen = Ok r /\ feeds cb seen (map x_t (filter p l)) r.
  Proof.
    intros H. unfold arr_report. destruct (Nat.eqb_spec (c_leaf C) 1) as [H1|H1]; [|eexists; split; [reflexivity|apply feed_feeds]].
    destruct (H H1) as [Hl Hf]. destruct l as [|x [|y l]]; cbn [length] in Hl; [| |lia].
    - destruct (c_removals C); [|exfalso; now apply Hf]. eexists. split; [reflexivity|]. apply feeds_nil.
    - eexists. split; [reflexivity|]. replace (if p x then (seen ++ [x_t x], cb (seen ++ [x_t x])) else (seen, true)) with (Model.feed M cb p [x] seen); [apply feed_feeds|].
      cbn [Model.feed]. destruct (p x); auto. destruct (cb (seen ++ [x_t x])); auto.
  Qed.
  Lemma filled_one bits a : arr_inv bits a -> filled a -> c_leaf C = 1 -> length (a_list a) <= 1 /\ (c_removals C = false -> a_list a <> []).
  Proof. intros Ha Hf H1. split; auto. pose proof (r_len _ _ Ha). lia. Qed.
  Lemma arr_multiples_ok bits a m cb seen : arr_inv bits a -> filled a ->
    exists r, arr_multiples C a m cb seen = Ok r /\ feeds cb seen (map x_t (filter (fun x => kdiv m x) (a_list a))) r.
  Proof. intros Ha Hf. apply arr_report_ok. now apply (filled_one bits). Qed.
  Lemma arr_for_all_ok bits a cb seen : arr_inv bits a -> filled a ->
    exists r, arr_for_all C a cb seen = Ok r /\ feeds cb seen (map x_t (a_list a)) r.
  Proof.
    intros Ha Hf. unfold arr_for_all. destruct (arr_report_ok cb (fun _ => true) (a_list a) seen (filled_one bits a Ha Hf)) as (r & H1 & H2).
    exists r. split; auto. now rewrite filter_all in H2.
  Qed.
  Lemma arr_divisors_ok bits a m cb seen : arr_inv bits a -> filled a ->
    exists r, arr_divisors C a m cb seen = Ok r /\ feeds cb seen (map x_t (filter (fun x => kdiv x m) (a_list a))) r.
  Proof.
    intros Ha Hf. unfold arr_divisors. destruct (ruled_out C a m) eqn:Hr.
    - eexists. split; [reflexivity|]. rewrite filter_none by (intros x Hx; now apply (ruled_out_none bits a)). apply feeds_nil.
    - destruct ((c_leaf C =? 1) || negb (c_sorted C)) eqn:Hb; [apply arr_report_ok; now apply (filled_one bits)|].
      apply orb_false_iff in Hb as [H1 Hs]. apply negb_false_iff in Hs. apply Nat.eqb_neq in H1.
      destruct (upper_bound_sorted kcomp (a_list a) m (kcomp_sw Hs) (r_sorted _ _ Ha Hs)) as [i Hi]. rewrite Hi. cbn [bind].
      apply upper_bound_ok in Hi as (_ & _ & H3). destruct (arr_report_ok cb (fun x => kdiv x m) (firstn i (a_list a)) seen) as (r & G1 & G2); [intros; congruence|].
      exists r. split; auto. rewrite <- (firstn_skipn i (a_list a)) at 1. rewrite filter_app.
      rewrite (filter_none _ (skipn i (a_list a))), app_nil_r; auto. intros x Hx. apply kdiv_kcomp; auto.
  Qed.

  (** ** Splitting *)
  Definition all_same (l : list M) : Prop := forall a b v, In a l -> In b l -> v < nvars -> ex a v = ex b v.

  Lemma bounds_ok first l v : let (mn, mx) := bounds C first l v in
    (forall a, In a (first :: l) -> (mn <= ex a v <= mx)%Z) /\ (exists a, In a (first :: l) /\ ex a v = mn) /\ (exists a, In a (first :: l) /\ ex a v = mx).
  Proof.
    unfold bounds.
    assert (H : forall l l0 mm, (forall a, In a l0 -> (fst mm <= ex a v <= snd mm)%Z) -> (exists a, In a l0 /\ ex a v = fst mm) -> (exists a, In a l0 /\ ex a v = snd mm) ->
      let mm' := fold_left (fun mm x => (Z.min (fst mm) (ex x v), Z.max (snd mm) (ex x v))) l mm in
      (forall a, In a (l0 ++ l) -> (fst mm' <= ex a v <= snd mm')%Z) /\ (exists a, In a (l0 ++ l) /\ ex a v = fst mm') /\ (exists a, In a (l0 ++ l) /\ ex a v = snd mm')).
    { clear l. induction l as [|x l IH]; intros l0 mm H1 H2 H3; cbn [fold_left]; [rewrite app_nil_r; auto|].
      replace (l0 ++ x :: l) with ((l0 ++ [x]) ++ l) by (now rewrite <- app_assoc). apply IH; cbn [fst snd].
      - intros a Ha. apply in_app_or in Ha as [Ha|[<-|[]]]; [specialize (H1 a Ha)|]; lia.
      - destruct (Z.min_spec (fst mm) (ex x v)) as [[Hm ->]|[Hm ->]].
        + destruct H2 as (a & Ha & <-). exists a. split; auto. apply in_or_app. auto.
        + exists x. split; auto. apply in_or_app. right. now left.
      - destruct (Z.max_spec (snd mm) (ex x v)) as [[Hm ->]|[Hm ->]].
        + exists x. split; auto. apply in_or_app. right. now left.
        + destruct H3 as (a & Ha & <-). exists a. split; auto. apply in_or_app. auto. }
    specialize (H l [first] (ex first v, ex first v)). cbn [fst snd] in H.
    destruct (fold_left _ l (ex first v, ex first v)) as [mn mx]. cbn [fst snd app] in H. apply H.
    - intros a [<-|[]]. lia.
    - exists first. split; auto. now left.
    - exists first. split; auto. now left.
  Qed.

  Definition nth_var (var : option nat) (i : nat) : nat := match var with None => i mod nvars | Some v => (v + 1 + i) mod nvars end.
  Lemma next_nth var : nvars <> 0 -> next_var C var = nth_var var 0.
  Proof. intros Hn. destruct var as [v|]; cbn [next_var nth_var]; [now rewrite Nat.add_0_r|]. now rewrite Nat.mod_0_l. Qed.
  Lemma nth_var_next var i : nvars <> 0 -> nth_var (Some (next_var C var)) i = nth_var var (S i).
  Proof.
    intros Hn. unfold nth_var, next_var. destruct var as [v|].
    - rewrite <- Nat.add_assoc, Nat.add_mod_idemp_l by auto. f_equal; lia.
    - reflexivity.
  Qed.
  Lemma nth_var_all var v : v < nvars -> exists i, i < nvars /\ nth_var var i = v.
  Proof.
    intros Hv. destruct var as [w|]; cbn [nth_var].
    - exists ((v + (nvars - (w + 1) mod nvars)) mod nvars). assert (Hn : nvars <> 0) by lia. split; [now apply Nat.mod_upper_bound|].
      rewrite Nat.add_mod_idemp_r by auto. rewrite <- (Nat.add_mod_idemp_l (w + 1)) by auto.
      assert (Hm := Nat.mod_upper_bound (w + 1) nvars Hn). set (r := (w + 1) mod nvars) in *. clearbody r.
      replace (r + (v + (nvars - r))) with (v + 1 * nvars) by lia. rewrite Nat.mod_add by auto. now apply Nat.mod_small.
    - exists v. split; auto. now apply Nat.mod_small.
  Qed.

  Definition duplicate : string := "ERROR: Inserted duplicate entry into a KD tree.".
  (** The search for a variable succeeds, with both sides non-empty, or all entries agree in all the variables looked at. *)
  Lemma choose_ok first l : (forall a, In a (first :: l) -> valid a = true) -> forall k var, k <= nvars ->
    (exists v x a b, choose C first l k var = Ok (v, x) /\ v < nvars /\ In a (first :: l) /\ In b (first :: l) /\ (ex a v <= x < ex b v)%Z) \/
    (choose C first l k var = Throw duplicate /\ forall i a b, i < k -> In a (first :: l) -> In b (first :: l) -> ex a (nth_var var i) = ex b (nth_var var i)).
  Proof.
    intros Hv. induction k as [|k IH]; intros var Hk; cbn [choose].
    - right. split; auto. intros; lia.
    - assert (Hn : nvars <> 0) by lia. assert (Hnv : next_var C var < nvars).
      { destruct var; cbn [next_var]; [now apply Nat.mod_upper_bound|lia]. }
      pose proof (bounds_ok first l (next_var C var)) as Hb. destruct (bounds C first l (next_var C var)) as [mn mx].
      destruct Hb as (H1 & (a & Ha & <-) & (b & Hb & <-)). destruct (Z.eqb_spec (ex a (next_var C var)) (ex b (next_var C var))) as [He|He].
      + destruct (IH (Some (next_var C var))) as [(v & x & a' & b' & G1 & G2 & G3 & G4 & G5)|[G1 G2]]; [lia| |].
        * left. exists v, x, a', b'. auto.
        * right. split; auto. intros i a' b' Hi Ha' Hb'. destruct i as [|i].
          { rewrite <- next_nth by auto. pose proof (H1 a' Ha'). pose proof (H1 b' Hb'). lia. }
          { rewrite <- nth_var_next by auto. apply G2; auto. lia. }
      + left. assert (Hle : (ex a (next_var C var) < ex b (next_var C var))%Z) by (pose proof (H1 a Ha); lia).
        destruct (kl_arith C valid HL a b (next_var C var)) as [-> Hz]; auto; [lia|]. cbn [bind].
        assert (Hq : (ex a (next_var C var) <= ex a (next_var C var) + Z.quot (ex b (next_var C var) - ex a (next_var C var)) 2 < ex b (next_var C var))%Z).
        { rewrite Z.quot_div_nonneg by lia. pose proof (Z.div_mod (ex b (next_var C var) - ex a (next_var C var)) 2).
          pose proof (Z.mod_pos_bound (ex b (next_var C var) - ex a (next_var C var)) 2). lia. }
        rewrite Hz by lia. cbn [bind]. do 2 eexists. exists a, b. split; [reflexivity|]. auto.
  Qed.
  Lemma choose_all first l var : (forall a, In a (first :: l) -> valid a = true) ->
    (exists v x a b, choose C first l nvars var = Ok (v, x) /\ v < nvars /\ In a (first :: l) /\ In b (first :: l) /\ (ex a v <= x < ex b v)%Z) \/
    (choose C first l nvars var = Throw duplicate /\ all_same (first :: l)).
  Proof.
    intros Hv. destruct (choose_ok first l Hv nvars var) as [H|[H1 H2]]; auto. right. split; auto.
    intros a b v Ha Hb Hvn. destruct (nth_var_all var v Hvn) as (i & Hi & <-). auto.
  Qed.
End Arrays.
