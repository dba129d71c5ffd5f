(** The memory of a leaf holds the entries and nothing else (C75). *)
From Coq Require Import List Arith Bool ZArith NArith Lia Permutation.
From Verif.Base Require Import Res Arr ResList StdAlg.
From Verif.DivMask Require Import Model.
From Verif.DivList Require Model.
From Verif.KD Require Import EntryArray Legal.
From Verif.KDMem Require Import Raw.
Import ListNotations.

Section Raw.
  Context {M : Type}.
  Variable C : kconf M.
  Notation ext := (ext M).
  Notation raw := (raw M).
  Notation earray := (earray M).

  (** The memory that holds the entries [a], after [g] objects have been destroyed *)
  Definition holding (a : earray) (g : nat) : raw :=
    mk_raw (map Some (a_list a) ++ repeat None (c_leaf C - length (a_list a))) (length (a_list a)) (a_mask a) (g + length (a_list a)) g.

  Lemma holding_get a g i : r_get (holding a g) i = vget (a_list a) i.
  Proof.
    unfold r_get, vget. cbn [holding r_slots]. destruct (Nat.lt_ge_cases i (length (a_list a))) as [H|H].
    - rewrite nth_error_app1 by now rewrite map_length. rewrite nth_error_map. destruct (nth_error (a_list a) i) eqn:E; auto.
    - rewrite (proj2 (nth_error_None (a_list a) i) H). rewrite nth_error_app2 by now rewrite map_length. rewrite map_length.
      destruct (nth_error (repeat None _) _) as [o|] eqn:E; auto. apply nth_error_In, repeat_spec in E. now subst.
  Qed.
  Lemma upd_map {A B} (f : A -> B) (l : list A) i v : upd (map f l) i (f v) = map f (upd l i v).
  Proof. revert i. induction l as [|x l IH]; intros [|i]; cbn; auto. now rewrite IH. Qed.
  Lemma holding_set a g i e : r_set (holding a g) i e = let* l := vset (a_list a) i e in Ok (holding (mk_arr l (a_mask a)) g).
  Proof.
    unfold r_set. rewrite holding_get. unfold vset, vget. destruct (Nat.ltb_spec i (length (a_list a))) as [H|H].
    - destruct (nth_error (a_list a) i) eqn:E; [|apply nth_error_None in E; lia]. cbn [of_option bind]. cbn [holding r_slots].
      rewrite (proj2 (Nat.ltb_lt _ _)) by (rewrite app_length, map_length; lia). cbn [bind].
      rewrite upd_app_l by now rewrite map_length. rewrite upd_map. unfold holding. cbn [a_list a_mask r_end r_mask r_made r_gone]. now rewrite upd_length.
    - rewrite (proj2 (nth_error_None _ _) H). reflexivity.
  Qed.
  Lemma holding_push a g e : r_push C (holding a g) e = let* a' := push_back C a e in Ok (holding a' g).
  Proof.
    unfold r_push, push_back. cbn [holding r_slots r_end r_mask r_made r_gone]. destruct (Nat.ltb_spec (length (a_list a)) (c_leaf C)) as [H|H].
    - unfold vget, vset. destruct (c_leaf C - length (a_list a)) as [|k] eqn:Ek; [lia|]. cbn [repeat].
      rewrite nth_error_app2 by now rewrite map_length. rewrite map_length, Nat.sub_diag. cbn [nth_error of_option bind].
      rewrite (proj2 (Nat.ltb_lt _ _)) by (rewrite app_length, map_length; cbn; lia). cbn [bind].
      rewrite upd_app_r by now rewrite map_length. rewrite map_length, Nat.sub_diag. cbn [upd]. unfold holding. cbn [a_list a_mask].
      rewrite app_length. cbn [length]. rewrite map_app. cbn [map]. rewrite <- app_assoc. cbn [app].
      replace (c_leaf C - (length (a_list a) + 1)) with k by lia. f_equal. f_equal; lia.
    - unfold vget. replace (c_leaf C - length (a_list a)) with 0 by lia. cbn [repeat]. rewrite app_nil_r.
      now rewrite (proj2 (nth_error_None _ _)) by now rewrite map_length.
  Qed.
  Lemma holding_pop a g : length (a_list a) <= c_leaf C -> r_pop (holding a g) = let* a' := pop_back a in Ok (holding a' (S g)).
  Proof.
    intros Hl. unfold r_pop, pop_back. destruct a as [l m]. cbn [a_list a_mask] in *. destruct l as [|x l0] eqn:El; [reflexivity|]. rewrite <- El in *.
    assert (Hn : l <> []) by now subst. destruct (exists_last Hn) as (l' & y & E). clear El. subst l. rewrite removelast_last.
    rewrite app_length in Hl. cbn [length] in Hl.
    cbn [holding r_end a_list]. rewrite app_length. cbn [length]. rewrite Nat.add_1_r.
    rewrite (holding_get (mk_arr (l' ++ [y]) m)). cbn [a_list]. unfold vget. rewrite nth_error_app2, Nat.sub_diag by lia. cbn [nth_error of_option bind].
    unfold vset. cbn [holding r_slots a_list]. rewrite (proj2 (Nat.ltb_lt _ _)) by (rewrite !app_length, map_length, app_length; cbn; lia).
    cbn [bind]. rewrite map_app. cbn [map]. rewrite <- app_assoc. cbn [app]. rewrite upd_app_r by now rewrite map_length.
    rewrite map_length, Nat.sub_diag. cbn [upd]. unfold holding. cbn [a_list a_mask r_mask r_made r_gone]. rewrite app_length. cbn [length].
    replace (c_leaf C - length l') with (S (c_leaf C - (length l' + 1))) by lia. cbn [repeat]. f_equal. f_equal; lia.
  Qed.
  Lemma holding_objects l k : objects (map Some l ++ k) (length l) = Ok (l : list ext).
  Proof. induction l as [|x l IH]; cbn; [now destruct k|]. now rewrite IH. Qed.
  Lemma holding_range a g : r_range (holding a g) = Ok (a_list a).
  Proof. apply holding_objects. Qed.
  Lemma holding_rearranged a g l : length l = length (a_list a) -> r_rearranged (holding a g) l = holding (mk_arr l (a_mask a)) g.
  Proof.
    intros H. unfold r_rearranged, holding. cbn [r_slots a_list a_mask r_end r_mask r_made r_gone]. rewrite H.
    rewrite skipn_app, map_length, Nat.sub_diag, skipn_all2 by now rewrite map_length. reflexivity.
  Qed.
  Lemma holding_new : r_new C = holding arr_empty 0.
  Proof. unfold r_new, holding. cbn. now rewrite Nat.sub_0_r. Qed.
  Lemma holding_push_all l : forall a g, r_push_all C (holding a g) l = let* a' := push_all C a l in Ok (holding a' g).
  Proof.
    induction l as [|e l IH]; intros; cbn [r_push_all push_all]; [reflexivity|]. rewrite holding_push. destruct (push_back C a e); cbn [bind]; auto.
  Qed.
  Lemma push_back_fits a e a' : push_back C a e = Ok a' -> length (a_list a') <= c_leaf C.
  Proof. unfold push_back. destruct (Nat.ltb_spec (length (a_list a)) (c_leaf C)); [|discriminate]. intros H'. injection H' as <-. cbn. rewrite app_length. cbn. lia. Qed.

  Lemma holding_pop_to n : forall k a g, length (a_list a) <= c_leaf C -> n <= length (a_list a) -> length (a_list a) - n <= k ->
    r_pop_to n k (holding a g) = Ok (holding (mk_arr (firstn n (a_list a)) (a_mask a)) (g + (length (a_list a) - n))).
  Proof.
    induction k as [|k IH]; intros [l m] g Hl Hn Hk; cbn [a_list a_mask] in *; cbn [r_pop_to holding r_end a_list].
    - rewrite (proj2 (Nat.ltb_ge _ _)) by lia. rewrite firstn_all2 by lia. replace (length l - n) with 0 by lia. now rewrite Nat.add_0_r.
    - destruct (Nat.ltb_spec n (length l)) as [H|H].
      + change (mk_raw _ _ _ _ _) with (holding (mk_arr l m) g). rewrite holding_pop by auto. unfold pop_back. cbn [a_list a_mask].
        destruct l as [|x l0] eqn:El; [cbn in H; lia|]. rewrite <- El in *. cbn [bind].
        assert (Hne : l <> []) by now subst. destruct (exists_last Hne) as (l' & y & E). clear El. subst l. rewrite removelast_last.
        rewrite app_length in *. cbn [length] in *. rewrite IH by (cbn [a_list]; lia). cbn [a_list a_mask].
        rewrite firstn_app. replace (n - length l') with 0 by lia. cbn [firstn]. rewrite app_nil_r. do 2 f_equal. lia.
      + rewrite firstn_all2 by lia. replace (length l - n) with 0 by lia. rewrite Nat.add_0_r. reflexivity.
  Qed.
  Lemma holding_clear a g : length (a_list a) <= c_leaf C -> r_clear (holding a g) = Ok (holding (mk_arr [] (a_mask a)) (g + length (a_list a))).
  Proof. intros H. unfold r_clear. rewrite holding_pop_to by (cbn [holding r_end]; lia). now rewrite Nat.sub_0_r. Qed.

  Lemma holding_move_up it k : forall a g, r_move_up (holding a g) it k = let* l := move_up (a_list a) it k in Ok (holding (mk_arr l (a_mask a)) g).
  Proof.
    induction k as [|k IH]; intros a g; cbn [r_move_up move_up]; [now destruct a|]. rewrite holding_get. destruct (vget (a_list a) (it + k)); cbn [bind]; auto.
    rewrite holding_set. destruct (vset (a_list a) (it + S k) a0); cbn [bind]; auto. now rewrite IH.
  Qed.
  Lemma holding_move_down k : forall a g, r_move_down (holding a g) k = let* l := move_down (a_list a) k in Ok (holding (mk_arr l (a_mask a)) g).
  Proof.
    induction k as [|k IH]; intros a g; cbn [r_move_down move_down]; [now destruct a|]. rewrite holding_get. cbn [holding r_end].
    destruct (vget (a_list a) (length (a_list a) - S k)); cbn [bind]; auto.
    change (mk_raw _ _ _ _ _) with (holding a g). rewrite holding_set. destruct (vset (a_list a) _ a0); cbn [bind]; auto. now rewrite IH.
  Qed.
  Lemma holding_insert_at a g it e : r_insert_at C (holding a g) it e = let* a' := insert_at C a it e in Ok (holding a' g).
  Proof.
    unfold r_insert_at, insert_at. change (r_end (holding a g)) with (length (a_list a)). destruct (it =? length (a_list a)); [apply holding_push|].
    rewrite holding_get. destruct (vget (a_list a) (length (a_list a) - 1)); cbn [bind]; auto. rewrite holding_push.
    destruct (push_back C a a0) as [a1| | |]; cbn [bind]; auto. change (r_end (holding a1 g)) with (length (a_list a1)). rewrite holding_move_up.
    destruct (move_up (a_list a1) it _) as [l| | |]; cbn [bind]; auto. rewrite holding_set. cbn [a_list a_mask].
    destruct (vset l it e) as [l'| | |]; cbn [bind]; auto.
  Qed.
  Theorem holding_insert a g e : r_insert C (holding a g) e = let* a' := arr_insert C a e in Ok (holding a' g).
  Proof.
    unfold r_insert, arr_insert. destruct (negb (c_sorted C)); [apply holding_push|]. rewrite holding_range. cbn [bind].
    destruct (upper_bound (kcomp C) (a_list a) e); cbn [bind]; auto. apply holding_insert_at.
  Qed.

  Notation first_multiple := (DivList.Model.first_multiple M (c_use C) (c_divides C)).
  Notation compact := (DivList.Model.compact M (c_use C) (c_divides C)).
  Lemma holding_first_multiple m a g k : r_first_multiple C m (holding a g) k = first_multiple m (a_list a) k.
  Proof.
    induction k as [|k IH]; cbn [r_first_multiple DivList.Model.first_multiple]; [reflexivity|]. rewrite holding_get. cbn [holding r_end].
    destruct (vget (a_list a) _) as [x| | |]; cbn [bind]; auto. unfold kdiv. destruct (ext_divides M (c_use C) (c_divides C) m x); auto.
  Qed.
  Lemma holding_compact m k : forall a g n out, r_compact C m (holding a g) k n out =
    let* (l, n', out') := compact m (a_list a) k n out in Ok (holding (mk_arr l (a_mask a)) g, n', out').
  Proof.
    induction k as [|k IH]; intros; cbn [r_compact DivList.Model.compact]; [now destruct a|]. rewrite holding_get. cbn [holding r_end].
    destruct (vget (a_list a) _) as [x| | |]; cbn [bind]; auto. unfold kdiv. destruct (ext_divides M (c_use C) (c_divides C) m x); cbn [negb].
    - change (mk_raw _ _ _ _ _) with (holding a g). apply IH.
    - change (mk_raw _ _ _ _ _) with (holding a g). rewrite holding_set. destruct (vset (a_list a) n x); cbn [bind]; auto. now rewrite IH.
  Qed.
  Lemma compact_bounds m k : forall l n out l' n' out', n + k <= length l -> compact m l k n out = Ok (l', n', out') -> length l' = length l /\ n <= n' <= length l.
  Proof.
    induction k as [|k IH]; intros l n out l' n' out' Hn; cbn [DivList.Model.compact].
    - intros H. injection H as <- <- <-. lia.
    - destruct (vget l _) as [x| | |]; cbn [bind]; try discriminate. destruct (negb _).
      + unfold vset. destruct (Nat.ltb_spec n (length l)); cbn [bind]; [|discriminate]. intros H'. apply IH in H'; rewrite ?upd_length in *; lia.
      + intros H'. apply IH in H'; lia.
  Qed.
  Lemma first_multiple_bounds m l k i : k <= length l -> first_multiple m l k = Ok i -> i <= length l.
  Proof.
    induction k as [|k IH]; intros Hk; cbn [DivList.Model.first_multiple]; [intros H; injection H as <-; lia|].
    destruct (vget l _); cbn [bind]; try discriminate. destruct (ext_divides M (c_use C) (c_divides C) m a); [intros H; injection H as <-; lia|]. apply IH. lia.
  Qed.
  Theorem holding_remove a g m : length (a_list a) <= c_leaf C ->
    r_remove C (holding a g) m = let* (a', out, n) := arr_remove C a m in Ok (holding a' (g + n), out, n).
  Proof.
    intros Hl. unfold r_remove, arr_remove. destruct (c_leaf C =? 1) eqn:E1.
    - cbn [holding r_end]. destruct a as [[|x l] mk]; cbn [a_list length]; [cbn; now rewrite Nat.add_0_r|]. cbn [Nat.eqb].
      change (mk_raw _ _ _ _ _) with (holding (mk_arr (x :: l) mk) g). rewrite holding_get. unfold vget. cbn [a_list nth_error of_option bind].
      destruct (kdiv C m x); [|cbn [bind]; now rewrite Nat.add_0_r]. rewrite holding_pop by auto. cbn [pop_back a_list bind]. now rewrite Nat.add_1_r.
    - change (r_end (holding a g)) with (length (a_list a)). rewrite holding_first_multiple. unfold DivList.Model.remove_multiples_vector.
      destruct (first_multiple m (a_list a) (length (a_list a))) as [it| | |] eqn:Ef; cbn [bind]; auto.
      destruct (Nat.eqb_spec it (length (a_list a))) as [|Hit]; [cbn [bind]; rewrite Nat.add_0_r; now destruct a|].
      apply first_multiple_bounds in Ef; [|lia]. rewrite holding_get. destruct (vget (a_list a) it) as [x| | |]; cbn [bind]; auto.
      rewrite holding_compact. destruct (compact m (a_list a) _ it [x_t x]) as [[[l n'] out]| | |] eqn:Ec; cbn [bind]; auto.
      apply compact_bounds in Ec; [|lia]. destruct Ec as [E2 E3].
      rewrite holding_pop_to by (cbn [holding r_end a_list]; lia). cbn [bind a_list a_mask]. cbn [holding r_end a_list]. now rewrite E2.
  Qed.

  Lemma holding_equal m a g k : k <= length (a_list a) -> r_equal C m (holding a g) k =
    Ok (option_map (fun i => length (a_list a) - k + i) (DivList.Model.scan M (kequal C m) (skipn (length (a_list a) - k) (a_list a)))).
  Proof.
    induction k as [|k IH]; intros Hk; cbn [r_equal].
    - rewrite skipn_all2 by lia. reflexivity.
    - rewrite holding_get. cbn [holding r_end]. unfold vget. destruct (nth_error (a_list a) (length (a_list a) - S k)) as [x|] eqn:E.
      2: { apply nth_error_None in E. lia. }
      cbn [of_option bind]. change (mk_raw _ _ _ _ _) with (holding a g).
      assert (Es : skipn (length (a_list a) - S k) (a_list a) = x :: skipn (length (a_list a) - k) (a_list a)).
      { replace (length (a_list a) - k) with (S (length (a_list a) - S k)) by lia. clear IH Hk. revert E. generalize (length (a_list a) - S k) as j. generalize (a_list a) as l.
        induction l as [|y l IHl]; intros [|j]; cbn; try discriminate; [intros H; now injection H as <-|]. apply IHl. }
      rewrite Es. cbn [DivList.Model.scan]. destruct (kequal C m x); cbn [option_map]; [f_equal; f_equal; lia|]. rewrite IH by lia.
      destruct (DivList.Model.scan M _ _); cbn [option_map]; auto. f_equal. f_equal. lia.
  Qed.
  Lemma move_down_length k : forall l l', move_down l k = Ok (l' : list ext) -> length l' = length l.
  Proof.
    induction k as [|k IH]; intros l l'; cbn [move_down]; [intros H; now injection H as <-|]. destruct (vget l _); cbn [bind]; try discriminate.
    unfold vset. destruct (_ <? _); cbn [bind]; try discriminate. intros H. apply IH in H. now rewrite upd_length in H.
  Qed.
  Theorem holding_remove_element a g m : length (a_list a) <= c_leaf C ->
    r_remove_element C (holding a g) m = let* (a', found) := arr_remove_element C a m in Ok (holding a' (if found then S g else g), found).
  Proof.
    intros Hl. unfold r_remove_element, arr_remove_element. cbn [holding r_end]. change (mk_raw _ _ _ _ _) with (holding a g). rewrite holding_equal by lia.
    rewrite Nat.sub_diag. cbn [skipn bind Nat.add]. destruct (DivList.Model.scan M (kequal C m) (a_list a)) as [it|]; cbn [option_map]; [|reflexivity].
    change (r_end (holding a g)) with (length (a_list a)). rewrite holding_move_down. destruct (move_down (a_list a) _) as [l| | |] eqn:E; cbn [bind]; auto.
    rewrite holding_pop by (cbn [a_list]; apply move_down_length in E; lia). destruct (pop_back (mk_arr l (a_mask a))); cbn [bind]; auto.
  Qed.

  (** ** Splitting *)
  Hypothesis Hsort : forall l, Permutation (c_sort_ext C l) l \/ c_sorted C = false.
  Hypothesis Hpart : partitions (c_part_ext C).

  Lemma holding_sort a g : r_sort C (holding a g) = Ok (holding (sort_arr C a) g).
  Proof.
    unfold r_sort, sort_arr. destruct (c_sorted C) eqn:E; [|reflexivity]. rewrite holding_range. cbn [bind].
    rewrite holding_rearranged; [reflexivity|]. destruct (Hsort (a_list a)) as [H|H]; [|congruence]. now apply Permutation_length.
  Qed.
  Theorem holding_of l : r_of C l = let* a := arr_of C l in Ok (holding a 0).
  Proof. unfold r_of, arr_of. rewrite holding_new, holding_push_all. destruct (push_all C arr_empty l); cbn [bind]; auto. apply holding_sort. Qed.
  Lemma holding_recalculate a g : r_recalculate C (holding a g) = Ok (holding (arr_recalculate C a) g).
  Proof. unfold r_recalculate, arr_recalculate. destruct (negb (c_tree C)); [reflexivity|]. rewrite holding_range. reflexivity. Qed.
  Lemma part_perm p l : Permutation (fst (c_part_ext C p l) ++ snd (c_part_ext C p l)) l.
  Proof.
    destruct (Hpart p l) as [H1 H2]. rewrite H1, H2. clear. induction l as [|x l IH]; cbn; auto. destruct (p x); cbn [negb app]; [now constructor|].
    rewrite <- Permutation_middle. now constructor.
  Qed.
  Lemma split_for_perm e l var v x le gt : split_for C e l var = Ok (v, x, le, gt) -> Permutation (le ++ gt) l.
  Proof.
    unfold split_for. destruct (choose C (x_t e) (map x_t l) (c_nvars C) var) as [[v' x']| | |]; cbn [bind]; try discriminate.
    match goal with |- context [c_part_ext C ?p l] => pose proof (part_perm p l) as HP; destruct (c_part_ext C p l) as [le' gt'] end.
    intros H. injection H as <- <- <- <-. exact HP.
  Qed.
  Theorem holding_split_binary a g e var : length (a_list a) <= c_leaf C -> r_split_binary C (holding a g) e var =
    let* (v, x, le, gt) := split_for C e (a_list a) var in
    let* other := arr_of C gt in
    Ok (v, x, holding (arr_recalculate C (sort_arr C (mk_arr le (a_mask a)))) (g + length gt), holding other 0).
  Proof.
    intros Hl. unfold r_split_binary. rewrite holding_range. cbn [bind]. destruct (split_for C e (a_list a) var) as [[[[v x] le] gt]| | |] eqn:Es; cbn [bind]; auto.
    apply split_for_perm, Permutation_length in Es. rewrite holding_of. destruct (arr_of C gt) as [other| | |]; cbn [bind]; auto.
    rewrite holding_rearranged by auto. rewrite app_length in Es.
    rewrite holding_pop_to; cbn [holding r_end a_list]; rewrite ?app_length; try lia. cbn [bind a_mask].
    rewrite firstn_app, Nat.sub_diag, firstn_all. cbn [firstn]. rewrite app_nil_r, holding_sort. cbn [bind]. rewrite holding_recalculate. cbn [bind].
    do 4 f_equal. lia.
  Qed.
  Lemma holding_copy mid k : forall a g, mid + k <= length (a_list a) -> exists l, r_copy (holding a g) mid k = Ok (holding (mk_arr l (a_mask a)) g) /\
    length l = length (a_list a) /\ (forall j, j < length (a_list a) - mid - k -> nth_error l j = nth_error (a_list a) j) /\
    (forall j, length (a_list a) - mid - k <= j < length (a_list a) - mid -> nth_error l j = nth_error (a_list a) (j + mid)).
  Proof.
    induction k as [|k IH]; intros a g Hk; cbn [r_copy].
    - exists (a_list a). split; [now destruct a|]. repeat split; auto. intros j Hj. lia.
    - rewrite holding_get. change (r_end (holding a g)) with (length (a_list a)).
      destruct (nth_error_lt (a_list a) (length (a_list a) - S k)) as [x Ex]; [lia|]. rewrite (proj2 (vget_ok _ _ _) Ex). cbn [bind].
      rewrite holding_set, vset_ok by lia. cbn [bind].
      destruct (IH (mk_arr (upd (a_list a) (length (a_list a) - S k - mid) x) (a_mask a)) g) as (l & -> & H1 & H2 & H3); cbn [a_list a_mask] in *; rewrite ?upd_length in *; [lia|].
      exists l. split; [reflexivity|]. split; [auto|]. split; intros j Hj.
      + rewrite H2 by lia. apply nth_upd_other. lia.
      + destruct (Nat.eq_dec j (length (a_list a) - S k - mid)) as [->|Hne].
        * rewrite H2 by lia. rewrite nth_upd_same by lia. rewrite <- Ex. f_equal. lia.
        * rewrite H3 by lia. apply nth_upd_other. lia.
  Qed.
  Theorem holding_split_packed a g e var : length (a_list a) <= c_leaf C -> r_split_packed C (holding a g) e var =
    let* (v, x, le, gt) := split_for C e (a_list a) var in
    let* copied := arr_of C le in
    Ok (v, x, holding (arr_recalculate C (sort_arr C (mk_arr gt (a_mask a)))) (g + length le), holding copied 0).
  Proof.
    intros Hl. unfold r_split_packed. rewrite holding_range. cbn [bind]. destruct (split_for C e (a_list a) var) as [[[[v x] le] gt]| | |] eqn:Es; cbn [bind]; auto.
    apply split_for_perm, Permutation_length in Es. rewrite holding_of. destruct (arr_of C le) as [copied| | |]; cbn [bind]; auto.
    rewrite holding_rearranged by auto. rewrite app_length in Es. change (r_end (holding (mk_arr (le ++ gt) (a_mask a)) g)) with (length (le ++ gt)).
    rewrite app_length. replace (length le + length gt - length le) with (length gt) by lia.
    destruct (holding_copy (length le) (length gt) (mk_arr (le ++ gt) (a_mask a)) g) as (l & -> & H1 & _ & H3); cbn [a_list a_mask] in *; rewrite app_length in *; [lia|].
    cbn [bind]. rewrite holding_pop_to; cbn [holding r_end a_list]; try lia. cbn [bind a_mask].
    replace (firstn (length gt) l) with gt.
    2: { apply nth_error_ext. intros j. destruct (Nat.lt_ge_cases j (length gt)) as [Hj|Hj].
         - replace (nth_error (firstn (length gt) l) j) with (nth_error l j).
           2: { clear -Hj. revert l Hj. generalize (length gt) as n. induction j as [|j IH]; intros [|n] [|y l] Hj; cbn; auto; try lia. apply IH. lia. }
           rewrite H3 by lia. rewrite nth_error_app2 by lia. f_equal. lia.
         - rewrite (proj2 (nth_error_None gt j) Hj). symmetry. apply nth_error_None. rewrite firstn_length. lia. }
    rewrite holding_sort. cbn [bind]. rewrite holding_recalculate. cbn [bind]. do 4 f_equal. lia.
  Qed.

  (** ** Calls *)
  Definition fits (a : earray) : Prop := length (a_list a) <= c_leaf C.
  (** [r] is the memory that holds [a] *)
  Definition stores (a : earray) (r : raw) : Prop := fits a /\ exists g, r = holding a g.

  (** The same kind of result *)
  Definition agrees {A B} (R : A -> B -> Prop) (x : res A) (y : res B) : Prop :=
    match x, y with Ok a, Ok b => R a b | UB, UB => True | Throw e, Throw e' => e = e' | NoFuel, NoFuel => True | _, _ => False end.
  Lemma agrees_bind {A B A' B'} (R : A -> B -> Prop) (R' : A' -> B' -> Prop) x y f g :
    agrees R x y -> (forall a b, R a b -> agrees R' (f a) (g b)) -> agrees R' (let* a := x in f a) (let* b := y in g b).
  Proof. destruct x, y; cbn; auto; try tauto. Qed.
  Lemma Forall2_nth {A B} (R : A -> B -> Prop) l l' i : Forall2 R l l' ->
    match nth_error l i, nth_error l' i with Some a, Some b => R a b | None, None => True | _, _ => False end.
  Proof. intros H. revert i. induction H; intros [|i]; cbn; auto. apply IHForall2. Qed.
  Lemma Forall2_upd {A B} (R : A -> B -> Prop) l l' i a b : Forall2 R l l' -> R a b -> Forall2 R (upd l i a) (upd l' i b).
  Proof. intros H Hab. revert i. induction H; intros [|i]; cbn; constructor; auto. Qed.
  Lemma agrees_vget {A B} (R : A -> B -> Prop) l l' i : Forall2 R l l' -> agrees R (vget l i) (vget l' i).
  Proof. intros H. pose proof (Forall2_nth R l l' i H) as H'. unfold vget. destruct (nth_error l i), (nth_error l' i); cbn; auto; tauto. Qed.
  Lemma agrees_vset {A B} (R : A -> B -> Prop) l l' i a b : Forall2 R l l' -> R a b -> agrees (Forall2 R) (vset l i a) (vset l' i b).
  Proof.
    intros H Hab. unfold vset. replace (length l') with (length l) by (clear -H; induction H; cbn; auto). destruct (i <? length l); cbn; auto. now apply Forall2_upd.
  Qed.
  Lemma agrees_on {A B} (R : A -> B -> Prop) l l' i f g : Forall2 R l l' -> (forall a b, R a b -> agrees R (f a) (g b)) ->
    agrees (Forall2 R) (on l i f) (on l' i g).
  Proof.
    intros H Hf. unfold on. eapply agrees_bind; [apply agrees_vget; eauto|]. intros a b Hab. eapply agrees_bind; [apply Hf; eauto|].
    intros a' b' H'. now apply agrees_vset.
  Qed.
  Lemma agrees_on_new {A B} (R : A -> B -> Prop) l l' i f g : Forall2 R l l' ->
    (forall a b, R a b -> agrees (fun p q => R (fst p) (fst q) /\ R (snd p) (snd q)) (f a) (g b)) -> agrees (Forall2 R) (on_new l i f) (on_new l' i g).
  Proof.
    intros H Hf. unfold on_new. eapply agrees_bind; [apply agrees_vget; eauto|]. intros a b Hab. eapply agrees_bind; [apply Hf; eauto|].
    intros [a' c] [b' d] [H1 H2]. cbn [fst snd] in *. eapply agrees_bind; [apply agrees_vset; eauto|]. intros m m' Hm. cbn. apply Forall2_app; auto.
  Qed.

  Lemma arr_of_fits l a : arr_of C l = Ok a -> fits a.
  Proof.
    unfold arr_of. destruct (push_all C arr_empty l) as [a'| | |] eqn:E; cbn [bind]; try discriminate. intros H. injection H as <-.
    assert (Hf : fits a').
    { assert (H0 : fits (@arr_empty M)) by (unfold fits; cbn; lia). revert E H0. generalize (@arr_empty M) as a0. induction l as [|e l IH]; intros a0; cbn [push_all].
      - intros H. now injection H as <-.
      - destruct (push_back C a0 e) eqn:E; cbn [bind]; try discriminate. intros H _. apply (IH a H). now apply push_back_fits in E. }
    unfold sort_arr, fits. destruct (c_sorted C) eqn:E'; auto. cbn [a_list]. destruct (Hsort (a_list a')) as [H|H]; [|congruence]. now rewrite (Permutation_length H).
  Qed.
  Lemma sort_fits a : fits a -> fits (sort_arr C a).
  Proof.
    unfold fits, sort_arr. destruct (c_sorted C) eqn:E'; auto. cbn [a_list]. destruct (Hsort (a_list a)) as [H|H]; [|congruence]. now rewrite (Permutation_length H).
  Qed.
  Lemma recalculate_fits a : fits a -> fits (arr_recalculate C a).
  Proof. unfold fits, arr_recalculate. destruct (negb _); auto. Qed.
  Lemma move_up_length k it : forall l l', move_up l it k = Ok (l' : list ext) -> length l' = length l.
  Proof.
    induction k as [|k IH]; intros l l'; cbn [move_up]; [intros H; now injection H as <-|]. destruct (vget l _); cbn [bind]; try discriminate.
    unfold vset. destruct (_ <? _); cbn [bind]; try discriminate. intros H. apply IH in H. now rewrite upd_length in H.
  Qed.
  Lemma insert_fits a e a' : arr_insert C a e = Ok a' -> fits a'.
  Proof.
    unfold arr_insert. destruct (negb _); [apply push_back_fits|]. destruct (upper_bound _ _ _) as [it| | |]; cbn [bind]; try discriminate.
    unfold insert_at. destruct (_ =? _); [apply push_back_fits|]. destruct (vget _ _); cbn [bind]; try discriminate.
    destruct (push_back C a a0) as [a1| | |] eqn:E; cbn [bind]; try discriminate. apply push_back_fits in E.
    destruct (move_up _ _ _) as [l| | |] eqn:E2; cbn [bind]; try discriminate. apply move_up_length in E2.
    unfold vset. destruct (_ <? _); cbn [bind]; try discriminate. intros H. injection H as <-. unfold fits. cbn [a_list]. rewrite upd_length. lia.
  Qed.
  Lemma pop_fits a a' : pop_back a = Ok a' -> fits a -> fits a'.
  Proof.
    unfold pop_back, fits. intros H Hl. assert (E : a_list a' = removelast (a_list a)) by (destruct (a_list a); [discriminate|now injection H as <-]).
    rewrite E, removelast_length. lia.
  Qed.
  Lemma remove_fits a m a' out n : arr_remove C a m = Ok (a', out, n) -> fits a -> fits a'.
  Proof.
    unfold arr_remove, fits. destruct (c_leaf C =? 1) eqn:E1.
    - destruct (a_list a) as [|x l] eqn:El; [intros H; injection H as <- <- <-; now rewrite El|]. destruct (kdiv C m x).
      + destruct (pop_back a) as [a1| | |] eqn:E; cbn [bind]; try discriminate. intros H. injection H as <- <- <-. rewrite <- El. exact (pop_fits _ _ E).
      + intros H. injection H as <- <- <-. now rewrite El.
    - unfold DivList.Model.remove_multiples_vector.
      destruct (first_multiple m (a_list a) (length (a_list a))) as [it| | |] eqn:Ef; cbn [bind]; try discriminate.
      destruct (Nat.eqb_spec it (length (a_list a))) as [|Hit]; [cbn [bind]; intros H; now injection H as <- <- <-|].
      apply first_multiple_bounds in Ef; [|lia]. destruct (vget (a_list a) it) as [x| | |]; cbn [bind]; try discriminate.
      destruct (compact m (a_list a) _ it [x_t x]) as [[[l n'] out']| | |] eqn:Ec; cbn [bind]; try discriminate.
      apply compact_bounds in Ec; [|lia]. intros H Hf. injection H as <- <- <-. cbn [a_list]. rewrite firstn_length. lia.
  Qed.
  Lemma element_fits a m a' b : arr_remove_element C a m = Ok (a', b) -> fits a -> fits a'.
  Proof.
    unfold arr_remove_element. destruct (DivList.Model.scan _ _ _) as [it|]; [|intros H; now injection H as <- <-].
    destruct (move_down _ _) as [l| | |] eqn:E; cbn [bind]; try discriminate. apply move_down_length in E.
    destruct (pop_back (mk_arr l (a_mask a))) as [a1| | |] eqn:E1; cbn [bind]; try discriminate. intros H Hf. injection H as <- <-.
    apply (pop_fits _ _ E1). unfold fits in *. cbn [a_list]. lia.
  Qed.

  Lemma call_agrees arrs mem c : Forall2 stores arrs mem -> agrees (Forall2 stores) (a_call C arrs c) (r_call C mem c).
  Proof.
    intros H. destruct c as [|l|i e|i|i e|i m|i m|i|i e var|i e var]; cbn [a_call r_call].
    - cbn. apply Forall2_app; auto. constructor; auto. split; [unfold fits; cbn; lia|]. exists 0. apply holding_new.
    - rewrite holding_of. destruct (arr_of C l) as [a| | |] eqn:E; cbn [bind agrees]; auto. apply Forall2_app; auto. constructor; auto.
      split; [now apply arr_of_fits in E|]. now exists 0.
    - apply agrees_on; auto. intros a r [Hf [g ->]]. rewrite holding_push. destruct (push_back C a e) eqn:E; cbn [bind agrees]; auto.
      split; [now apply push_back_fits in E|]. now exists g.
    - apply agrees_on; auto. intros a r [Hf [g ->]]. rewrite holding_pop by auto. destruct (pop_back a) eqn:E; cbn [bind agrees]; auto.
      split; [now apply pop_fits in E|]. now exists (S g).
    - apply agrees_on; auto. intros a r [Hf [g ->]]. rewrite holding_insert. destruct (arr_insert C a e) eqn:E; cbn [bind agrees]; auto.
      split; [now apply insert_fits in E|]. now exists g.
    - apply agrees_on; auto. intros a r [Hf [g ->]]. rewrite holding_remove by auto. destruct (arr_remove C a m) as [[[a' out] n]| | |] eqn:E; cbn [bind agrees]; auto.
      split; [now apply remove_fits in E|]. now exists (g + n).
    - apply agrees_on; auto. intros a r [Hf [g ->]]. rewrite holding_remove_element by auto. destruct (arr_remove_element C a m) as [[a' b]| | |] eqn:E; cbn [bind agrees]; auto.
      split; [now apply element_fits in E|]. now exists (if b then S g else g).
    - apply agrees_on; auto. intros a r [Hf [g ->]]. rewrite holding_clear by auto. cbn. split; [unfold fits; cbn; lia|]. eexists; reflexivity.
    - apply agrees_on_new; auto. intros a r [Hf [g ->]]. rewrite holding_split_binary by auto.
      destruct (split_for C e (a_list a) var) as [[[[v x] le] gt]| | |] eqn:E; cbn [bind agrees]; auto.
      destruct (arr_of C gt) as [o| | |] eqn:E'; cbn [bind agrees fst snd]; auto. apply split_for_perm, Permutation_length in E. rewrite app_length in E.
      unfold fits in Hf. split; (split; [|eexists; reflexivity]); [|now apply arr_of_fits in E']. apply recalculate_fits, sort_fits. unfold fits. cbn [a_list]. lia.
    - apply agrees_on_new; auto. intros a r [Hf [g ->]]. rewrite holding_split_packed by auto.
      destruct (split_for C e (a_list a) var) as [[[[v x] le] gt]| | |] eqn:E; cbn [bind agrees]; auto.
      destruct (arr_of C le) as [o| | |] eqn:E'; cbn [bind agrees fst snd]; auto. apply split_for_perm, Permutation_length in E. rewrite app_length in E.
      unfold fits in Hf. split; (split; [|eexists; reflexivity]); [|now apply arr_of_fits in E']. apply recalculate_fits, sort_fits. unfold fits. cbn [a_list]. lia.
  Qed.
  Theorem calls_agree cs : forall arrs mem, Forall2 stores arrs mem -> agrees (Forall2 stores) (a_calls C arrs cs) (r_calls C mem cs).
  Proof.
    induction cs as [|c cs IH]; intros arrs mem H; cbn [a_calls r_calls]; [exact H|]. eapply agrees_bind; [now apply call_agrees|]. auto.
  Qed.
End Raw.
