(** Lemmas for C113: KD trees commute with functions on entries that the configuration does not notice. *)
From Coq Require Import List Arith Bool ZArith NArith String.
From Verif.Base Require Import Res Arr ResList StdAlg.
From Verif.DivMask Require Import Model.
From Verif.Spec Require Import DivFinder.
From Verif.DivList Require Import RelabelProofs.
From Verif.KD Require Import EntryArray Tree Model.
From Verif.Queues Require Import RelabelProofs.
Import ListNotations.
Local Notation length := List.length.

(** The configuration with other entries and otherwise the same choices *)
Definition other_entries {M P} (C : kconf M) (ex' : P -> nat -> Z) (divides' less' : P -> P -> bool) (sort' : list (ext P) -> list (ext P))
  (part_ext' : (ext P -> bool) -> list (ext P) -> list (ext P) * list (ext P)) (part' : (P -> bool) -> list P -> list P * list P) : kconf P :=
  mk_kconf P ex' (c_nvars C) (c_type C) divides' less' (c_use C) (c_tree C) (c_leaf C) (c_removals C) (c_sorted C) (c_cache C) (c_auto C) (c_ratio C) (c_min C) (c_sort_data C) sort' part_ext' part'.

Section Relabel.
  Context {M P : Type} (f : M -> P) (C : kconf M) (ex' : P -> nat -> Z) (divides' less' : P -> P -> bool) (sort' : list (ext P) -> list (ext P)).
  Variable (part_ext' : (ext P -> bool) -> list (ext P) -> list (ext P) * list (ext P)) (part' : (P -> bool) -> list P -> list P * list P).
  Notation D := (other_entries C ex' divides' less' sort' part_ext' part').
  Notation em := (emap f).
  Notation emaps := (map em).
  Hypothesis Hex : forall a v, ex' (f a) v = c_ex C a v.
  Hypothesis Hdiv : forall a b, divides' (f a) (f b) = c_divides C a b.
  Hypothesis Hless : forall a b, less' (f a) (f b) = c_less C a b.
  Hypothesis Hsort : forall l, sort' (emaps l) = emaps (c_sort_ext C l).
  Hypothesis Hpe : forall p p' l, (forall x, p' (em x) = p x) -> part_ext' p' (emaps l) = (emaps (fst (c_part_ext C p l)), emaps (snd (c_part_ext C p l))).
  Hypothesis Hpt : forall p p' l, (forall x, p' (f x) = p x) -> part' p' (map f l) = (map f (fst (c_part C p l)), map f (snd (c_part C p l))).

  Ltac dd := cbn [other_entries c_ex c_nvars c_type c_divides c_less c_use c_tree c_leaf c_removals c_sorted c_cache c_auto c_ratio c_min c_sort_data c_sort_ext c_part_ext c_part].

  Definition amap (a : earray M) : earray P := mk_arr (emaps (a_list a)) (a_mask a).
  Fixpoint trmap (t : tree M) : tree P := match t with Leaf a => Leaf (amap a) | Split v e mask le gt => Split v e mask (trmap le) (trmap gt) end.
  Definition kmap (s : kd M) : kd P := mk_kd (option_map trmap (k_tree s)) (k_bits s) (k_size s) (k_left s) (k_cache s) (k_rebuilds s).

  (** * Leaves *)
  Lemma kcomp_map a b : kcomp D (em a) (em b) = kcomp C a b.
  Proof. apply Hless. Qed.
  Lemma kdiv_map a b : kdiv D (em a) (em b) = kdiv C a b.
  Proof. apply (ediv_map f (c_divides C) divides' (c_use C) Hdiv). Qed.
  Lemma kext_map bits m : kext D bits (f m) = em (kext C bits m).
  Proof. apply (extend_map f (c_ex C) ex' (c_use C) Hex). Qed.
  Lemma push_back_map a e : push_back D (amap a) (em e) = rmap amap (push_back C a e).
  Proof. unfold push_back. cbn [amap a_list a_mask]. rewrite map_length. dd. destruct (_ <? _); [|reflexivity]. cbn [rmap bind]. unfold amap. cbn [a_list a_mask]. now rewrite map_app. Qed.
  Lemma pop_back_map a : pop_back (amap a) = rmap amap (pop_back a).
  Proof. unfold pop_back. cbn [amap a_list a_mask]. destruct (a_list a) as [|x l]; [reflexivity|]. cbn [map]. change (em x :: emaps l) with (emaps (x :: l)). now rewrite removelast_map. Qed.
  Lemma push_all_map l : forall a, push_all D (amap a) (emaps l) = rmap amap (push_all C a l).
  Proof. induction l as [|e l IH]; intros; cbn [push_all map]; [reflexivity|]. rewrite push_back_map. go. apply IH. Qed.
  Lemma sort_arr_map a : sort_arr D (amap a) = amap (sort_arr C a).
  Proof. unfold sort_arr. dd. destruct (c_sorted C); [|reflexivity]. unfold amap. cbn [a_list a_mask]. now rewrite Hsort. Qed.
  Lemma arr_of_map l : arr_of D (emaps l) = rmap amap (arr_of C l).
  Proof. unfold arr_of. change (@arr_empty P) with (amap arr_empty). rewrite push_all_map. go. cbn [rmap bind]. now rewrite sort_arr_map. Qed.
  Lemma move_up_map k : forall l it, move_up (emaps l) it k = rmap emaps (move_up l it k).
  Proof. induction k as [|k IH]; intros; cbn [move_up]; [reflexivity|]. rewrite vget_map. go. rewrite vset_map. go. apply IH. Qed.
  Lemma insert_at_map a it e : insert_at D (amap a) it (em e) = rmap amap (insert_at C a it e).
  Proof.
    unfold insert_at. change (a_list (amap a)) with (emaps (a_list a)). rewrite map_length. destruct (_ =? _); [apply push_back_map|]. rewrite vget_map. go. rewrite push_back_map. go.
    change (a_list (amap a1)) with (emaps (a_list a1)). rewrite map_length, move_up_map. go. rewrite vset_map. go. reflexivity.
  Qed.
  Lemma arr_insert_map a e : arr_insert D (amap a) (em e) = rmap amap (arr_insert C a e).
  Proof.
    unfold arr_insert. dd. destruct (negb _); [apply push_back_map|]. change (a_list (amap a)) with (emaps (a_list a)). rewrite (upper_bound_map em (kcomp C)) by apply kcomp_map. go. apply insert_at_map.
  Qed.
  Definition armap (p : earray M * list M * nat) : earray P * list P * nat := (amap (fst (fst p)), map f (snd (fst p)), snd p).
  Lemma arr_remove_map a m : arr_remove D (amap a) (em m) = rmap armap (arr_remove C a m).
  Proof.
    unfold arr_remove. dd. change (a_list (amap a)) with (emaps (a_list a)). destruct (_ =? _).
    - destruct (a_list a) as [|x l]; [reflexivity|]. cbn [map]. rewrite kdiv_map. destruct (kdiv C m x); [|reflexivity]. rewrite pop_back_map. go. reflexivity.
    - rewrite (rmv_map f (c_divides C) divides' (c_use C) Hdiv). go. now destruct a0 as [[? ?] ?].
  Qed.
  Lemma kequal_map m x : kequal D (f m) (em x) = kequal C m x.
  Proof. apply (equal_exps_map f (c_ex C) ex' (c_nvars C) Hex). Qed.
  Lemma move_down_map k : forall l, move_down (emaps l) k = rmap emaps (move_down l k).
  Proof. induction k as [|k IH]; intros; cbn [move_down]; [reflexivity|]. rewrite map_length, vget_map. go. rewrite vset_map. go. apply IH. Qed.
  Lemma arr_remove_element_map a m : arr_remove_element D (amap a) (f m) = rmap (fun p => (amap (fst p), snd p)) (arr_remove_element C a m).
  Proof.
    unfold arr_remove_element. change (a_list (amap a)) with (emaps (a_list a)). rewrite (scan_map f (kequal C m)) by apply kequal_map. destruct (DivList.Model.scan _ _ _); [|reflexivity]. rewrite map_length, move_down_map. go.
    change (mk_arr (emaps a0) (a_mask (amap a))) with (amap (mk_arr a0 (a_mask a))). rewrite pop_back_map. go. reflexivity.
  Qed.
  Lemma arr_find_map a m : arr_find D (amap a) (em m) = arr_find C a m.
  Proof.
    unfold arr_find. change (ruled_out D (amap a) (em m)) with (ruled_out C a m). change (a_list (amap a)) with (emaps (a_list a)). dd. destruct (ruled_out C a m); [reflexivity|].
    assert (Hs : forall l, DivList.Model.scan P (fun x => kdiv D x (em m)) (emaps l) = DivList.Model.scan M (fun x => kdiv C x m) l) by (intros; apply scan_map; intros; apply kdiv_map).
    destruct (_ =? _); [destruct (a_list a); [reflexivity|]; cbn [map]; now rewrite kdiv_map|]. rewrite (upper_bound_map em (kcomp C)) by apply kcomp_map. rewrite Hs. destruct (negb _); [reflexivity|]. go. now rewrite firstn_map, Hs.
  Qed.
  Definition fmap (p : list M * bool) : list P * bool := (map f (fst p), snd p).
  Section Callback.
    Context (cb : callback M) (cb' : callback P) (Hc : forall l, cb' (map f l) = cb l).
    Lemma arr_report_map p p' l seen : (forall x, p' (em x) = p x) -> arr_report D cb' p' (emaps l) (map f seen) = rmap fmap (arr_report C cb p l seen).
    Proof.
      intros Hp. unfold arr_report. dd. destruct (_ =? _).
      - destruct l as [|x l]; cbn [map]; [now destruct (c_removals C)|]. rewrite Hp. change (map f seen ++ [x_t (em x)]) with (map f seen ++ map f [x_t x]). rewrite <- map_app, Hc. now destruct (p x).
      - now rewrite (feed_map f cb cb' p p' Hc Hp).
    Qed.
    Lemma arr_divisors_map a m seen : arr_divisors D (amap a) (em m) cb' (map f seen) = rmap fmap (arr_divisors C a m cb seen).
    Proof.
      unfold arr_divisors. change (ruled_out D (amap a) (em m)) with (ruled_out C a m). change (a_list (amap a)) with (emaps (a_list a)). dd. destruct (ruled_out C a m); [reflexivity|].
      destruct (_ || _); [apply arr_report_map; intros; apply kdiv_map|]. rewrite (upper_bound_map em (kcomp C)) by apply kcomp_map. go. rewrite firstn_map. apply arr_report_map. intros. apply kdiv_map.
    Qed.
    Lemma arr_multiples_map a m seen : arr_multiples D (amap a) (em m) cb' (map f seen) = rmap fmap (arr_multiples C a m cb seen).
    Proof. apply arr_report_map. intros. apply kdiv_map. Qed.
    Lemma arr_for_all_map a seen : arr_for_all D (amap a) cb' (map f seen) = rmap fmap (arr_for_all C a cb seen).
    Proof. now apply arr_report_map. Qed.
  End Callback.
  Lemma arr_recalculate_map a : arr_recalculate D (amap a) = amap (arr_recalculate C a).
  Proof.
    unfold arr_recalculate. dd. destruct (negb _); [reflexivity|]. unfold amap. cbn [a_list a_mask]. f_equal. generalize max_mask. induction (a_list a) as [|x l IH]; intros n; cbn [fold_left map]; [reflexivity|apply IH].
  Qed.
  Lemma bounds_map x l v : bounds D (f x) (map f l) v = bounds C x l v.
  Proof. unfold bounds. dd. rewrite Hex. generalize (c_ex C x v, c_ex C x v). induction l as [|y l IH]; intros mm; cbn [fold_left map]; [reflexivity|]. now rewrite Hex, IH. Qed.
  Lemma choose_map x l k : forall var, choose D (f x) (map f l) k var = choose C x l k var.
  Proof. induction k as [|k IH]; intros var; cbn [choose]; [reflexivity|]. cbv zeta. change (next_var D var) with (next_var C var). rewrite bounds_map. destruct (bounds C x l (next_var C var)). destruct (Z.eqb _ _); [apply IH|reflexivity]. Qed.
  Lemma split_for_map e l var : split_for D (em e) (emaps l) var = rmap (fun p => (fst (fst (fst p)), snd (fst (fst p)), emaps (snd (fst p)), emaps (snd p))) (split_for C e l var).
  Proof.
    unfold split_for. rewrite contents_map. dd. change (x_t (em e)) with (f (x_t e)). rewrite choose_map. go. destruct a as [v x].
    rewrite (Hpe (fun y => negb (x <? c_ex C (x_t y) v)%Z)) by (intros y; cbn [emap x_t]; now rewrite Hex). now destruct (c_part_ext C _ l).
  Qed.
  Lemma split_range_map l var : split_range D (map f l) var = rmap (fun p => (fst (fst (fst p)), snd (fst (fst p)), map f (snd (fst p)), map f (snd p))) (split_range C l var).
  Proof.
    unfold split_range. destruct l as [|y l]; [dd; now destruct (_ =? _)|]. cbn [map]. dd. change (f y :: map f l) with (map f (y :: l)). rewrite choose_map. go. destruct a as [v x].
    rewrite (Hpt (fun y => negb (x <? c_ex C y v)%Z)) by (intros z; now rewrite Hex). now destruct (c_part C _ (y :: l)).
  Qed.

  (** * Trees *)
  Lemma nodes_map t : nodes (trmap t) = nodes t.
  Proof. induction t as [a|v e mask le IHl gt IHg]; cbn; [reflexivity|]. now rewrite IHl, IHg. Qed.
  Lemma above_map v e m : above D v e (f m) = above C v e m.
  Proof. unfold above. dd. now rewrite Hex. Qed.
  Lemma above_ext v e m : above D v e (x_t (em m)) = above C v e (x_t m).
  Proof. apply above_map. Qed.
  Lemma leaf_at_map t : forall p, leaf_at (trmap t) p = option_map amap (leaf_at t p).
  Proof. induction t as [a|v e mask le IHl gt IHg]; intros [|b p]; cbn; try reflexivity. destruct b; auto. Qed.
  Lemma deref_map t p : deref (trmap t) p = rmap f (deref t p).
  Proof. unfold deref. rewrite leaf_at_map. destruct (leaf_at t (fst p)); [|reflexivity]. cbn [option_map amap a_list]. rewrite vget_map. go. reflexivity. Qed.
  Definition smap (x : list bool * tree M) : list bool * tree P := (fst x, trmap (snd x)).
  Lemma find_loop_map n m : forall p t st, find_loop D n (em m) p (trmap t) (map smap st) = find_loop C n m p t st.
  Proof.
    induction n as [|n IH]; intros; cbn [find_loop]; [reflexivity|]. cbv zeta.
    assert (Hn : match map smap st with [] => Ok None | (p', t') :: st' => find_loop D n (em m) p' t' st' end = match st with [] => Ok None | (p', t') :: st' => find_loop C n m p' t' st' end)
      by (destruct st as [|[p' t'] st']; [reflexivity|apply IH]).
    destruct t as [a|v e mask le gt]; cbn [trmap].
    - rewrite arr_find_map. go. destruct a0; [reflexivity|exact Hn].
    - dd. change (x_mask (em m)) with (x_mask m). destruct (_ && _); [exact Hn|]. rewrite above_ext. destruct (above C v e (x_t m)); [apply (IH (p ++ [false]) le ((p ++ [true], gt) :: st))|apply IH].
  Qed.
  Lemma tree_find_map r m : tree_find D (option_map trmap r) (em m) = tree_find C r m.
  Proof. destruct r as [t|]; cbn [tree_find option_map]; [|reflexivity]. rewrite nodes_map. apply (find_loop_map _ m [] t []). Qed.
  Section Searches.
    Context (cb : callback M) (cb' : callback P) (Hc : forall l, cb' (map f l) = cb l).
    Lemma divisors_loop_map n m : forall t st seen, divisors_loop D n (em m) cb' (trmap t) (map trmap st) (map f seen) = rmap (map f) (divisors_loop C n m cb t st seen).
    Proof.
      induction n as [|n IH]; intros; cbn [divisors_loop]; [reflexivity|]. cbv zeta.
      assert (Hn : forall s, match map trmap st with [] => Ok (map f s) | t' :: st' => divisors_loop D n (em m) cb' t' st' (map f s) end = rmap (map f) (match st with [] => Ok s | t' :: st' => divisors_loop C n m cb t' st' s end))
        by (intros; destruct st as [|t' st']; [reflexivity|apply IH]).
      destruct t as [a|v e mask le gt]; cbn [trmap].
      - rewrite (arr_divisors_map cb cb' Hc). go. destruct a0 as [s [|]]; cbn [fmap fst snd]; [apply Hn|reflexivity].
      - dd. change (x_mask (em m)) with (x_mask m). destruct (_ && _); [apply Hn|]. rewrite above_ext. destruct (above C v e (x_t m)); [apply (IH le (gt :: st))|apply IH].
    Qed.
    Lemma tree_divisors_map r m : tree_divisors D (option_map trmap r) (em m) cb' = rmap (map f) (tree_divisors C r m cb).
    Proof. destruct r as [t|]; cbn [tree_divisors option_map]; [|reflexivity]. rewrite nodes_map. apply (divisors_loop_map _ m t [] []). Qed.
    Lemma multiples_loop_map n m : forall t st seen, multiples_loop D n (em m) cb' (trmap t) (map trmap st) (map f seen) = rmap (map f) (multiples_loop C n m cb t st seen).
    Proof.
      induction n as [|n IH]; intros; cbn [multiples_loop]; [reflexivity|]. destruct t as [a|v e mask le gt]; cbn [trmap].
      - rewrite (arr_multiples_map cb cb' Hc). go. destruct a0 as [s [|]]; cbn [fmap fst snd]; [|reflexivity]. destruct st; [reflexivity|apply IH].
      - rewrite above_ext. destruct (negb _); [apply (IH gt (le :: st))|apply IH].
    Qed.
    Lemma multiples_loop_packed_map n m : forall t st seen, multiples_loop_packed D n (em m) cb' (trmap t) (map trmap st) (map f seen) = rmap (map f) (multiples_loop_packed C n m cb t st seen).
    Proof.
      induction n as [|n IH]; intros; cbn [multiples_loop_packed]; [reflexivity|]. destruct t as [a|v e mask le gt]; cbn [trmap].
      - rewrite (arr_multiples_map cb cb' Hc). go. destruct a0 as [s [|]]; cbn [fmap fst snd]; [|reflexivity]. destruct st; [reflexivity|apply IH].
      - rewrite above_ext. destruct (above C v e (x_t m)); [apply IH|apply (IH le (gt :: st))].
    Qed.
    Lemma tree_multiples_map packed r m : tree_multiples D packed (option_map trmap r) (em m) cb' = rmap (map f) (tree_multiples C packed r m cb).
    Proof. destruct r as [t|]; cbn [tree_multiples option_map]; [|reflexivity]. rewrite nodes_map. destruct packed; [apply (multiples_loop_packed_map _ m t [] [])|apply (multiples_loop_map _ m t [] [])]. Qed.
    Lemma for_all_loop_map n : forall t st seen, for_all_loop D n cb' (trmap t) (map trmap st) (map f seen) = rmap (map f) (for_all_loop C n cb t st seen).
    Proof.
      induction n as [|n IH]; intros; cbn [for_all_loop]; [reflexivity|]. destruct t as [a|v e mask le gt]; cbn [trmap].
      - rewrite (arr_for_all_map cb cb' Hc). go. destruct a0 as [s [|]]; cbn [fmap fst snd]; [|reflexivity]. destruct st; [reflexivity|apply IH].
      - apply (IH le (gt :: st)).
    Qed.
    Lemma node_entries_map t : node_entries (trmap t) = amap (node_entries t).
    Proof. induction t as [a|v e mask le IHl gt IHg]; cbn; auto. Qed.
    Lemma push_children_map t : forall st, push_children (trmap t) (map trmap st) = map trmap (push_children t st).
    Proof. induction t as [a|v e mask le IHl gt IHg]; intros st; cbn [push_children trmap]; [reflexivity|]. apply (IHl (gt :: st)). Qed.
    Lemma for_all_loop_packed_map n : forall t st seen, for_all_loop_packed D n cb' (trmap t) (map trmap st) (map f seen) = rmap (map f) (for_all_loop_packed C n cb t st seen).
    Proof.
      induction n as [|n IH]; intros; cbn [for_all_loop_packed]; [reflexivity|]. rewrite node_entries_map, (arr_for_all_map cb cb' Hc). go. destruct a as [s [|]]; cbn [fmap fst snd]; [|reflexivity]. rewrite push_children_map.
      destruct (push_children t st); [reflexivity|apply IH].
    Qed.
    Lemma tree_for_all_map packed r : tree_for_all D packed (option_map trmap r) cb' = rmap (map f) (tree_for_all C packed r cb).
    Proof. destruct r as [t|]; cbn [tree_for_all option_map]; [|reflexivity]. rewrite nodes_map. destruct packed; [apply (for_all_loop_packed_map _ t [] [])|apply (for_all_loop_map _ t [] [])]. Qed.
  End Searches.
  Definition remap (p : tree M * list M * nat) : tree P * list P * nat := (trmap (fst (fst p)), map f (snd (fst p)), snd p).
  Lemma remove_binary_map m t : remove_binary D (trmap t) (em m) = rmap remap (remove_binary C t m).
  Proof.
    induction t as [a|v e mask le IHl gt IHg]; cbn [remove_binary trmap].
    - rewrite arr_remove_map. go. now destruct a0 as [[? ?] ?].
    - rewrite IHg. go. destruct a as [[g' o1] n1]. cbn [remap fst snd]. rewrite above_ext. destruct (negb _); [|reflexivity]. rewrite IHl. go. destruct a as [[l' o2] n2]. cbn [remap rmap bind fst snd]. unfold remap. cbn [fst snd trmap]. now rewrite map_app.
  Qed.
  Lemma remove_packed_map m t : remove_packed D (trmap t) (em m) = rmap remap (remove_packed C t m).
  Proof.
    induction t as [a|v e mask le IHl gt IHg]; cbn [remove_packed trmap].
    - rewrite arr_remove_map. go. now destruct a0 as [[? ?] ?].
    - rewrite above_ext. destruct (above C v e (x_t m)).
      + rewrite IHg. go. now destruct a as [[g' o1] n1].
      + rewrite IHl. go. destruct a as [[l' o1] n1]. cbn [remap fst snd]. rewrite IHg. go. destruct a as [[g' o2] n2]. cbn [remap rmap bind fst snd]. unfold remap. cbn [fst snd trmap]. now rewrite map_app.
  Qed.
  Lemma tree_remove_map packed r m : tree_remove D packed (option_map trmap r) (em m) = rmap (fun p => (option_map trmap (fst (fst p)), map f (snd (fst p)), snd p)) (tree_remove C packed r m).
  Proof. destruct r as [t|]; cbn [tree_remove option_map]; [|reflexivity]. destruct packed; [rewrite remove_packed_map|rewrite remove_binary_map]; go; now destruct a as [[? ?] ?]. Qed.
  Lemma remove_element_map m t : Tree.remove_element D (trmap t) (f m) = rmap (fun p => (trmap (fst p), snd p)) (Tree.remove_element C t m).
  Proof.
    induction t as [a|v e mask le IHl gt IHg]; cbn [Tree.remove_element trmap].
    - rewrite arr_remove_element_map. go. now destruct a0.
    - rewrite above_map. destruct (above C v e m); [rewrite IHg|rewrite IHl]; go; now destruct a.
  Qed.
  Lemma tree_remove_element_map r m : tree_remove_element D (option_map trmap r) (f m) = rmap (fun p => (option_map trmap (fst p), snd p)) (tree_remove_element C r m).
  Proof. destruct r as [t|]; cbn [tree_remove_element option_map]; [|reflexivity]. rewrite remove_element_map. go. now destruct a. Qed.
  Lemma split_node_map v x mask le gt e : split_node D v x mask (amap le) (amap gt) (em e) = rmap trmap (split_node C v x mask le gt e).
  Proof. unfold split_node. rewrite above_ext. destruct (above C v x (x_t e)); rewrite arr_insert_map; go; reflexivity. Qed.
  Lemma split_binary_map a e var : split_insert_binary D (amap a) (em e) var = rmap trmap (split_insert_binary C a e var).
  Proof.
    unfold split_insert_binary. change (a_list (amap a)) with (emaps (a_list a)). rewrite split_for_map. go. destruct a0 as [[[v x] l] g]. cbn [fst snd]. rewrite arr_of_map. go. cbv zeta.
    change (mk_arr (emaps l) (a_mask (amap a))) with (amap (mk_arr l (a_mask a))). rewrite sort_arr_map, arr_recalculate_map. apply split_node_map.
  Qed.
  Lemma split_packed_map a e var : split_insert_packed D (amap a) (em e) var = rmap trmap (split_insert_packed C a e var).
  Proof.
    unfold split_insert_packed. change (a_list (amap a)) with (emaps (a_list a)). rewrite split_for_map. go. destruct a0 as [[[v x] l] g]. cbn [fst snd]. rewrite arr_of_map. go. cbv zeta.
    change (mk_arr (emaps g) (a_mask (amap a))) with (amap (mk_arr g (a_mask a))). rewrite sort_arr_map, arr_recalculate_map. apply split_node_map.
  Qed.
  Lemma insert_tree_map packed e t : forall var, insert_tree D packed (trmap t) (em e) var = rmap trmap (insert_tree C packed t e var).
  Proof.
    induction t as [a|v x mask le IHl gt IHg]; intros var; cbn [insert_tree trmap].
    - change (a_list (amap a)) with (emaps (a_list a)). rewrite map_length. dd. destruct (_ =? _).
      + destruct packed; [apply split_packed_map|apply split_binary_map].
      + rewrite arr_insert_map. go. reflexivity.
    - cbv zeta. rewrite above_ext. destruct (above C v x (x_t e)); [rewrite IHg|rewrite IHl]; go; reflexivity.
  Qed.
  Lemma tree_insert_map packed r e : tree_insert D packed (option_map trmap r) (em e) = rmap (option_map trmap) (tree_insert C packed r e).
  Proof.
    unfold tree_insert. cbv zeta. replace (match option_map trmap r with None => Leaf arr_empty | Some t => t end) with (trmap (match r with None => Leaf arr_empty | Some t => t end)) by now destruct r.
    rewrite insert_tree_map. go. reflexivity.
  Qed.
  Lemma node_mask_map t : node_mask (trmap t) = node_mask t.
  Proof. now destruct t. Qed.
  Lemma build_map n bits : forall l var, build D n bits (map f l) var = rmap trmap (build C n bits l var).
  Proof.
    induction n as [|n IH]; intros; cbn [build]; [reflexivity|]. rewrite map_length. dd. destruct (_ <=? _).
    - replace (map (kext D bits) (map f l)) with (emaps (map (kext C bits) l)) by (rewrite !map_map; apply map_ext; intros; symmetry; apply kext_map). rewrite arr_of_map. go. reflexivity.
    - rewrite split_range_map. go. destruct a as [[[v x] le] gt]. cbn [fst snd]. rewrite IH. go. rewrite IH. go. rewrite !node_mask_map. reflexivity.
  Qed.
  Lemma tree_reset_map l bits : tree_reset D (map f l) bits = rmap (option_map trmap) (tree_reset C l bits).
  Proof. unfold tree_reset. destruct l as [|x l]; [reflexivity|]. rewrite map_length. cbn [map]. change (f x :: map f l) with (map f (x :: l)). rewrite build_map. go. reflexivity. Qed.

  (** * The tree with its schedule and cache *)
  Lemma kcalc_map l : kcalc D (map f l) = kcalc C l.
  Proof. unfold kcalc. dd. now rewrite (mask_rebuild_map f (c_ex C) ex' (c_nvars C) (c_type C) (c_sort_data C) Hex). Qed.
  Lemma reset_changes_map s : reset_changes D (kmap s) = kmap (reset_changes C s).
  Proof. unfold reset_changes. dd. now destruct (negb _). Qed.
  Lemma construct_map : construct D = rmap kmap (construct C).
  Proof. unfold construct. change (@nil P) with (map f []). rewrite kcalc_map. go. cbn [rmap bind]. now rewrite <- reset_changes_map. Qed.
  Lemma rebuild_kd_map packed s : rebuild_kd D packed (kmap s) = rmap kmap (rebuild_kd C packed s).
  Proof.
    unfold rebuild_kd. change (k_tree (kmap s)) with (option_map trmap (k_tree s)). rewrite (tree_for_all_map recorder recorder (fun _ => eq_refl)). go. rewrite kcalc_map. go. rewrite tree_reset_map. go.
    cbn [rmap bind]. now rewrite <- reset_changes_map.
  Qed.
  Lemma report_map packed s i r : report_changes D packed (kmap s) i r = rmap kmap (report_changes C packed s i r).
  Proof.
    unfold report_changes. cbv zeta. dd. change (k_size (kmap s)) with (k_size s). change (k_left (kmap s)) with (k_left s). destruct (_ + _ <? _); [reflexivity|]. destruct (negb (c_auto C)); [reflexivity|]. destruct (_ <? _); [reflexivity|].
    match goal with |- _ = rmap kmap (rebuild_kd C packed ?x) => apply (rebuild_kd_map packed x) end.
  Qed.
  Lemma insert_map packed s e : insert D packed (kmap s) (f e) = rmap kmap (insert C packed s e).
  Proof.
    unfold insert. change (k_tree (kmap s)) with (option_map trmap (k_tree s)). change (k_bits (kmap s)) with (k_bits s). rewrite kext_map, tree_insert_map. go.
    match goal with |- _ = rmap kmap (report_changes C packed ?x _ _) => apply (report_map packed x) end.
  Qed.
  Lemma remove_multiples_map packed s m : remove_multiples D packed (kmap s) (f m) = rmap (fun p => (kmap (fst (fst p)), snd (fst p), map f (snd p))) (remove_multiples C packed s m).
  Proof.
    unfold remove_multiples. dd. destruct (negb _); [reflexivity|]. change (k_tree (kmap s)) with (option_map trmap (k_tree s)). change (k_bits (kmap s)) with (k_bits s). rewrite kext_map, tree_remove_map. go.
    destruct a as [[t out] n]. cbn [fst snd]. rewrite (report_map packed (mk_kd t (k_bits s) (k_size s) (k_left s) (k_cache s) (k_rebuilds s))). go. reflexivity.
  Qed.
  Lemma kremove_element_map s m : Model.remove_element D (kmap s) (f m) = rmap (fun p => (kmap (fst p), snd p)) (Model.remove_element C s m).
  Proof. unfold Model.remove_element. dd. destruct (negb _); [reflexivity|]. change (k_tree (kmap s)) with (option_map trmap (k_tree s)). rewrite tree_remove_element_map. go. now destruct a. Qed.
  Lemma entry_at_map s p : entry_at (kmap s) p = rmap f (entry_at s p).
  Proof. unfold entry_at. cbn [kmap k_tree]. destruct (k_tree s); [apply deref_map|reflexivity]. Qed.
  Lemma find_divisor_map s m : find_divisor D (kmap s) (f m) = rmap (fun p => (kmap (fst p), snd p)) (find_divisor C s m).
  Proof.
    unfold find_divisor. cbv zeta. dd. change (k_tree (kmap s)) with (option_map trmap (k_tree s)). change (k_bits (kmap s)) with (k_bits s). change (k_cache (kmap s)) with (k_cache s). rewrite kext_map, tree_find_map.
    match goal with |- (if _ then match _ with Some _ => _ | None => ?A end else _) = rmap ?g (if _ then match _ with Some _ => _ | None => ?B end else _) => assert (Hs : A = rmap g B) end.
    { go. destruct a; [now destruct (c_cache C)|reflexivity]. }
    destruct (c_cache C); [|exact Hs]. destruct (k_cache s); [|exact Hs]. rewrite entry_at_map. go. rewrite Hdiv. destruct (c_divides C a m); [reflexivity|exact Hs].
  Qed.
  Lemma step_map packed s o o' : dop_rel f o o' -> step D packed (kmap s) o' = rmap (fun p => (kmap (fst p), dout_map f (snd p))) (step C packed s o).
  Proof.
    intros [e|es|m|m|m|m cb cb' Hc|m cb cb' Hc|cb cb' Hc|m| |]; cbn [step]; try reflexivity.
    - rewrite insert_map. go. reflexivity.
    - rewrite remove_multiples_map. go. now destruct a as [[? ?] ?].
    - destruct packed; [|reflexivity]. rewrite kremove_element_map. go. now destruct a.
    - rewrite find_divisor_map. go. destruct a as [s' [p|]]; cbn [fst snd]; [|reflexivity]. rewrite entry_at_map. go. reflexivity.
    - change (k_tree (kmap s)) with (option_map trmap (k_tree s)). change (k_bits (kmap s)) with (k_bits s). rewrite kext_map, (tree_divisors_map cb cb' Hc). go. reflexivity.
    - change (k_tree (kmap s)) with (option_map trmap (k_tree s)). change (k_bits (kmap s)) with (k_bits s). rewrite kext_map, (tree_multiples_map cb cb' Hc). go. reflexivity.
    - change (k_tree (kmap s)) with (option_map trmap (k_tree s)). rewrite (tree_for_all_map cb cb' Hc). go. reflexivity.
    - rewrite rebuild_kd_map. go. reflexivity.
  Qed.
  Lemma kd_run_map packed ops ops' : Forall2 (dop_rel f) ops ops' -> forall s, run (step D packed) (kmap s) ops' = rmap (fun p => (kmap (fst p), map (dout_map f) (snd p))) (run (step C packed) s ops).
  Proof. induction 1 as [|o o' ops ops' Ho _ IH]; intros s; cbn [run]; [reflexivity|]. rewrite (step_map packed s o o' Ho). go. destruct a as [s1 r]. cbn [fst snd]. rewrite IH. go. now destruct a as [s2 rs]. Qed.
End Relabel.
