(** Lemmas for C111: DivList commutes with functions on entries that the configuration does not notice. *)
From Coq Require Import List Arith Bool ZArith NArith.
From Verif.Base Require Import Res Arr ResList StdAlg.
From Verif.DivMask Require Import Model.
From Verif.Spec Require Import DivFinder.
From Verif.DivList Require Import Model.
From Verif.Queues Require Import RelabelProofs.
Import ListNotations.

Lemma mapM_same {A B} (f g : A -> res B) l : (forall a, f a = g a) -> mapM f l = mapM g l.
Proof. intros H. induction l as [|a l IH]; cbn [mapM]; [reflexivity|]. now rewrite H, IH. Qed.
Lemma upper_bound_map {A B} (e : A -> B) (lt : A -> A -> bool) (lt' : B -> B -> bool) l x : (forall a b, lt' (e a) (e b) = lt a b) -> upper_bound lt' (map e l) (e x) = upper_bound lt l x.
Proof.
  intros H. induction l as [|y l IH]; cbn [upper_bound map]; [reflexivity|]. rewrite H, IH. destruct (lt x y); [|reflexivity].
  replace (forallb (lt' (e x)) (map e l)) with (forallb (lt x) l); [reflexivity|]. clear IH. induction l as [|z l IH]; cbn; [reflexivity|]. now rewrite H, IH.
Qed.

Section Relabel.
  Context {M P : Type} (f : M -> P) (ex : M -> nat -> Z) (ex' : P -> nat -> Z) (divides less : M -> M -> bool) (divides' less' : P -> P -> bool).
  Variable (nvars : nat) (T : exptype) (sort_data : list var_data -> list var_data) (use linked sorted auto : bool) (ratio : nat -> nat) (rmin : nat).
  Variable (sort_ext : list (ext M) -> list (ext M)) (sort_ext' : list (ext P) -> list (ext P)).
  Definition emap (x : ext M) : ext P := mk_ext (f (x_t x)) (x_mask x).
  Notation emaps := (map emap).
  Hypothesis Hex : forall a v, ex' (f a) v = ex a v.
  Hypothesis Hdiv : forall a b, divides' (f a) (f b) = divides a b.
  Hypothesis Hless : forall a b, less' (f a) (f b) = less a b.
  Hypothesis Hsort : forall l, sort_ext' (emaps l) = emaps (sort_ext l).

  Definition dmap (s : dlist M) : dlist P := mk_dlist (emaps (l_list s)) (l_bits s) (l_left s) (l_rebuilds s).
  (** The same call with other entries; a callback sees the images and gives the same advice. *)
  Inductive dop_rel : dop M -> dop P -> Prop :=
  | rel_insert e : dop_rel (DInsert e) (DInsert (f e))
  | rel_range es : dop_rel (DInsertRange es) (DInsertRange (map f es))
  | rel_removeMultiples m : dop_rel (DRemoveMultiples m) (DRemoveMultiples (f m))
  | rel_removeElement m : dop_rel (DRemoveElement m) (DRemoveElement (f m))
  | rel_findDivisor m : dop_rel (DFindDivisor m) (DFindDivisor (f m))
  | rel_allDivisors m cb cb' : (forall l, cb' (map f l) = cb l) -> dop_rel (DAllDivisors m cb) (DAllDivisors (f m) cb')
  | rel_allMultiples m cb cb' : (forall l, cb' (map f l) = cb l) -> dop_rel (DAllMultiples m cb) (DAllMultiples (f m) cb')
  | rel_forAll cb cb' : (forall l, cb' (map f l) = cb l) -> dop_rel (DForAll cb) (DForAll cb')
  | rel_toFront m : dop_rel (DToFront m) (DToFront (f m))
  | rel_rebuild : dop_rel DRebuild DRebuild
  | rel_size : dop_rel DSize DSize.
  Definition dout_map (r : dout M) : dout P :=
    match r with
    | DONone => DONone | DOBool b => DOBool b | DORemoved b xs => DORemoved b (map f xs) | DOFound r => DOFound (option_map f r) | DOList xs => DOList (map f xs) | DOSize n => DOSize n
    end.

  Lemma compute_map bits t : compute P ex' bits (f t) = compute M ex bits t.
  Proof. unfold compute. generalize 0%N. induction bits as [|b bits IH]; intros n; cbn [fold_left]; [reflexivity|]. now rewrite Hex, IH. Qed.
  Lemma min_max_map l first var : min_max P ex' (map f l) first var = min_max M ex l first var.
  Proof. unfold min_max. generalize (first, first). induction l as [|x l IH]; intros mm; cbn [fold_left map]; [reflexivity|]. now rewrite Hex, IH. Qed.
  Lemma make_data_map l first var : make_data P ex' T (map f l) first var = make_data M ex T l first var.
  Proof.
    unfold make_data. rewrite min_max_map. destruct (min_max M ex l first var) as [mn mx]. apply bind_same; intros d. apply bind_same; intros av. cbv zeta. rewrite map_length.
    replace (length (filter (fun x => (ex' x var <? av)%Z) (map f l))) with (length (filter (fun x => (ex x var <? av)%Z) l)); [reflexivity|].
    induction l as [|x l IH]; cbn [filter map]; [reflexivity|]. rewrite Hex. destruct (_ <? _)%Z; cbn [length]; now rewrite IH.
  Qed.
  Lemma var_bits_map l first var n : var_bits P ex' T (map f l) first var n = var_bits M ex T l first var n.
  Proof. unfold var_bits. now rewrite min_max_map. Qed.
  Lemma mask_rebuild_map l : rebuild P ex' nvars T sort_data (map f l) = rebuild M ex nvars T sort_data l.
  Proof.
    destruct l as [|x l]; [reflexivity|]. unfold rebuild. cbn [map]. cbv zeta. rewrite Hex. change (f x :: map f l) with (map f (x :: l)).
    rewrite (mapM_same _ (make_data M ex T (x :: l) (ex x 0))) by (intros; apply make_data_map). apply bind_same; intros datas. apply bind_same; intros bv.
    rewrite (mapM_same _ (fun p => var_bits M ex T (x :: l) (ex x 0) (fst p) (snd p))) by (intros; apply var_bits_map). reflexivity.
  Qed.
  Lemma calc_map l : calc_rebuild P ex' nvars T sort_data use (map f l) = calc_rebuild M ex nvars T sort_data use l.
  Proof. unfold calc_rebuild. now rewrite mask_rebuild_map. Qed.
  Lemma extend_map bits t : extend P ex' use bits (f t) = emap (extend M ex use bits t).
  Proof. unfold extend, emap. cbn [x_t x_mask]. now rewrite compute_map. Qed.
  Lemma recalculate_map bits a : recalculate P ex' use bits (emap a) = emap (recalculate M ex use bits a).
  Proof. unfold recalculate, emap. cbn [x_t x_mask]. now rewrite compute_map. Qed.
  Lemma ediv_map a b : ext_divides P use divides' (emap a) (emap b) = ext_divides M use divides a b.
  Proof. unfold ext_divides. cbn [emap x_t x_mask]. now rewrite Hdiv. Qed.
  Lemma comp_map a b : comp P less' (emap a) (emap b) = comp M less a b.
  Proof. apply Hless. Qed.
  Lemma contents_map l : map x_t (emaps l) = map f (map x_t l).
  Proof. rewrite !map_map. reflexivity. Qed.

  Lemma first_multiple_map m a k : first_multiple P use divides' (emap m) (emaps a) k = first_multiple M use divides m a k.
  Proof. induction k as [|k IH]; cbn [first_multiple]; [now rewrite map_length|]. cbv zeta. rewrite map_length, vget_map. go. rewrite ediv_map. destruct (ext_divides _ _ _ _ _); [reflexivity|apply IH]. Qed.
  Definition cmap (p : list (ext M) * nat * list M) : list (ext P) * nat * list P := (emaps (fst (fst p)), snd (fst p), map f (snd p)).
  Lemma compact_map m k : forall a e out, compact P use divides' (emap m) (emaps a) k e (map f out) = rmap cmap (compact M use divides m a k e out).
  Proof.
    induction k as [|k IH]; intros; cbn [compact]; [reflexivity|]. cbv zeta. rewrite map_length, vget_map. go. rewrite ediv_map. destruct (negb _).
    - rewrite vset_map. go. apply IH.
    - rewrite <- IH. now rewrite map_app.
  Qed.
  Definition rmmap (p : list (ext M) * list M * nat) : list (ext P) * list P * nat := (emaps (fst (fst p)), map f (snd (fst p)), snd p).
  Lemma rmv_map m a : remove_multiples_vector P use divides' (emap m) (emaps a) = rmap rmmap (remove_multiples_vector M use divides m a).
  Proof.
    unfold remove_multiples_vector. rewrite map_length, first_multiple_map. go. destruct (_ =? _); [reflexivity|]. rewrite vget_map. go. rewrite (compact_map m _ a _ [x_t a1]). go. destruct a2 as [[a' e] out]. unfold cmap. cbn [fst snd rmap bind rmmap].
    unfold rmmap. cbn [fst snd]. now rewrite firstn_map.
  Qed.
  Lemma rml_map m l : remove_multiples_list P use divides' (emap m) (emaps l) = rmmap (remove_multiples_list M use divides m l).
  Proof. induction l as [|x l IH]; cbn [remove_multiples_list map]; [reflexivity|]. rewrite IH, ediv_map. destruct (remove_multiples_list M use divides m l) as [[? ?] ?]. cbn [rmmap fst snd]. now destruct (ext_divides _ _ _ _ _). Qed.
  Lemma shift_up_map p : forall a, shift_up P (emaps a) p = rmap emaps (shift_up M a p).
  Proof. induction p as [|p IH]; intros; cbn [shift_up]; [reflexivity|]. rewrite vget_map. go. rewrite vset_map. go. apply IH. Qed.
  Lemma move_to_front_map a p : move_to_front P linked (emaps a) p = rmap emaps (move_to_front M linked a p).
  Proof.
    unfold move_to_front. destruct linked.
    - rewrite vget_map. go. cbn [rmap bind]. now rewrite firstn_map, skipn_map, map_cons, map_app.
    - rewrite vget_map. go. rewrite shift_up_map. go. apply vset_map.
  Qed.
  Lemma insert_list_map l e : insert_list P less' (emaps l) (emap e) = emaps (insert_list M less l e).
  Proof. induction l as [|x l IH]; cbn [insert_list map]; [reflexivity|]. cbn [emap x_t]. rewrite Hless. destruct (less _ _); [reflexivity|]. cbn [map]. now rewrite <- IH. Qed.
  Lemma insert_sort_map l e : insert_sort P less' linked (emaps l) (emap e) = rmap emaps (insert_sort M less linked l e).
  Proof.
    unfold insert_sort. destruct linked; [now rewrite insert_list_map|]. rewrite (upper_bound_map emap (comp M less)) by apply comp_map. go. cbn [rmap bind]. now rewrite map_app, map_cons, firstn_map, skipn_map.
  Qed.
  Lemma scan_map p p' l : (forall x, p' (emap x) = p x) -> scan P p' (emaps l) = scan M p l.
  Proof. intros H. induction l as [|x l IH]; cbn [scan map]; [reflexivity|]. now rewrite H, IH. Qed.
  Lemma scan_list_map m l : forall c, scan_list P use divides' less' (emap m) c (emaps l) = scan_list M use divides less m c l.
  Proof. induction l as [|x l IH]; intros c; cbn [scan_list map]; [reflexivity|]. rewrite ediv_map, !IH. change (less' (x_t (emap m)) (x_t (emap x))) with (less' (f (x_t m)) (f (x_t x))). now rewrite Hless. Qed.
  Lemma find_sorted_map l m : find_sorted P use divides' less' linked (emaps l) (emap m) = find_sorted M use divides less linked l m.
  Proof.
    unfold find_sorted. destruct linked; [now rewrite scan_list_map|]. rewrite (upper_bound_map emap (comp M less)) by apply comp_map. go. rewrite firstn_map. f_equal. apply scan_map. intros. apply ediv_map.
  Qed.
  Lemma find_iterator_map s m : find_iterator P ex' use divides' less' linked sorted (dmap s) (f m) = find_iterator M ex use divides less linked sorted s m.
  Proof. unfold find_iterator. cbv zeta. cbn [dmap l_bits l_list]. rewrite extend_map. destruct (negb sorted); [f_equal; apply scan_map; intros; apply ediv_map|apply find_sorted_map]. Qed.
  Lemma feed_map cb cb' p p' : (forall l, cb' (map f l) = cb l) -> (forall x, p' (emap x) = p x) ->
    forall l seen, feed P cb' p' (emaps l) (map f seen) = (map f (fst (feed M cb p l seen)), snd (feed M cb p l seen)).
  Proof.
    intros Hc Hp. induction l as [|x l IH]; intros seen; cbn [feed map]; [reflexivity|]. rewrite Hp. destruct (p x); [|apply IH]. cbv zeta.
    change (map f seen ++ [x_t (emap x)]) with (map f seen ++ map f [x_t x]). rewrite <- map_app, Hc. destruct (cb _); [apply IH|reflexivity].
  Qed.
  Lemma feed_list_map cb cb' m : (forall l, cb' (map f l) = cb l) -> forall l c seen,
    feed_list P use divides' less' cb' (emap m) c (emaps l) (map f seen) = map f (feed_list M use divides less cb m c l seen).
  Proof.
    intros Hc. induction l as [|x l IH]; intros c seen; cbn [feed_list map]; [reflexivity|]. cbv zeta. change (less' (x_t (emap m)) (x_t (emap x))) with (less' (f (x_t m)) (f (x_t x))). rewrite Hless, ediv_map.
    change (map f seen ++ [x_t (emap x)]) with (map f seen ++ map f [x_t x]). rewrite <- map_app, Hc. destruct (if S c =? 35 then _ else _); [reflexivity|]. destruct (ext_divides _ _ _ _ _); [|apply IH]. destruct (cb _); [apply IH|reflexivity].
  Qed.
  Lemma all_divisors_map s m cb cb' : (forall l, cb' (map f l) = cb l) ->
    all_divisors P ex' use divides' less' linked sorted (dmap s) (f m) cb' = rmap (map f) (all_divisors M ex use divides less linked sorted s m cb).
  Proof.
    intros Hc. unfold all_divisors. cbv zeta. cbn [dmap l_bits l_list]. rewrite extend_map. set (e := extend M ex use (l_bits s) m).
    assert (Hf : forall l, fst (feed P cb' (fun x => ext_divides P use divides' x (emap e)) (emaps l) []) = map f (fst (feed M cb (fun x => ext_divides M use divides x e) l [])))
      by (intros l; change (@nil P) with (map f []); rewrite (feed_map cb cb' (fun x => ext_divides M use divides x e)); [reflexivity|exact Hc|intros; apply ediv_map]).
    destruct (negb sorted); [cbn [rmap bind]; now rewrite Hf|]. destruct linked.
    - cbn [rmap bind]. change (@nil P) with (map f []). now rewrite (feed_list_map cb cb').
    - rewrite (upper_bound_map emap (comp M less)) by apply comp_map. go. cbn [rmap bind]. now rewrite firstn_map, Hf.
  Qed.
  Lemma all_multiples_map s m cb cb' : (forall l, cb' (map f l) = cb l) -> all_multiples P ex' use divides' (dmap s) (f m) cb' = map f (all_multiples M ex use divides s m cb).
  Proof.
    intros Hc. unfold all_multiples. cbv zeta. cbn [dmap l_bits l_list]. rewrite extend_map. change (@nil P) with (map f []).
    rewrite (feed_map cb cb' (fun x => ext_divides M use divides (extend M ex use (l_bits s) m) x)); [reflexivity|exact Hc|intros; apply ediv_map].
  Qed.
  Lemma for_all_map s cb cb' : (forall l, cb' (map f l) = cb l) -> for_all P (dmap s) cb' = map f (for_all M s cb).
  Proof. intros Hc. unfold for_all. cbn [dmap l_list]. change (@nil P) with (map f []). rewrite (feed_map cb cb' (fun _ => true)); [reflexivity|exact Hc|reflexivity]. Qed.
  Lemma reset_left_map s : reset_left P auto ratio rmin (dmap s) = dmap (reset_left M auto ratio rmin s).
  Proof. unfold reset_left. destruct (negb auto); [reflexivity|]. unfold dmap. cbn [l_list l_bits l_left l_rebuilds]. now rewrite map_length. Qed.
  Lemma rebuild_list_map s : rebuild_list P ex' nvars T sort_data use auto ratio rmin (dmap s) = rmap dmap (rebuild_list M ex nvars T sort_data use auto ratio rmin s).
  Proof.
    unfold rebuild_list. cbn [dmap l_list l_left l_rebuilds]. rewrite contents_map, calc_map. go. cbn [rmap bind]. rewrite <- reset_left_map. unfold dmap at 1. cbn [l_list l_bits l_left l_rebuilds]. rewrite !map_map.
    do 3 f_equal. apply map_ext. intros. apply recalculate_map.
  Qed.
  Lemma report_map s c : report_changes P ex' nvars T sort_data use auto ratio rmin (dmap s) c = rmap dmap (report_changes M ex nvars T sort_data use auto ratio rmin s c).
  Proof. unfold report_changes. destruct (negb auto); [reflexivity|]. change (l_left (dmap s)) with (l_left s). destruct (_ <? _); [reflexivity|apply rebuild_list_map]. Qed.
  Lemma construct_map : construct P ex' nvars T sort_data use auto ratio rmin = rmap dmap (construct M ex nvars T sort_data use auto ratio rmin).
  Proof. unfold construct. change (@nil P) with (map f []). rewrite calc_map. go. cbn [rmap bind]. now rewrite <- reset_left_map. Qed.
  Lemma dinsert_map s e : insert P ex' nvars T sort_data use less' linked sorted auto ratio rmin (dmap s) (f e) = rmap dmap (insert M ex nvars T sort_data use less linked sorted auto ratio rmin s e).
  Proof.
    unfold insert. cbv zeta. cbn [dmap l_list l_bits l_left l_rebuilds]. rewrite extend_map, rmap_bind.
    match goal with |- bind _ ?k = bind ?m _ => transitivity (bind (rmap emaps m) k); [apply (f_equal (fun z => bind z k))|] end.
    - destruct (negb sorted); [cbn [rmap bind]; now rewrite map_app|apply insert_sort_map].
    - go. apply (report_map (mk_dlist a (l_bits s) (l_left s) (l_rebuilds s))).
  Qed.
  Lemma insert_each_map es : forall s, insert_each P ex' nvars T sort_data use less' linked sorted auto ratio rmin (dmap s) (map f es) =
    rmap dmap (insert_each M ex nvars T sort_data use less linked sorted auto ratio rmin s es).
  Proof. induction es as [|e es IH]; intros; cbn [insert_each map]; [reflexivity|]. rewrite dinsert_map. go. apply IH. Qed.
  Lemma insert_range_map s es : insert_range P ex' nvars T sort_data use less' linked sorted auto ratio rmin sort_ext' (dmap s) (map f es) =
    rmap dmap (insert_range M ex nvars T sort_data use less linked sorted auto ratio rmin sort_ext s es).
  Proof.
    destruct (l_list s) eqn:Hl; unfold insert_range; rewrite Hl; change (l_list (dmap s)) with (emaps (l_list s)); rewrite Hl; cbn [map]; [|apply insert_each_map].
    destruct es as [|e es]; [reflexivity|]. change (f e :: map f es) with (map f (e :: es)). remember (e :: es) as es0. subst es0. cbn [map]. change (f e :: map f es) with (map f (e :: es)). rewrite calc_map. go. cbv zeta. cbn [rmap bind].
    assert (Hm : map (extend P ex' use a) (map f (e :: es)) = emaps (map (extend M ex use a) (e :: es))) by (rewrite !map_map; apply map_ext; intros; apply extend_map).
    change (extend P ex' use a (f e) :: map (extend P ex' use a) (map f es)) with (map (extend P ex' use a) (map f (e :: es))). rewrite Hm, Hsort, <- reset_left_map. unfold dmap at 1. cbn [l_list l_bits l_left l_rebuilds]. now destruct sorted.
  Qed.
  Lemma remove_multiples_map s m : remove_multiples P ex' nvars T sort_data use divides' linked auto ratio rmin (dmap s) (f m) =
    rmap (fun p => (dmap (fst (fst p)), snd (fst p), map f (snd p))) (remove_multiples M ex nvars T sort_data use divides linked auto ratio rmin s m).
  Proof.
    unfold remove_multiples. cbv zeta. cbn [dmap l_list l_bits l_left l_rebuilds]. rewrite extend_map, rmap_bind.
    match goal with |- bind _ ?k = bind ?m _ => transitivity (bind (rmap rmmap m) k); [apply (f_equal (fun z => bind z k))|] end.
    - destruct linked; [cbn [rmap bind]; now rewrite rml_map|apply rmv_map].
    - go. destruct a as [[l out] c]. cbn [rmmap fst snd]. rewrite (report_map (mk_dlist l (l_bits s) (l_left s) (l_rebuilds s))). go. reflexivity.
  Qed.
  Lemma equal_exps_map a b : equal_exps P ex' nvars (f a) (f b) = equal_exps M ex nvars a b.
  Proof. unfold equal_exps. induction (seq 0 nvars) as [|v vs IH]; cbn [forallb]; [reflexivity|]. now rewrite !Hex, IH. Qed.
  Lemma remove_element_map s m : remove_element P ex' nvars (dmap s) (f m) = (dmap (fst (remove_element M ex nvars s m)), snd (remove_element M ex nvars s m)).
  Proof.
    unfold remove_element. cbn [dmap l_list l_bits l_left l_rebuilds]. rewrite (scan_map (fun x => equal_exps M ex nvars m (x_t x))) by (intros; apply equal_exps_map). destruct (scan _ _ _); [|reflexivity].
    cbn [fst snd]. unfold dmap. cbn [l_list l_bits l_left l_rebuilds]. now rewrite map_app, firstn_map, skipn_map.
  Qed.
  Lemma find_divisor_map s m : find_divisor P ex' use divides' less' linked sorted (dmap s) (f m) = rmap (option_map f) (find_divisor M ex use divides less linked sorted s m).
  Proof. unfold find_divisor. rewrite find_iterator_map. go. destruct a; [|reflexivity]. cbn [dmap l_list]. rewrite vget_map. go. reflexivity. Qed.
  Lemma to_front_map s m : to_front P ex' use divides' less' linked sorted (dmap s) (f m) = rmap (fun p => (dmap (fst p), option_map f (snd p))) (to_front M ex use divides less linked sorted s m).
  Proof. unfold to_front. rewrite find_iterator_map. go. destruct a; [|reflexivity]. cbn [dmap l_list]. rewrite move_to_front_map. go. rewrite vget_map. go. reflexivity. Qed.

  Lemma step_map s o o' : dop_rel o o' -> step P ex' nvars T sort_data use divides' less' linked sorted auto ratio rmin sort_ext' (dmap s) o' =
    rmap (fun p => (dmap (fst p), dout_map (snd p))) (step M ex nvars T sort_data use divides less linked sorted auto ratio rmin sort_ext s o).
  Proof.
    intros [e|es|m|m|m|m cb cb' Hc|m cb cb' Hc|cb cb' Hc|m| |]; cbn [step].
    - rewrite dinsert_map. go. reflexivity.
    - rewrite insert_range_map. go. reflexivity.
    - rewrite remove_multiples_map. go. now destruct a as [[? ?] ?].
    - rewrite remove_element_map. now destruct (remove_element M ex nvars s m).
    - rewrite find_divisor_map. go. reflexivity.
    - rewrite (all_divisors_map s m cb cb' Hc). go. reflexivity.
    - now rewrite (all_multiples_map s m cb cb' Hc).
    - now rewrite (for_all_map s cb cb' Hc).
    - rewrite to_front_map. go. now destruct a.
    - rewrite rebuild_list_map. go. reflexivity.
    - cbn. now rewrite map_length.
  Qed.
  Lemma dl_run_map ops ops' : Forall2 dop_rel ops ops' -> forall s, run (step P ex' nvars T sort_data use divides' less' linked sorted auto ratio rmin sort_ext') (dmap s) ops' =
    rmap (fun p => (dmap (fst p), map dout_map (snd p))) (run (step M ex nvars T sort_data use divides less linked sorted auto ratio rmin sort_ext) s ops).
  Proof. induction 1 as [|o o' ops ops' Ho _ IH]; intros s; cbn [run]; [reflexivity|]. rewrite (step_map s o o' Ho). go. destruct a as [s1 r]. cbn [fst snd]. rewrite IH. go. now destruct a as [s2 rs]. Qed.
End Relabel.
