(** Lemmas for C110: Geobucket commutes with functions on entries that the configuration does not notice. *)
From Coq Require Import List Arith Bool Lia.
From Verif.Base Require Import Res Arr.
From Verif.Spec Require Import PQ.
From Verif.Geobucket Require Import Model.
From Verif.Queues Require Import RelabelProofs.
Import ListNotations.

Section Relabel.
  Context {E F : Type} (f : E -> F) (lt eqv : E -> E -> bool) (lt' eqv' : F -> F -> bool) (dedup : E -> E -> E) (dedup' : F -> F -> F) (C : config).
  Hypothesis Hlt : forall a b, lt' (f a) (f b) = lt a b.
  Hypothesis Heq : supportDeduplication C = true -> forall a b, eqv' (f a) (f b) = eqv a b.
  Hypothesis Hdd : supportDeduplication C = true -> forall a b, dedup' (f a) (f b) = f (dedup a b).

  Definition bmap (b : bucket E) : bucket F := mk_b (b_cap b) (map f (b_ents b)) (option_map f (b_back b)).
  Definition gmap (g : geobucket E) : geobucket F := mk_gb (map bmap (g_bs g)) (g_count g) (g_front g).
  Notation bmaps := (map bmap).

  Lemma size_map b : b_size F (bmap b) = b_size E b.
  Proof. apply map_length. Qed.
  Lemma empty_map b : b_empty F (bmap b) = b_empty E b.
  Proof. unfold b_empty. cbn [bmap b_ents]. now destruct (b_ents b). Qed.
  Lemma last_map l : last_entry F (map f l) = option_map f (last_entry E l).
  Proof. unfold last_entry. now rewrite map_length, nth_error_map. Qed.
  Lemma bk_back_map b : bk_back F C (bmap b) = rmap f (bk_back E C b).
  Proof.
    unfold bk_back. rewrite empty_map. destruct (b_empty E b); [reflexivity|]. cbn [bmap b_ents b_back]. rewrite last_map. destruct (collectMax C); [now destruct (b_back b)|now destruct (last_entry E (b_ents b))].
  Qed.
  Lemma new_back_map l o : new_back F (map f l) (option_map f o) = option_map f (new_back E l o).
  Proof. unfold new_back. rewrite last_map. now destruct (last_entry E l). Qed.
  Lemma bk_pop_back_map b : bk_pop_back F C (bmap b) = rmap bmap (bk_pop_back E C b).
  Proof.
    unfold bk_pop_back. rewrite empty_map. destruct (b_empty E b); [reflexivity|]. cbv zeta. cbn [bmap b_ents b_back b_cap rmap bind]. rewrite removelast_map, new_back_map. unfold bmap. cbn [b_ents b_back b_cap]. now destruct (collectMax C).
  Qed.
  Lemma bk_setEntry_map b pos x : bk_setEntry F C (bmap b) pos (f x) = rmap bmap (bk_setEntry E C b pos x).
  Proof.
    unfold bk_setEntry. cbn [bmap b_ents b_back b_cap]. rewrite vset_map. go. cbn [rmap bind]. rewrite map_length. unfold bmap. cbn [b_ents b_back b_cap]. now destruct (_ && _).
  Qed.
  Lemma bk_insert_map n b pos x : bk_insertAtNotEnd F n (bmap b) pos (f x) = rmap bmap (bk_insertAtNotEnd E n b pos x).
  Proof.
    unfold bk_insertAtNotEnd. rewrite size_map. destruct (_ && _); [|reflexivity]. cbn [bmap b_ents b_back b_cap rmap bind]. unfold bmap. cbn [b_ents b_back b_cap]. now rewrite map_app, <- firstn_map, map_cons, <- skipn_map.
  Qed.
  Lemma bk_push_back_map n b x : bk_push_back F C n (bmap b) (f x) = rmap bmap (bk_push_back E C n b x).
  Proof.
    unfold bk_push_back. rewrite size_map. destruct (_ <? _); [|reflexivity]. cbn [bmap b_ents b_back b_cap rmap bind]. unfold bmap. cbn [b_ents b_back b_cap]. rewrite map_app. now destruct (collectMax C).
  Qed.
  Lemma bk_hold_map n b l : bk_hold F n (bmap b) (map f l) = rmap bmap (bk_hold E n b l).
  Proof. unfold bk_hold. rewrite map_length. destruct (_ <=? _); [|reflexivity]. cbn [bmap b_cap b_back]. now rewrite new_back_map. Qed.
  Lemma largest_map bs : largest F (bmaps bs) = largest E bs.
  Proof. unfold largest. rewrite <- map_rev. now destruct (rev bs). Qed.
  Lemma area_map bs b : area F C (bmaps bs) (bmap b) = area E C bs b.
  Proof. unfold area. rewrite largest_map. now destruct (bucketStorage C). Qed.
  Lemma key_map bs i : key F C (bmaps bs) i = rmap f (key E C bs i).
  Proof. unfold key. rewrite vget_map. go. apply bk_back_map. Qed.

  Lemma ki_map pos : forall bs a slots toks b, ki_loop F lt' C (bmaps bs) a slots toks b pos = ki_loop E lt C bs a slots toks b pos.
  Proof. induction pos as [|p IH]; intros; cbn [ki_loop]; [reflexivity|]. go. rewrite key_map. go. rewrite key_map. go. rewrite Hlt. destruct (lt _ _); [|reflexivity]. go. go. apply IH. Qed.
  Definition kmap (p : list (bucket E) * nat * front) : list (bucket F) * nat * front := (bmaps (fst (fst p)), snd (fst p), snd p).
  Lemma kd_map k : forall bs cnt a slots n toks b pos, kd_loop F lt' eqv' dedup' C k (bmaps bs) cnt a slots n toks b pos = rmap kmap (kd_loop E lt eqv dedup C k bs cnt a slots n toks b pos).
  Proof.
    induction k as [|k IH]; intros; cbn [kd_loop].
    - go. go. reflexivity.
    - go. rewrite key_map. go. rewrite key_map. go. rewrite Hlt. destruct (lt a1 a2); [go; go; apply IH|]. destruct (supportDeduplication C) eqn:Sd; cbn [negb orb].
      + rewrite (Heq eq_refl). destruct (negb (eqv a1 a2)); [go; go; reflexivity|]. rewrite vget_map. go. rewrite size_map, (Hdd eq_refl), bk_setEntry_map. go. rewrite vset_map. go. rewrite vget_map. go. rewrite bk_pop_back_map. go. rewrite vset_map. go. go.
        rewrite empty_map. destruct (b_empty E _); [go; go; reflexivity|go; go; apply IH].
      + go. go. reflexivity.
  Qed.
  Lemma keyIncreased_map bs fr b : f_keyIncreased F lt' C (bmaps bs) fr b = f_keyIncreased E lt C bs fr b.
  Proof. destruct fr; cbn [f_keyIncreased]; [reflexivity|]. go. go. now rewrite ki_map. Qed.
  Lemma f_insert_map bs fr b : f_insert F lt' C (bmaps bs) fr b = f_insert E lt C bs fr b.
  Proof. destruct fr; cbn [f_insert]; [reflexivity|]. go. destruct a0 as [[? ?] ?]. go. go. apply keyIncreased_map. Qed.
  Lemma keyDecreased_map bs cnt fr b : f_keyDecreased F lt' eqv' dedup' C (bmaps bs) cnt fr b = rmap kmap (f_keyDecreased E lt eqv dedup C bs cnt fr b).
  Proof. destruct fr; cbn [f_keyDecreased]; [reflexivity|]. rewrite vget_map. go. rewrite empty_map. destruct (b_empty E _); [go; reflexivity|]. go. go. destruct (_ <=? _); [reflexivity|apply kd_map]. Qed.
  Lemma first_nonempty_map bs : forall i, first_nonempty F (bmaps bs) i = first_nonempty E bs i.
  Proof. induction bs as [|b bs IH]; intros i; cbn [first_nonempty map]; [reflexivity|]. rewrite empty_map. destruct (b_empty E b); auto. Qed.
  Lemma cm_map k : forall bs cnt m it, cm_loop F lt' eqv' dedup' C k (bmaps bs) cnt m it = rmap (fun p => (bmaps (fst (fst p)), snd (fst p), snd p)) (cm_loop E lt eqv dedup C k bs cnt m it).
  Proof.
    induction k as [|k IH]; intros; cbn [cm_loop]; [reflexivity|]. rewrite vget_map. go. rewrite empty_map. destruct (b_empty E _); [apply IH|]. rewrite bk_back_map. go. rewrite key_map. go. rewrite Hlt. destruct (lt _ _); [apply IH|].
    destruct (supportDeduplication C) eqn:Sd; cbn [andb]; [|apply IH]. rewrite (Heq eq_refl). destruct (eqv _ _); [|apply IH].
    rewrite vget_map. go. rewrite size_map, (Hdd eq_refl), bk_setEntry_map. go. rewrite vset_map. go. rewrite vget_map. go. rewrite bk_pop_back_map. go. rewrite vset_map. go. go. apply IH.
  Qed.
  Lemma getMax_map g : gb_getMax F lt' eqv' dedup' C (gmap g) = rmap (fun p => (gmap (fst p), snd p)) (gb_getMax E lt eqv dedup C g).
  Proof.
    unfold gb_getMax. cbn [gmap g_bs g_count g_front]. destruct (g_front g) as [[m|]|a slots n toks] eqn:Fr.
    - cbn. unfold gmap. cbn. now rewrite Fr.
    - rewrite first_nonempty_map, map_length. go. rewrite cm_map. go. now destruct a0 as [[? ?] ?].
    - destruct (n =? 0); [reflexivity|]. go. unfold gmap. cbn. now rewrite Fr.
  Qed.
  Lemma addBucket_map g : gb_addBucket F C (gmap g) = rmap gmap (gb_addBucket E C g).
  Proof.
    unfold gb_addBucket. cbn [gmap g_bs g_count g_front].
    set (sz := match g_bs g with [] => minBucketSize C | _ => largest E (g_bs g) * geoBase C end).
    replace (match bmaps (g_bs g) with [] => minBucketSize C | _ => largest F (bmaps (g_bs g)) * geoBase C end) with sz by (rewrite largest_map; subst sz; now destruct (g_bs g)).
    cbv zeta. assert (Hm : bmaps (g_bs g) ++ [mk_b sz [] None] = bmaps (g_bs g ++ [mk_b sz [] None])) by (now rewrite map_app). rewrite Hm. destruct (g_front g); [reflexivity|]. rewrite map_length. go. now destruct a0 as [[? ?] ?].
  Qed.
  Lemma merge_map l1 : forall l2, gb_merge F lt' eqv' dedup' C (map f l1) (map f l2) = (map f (fst (gb_merge E lt eqv dedup C l1 l2)), snd (gb_merge E lt eqv dedup C l1 l2)).
  Proof.
    induction l1 as [|a l1 IH1]; intros l2; [reflexivity|]. induction l2 as [|b l2 IH2]; [reflexivity|]. cbn [gb_merge map] in *. rewrite Hlt. destruct (lt a b).
    - specialize (IH1 (b :: l2)). cbn [map] in IH1. rewrite IH1. now destruct (gb_merge E lt eqv dedup C l1 (b :: l2)).
    - destruct (supportDeduplication C) eqn:Sd; cbn [negb orb] in *.
      + rewrite (Heq eq_refl). destruct (negb (eqv a b)).
        * rewrite IH2. match goal with |- context [fst ?x] => now destruct x end.
        * rewrite IH1, (Hdd eq_refl). now destruct (gb_merge E lt eqv dedup C l1 l2).
      + rewrite IH2. match goal with |- context [fst ?x] => now destruct x end.
  Qed.
  Lemma mergeRange_map g i l : gb_mergeRange F lt' eqv' dedup' C (gmap g) i (map f l) = rmap gmap (gb_mergeRange E lt eqv dedup C g i l).
  Proof.
    unfold gb_mergeRange. cbv zeta. cbn [gmap g_bs g_count g_front]. rewrite vget_map. go. cbn [bmap b_ents].
    destruct (match bucketStorage C with Plain => gb_merge E lt eqv dedup C l (b_ents a) | _ => gb_merge E lt eqv dedup C (b_ents a) l end) as [r k] eqn:Em.
    replace (match bucketStorage C with Plain => gb_merge F lt' eqv' dedup' C (map f l) (map f (b_ents a)) | _ => gb_merge F lt' eqv' dedup' C (map f (b_ents a)) (map f l) end) with (map f r, k)
      by (destruct (bucketStorage C); rewrite merge_map, Em; reflexivity).
    go. change (mk_b (b_cap a) (map f (b_ents a)) (option_map f (b_back a))) with (bmap a). rewrite largest_map, size_map, area_map. match goal with |- context [if ?c then UB else _] => destruct c end; [reflexivity|].
    rewrite bk_hold_map. go. rewrite vset_map. go. rewrite keyIncreased_map. go. reflexivity.
  Qed.
  Lemma clear_map b : bk_clear F (bmap b) = bmap (bk_clear E b).
  Proof. reflexivity. Qed.
  Lemma mergeToNonEmpty_map g i j : gb_mergeToNonEmpty F lt' eqv' dedup' C (gmap g) i j = rmap gmap (gb_mergeToNonEmpty E lt eqv dedup C g i j).
  Proof.
    unfold gb_mergeToNonEmpty. cbn [gmap g_bs g_count g_front]. go. go. rewrite vget_map. go. change (mk_gb (bmaps (g_bs g)) (g_count g) a0) with (gmap (mk_gb (g_bs g) (g_count g) a0)). cbn [bmap b_ents]. rewrite mergeRange_map. go.
    cbn [gmap g_bs g_count g_front]. rewrite vget_map. go. rewrite clear_map, vset_map. go. go. reflexivity.
  Qed.
  Lemma mergeToEmpty_map g i j l : gb_mergeToEmpty F lt' eqv' dedup' C (gmap g) i j (map f l) = rmap gmap (gb_mergeToEmpty E lt eqv dedup C g i j l).
  Proof.
    unfold gb_mergeToEmpty. cbv zeta. cbn [gmap g_bs g_count g_front]. rewrite vget_map. go. rewrite vget_map. go. change (b_ents (bmap a0)) with (map f (b_ents a0)). rewrite merge_map. destruct (gb_merge E lt eqv dedup C l (b_ents a0)) as [r k]. cbn [fst snd]. go.
    rewrite area_map, bk_hold_map. go. rewrite vset_map. go. rewrite clear_map, vset_map. go. go. rewrite keyIncreased_map. go. reflexivity.
  Qed.
  Lemma moveToEmpty_map g i j : gb_moveToEmpty F C (gmap g) i j = rmap gmap (gb_moveToEmpty E C g i j).
  Proof.
    unfold gb_moveToEmpty. cbv zeta. cbn [gmap g_bs g_count g_front]. rewrite vget_map. go. rewrite vget_map. go. change (b_ents (bmap a0)) with (map f (b_ents a0)). rewrite area_map, bk_hold_map. go. rewrite vset_map. go. rewrite clear_map, vset_map. go. go. reflexivity.
  Qed.
  Lemma assign_map g i l : gb_assign F lt' C (gmap g) i (map f l) = rmap gmap (gb_assign E lt C g i l).
  Proof. unfold gb_assign. cbn [gmap g_bs g_count g_front]. rewrite vget_map. go. rewrite area_map, bk_hold_map. go. rewrite vset_map. go. rewrite f_insert_map. go. reflexivity. Qed.
  Lemma grow_map fuel : forall g i n, grow_loop F C fuel (gmap g) i n = rmap gmap (grow_loop E C fuel g i n).
  Proof.
    induction fuel as [|k IH]; intros; cbn [grow_loop]; [reflexivity|]. change (g_bs (gmap g)) with (bmaps (g_bs g)). rewrite map_length, rmap_bind.
    match goal with |- bind _ ?k = bind ?m _ => transitivity (bind (rmap gmap m) k); [apply (f_equal (fun z => bind z k))|] end.
    - destruct (_ =? _); [apply addBucket_map|reflexivity].
    - go. change (g_bs (gmap a)) with (bmaps (g_bs a)). rewrite vget_map. go. cbv zeta. rewrite size_map. change (b_cap (bmap a0)) with (b_cap a0). destruct (_ <=? _); [reflexivity|apply IH].
  Qed.
  Lemma carry_map go1 go2 : (forall g b l, go2 (gmap g) b (map f l) = rmap gmap (go1 g b l)) ->
    forall g b l, carry F lt' eqv' dedup' C go2 (gmap g) b (map f l) = rmap gmap (carry E lt eqv dedup C go1 g b l).
  Proof.
    intros Hg g b l. unfold carry. cbn [gmap g_bs g_count g_front]. rewrite vget_map. go. rewrite vget_map. go. rewrite empty_map. destruct (b_empty E a0); [apply (mergeToEmpty_map g)|]. change (b_ents (bmap a)) with (map f (b_ents a)). rewrite merge_map.
    destruct (gb_merge E lt eqv dedup C l (b_ents a)) as [r k]. cbn [fst snd]. go. rewrite largest_map, map_length. destruct (_ <? _); [reflexivity|]. rewrite clear_map, vset_map. go. go. apply (Hg (mk_gb a2 a1 a3)).
  Qed.
  Lemma carry_loop_map fuel : forall g b l, carry_loop F lt' eqv' dedup' C fuel (gmap g) b (map f l) = rmap gmap (carry_loop E lt eqv dedup C fuel g b l).
  Proof.
    induction fuel as [|k IH]; intros; cbn [carry_loop]; [reflexivity|]. change (g_bs (gmap g)) with (bmaps (g_bs g)). rewrite vget_map. go. rewrite size_map, map_length. cbn [bmap b_cap]. destruct (_ <=? _); [apply mergeRange_map|apply carry_map, IH].
  Qed.
  Lemma nopremerge_map g b l : gb_insert_nopremerge F lt' eqv' dedup' C (gmap g) b (map f l) = rmap gmap (gb_insert_nopremerge E lt eqv dedup C g b l).
  Proof.
    unfold gb_insert_nopremerge. change (g_bs (gmap g)) with (bmaps (g_bs g)). rewrite vget_map. go. rewrite empty_map, size_map, !map_length. change (b_cap (bmap a)) with (b_cap a). destruct (b_empty E a); [apply assign_map|].
    destruct (_ <=? _); [apply mergeRange_map|]. rewrite grow_map. go. change (g_bs (gmap a0)) with (bmaps (g_bs a0)). rewrite map_length. apply carry_map, carry_loop_map.
  Qed.
  Lemma pre_range_map fuel : forall g r n, pre_range F C fuel (gmap g) r n = rmap (fun p => (gmap (fst p), snd p)) (pre_range E C fuel g r n).
  Proof.
    induction fuel as [|k IH]; intros; cbn [pre_range]; [reflexivity|]. change (g_bs (gmap g)) with (bmaps (g_bs g)). rewrite vget_map. go. rewrite size_map, map_length. change (b_cap (bmap a)) with (b_cap a). destruct (_ <=? _); [reflexivity|].
    destruct (_ =? _); [|apply IH]. rewrite addBucket_map. go. reflexivity.
  Qed.
  Lemma pre_moves_map k : forall g r, pre_moves F C k (gmap g) r = rmap gmap (pre_moves E C k g r).
  Proof. induction k as [|k IH]; intros; cbn [pre_moves]; [reflexivity|]. rewrite moveToEmpty_map. go. apply IH. Qed.
  Lemma premerge_map g b l : gb_insert_premerge F lt' eqv' dedup' C (gmap g) b (map f l) = rmap gmap (gb_insert_premerge E lt eqv dedup C g b l).
  Proof.
    unfold gb_insert_premerge. change (g_bs (gmap g)) with (bmaps (g_bs g)). rewrite !map_length, pre_range_map. go. destruct a as [g1 r]. cbn [fst snd]. change (g_bs (gmap g1)) with (bmaps (g_bs g1)). rewrite rmap_bind.
    match goal with |- bind _ ?k = bind ?m _ => transitivity (bind (rmap gmap m) k); [apply (f_equal (fun z => bind z k))|] end.
    - destruct (b =? r); [reflexivity|]. rewrite vget_map. go. rewrite empty_map. destruct (b_empty E a); [apply pre_moves_map|]. rewrite mergeToNonEmpty_map. go. apply pre_moves_map.
    - go. change (g_bs (gmap a)) with (bmaps (g_bs a)). rewrite vget_map. go. rewrite empty_map. destruct (b_empty E a0); [apply assign_map|apply mergeRange_map].
  Qed.
  Lemma insert_map g b l : gb_insert F lt' eqv' dedup' C (gmap g) b (map f l) = rmap gmap (gb_insert E lt eqv dedup C g b l).
  Proof. unfold gb_insert. destruct (premerge C); [apply premerge_map|apply nopremerge_map]. Qed.
  Lemma bin_map fuel : forall l x b r, bin_search F lt' eqv' C fuel (map f l) (f x) b r = bin_search E lt eqv C fuel l x b r.
  Proof.
    induction fuel as [|k IH]; intros; cbn [bin_search]; [reflexivity|]. rewrite map_length. destruct (r =? 0); [reflexivity|]. cbv zeta. rewrite vget_map. go. rewrite Hlt. destruct (lt x a); [apply IH|].
    destruct (supportDeduplication C) eqn:Sd; cbn [negb orb]; [|apply IH]. rewrite (Heq eq_refl). destruct (negb _); [apply IH|reflexivity].
  Qed.
  Lemma lin_map l x : forall pos, lin_search F lt' eqv' C (map f l) (f x) pos = lin_search E lt eqv C l x pos.
  Proof.
    induction l as [|y l IH]; intros pos; cbn [lin_search map]; [reflexivity|]. rewrite Hlt. destruct (lt x y); [reflexivity|]. destruct (supportDeduplication C) eqn:Sd; cbn [andb]; [|apply IH]. rewrite (Heq eq_refl). destruct (eqv x y); [reflexivity|apply IH].
  Qed.
  Lemma lin_dup l x : forall pos i, lin_search E lt eqv C l x pos = PDup i -> supportDeduplication C = true.
  Proof. induction l as [|y l IH]; intros pos i; cbn [lin_search]; [discriminate|]. destruct (lt x y); [discriminate|]. destruct (supportDeduplication C); [reflexivity|]. apply IH. Qed.
  Lemma bin_dup fuel : forall l x b r i, bin_search E lt eqv C fuel l x b r = Ok (PDup i) -> supportDeduplication C = true.
  Proof.
    induction fuel as [|k IH]; intros l x b r i H; cbn [bin_search] in H; [discriminate|]. destruct (r =? 0); [destruct (b =? _); discriminate|]. cbv zeta in H. destruct (vget l (b + r / 2)); cbn [bind] in H; try discriminate.
    destruct (lt x a); [eauto|]. destruct (supportDeduplication C); [reflexivity|]. cbn [negb orb] in H. eauto.
  Qed.
  Lemma gpush_map g x : gb_push F lt' eqv' dedup' C (gmap g) (f x) = rmap gmap (gb_push E lt eqv dedup C g x).
  Proof.
    unfold gb_push. cbv zeta. change (g_bs (gmap g)) with (bmaps (g_bs g)). change (g_count (gmap g)) with (g_count g). change (g_front (gmap g)) with (g_front g). rewrite vget_map. go. rewrite size_map, empty_map, area_map. change (b_cap (bmap a)) with (b_cap a).
    change (b_ents (bmap a)) with (map f (b_ents a)). destruct (_ =? _); [apply (insert_map (mk_gb (g_bs g) (S (g_count g)) (g_front g)) 0 [x])|]. destruct (b_empty E a).
    - rewrite bk_push_back_map. go. rewrite vset_map. go. rewrite f_insert_map. go. reflexivity.
    - rewrite bin_map, lin_map. destruct (if minBucketBinarySearch C then _ else _) as [pl| | |] eqn:Hp; cbn [bind]; try reflexivity. destruct pl as [i| |i].
      + rewrite bk_insert_map. go. rewrite vset_map. go. reflexivity.
      + rewrite bk_push_back_map. go. rewrite vset_map. go. rewrite keyIncreased_map. go. reflexivity.
      + assert (Sd : supportDeduplication C = true) by (destruct (minBucketBinarySearch C); [eapply bin_dup; exact Hp|injection Hp as Hp; eapply lin_dup; exact Hp]).
        rewrite vget_map. go. rewrite (Hdd Sd), bk_setEntry_map. go. rewrite vset_map. go. go. reflexivity.
  Qed.
  Lemma add_map fuel : forall g n, add_loop F C fuel (gmap g) n = rmap gmap (add_loop E C fuel g n).
  Proof. induction fuel as [|k IH]; intros; cbn [add_loop]; [reflexivity|]. change (g_bs (gmap g)) with (bmaps (g_bs g)). rewrite largest_map. destruct (_ <? _); [|reflexivity]. rewrite addBucket_map. go. apply IH. Qed.
  Lemma find_map bs : forall n i, find_bucket F (bmaps bs) n i = find_bucket E bs n i.
  Proof. induction bs as [|b bs IH]; intros; cbn [find_bucket map]; [reflexivity|]. change (b_cap (bmap b)) with (b_cap b). destruct (_ <=? _); [reflexivity|apply IH]. Qed.
  Lemma pushRange_map g xs : gb_pushRange F lt' eqv' dedup' C (gmap g) (map f xs) = rmap gmap (gb_pushRange E lt eqv dedup C g xs).
  Proof.
    unfold gb_pushRange. cbv zeta. rewrite map_length. change (mk_gb (g_bs (gmap g)) (g_count (gmap g) + length xs) (g_front (gmap g))) with (gmap (mk_gb (g_bs g) (g_count g + length xs) (g_front g))). rewrite add_map. go.
    change (g_bs (gmap a)) with (bmaps (g_bs a)). rewrite find_map. go. rewrite <- map_rev. apply insert_map.
  Qed.
  Lemma gpop_map g : gb_pop F lt' eqv' dedup' C (gmap g) = rmap (fun p => (gmap (fst p), f (snd p))) (gb_pop E lt eqv dedup C g).
  Proof.
    unfold gb_pop. rewrite getMax_map. go. destruct a as [g1 m]. cbn [fst snd gmap g_bs g_count g_front]. rewrite vget_map. go. rewrite bk_back_map. go. rewrite bk_pop_back_map. go. rewrite vset_map. go. go. rewrite keyDecreased_map. go. now destruct a4 as [[? ?] ?].
  Qed.
  Lemma gtop_map g : gb_top F lt' eqv' dedup' C (gmap g) = rmap (fun p => (gmap (fst p), f (snd p))) (gb_top E lt eqv dedup C g).
  Proof. unfold gb_top. rewrite getMax_map. go. destruct a as [g1 m]. cbn [fst snd]. change (g_bs (gmap g1)) with (bmaps (g_bs g1)). rewrite key_map. go. reflexivity. Qed.
  Lemma gdecreaseTop_map g x : gb_decreaseTop F lt' eqv' dedup' C (gmap g) (f x) = rmap gmap (gb_decreaseTop E lt eqv dedup C g x).
  Proof. unfold gb_decreaseTop. rewrite gpop_map. go. destruct a as [g1 y]. cbn [fst]. apply gpush_map. Qed.
  Lemma gb_step_map g o : gb_step F lt' eqv' dedup' C (gmap g) (op_map f o) = rmap (fun p => (gmap (fst p), out_map f (snd p))) (gb_step E lt eqv dedup C g o).
  Proof.
    destruct o as [x|xs| | |x| | | |]; cbn [gb_step op_map]; try reflexivity.
    - rewrite gpush_map. go. reflexivity.
    - rewrite pushRange_map. go. reflexivity.
    - rewrite gpop_map. go. now destruct a.
    - rewrite gtop_map. go. now destruct a.
    - rewrite gdecreaseTop_map. go. reflexivity.
    - cbn. unfold gb_clear, gmap. cbn [g_bs g_count g_front]. now rewrite !map_map.
    - cbn. unfold gb_forAll. cbn [gmap g_bs]. rewrite !flat_map_concat_map, concat_map, !map_map. reflexivity.
  Qed.
  Lemma gb_new_map : gb_new F C = gmap (gb_new E C).
  Proof. reflexivity. Qed.
End Relabel.
