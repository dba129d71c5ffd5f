(** Names as lists of words (C76). *)
From Coq Require Import List Bool Arith NArith Ascii String Lia.
From Verif.Base Require Import Text.
From Verif.Geobucket Require Import Model.
From Verif.KD Require Import EntryArray.
From Verif.Report Require Import Names.
Import ListNotations.
Local Notation length := List.length.

(** Words, each with a space before it *)
Definition spaced (ws : list text) : text := flat_map (fun w => space :: w) ws.
Definition no_space (w : text) : Prop := ~ In space w.

(** The text up to the first character [c] *)
Lemma split_at (c : ascii) (a a' b b' : text) : ~ In c a -> ~ In c a' -> a ++ c :: b = a' ++ c :: b' -> a = a' /\ b = b'.
Proof.
  revert a'. induction a as [|x a IH]; intros [|x' a'] Ha Ha' H; cbn in *.
  - injection H; auto.
  - injection H as -> _. tauto.
  - injection H as -> _. tauto.
  - injection H as -> H. destruct (IH a') as [-> ->]; auto.
Qed.
Lemma spaced_inj ws : forall ws' a a', Forall no_space ws -> Forall no_space ws' -> no_space a -> no_space a' -> a ++ spaced ws = a' ++ spaced ws' -> a = a' /\ ws = ws'.
Proof.
  induction ws as [|w ws IH]; intros [|w' ws'] a a' Hw Hw' Ha Ha' H; cbn [spaced flat_map] in H; rewrite ?app_nil_r in H.
  - auto.
  - subst a. exfalso. apply Ha. apply in_or_app. right. now left.
  - subst a'. exfalso. apply Ha'. apply in_or_app. right. now left.
  - cbn [app] in H. apply split_at in H as [-> H]; auto. inversion Hw; inversion Hw'; subst. destruct (IH ws' w w') as [-> ->]; auto.
Qed.
Lemma digit_not c n : digit_value c = None -> ~ In c (decimal n).
Proof.
  intros Hc. destruct (decimal_denotes n) as (ds & -> & H & _). intros X. apply in_map_iff in X as (d & <- & Hd). rewrite Forall_forall in H.
  rewrite digit_value_digit in Hc by auto. discriminate.
Qed.
Lemma decimal_no_space n : no_space (decimal n).
Proof. now apply digit_not. Qed.
Lemma no_space_app a b : no_space a -> no_space b -> no_space (a ++ b).
Proof. unfold no_space. intros Ha Hb H. apply in_app_or in H. tauto. Qed.
Lemma no_space_txt s : forallb (fun c => negb (Ascii.eqb c space)) (txt s) = true -> no_space (txt s).
Proof. intros H X. rewrite forallb_forall in H. specialize (H _ X). rewrite Ascii.eqb_refl in H. discriminate. Qed.

(** A word that is there or not *)
Definition word (b : bool) (s : string) : list text := if b then [txt s] else [].
Lemma spaced_app a b : spaced (a ++ b) = spaced a ++ spaced b.
Proof. apply flat_map_app. Qed.
Lemma opt_word b s : opt b (String " " s) = spaced (word b s).
Proof. unfold opt, word. destruct b; cbn [spaced flat_map app]; [now rewrite app_nil_r|reflexivity]. Qed.
Lemma words_no_space b s : forallb (fun c => negb (Ascii.eqb c space)) (txt s) = true -> Forall no_space (word b s).
Proof. intros H. unfold word. destruct b; constructor; auto. now apply no_space_txt. Qed.

(** ** Geobucket *)
Definition geo_words (C : config) : list text :=
  word (minBucketBinarySearch C) "mbin" ++ word (trackFront C) "tf" ++ word (supportDeduplication C) "dedup" ++ word (premerge C) "prem" ++ word (collectMax C) "col" ++
  word (match bucketStorage C with DoubleBuffer => true | _ => false end) "db" ++ word (match bucketStorage C with SameSizeBuffer => true | _ => false end) "ss".
Definition geo_head (C : config) : text :=
  txt "Geobucket(" ++ txt "b" ++ decimal (N.of_nat (geoBase C)) ++ txt "m" ++ decimal (N.of_nat (minBucketSize C)) ++ txt "i" ++ decimal (N.of_nat (insertFactor C)).
Lemma geobucket_words C : geobucket_name C = (geo_head C ++ spaced (geo_words C)) ++ txt ")".
Proof. unfold geobucket_name, geo_head, geo_words. rewrite !spaced_app, !opt_word, <- !app_assoc. reflexivity. Qed.
Lemma geo_words_ok C : Forall no_space (geo_words C).
Proof. unfold geo_words. repeat (apply Forall_app; split); now apply words_no_space. Qed.
Lemma geo_head_ok C : no_space (geo_head C).
Proof. unfold geo_head. repeat apply no_space_app; try apply decimal_no_space; now apply no_space_txt. Qed.
Lemma geo_head_inj C C' : geo_head C = geo_head C' -> geoBase C = geoBase C' /\ minBucketSize C = minBucketSize C' /\ insertFactor C = insertFactor C'.
Proof.
  unfold geo_head. intros H. apply app_inv_head in H. apply app_inv_head in H. cbn [txt list_ascii_of_string app] in H.
  apply split_at in H as [H1 H]; try now apply digit_not. apply split_at in H as [H2 H3]; try now apply digit_not.
  apply decimal_inj in H1, H2, H3. lia.
Qed.
Lemma geo_words_inj C C' : geo_words C = geo_words C' -> minBucketBinarySearch C = minBucketBinarySearch C' /\ trackFront C = trackFront C' /\
  supportDeduplication C = supportDeduplication C' /\ premerge C = premerge C' /\ collectMax C = collectMax C' /\ bucketStorage C = bucketStorage C'.
Proof.
  unfold geo_words. destruct (minBucketBinarySearch C), (minBucketBinarySearch C'), (trackFront C), (trackFront C'); try (cbn; intros; exfalso; clear -H; congruence);
  destruct (supportDeduplication C), (supportDeduplication C'); try (cbn; intros; exfalso; clear -H; congruence);
  destruct (premerge C), (premerge C'); try (cbn; intros; exfalso; clear -H; congruence);
  destruct (collectMax C), (collectMax C'); try (cbn; intros; exfalso; clear -H; congruence);
  destruct (bucketStorage C), (bucketStorage C'); try (cbn; intros; exfalso; clear -H; congruence); auto 10.
Qed.
Lemma geobucket_name_inj C C' : geobucket_name C = geobucket_name C' -> C = C'.
Proof.
  rewrite !geobucket_words. intros H. apply app_inv_tail in H. apply spaced_inj in H as [H1 H2]; auto using geo_words_ok, geo_head_ok.
  apply geo_head_inj in H1 as (E1 & E2 & E3). apply geo_words_inj in H2 as (F1 & F2 & F3 & F4 & F5 & F6). destruct C, C'. cbn in *. congruence.
Qed.

(** ** DivList and KDTree *)
(** How a ratio may be shown: no space and no slash *)
Definition plain_ratio (t : text) : Prop := no_space t /\ ~ In "/"%char t.
Definition auto_word (shown : bool) (ratio : text) (rmin : nat) : list text := if shown then [txt "autob:" ++ ratio ++ txt "/" ++ decimal (N.of_nat rmin)] else [].
Lemma autob_words mask auto ratio rmin : autob mask auto ratio rmin = spaced (auto_word (mask && auto) ratio rmin).
Proof. unfold autob, auto_word. destruct (mask && auto); [cbn [spaced flat_map]; now rewrite app_nil_r|reflexivity]. Qed.
Lemma auto_word_ok b ratio rmin : plain_ratio ratio -> Forall no_space (auto_word b ratio rmin).
Proof.
  intros [H _]. unfold auto_word. destruct b; constructor; auto. repeat apply no_space_app; auto using decimal_no_space; now apply no_space_txt.
Qed.
Lemma auto_word_inj b b' ratio ratio' rmin rmin' ws ws' : plain_ratio ratio -> plain_ratio ratio' ->
  (forall w, In w ws -> hd_error w <> Some "a"%char) -> (forall w, In w ws' -> hd_error w <> Some "a"%char) ->
  auto_word b ratio rmin ++ ws = auto_word b' ratio' rmin' ++ ws' -> b = b' /\ (b = true -> ratio = ratio' /\ rmin = rmin') /\ ws = ws'.
Proof.
  intros [_ Hr] [_ Hr'] Hw Hw' H. destruct b, b'; cbn [auto_word app] in H.
  - injection H as H1 H2. apply split_at in H1 as [-> H1]; auto. apply decimal_inj in H1. assert (rmin = rmin') by lia. auto.
  - subst ws'. exfalso. apply (Hw' (txt "autob:" ++ ratio ++ txt "/" ++ decimal (N.of_nat rmin))); [now left|reflexivity].
  - subst ws. exfalso. apply (Hw (txt "autob:" ++ ratio' ++ txt "/" ++ decimal (N.of_nat rmin'))); [now left|reflexivity].
  - subst. repeat split; discriminate.
Qed.
Ltac no_a := let w := fresh in let H := fresh in intros w H; unfold word in H; repeat (apply in_app_or in H; destruct H as [H|H]);
  repeat match type of H with In _ (if ?b then _ else _) => destruct b end; cbn in H; repeat destruct H as [<- |H]; try contradiction; cbn; congruence.

Lemma divlist_words linked mask auto sorted ratio rmin : divlist_name linked mask auto sorted ratio rmin =
  txt "DivList" ++ spaced ((if linked then txt "linked" else txt "array") :: auto_word (mask && auto) ratio rmin ++ word sorted "sort" ++ word mask "dmask").
Proof.
  unfold divlist_name. change (spaced (?w :: ?l)) with ((space :: w) ++ spaced l). rewrite !spaced_app, autob_words, !opt_word. destruct linked; reflexivity.
Qed.
Lemma divlist_name_inj linked mask auto sorted ratio rmin linked' mask' auto' sorted' ratio' rmin' : plain_ratio ratio -> plain_ratio ratio' ->
  divlist_name linked mask auto sorted ratio rmin = divlist_name linked' mask' auto' sorted' ratio' rmin' ->
  linked = linked' /\ mask = mask' /\ sorted = sorted' /\ (mask = true -> auto = auto' /\ (auto = true -> ratio = ratio' /\ rmin = rmin')).
Proof.
  intros Hr Hr'. rewrite !divlist_words. intros H. apply spaced_inj in H as [_ H]; try now apply no_space_txt.
  2, 3: constructor; [now destruct linked + destruct linked'; apply no_space_txt|repeat (apply Forall_app; split); (now apply auto_word_ok) || (now apply words_no_space)].
  assert (Hl : linked = linked') by (destruct linked, linked'; auto; discriminate). injection H as _ H. apply auto_word_inj in H as (H1 & H2 & H3); auto; try no_a.
  assert (mask = mask' /\ sorted = sorted') as [-> ->] by (clear -H3; destruct mask, mask', sorted, sorted'; cbn in H3; auto; discriminate).
  do 3 (split; [assumption || reflexivity|]). intros ->. cbn [andb] in H1, H2. auto.
Qed.

Section KD.
  Context {M : Type}.
  Implicit Types C : kconf M.
  Definition kd_words C (ratio : text) : list text :=
    (txt "leaf:" ++ decimal (N.of_nat (c_leaf C))) :: auto_word (c_use C && c_auto C) ratio (c_min C) ++
    word (c_use C && negb (c_tree C)) "dmask" ++ word (c_tree C) "tree-dmask" ++ word (c_sorted C) "sort" ++ word (c_cache C) "cache" ++ word (negb (c_removals C)) "no-removals".
  Lemma kdtree_words C packed ratio : kdtree_name C packed ratio = (txt "KDTree(" ++ alt packed "packed" "binary" ++ txt ")") ++ spaced (kd_words C ratio).
  Proof.
    unfold kdtree_name, kd_words. change (spaced (?w :: ?l)) with ((space :: w) ++ spaced l). rewrite !spaced_app, autob_words, !opt_word.
    replace (if c_removals C then [] else txt " no-removals") with (spaced (word (negb (c_removals C)) "no-removals")) by (destruct (c_removals C); reflexivity).
    rewrite <- !app_assoc. reflexivity.
  Qed.
  Lemma kd_words_ok C ratio : plain_ratio ratio -> Forall no_space (kd_words C ratio).
  Proof.
    intros H. unfold kd_words. constructor; [apply no_space_app; [now apply no_space_txt|apply decimal_no_space]|].
    repeat (apply Forall_app; split); (now apply auto_word_ok) || (now apply words_no_space).
  Qed.
  Lemma kdtree_name_inj C C' packed packed' ratio ratio' : plain_ratio ratio -> plain_ratio ratio' -> (c_tree C = true -> c_use C = true) -> (c_tree C' = true -> c_use C' = true) ->
    kdtree_name C packed ratio = kdtree_name C' packed' ratio' ->
    packed = packed' /\ c_leaf C = c_leaf C' /\ c_use C = c_use C' /\ c_tree C = c_tree C' /\ c_sorted C = c_sorted C' /\ c_cache C = c_cache C' /\ c_removals C = c_removals C' /\
    (c_use C = true -> c_auto C = c_auto C' /\ (c_auto C = true -> ratio = ratio' /\ c_min C = c_min C')).
  Proof.
    intros Hr Hr' Ht Ht'. rewrite !kdtree_words. intros H. apply spaced_inj in H as [Hp H]; auto using kd_words_ok.
    2, 3: repeat apply no_space_app; try now apply no_space_txt. 2: now destruct packed; apply no_space_txt. 2: now destruct packed'; apply no_space_txt.
    assert (Ep : packed = packed') by (destruct packed, packed'; auto; discriminate). unfold kd_words in H. injection H as H1 H.
    apply decimal_inj in H1. apply auto_word_inj in H as (H2 & H3 & H4); auto; try no_a.
    assert (Ew : c_use C = c_use C' /\ c_tree C = c_tree C' /\ c_sorted C = c_sorted C' /\ c_cache C = c_cache C' /\ c_removals C = c_removals C').
    { clear -H4 Ht Ht'. destruct (c_use C), (c_tree C), (c_use C'), (c_tree C'); try (specialize (Ht eq_refl); discriminate); try (specialize (Ht' eq_refl); discriminate);
      cbn [andb negb] in H4; destruct (c_sorted C), (c_sorted C'), (c_cache C), (c_cache C'), (c_removals C), (c_removals C'); cbn in H4; auto 10; discriminate. }
    destruct Ew as (E1 & E2 & E3 & E4 & E5). rewrite E1 in *. repeat split; auto; try lia.
    - rewrite H in H2. exact H2.
    - rewrite H, H0 in H3. now apply H3.
    - rewrite H, H0 in H3. now apply H3.
  Qed.
End KD.

(** ** The ends of names *)
Lemma end_inj (b b' : bool) (s t : string) (a a' : text) :
  (forall x y, rev (txt s) ++ x <> rev (txt t) ++ y) -> a ++ alt b s t = a' ++ alt b' s t -> b = b' /\ a = a'.
Proof.
  intros Hn H. destruct b, b'; cbn [alt] in H.
  - split; auto. now apply app_inv_tail in H.
  - exfalso. apply (f_equal (@rev _)) in H. rewrite !rev_app_distr in H. now apply Hn in H.
  - exfalso. apply (f_equal (@rev _)) in H. rewrite !rev_app_distr in H. symmetry in H. now apply Hn in H.
  - split; auto. now apply app_inv_tail in H.
Qed.
Lemma queue_name_inj n n' d on on' : queue_name n d on = queue_name n' d on' -> on = on' /\ n = n'.
Proof.
  unfold queue_name. rewrite !app_assoc. intros H. apply end_inj in H as [-> H]; [|intros x y E; discriminate E]. apply app_inv_tail in H. auto.
Qed.
Lemma heap_name_inj fi fi' dd dd' : heap_name fi dd = heap_name fi' dd' -> fi = fi' /\ dd = dd'.
Proof. destruct fi, fi', dd, dd'; intros H; try discriminate H; auto. Qed.
Lemma tour_name_inj fi fi' : tour_name fi = tour_name fi' -> fi = fi'.
Proof. destruct fi, fi'; intros H; try discriminate H; auto. Qed.
Lemma name_of_queue_inj q q' : name_of_queue q = name_of_queue q' -> q = q'.
Proof.
  destruct q as [on fi|on dd fi|on|on C], q' as [on' fi'|on' dd' fi'|on'|on' C']; cbn [name_of_queue]; intros H; try (exfalso; discriminate H);
    apply queue_name_inj in H as [-> H].
  - apply tour_name_inj in H as ->. reflexivity.
  - apply heap_name_inj in H as [-> ->]. reflexivity.
  - reflexivity.
  - apply geobucket_name_inj in H as ->. reflexivity.
Qed.

(** ** The finders of divsim *)
Inductive alike : DivSim.Model.subject -> DivSim.Model.subject -> Prop :=
| alike_intro St new call call' : (forall s o, call s o = call' s o) -> alike (DivSim.Model.mk_subject St new call) (DivSim.Model.mk_subject St new call').
Definition shown_of (f : finder) : text := match f with FList _ _ _ _ _ _ t _ => t | FTree _ _ _ _ _ _ _ _ _ t _ => t end.
Definition ratio_of (f : finder) : DivSim.Model.ratio := match f with FList _ _ _ _ _ r _ _ => r | FTree _ _ _ _ _ _ _ _ r _ _ => r end.
Definition masks_ok (f : finder) : Prop := match f with FTree UDM UTDM _ _ _ _ _ _ _ _ _ => UTDM = true -> UDM = true | _ => True end.

Lemma client_congr St (step step' : St -> Spec.DivFinder.dop DivSim.Model.monomial -> Base.Res.res (St * Spec.DivFinder.dout DivSim.Model.monomial)) find after mini :
  (forall s o, step s o = step' s o) -> forall s o, DivSim.Model.client_step step find after mini s o = DivSim.Model.client_step step' find after mini s o.
Proof.
  intros H s o. unfold DivSim.Model.client_step. destruct mini.
  - unfold Finders.Model.min_step, Finders.Model.min_insert. destruct o as [e|o].
    + rewrite H. unfold Base.Res.bind. destruct (step' s (find e)) as [[s1 d]| | |]; auto.
      assert (E : forall s1 : St, step s1 (Spec.DivFinder.DRemoveMultiples e) = step' s1 (Spec.DivFinder.DRemoveMultiples e)) by auto.
      rewrite E. destruct (step' s1 _) as [[s2 r]| | |]; auto. now rewrite H.
    + destruct o; auto.
  - destruct o as [e|o]; [now rewrite H|destruct o; auto].
Qed.

Definition list_part (ULL UDM sorted : bool) (r : DivSim.Model.ratio) (shown : text) (rmin : nat) : text :=
  divlist_name ULL UDM ((DivSim.Model.r_positive r || negb (Nat.eqb rmin 0)) && UDM) sorted shown rmin.
Lemma minimize_inj (mini mini' : bool) a a' : a ++ alt mini " remin" " nomin" = a' ++ alt mini' " remin" " nomin" -> mini = mini' /\ a = a'.
Proof. apply end_inj. intros x y E. discriminate E. Qed.
Lemma front_inj (b b' mini mini' : bool) a a' :
  a ++ alt mini " remin" " nomin" ++ opt b " toFront" = a' ++ alt mini' " remin" " nomin" ++ opt b' " toFront" -> b = b' /\ mini = mini' /\ a = a'.
Proof.
  rewrite !app_assoc. intros H. destruct b, b'; cbn [opt] in H.
  - apply app_inv_tail in H. apply minimize_inj in H. tauto.
  - exfalso. rewrite app_nil_r in H. apply (f_equal (@rev _)) in H. rewrite !rev_app_distr in H. destruct mini'; discriminate H.
  - exfalso. rewrite app_nil_r in H. apply (f_equal (@rev _)) in H. rewrite !rev_app_distr in H. destruct mini; discriminate H.
  - rewrite !app_nil_r in H. apply minimize_inj in H. tauto.
Qed.

Lemma list_alike std ULL UDM mini toFront sorted r r' rmin rmin' :
  (DivSim.Model.r_positive r || negb (Nat.eqb rmin 0)) && UDM = (DivSim.Model.r_positive r' || negb (Nat.eqb rmin' 0)) && UDM ->
  ((DivSim.Model.r_positive r || negb (Nat.eqb rmin 0)) && UDM = true -> r = r' /\ rmin = rmin') ->
  alike (DivSim.Model.list_model std 10 ULL UDM mini toFront sorted r rmin) (DivSim.Model.list_model std 10 ULL UDM mini toFront sorted r' rmin').
Proof.
  intros E H. unfold DivSim.Model.list_model, DivSim.Model.list_conf. rewrite <- E. destruct ((DivSim.Model.r_positive r || _) && UDM).
  - destruct (H eq_refl) as [<- <-]. now constructor.
  - apply (alike_intro (DivList.Model.dlist DivSim.Model.monomial)). apply client_congr. intros s o. reflexivity.
Qed.
Lemma tree_alike std UDM UTDM PT LS AR mini sorted cache r r' rmin rmin' :
  (DivSim.Model.r_positive r || negb (Nat.eqb rmin 0)) && UDM = (DivSim.Model.r_positive r' || negb (Nat.eqb rmin' 0)) && UDM ->
  ((DivSim.Model.r_positive r || negb (Nat.eqb rmin 0)) && UDM = true -> r = r' /\ rmin = rmin') ->
  alike (DivSim.Model.tree_model std 10 UDM UTDM PT LS AR mini sorted cache r rmin) (DivSim.Model.tree_model std 10 UDM UTDM PT LS AR mini sorted cache r' rmin').
Proof.
  intros E H. unfold DivSim.Model.tree_model, DivSim.Model.tree_conf. rewrite <- E. destruct ((DivSim.Model.r_positive r || _) && UDM).
  - destruct (H eq_refl) as [<- <-]. now constructor.
  - apply (alike_intro (KD.Model.kd DivSim.Model.monomial)). apply client_congr. intros s o. reflexivity.
Qed.

Lemma name_of_finder_alike std f f' : plain_ratio (shown_of f) -> plain_ratio (shown_of f') -> (shown_of f = shown_of f' -> ratio_of f = ratio_of f') ->
  masks_ok f -> masks_ok f' -> name_of_finder std f = name_of_finder std f' -> alike (finder_model std f) (finder_model std f').
Proof.
  intros Hp Hp' Hr Hm Hm' H.
  destruct f as [ULL UDM mini toFront sorted r shown rmin|UDM UTDM PT LS AR mini sorted cache r shown rmin],
    f' as [ULL' UDM' mini' toFront' sorted' r' shown' rmin'|UDM' UTDM' PT' LS' AR' mini' sorted' cache' r' shown' rmin'];
    cbn [name_of_finder finder_model shown_of ratio_of masks_ok] in *; try (exfalso; discriminate H).
  - apply front_inj in H as (<- & <- & H). apply divlist_name_inj in H as (<- & <- & <- & H); auto. destruct UDM.
    + destruct (H eq_refl) as [E H']. apply list_alike; auto. intros Ha. destruct (H' Ha). auto.
    + apply list_alike; rewrite !andb_false_r; auto. discriminate.
  - apply minimize_inj in H as [<- H]. apply kdtree_name_inj in H; auto. cbn [DivSim.Model.tree_conf c_leaf c_use c_tree c_sorted c_cache c_removals c_auto c_min] in H.
    destruct H as (<- & <- & <- & <- & <- & <- & <- & H). destruct UDM.
    + destruct (H eq_refl) as [E H']. apply tree_alike; auto. intros Ha. destruct (H' Ha). auto.
    + apply tree_alike; rewrite !andb_false_r; auto. discriminate.
Qed.
