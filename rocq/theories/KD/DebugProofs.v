(** Proofs about the self-checks of the KD trees. *)
From Coq Require Import List Arith Bool ZArith NArith Lia Permutation.
From Verif.Base Require Import Res Arr ResList StdAlg Order Sort.
From Verif.DivMask Require Import Model Proofs.
From Verif.Spec Require Import Reach DivFinder DivFinderFacts.
From Verif.KD Require Import EntryArray Legal ArrayProofs Tree TreeProofs Model Proofs Debug.
Import ListNotations.
Local Notation length := List.length.

Section Debug.
  Context {M : Type}.
  Variable C : kconf M.
  Variable valid : M -> bool.
  Hypothesis HL : klegal C valid.
  Notation ext := (ext M).
  Notation earray := (earray M).
  Notation tree := (tree M).
  Notation nvars := (c_nvars C).
  Notation above := (above C).
  Notation arr_inv := (arr_inv C valid).
  Notation tree_inv := (tree_inv C valid).
  Notation root_inv := (root_inv C valid).
  Notation mask_below := (mask_below C).

  (** ** Masks *)
  Definition sub (m m' : N) : Prop := forall i, N.testbit m i = true -> N.testbit m' i = true.
  Lemma sub_refl m : sub m m.
  Proof. unfold sub. auto. Qed.
  Lemma sub_trans a b c : sub a b -> sub b c -> sub a c.
  Proof. unfold sub. auto. Qed.
  Lemma sub_max m : narrow m -> sub m max_mask.
  Proof.
    intros Hn i Hi. unfold max_mask. destruct (N.lt_ge_cases i 32) as [H|H]; [now apply N.ones_spec_low|]. rewrite Hn in Hi by exact H. discriminate.
  Qed.
  Lemma sub_and a b c : sub a b -> sub a c -> sub a (combine_and b c).
  Proof. intros H1 H2 i Hi. rewrite combine_bit, (H1 i Hi), (H2 i Hi). reflexivity. Qed.
  Lemma and_sub_l a b : sub (combine_and a b) a.
  Proof. intros i Hi. rewrite combine_bit in Hi. now apply andb_prop in Hi as [Hi _]. Qed.
  Lemma and_sub_r a b : sub (combine_and a b) b.
  Proof. intros i Hi. rewrite combine_bit in Hi. now apply andb_prop in Hi as [_ Hi]. Qed.
  Lemma sub_below m m' : narrow m -> sub m m' -> mask_below m m' = true.
  Proof. intros Hn Hs. unfold Debug.mask_below. destruct (c_tree C); auto. cbn [negb orb]. now apply can_divide_spec. Qed.

  (** [masked m t]: the mask of every node of [t] is below those of the nodes underneath, and [m] is below all of them. *)
  Fixpoint masked (m : N) (t : tree) : Prop :=
    match t with
    | Leaf a => sub m (a_mask a)
    | Split _ _ mask le gt => narrow mask /\ sub m mask /\ masked mask le /\ masked mask gt
    end.
  Lemma masked_sub m m' t : sub m' m -> masked m t -> masked m' t.
  Proof.
    destruct t as [a|v x mask le gt]; cbn [masked]; [intros H1 H2; eapply sub_trans; eauto|].
    intros H (H1 & H2 & H3). split; auto. split; auto. eapply sub_trans; eauto.
  Qed.
  Lemma masked_node m t : masked m t -> sub m (node_mask t).
  Proof. destruct t as [a|v x mask le gt]; cbn [masked node_mask]; [auto|]. intros (_ & H & _). exact H. Qed.
  Lemma masked_children m t : masked m t -> (forall v x m' n, In (v, x, m', n) (children t) -> sub m m' /\ narrow m' /\ masked m' n) /\ sub m (a_mask (node_entries t)).
  Proof.
    revert m. induction t as [a|v x mask le IHl gt IHg]; intros m; cbn [masked children node_entries].
    - intros H. split; auto. intros v x m' n [].
    - intros (Hn & H1 & H2 & H3). destruct (IHl mask H2) as [H4 H5]. split; [|eapply sub_trans; eauto].
      intros v' x' m' n [E|Hin]; [injection E as <- <- <- <-; auto|]. destruct (H4 _ _ _ _ Hin) as (G1 & G2 & G3).
      split; [eapply sub_trans; eauto|auto].
  Qed.

  (** ** The checks hold *)
  (** What the subtree [n] of a tree satisfies *)
  Record good (bits : list (nat * Z)) (m : N) (t n : tree) : Prop := {
    g_inv : tree_inv bits n;
    g_masked : c_tree C = true -> masked m n;
    g_in : forall y, In y (tree_entries n) -> In y (tree_entries t) }.
  Lemma good_self bits m t : tree_inv bits t -> (c_tree C = true -> masked m t) -> good bits m t t.
  Proof. split; auto. Qed.
  Lemma good_le bits m v x mask le gt : tree_inv bits (Split v x mask le gt) -> (c_tree C = true -> masked m (Split v x mask le gt)) ->
    good bits m (Split v x mask le gt) le.
  Proof.
    cbn [TreeProofs.tree_inv masked tree_entries]. intros (_ & _ & _ & _ & H & _) Hm. split; auto.
    - intros Ht. destruct (Hm Ht) as (_ & H1 & H2 & _). eapply masked_sub; eauto.
    - intros y Hy. apply in_or_app. auto.
  Qed.
  Lemma good_gt bits m v x mask le gt : tree_inv bits (Split v x mask le gt) -> (c_tree C = true -> masked m (Split v x mask le gt)) ->
    good bits m (Split v x mask le gt) gt.
  Proof.
    cbn [TreeProofs.tree_inv masked tree_entries]. intros (_ & _ & _ & _ & _ & H) Hm. split; auto.
    - intros Ht. destruct (Hm Ht) as (_ & H1 & _ & H2). eapply masked_sub; eauto.
    - intros y Hy. apply in_or_app. auto.
  Qed.
  Lemma good_trans bits m t u n : good bits m t u -> good bits m u n -> good bits m t n.
  Proof. intros [H1 H2 H3] [H4 H5 H6]. split; auto. Qed.

  Lemma all_nodes_good bits m t : tree_inv bits t -> (c_tree C = true -> masked m t) -> forall n, In n (all_nodes t) -> good bits m t n.
  Proof.
    induction t as [a|v x mask le IHl gt IHg]; intros Hi Hm n; cbn [all_nodes].
    - intros [<-|[]]. now apply good_self.
    - intros [<-|Hin]; [now apply good_self|]. pose proof (good_le _ _ _ _ _ _ _ Hi Hm) as [L1 L2 L3]. pose proof (good_gt _ _ _ _ _ _ _ Hi Hm) as [G1 G2 G3].
      apply in_app_or in Hin as [Hin|Hin]; [apply (good_trans _ _ _ gt); [split|]|apply (good_trans _ _ _ le); [split|]]; auto.
  Qed.
  Lemma packed_nodes_good bits m t : tree_inv bits t -> (c_tree C = true -> masked m t) -> forall top n, In n (packed_nodes top t) -> good bits m t n.
  Proof.
    induction t as [a|v x mask le IHl gt IHg]; intros Hi Hm top n; cbn [packed_nodes].
    - rewrite app_nil_r. destruct top; [|intros []]. intros [<-|[]]. now apply good_self.
    - intros Hin. apply in_app_or in Hin as [Hin|Hin].
      { destruct top; [|destruct Hin]. destruct Hin as [<-|[]]. now apply good_self. }
      pose proof (good_le _ _ _ _ _ _ _ Hi Hm) as [L1 L2 L3]. pose proof (good_gt _ _ _ _ _ _ _ Hi Hm) as [G1 G2 G3].
      apply in_app_or in Hin as [Hin|Hin]; [apply (good_trans _ _ _ gt); [split|]|apply (good_trans _ _ _ le); [split|]]; eauto.
  Qed.

  Lemma node_entries_inv bits t : tree_inv bits t -> arr_inv bits (node_entries t) /\ filled C (node_entries t).
  Proof. induction t as [a|v x mask le IHl gt IHg]; cbn [TreeProofs.tree_inv node_entries]; auto. intros (_ & _ & _ & _ & H & _). auto. Qed.
  Lemma node_entries_in (t : tree) y : In y (a_list (node_entries t)) -> In y (tree_entries t).
  Proof. induction t as [a|v x mask le IHl gt IHg]; cbn [tree_entries node_entries]; auto. intros H. apply in_or_app. auto. Qed.
  Lemma children_in (t : tree) v x m n y : In (v, x, m, n) (children t) -> In y (tree_entries n) -> In y (tree_entries t).
  Proof.
    induction t as [a|v' x' m' le IHl gt IHg]; cbn [tree_entries children]; [intros []|]. intros [E|H] Hy; apply in_or_app; auto. injection E as _ _ _ ->. auto.
  Qed.
  Lemma children_inv bits t v x m n : tree_inv bits t -> In (v, x, m, n) (children t) -> tree_inv bits n /\ v < nvars.
  Proof.
    induction t as [a|v' x' m' le IHl gt IHg]; cbn [TreeProofs.tree_inv children]; [intros _ []|]. intros (Hv & _ & _ & _ & Hl & Hg) [E|H]; auto.
    injection E as <- _ _ <-. auto.
  Qed.

  Lemma arr_debug_ok bits a : arr_inv bits a -> filled C a -> arr_debug C a = true.
  Proof.
    intros Ha Hf. unfold arr_debug. apply andb_true_intro. split; [apply andb_true_intro; split|].
    - destruct (c_removals C) eqn:Hr; auto. cbn [orb]. specialize (Hf Hr). destruct (a_list a); [congruence|reflexivity].
    - apply Nat.leb_le, (r_len _ _ _ _ Ha).
    - destruct (c_tree C) eqn:Ht; auto. destruct (1 <? c_leaf C); auto. cbn [andb negb orb]. apply forallb_forall. intros y Hy.
      destruct (r_mask _ _ _ _ Ha Ht) as [H1 H2]. apply can_divide_spec; auto.
  Qed.
  Lemma all_above_ok v x a : (forall y, In y (a_list a) -> above v x (x_t y) = true) -> all_above C v x a = true.
  Proof. intros H. apply forallb_forall. exact H. Qed.
  Lemma all_not_above_ok v x a : (forall y, In y (a_list a) -> above v x (x_t y) = false) -> all_not_above C v x a = true.
  Proof. intros H. apply forallb_forall. intros y Hy. apply H in Hy. unfold Tree.above in Hy. now rewrite Hy. Qed.
  Lemma masks m m' : (c_tree C = true -> narrow m /\ sub m m') -> mask_below m m' = true.
  Proof.
    intros H. destruct (c_tree C) eqn:Ht; [|unfold Debug.mask_below; now rewrite Ht]. destruct (H eq_refl). now apply sub_below.
  Qed.

  Lemma side_binary_ok bits m ok t : tree_inv bits t -> (c_tree C = true -> narrow m /\ masked m t) ->
    (forall a, (forall y, In y (a_list a) -> In y (tree_entries t)) -> ok a = true) -> side_binary C m ok t = true.
  Proof.
    intros Hi Hm Ho. apply forallb_forall. intros n Hn. apply (all_nodes_good bits m) in Hn as [G1 G2 G3]; auto; [|intros Ht; now apply Hm].
    apply andb_true_intro. split.
    - apply masks. intros Ht. split; [now apply Hm|]. now apply masked_node, G2.
    - destruct n as [a|]; auto.
  Qed.
  Lemma side_packed_ok bits m ok t : tree_inv bits t -> (c_tree C = true -> narrow m /\ masked m t) ->
    (forall a, (forall y, In y (a_list a) -> In y (tree_entries t)) -> ok a = true) -> side_packed C m ok t = true.
  Proof.
    intros Hi Hm Ho. apply forallb_forall. intros n Hn. apply (packed_nodes_good bits m) in Hn as [G1 G2 G3]; auto; [|intros Ht; now apply Hm].
    apply andb_true_intro. split; [apply andb_true_intro; split|].
    - apply forallb_forall. intros [[[v x] m'] c] Hc. apply masks. intros Ht. split; [now apply Hm|]. now apply (proj1 (masked_children m n (G2 Ht))) in Hc as [Hc _].
    - apply Ho. intros y Hy. now apply G3, node_entries_in.
    - apply masks. intros Ht. split; [now apply Hm|]. apply (masked_children m n (G2 Ht)).
  Qed.
  Lemma ancestor_ok bits m a t : tree_inv bits t -> (c_tree C = true -> masked m t) -> (forall y, In y (a_list a) -> In y (a_list (node_entries t))) ->
    ancestor_debug C a t = true.
  Proof.
    revert m. induction t as [b|v x mask le IHl gt IHg]; intros m Hi Hm Ha; cbn [ancestor_debug]; auto. cbn [TreeProofs.tree_inv masked node_entries] in *.
    destruct Hi as (Hv & _ & Hle & Hgt & Hil & Hig).
    assert (Hmk : c_tree C = true -> narrow mask /\ masked mask le /\ masked mask gt) by (intros Ht; destruct (Hm Ht) as (G1 & _ & G2); auto).
    repeat (apply andb_true_intro; split).
    - apply (side_packed_ok bits); auto; [intros Ht; destruct (Hmk Ht) as (G1 & G2 & G3); auto|]. intros b Hb. apply all_above_ok. auto.
    - apply all_not_above_ok. intros y Hy. apply Hle, node_entries_in, Ha, Hy.
    - apply forallb_forall. intros [[[v' x'] m'] c] Hc. apply masks. intros Ht. destruct (Hmk Ht) as (G1 & G2 & G3). split; auto.
      apply (proj1 (masked_children mask le G2) _ _ _ _ Hc).
    - apply forallb_forall. intros [[[v' x'] m'] c] Hc. apply (side_packed_ok bits).
      + now apply (children_inv bits le v' x' m').
      + intros Ht. destruct (Hmk Ht) as (G1 & G2 & G3). split; auto. destruct (proj1 (masked_children mask le G2) _ _ _ _ Hc) as (K1 & K2 & K3).
        now apply (masked_sub m').
      + intros b Hb. apply all_not_above_ok. intros y Hy. apply Hle. eapply children_in; eauto.
    - apply (IHl mask); auto. intros Ht. now apply Hmk.
  Qed.
  Lemma debug_binary_ok bits t : tree_inv bits t -> (c_tree C = true -> masked 0 t) -> debug_binary C t = true.
  Proof.
    intros Hi Hm. apply andb_true_intro. split; apply forallb_forall; intros n Hn; apply (all_nodes_good bits 0%N) in Hn as [G1 G2 _]; auto.
    - destruct n as [a|v x m le gt]; auto. apply Nat.ltb_lt. now destruct G1.
    - destruct n as [a|v x m le gt]; cbn [TreeProofs.tree_inv masked] in *; [destruct G1; now apply (arr_debug_ok bits)|].
      destruct G1 as (Hv & _ & Hle & Hgt & Hil & Hig).
      apply andb_true_intro. split; apply (side_binary_ok bits); auto; try (intros Ht; destruct (G2 Ht) as (K1 & K2 & K3 & K4); auto).
      + intros a Ha. apply all_not_above_ok. auto.
      + intros a Ha. apply all_above_ok. auto.
  Qed.
  Lemma debug_packed_ok bits t : tree_inv bits t -> (c_tree C = true -> masked 0 t) -> debug_packed C t = true.
  Proof.
    intros Hi Hm. apply andb_true_intro. split; apply forallb_forall; intros n Hn; apply (packed_nodes_good bits 0%N) in Hn as [G1 G2 _]; auto.
    - apply andb_true_intro. split; [destruct (node_entries_inv bits n G1); now apply (arr_debug_ok bits)|].
      apply forallb_forall. intros [[[v x] m] c] Hc. apply andb_true_intro. split; [apply Nat.ltb_lt; now apply (children_inv bits n v x m c)|].
      apply masks. intros Ht. specialize (G2 Ht). clear - G2 Hc. revert G2. generalize 0%N. induction n as [a|v' x' m' le IHl gt IHg]; intros P; cbn [children masked node_entries] in *.
      { destruct Hc. }
      intros (K1 & K2 & K3 & K4). destruct Hc as [E|Hc]; [|eauto]. injection E as <- <- <- <-. split; auto. apply (masked_children _ _ K3).
    - apply (ancestor_ok bits 0%N); auto.
  Qed.
  Lemma chain_ok m t : (c_tree C = true -> masked m t) -> chain_debug C t = true.
  Proof.
    revert m. induction t as [a|v x mask le IHl gt IHg]; intros m; cbn [chain_debug masked]; auto. intros H.
    apply andb_true_intro. split; [apply andb_true_intro; split|].
    - apply masks. intros Ht. destruct (H Ht) as (H1 & H2 & H3 & H4). split; auto. now apply masked_node.
    - apply masks. intros Ht. destruct (H Ht) as (H1 & H2 & H3 & H4). split; auto. now apply masked_node.
    - apply (IHl mask). intros Ht. destruct (H Ht) as (H1 & H2 & H3 & H4). auto.
  Qed.
  Definition root_masked (root : option tree) : Prop := match root with None => True | Some t => c_tree C = true -> masked 0 t end.
  Lemma tree_debug_ok packed bits root : root_inv bits root -> root_masked root -> tree_debug C packed root = true.
  Proof.
    destruct root as [t|]; auto. cbn [TreeProofs.root_inv root_masked tree_debug]. intros H1 H2.
    destruct packed; [now apply (debug_packed_ok bits)|now apply (debug_binary_ok bits)].
  Qed.
  Lemma nodes_debug_ok packed bits root : root_inv bits root -> root_masked root -> nodes_debug C packed root = true.
  Proof.
    destruct root as [t|]; auto. cbn [TreeProofs.root_inv root_masked nodes_debug]. intros H1 H2. destruct packed; auto. cbn [negb orb].
    apply forallb_forall. intros n Hn. apply (packed_nodes_good bits 0%N) in Hn as [G1 G2 _]; auto. unfold node_debug. apply andb_true_intro. split.
    - destruct (node_entries_inv bits n G1). now apply (arr_debug_ok bits).
    - now apply (chain_ok 0%N).
  Qed.

  (** ** The operations keep the masks in order *)
  Lemma klower_and m m' : c_tree C = true -> klower C m m' = combine_and m m'.
  Proof. intros Ht. unfold klower, lower_bound. now rewrite Ht. Qed.
  Lemma arr_insert_masked bits m a e a' : c_tree C = true -> arr_inv bits a -> sub m (a_mask a) -> arr_insert C a e = Ok a' -> sub (combine_and m (x_mask e)) (a_mask a').
  Proof.
    intros Ht Ha Hm. unfold arr_insert. assert (Hpb : forall a1, push_back C a e = Ok a1 -> sub (combine_and m (x_mask e)) (a_mask a1)).
    { unfold push_back. destruct (length (a_list a) <? c_leaf C); [|discriminate]. intros a1 [= <-]. cbn [a_mask]. rewrite klower_and by auto.
      apply sub_and; [|apply and_sub_r]. eapply sub_trans; [apply and_sub_l|auto]. }
    destruct (negb (c_sorted C)); auto. destruct (upper_bound (kcomp C) (a_list a) e) as [it| | |]; cbn [bind]; try discriminate.
    unfold insert_at. destruct (it =? length (a_list a)); auto. destruct (vget (a_list a) (length (a_list a) - 1)) as [b| | |] eqn:Hb; cbn [bind]; try discriminate.
    unfold push_back. destruct (length (a_list a) <? c_leaf C); cbn [bind a_list a_mask]; [|discriminate].
    destruct (move_up _ _ _) as [l| | |]; cbn [bind]; try discriminate. destruct (vset l it e) as [l'| | |]; cbn [bind]; try discriminate. intros [= <-]. cbn [a_mask].
    rewrite !klower_and by auto. apply vget_ok, nth_error_In in Hb. destruct (r_mask _ _ _ _ Ha Ht) as [_ Hbl].
    apply sub_and; [|apply and_sub_r]. eapply sub_trans; [apply and_sub_l|]. apply sub_and; auto. eapply sub_trans; [apply Hm|]. exact (Hbl b Hb).
  Qed.
  Lemma push_all_masked m : c_tree C = true -> forall l a a', sub m (a_mask a) -> (forall y, In y l -> sub m (x_mask y)) -> push_all C a l = Ok a' -> sub m (a_mask a').
  Proof.
    intros Ht. induction l as [|e l IH]; intros a a' Hm Hl; cbn [push_all]; [now intros [= <-]|]. unfold push_back. destruct (length (a_list a) <? c_leaf C); cbn [bind]; [|discriminate].
    apply IH; [|intros y Hy; apply Hl; now right]. cbn [a_mask]. rewrite klower_and by auto. apply sub_and; auto. apply Hl. now left.
  Qed.
  Lemma sort_arr_mask (a : earray) : a_mask (sort_arr C a) = a_mask a.
  Proof. unfold sort_arr. now destruct (c_sorted C). Qed.
  Lemma arr_of_masked m l a : c_tree C = true -> narrow m -> (forall y, In y l -> sub m (x_mask y)) -> arr_of C l = Ok a -> sub m (a_mask a).
  Proof.
    intros Ht Hn Hl. unfold arr_of. destruct (push_all C arr_empty l) as [a'| | |] eqn:Hp; cbn [bind]; try discriminate. intros [= <-]. rewrite sort_arr_mask.
    eapply push_all_masked; eauto. cbn [arr_empty a_mask]. now apply sub_max.
  Qed.
  Lemma recalculate_masked m a : c_tree C = true -> narrow m -> (forall y, In y (a_list a) -> sub m (x_mask y)) -> sub m (a_mask (arr_recalculate C a)).
  Proof.
    intros Ht Hn Hl. unfold arr_recalculate. rewrite Ht. cbn [negb a_mask]. assert (H0 := sub_max m Hn). revert Hl H0. generalize max_mask.
    induction (a_list a) as [|e l IH]; intros m' Hl H0; cbn [fold_left]; auto. apply IH; [intros y Hy; apply Hl; now right|]. rewrite klower_and by auto.
    apply sub_and; auto. apply Hl. now left.
  Qed.
  Lemma split_node_masked bits m v x mask le gt e t : c_tree C = true -> narrow mask -> sub m mask -> arr_inv bits le -> arr_inv bits gt ->
    (forall i, N.testbit mask i = true -> N.testbit (x_mask e) i = true) ->
    sub mask (a_mask le) -> sub mask (a_mask gt) -> split_node C v x mask le gt e = Ok t -> masked m t.
  Proof.
    intros Ht Hn Hm Hl Hg He H1 H2.
    assert (Hmm : forall m', sub (combine_and mask (x_mask e)) m' -> sub mask m').
    { intros m' H i Hi. apply H. rewrite combine_bit, Hi, (He i Hi). reflexivity. }
    unfold split_node. destruct (above v x (x_t e)).
    - destruct (arr_insert C gt e) as [gt'| | |] eqn:Hi; cbn [bind]; try discriminate. intros [= <-]. cbn [masked]. split; auto. split; auto. split; auto.
      apply Hmm. now apply (arr_insert_masked bits mask gt).
    - destruct (arr_insert C le e) as [le'| | |] eqn:Hi; cbn [bind]; try discriminate. intros [= <-]. cbn [masked]. split; auto. split; auto. split; auto.
      apply Hmm. now apply (arr_insert_masked bits mask le).
  Qed.
  Lemma and_narrow_l a b : narrow a -> narrow (combine_and a b).
  Proof. apply combine_narrow. Qed.

  Lemma split_insert_masked (packed : bool) bits m a e var t : c_tree C = true -> narrow m -> arr_inv bits a -> is_ext C bits e -> valid (x_t e) = true ->
    sub m (a_mask a) -> (if packed then split_insert_packed C a e var else split_insert_binary C a e var) = Ok t -> masked (combine_and m (x_mask e)) t.
  Proof.
    intros Ht Hn Ha He Hv Hm. unfold split_insert_packed, split_insert_binary.
    destruct (split_for_ok C valid HL bits a e var Ha Hv) as [(v & x & l & g & -> & H1 & H2 & H3 & H4 & H5)|[-> H]]; [|destruct packed; discriminate].
    cbn [bind].
    assert (Hin : forall y, In y (l ++ g) -> In y (a_list a)) by (intros y; apply (Permutation_in _ H2)).
    assert (Hlen := Permutation_length H2). rewrite app_length in Hlen. pose proof (r_len _ _ _ _ Ha) as Hla.
    assert (Hl1 : forall y, In y l -> is_ext C bits y) by (intros y Hy; apply (r_ext _ _ _ _ Ha), Hin, in_or_app; auto).
    assert (Hl2 : forall y, In y l -> valid (x_t y) = true) by (intros y Hy; apply (r_valid _ _ _ _ Ha), Hin, in_or_app; auto).
    assert (Hg1 : forall y, In y g -> is_ext C bits y) by (intros y Hy; apply (r_ext _ _ _ _ Ha), Hin, in_or_app; auto).
    assert (Hg2 : forall y, In y g -> valid (x_t y) = true) by (intros y Hy; apply (r_valid _ _ _ _ Ha), Hin, in_or_app; auto).
    destruct (r_mask _ _ _ _ Ha Ht) as [Han Hab].
    destruct packed.
    - destruct (arr_of_ok C valid HL bits l) as (le & Hle & K1 & K2); auto; [lia|]. rewrite Hle. cbn [bind].
      destruct (kept_ok C valid HL bits g (a_mask a)) as [K3 K4]; auto; [lia|].
      intros Hs. eapply (split_node_masked bits); try exact Hs; auto; rewrite ?klower_and by auto.
      + apply combine_narrow, combine_narrow, narrow_max.
      + apply sub_and; [|apply and_sub_r]. apply sub_and; [apply sub_max, combine_narrow, Hn|]. eapply sub_trans; [apply and_sub_l|exact Hm].
      + apply and_sub_r.
      + eapply sub_trans; [apply and_sub_l|]. eapply sub_trans; [apply and_sub_r|]. apply (arr_of_masked _ l); auto. intros y Hy. refine (Hab y _). apply Hin, in_or_app. auto.
      + eapply sub_trans; [apply and_sub_l|]. eapply sub_trans; [apply and_sub_r|]. apply recalculate_masked; auto.
        intros y Hy. refine (Hab y _). apply Hin, in_or_app. right. rewrite arr_recalculate_list in K4. now apply (Permutation_in _ K4).
    - destruct (arr_of_ok C valid HL bits g) as (gt & Hgt & K1 & K2); auto; [lia|]. rewrite Hgt. cbn [bind].
      destruct (kept_ok C valid HL bits l (a_mask a)) as [K3 K4]; auto; [lia|]. set (le := arr_recalculate C (sort_arr C (mk_arr l (a_mask a)))) in *.
      assert (Hsl : sub (a_mask a) (a_mask le)).
      { apply recalculate_masked; auto. intros y Hy. refine (Hab y _). apply Hin, in_or_app. left. unfold le in K4. rewrite arr_recalculate_list in K4. now apply (Permutation_in _ K4). }
      assert (Hsg : sub (a_mask a) (a_mask gt)).
      { apply (arr_of_masked _ g); auto. intros y Hy. refine (Hab y _). apply Hin, in_or_app. auto. }
      intros Hs. eapply (split_node_masked bits); try exact Hs; auto; rewrite ?klower_and by auto.
      + apply combine_narrow, combine_narrow, combine_narrow, narrow_max.
      + apply sub_and; [|apply and_sub_r]. apply sub_and; [apply sub_and|].
        * apply sub_max, combine_narrow, Hn.
        * eapply sub_trans; [apply and_sub_l|]. eapply sub_trans; eauto.
        * eapply sub_trans; [apply and_sub_l|]. eapply sub_trans; eauto.
      + apply and_sub_r.
      + eapply sub_trans; [apply and_sub_l|]. eapply sub_trans; [apply and_sub_l|]. apply and_sub_r.
      + eapply sub_trans; [apply and_sub_l|]. apply and_sub_r.
  Qed.
  Lemma combine_mono a b c : sub a b -> sub (combine_and a c) (combine_and b c).
  Proof. intros H. apply sub_and; [|apply and_sub_r]. eapply sub_trans; [apply and_sub_l|auto]. Qed.
  Lemma insert_masked packed bits e : c_tree C = true -> is_ext C bits e -> valid (x_t e) = true -> forall t m var t', narrow m -> tree_inv bits t -> masked m t ->
    insert_tree C packed t e var = Ok t' -> masked (combine_and m (x_mask e)) t'.
  Proof.
    intros Ht He Hv. induction t as [a|v x mask le IHl gt IHg]; intros m var t' Hn Hi Hm; cbn [insert_tree TreeProofs.tree_inv masked] in *.
    - destruct Hi as [Ha _]. destruct (length (a_list a) =? c_leaf C); [now apply (split_insert_masked packed bits)|].
      destruct (arr_insert C a e) as [a'| | |] eqn:Hins; cbn [bind]; try discriminate. intros [= <-]. cbn [masked]. eapply arr_insert_masked; eauto.
    - destruct Hi as (_ & _ & _ & _ & Hil & Hig). destruct Hm as (H1 & H2 & H3 & H4). destruct (above v x (x_t e)).
      + destruct (insert_tree C packed gt e (Some v)) as [gt'| | |] eqn:Hins; cbn [bind]; try discriminate. intros [= <-]. cbn [masked]. rewrite klower_and by auto.
        split; [now apply combine_narrow|]. split; [now apply combine_mono|]. split; [|eapply IHg; eauto]. eapply masked_sub; [apply and_sub_l|auto].
      + destruct (insert_tree C packed le e (Some v)) as [le'| | |] eqn:Hins; cbn [bind]; try discriminate. intros [= <-]. cbn [masked]. rewrite klower_and by auto.
        split; [now apply combine_narrow|]. split; [now apply combine_mono|]. split; [eapply IHl; eauto|]. eapply masked_sub; [apply and_sub_l|auto].
  Qed.
  Lemma narrow_0 : narrow 0.
  Proof. intros i _. apply N.bits_0. Qed.
  Lemma sub_0 m : sub 0 m.
  Proof. intros i Hi. rewrite N.bits_0 in Hi. discriminate. Qed.
  Lemma tree_insert_masked packed bits e root root' : is_ext C bits e -> valid (x_t e) = true -> root_inv bits root -> root_masked root ->
    tree_insert C packed root e = Ok root' -> root_masked root'.
  Proof.
    intros He Hv Hi Hm. unfold tree_insert. destruct root as [t|].
    - destruct (insert_tree C packed t e None) as [t'| | |] eqn:Hins; cbn [bind]; try discriminate. intros [= <-] Ht.
      apply (masked_sub (combine_and 0 (x_mask e))); [apply sub_0|]. apply (insert_masked packed bits e Ht He Hv t 0%N None); auto. apply narrow_0.
    - cbn [insert_tree]. replace (length (a_list arr_empty) =? c_leaf C) with false.
      2: { symmetry. apply Nat.eqb_neq. pose proof (kl_leaf C valid HL). cbn. lia. }
      destruct (arr_insert C arr_empty e) as [a'| | |]; cbn [bind]; try discriminate. intros [= <-] Ht. apply sub_0.
  Qed.

  Lemma lower_masked e : c_tree C = true -> forall t m, masked m t -> masked (combine_and m (x_mask e)) (lower_masks C t e).
  Proof.
    intros Ht. induction t as [a|v x mask le IHl gt IHg]; intros m; cbn [lower_masks masked].
    - intros H. eapply sub_trans; [apply and_sub_l|exact H].
    - intros (H1 & H2 & H3 & H4). destruct (above v x (x_t e)); cbn [masked]; rewrite klower_and by auto.
      + split; [now apply combine_narrow|]. split; [now apply combine_mono|]. split; [|auto]. eapply masked_sub; [apply and_sub_l|auto].
      + split; [now apply combine_narrow|]. split; [now apply combine_mono|]. split; [auto|]. eapply masked_sub; [apply and_sub_l|auto].
  Qed.
  Lemma abandoned_masked e root : root_masked root -> root_masked (tree_abandoned C root e).
  Proof.
    intros Hm Ht. apply (masked_sub (combine_and 0 (x_mask e))); [apply sub_0|]. apply lower_masked; auto. destruct root as [t|]; [now apply Hm|]. apply sub_0.
  Qed.

  (** Removal does not touch the masks. *)
  Fixpoint same_masks (t t' : tree) : Prop :=
    match t, t' with
    | Leaf a, Leaf a' => a_mask a' = a_mask a
    | Split _ _ m le gt, Split _ _ m' le' gt' => m' = m /\ same_masks le le' /\ same_masks gt gt'
    | _, _ => False
    end.
  Lemma same_masks_refl t : same_masks t t.
  Proof. induction t; cbn [same_masks]; auto. Qed.
  Lemma same_masks_masked t : forall m t', same_masks t t' -> masked m t -> masked m t'.
  Proof.
    induction t as [a|v x mask le IHl gt IHg]; intros m [a'|v' x' mask' le' gt']; cbn [same_masks masked]; try tauto.
    - now intros ->.
    - intros (-> & H1 & H2) (H3 & H4 & H5 & H6). auto.
  Qed.
  Lemma arr_remove_mask (a : earray) m a' out n : arr_remove C a m = Ok (a', out, n) -> a_mask a' = a_mask a.
  Proof.
    unfold arr_remove, pop_back. destruct (c_leaf C =? 1).
    - destruct (a_list a) as [|x l] eqn:E; [now intros [= <- _ _]|]. destruct (kdiv C m x); [|now intros [= <- _ _]]. cbn [bind]. now intros [= <- _ _].
    - destruct (Model.remove_multiples_vector M (c_use C) (c_divides C) m (a_list a)) as [[[l o] k]| | |]; cbn [bind]; try discriminate. now intros [= <- _ _].
  Qed.
  Lemma remove_same (packed : bool) m : forall t t' out n, (if packed then remove_packed C t m else remove_binary C t m) = Ok (t', out, n) -> same_masks t t'.
  Proof.
    destruct packed; induction t as [a|v x mask le IHl gt IHg]; intros t' out n; cbn [remove_packed remove_binary].
    - destruct (arr_remove C a m) as [[[a' o] k]| | |] eqn:E; cbn [bind]; try discriminate. intros [= <- _ _]. cbn [same_masks]. eapply arr_remove_mask; eauto.
    - destruct (above v x (x_t m)).
      + destruct (remove_packed C gt m) as [[[gt' o] k]| | |] eqn:E; cbn [bind]; try discriminate. intros [= <- _ _]. cbn [same_masks].
        split; auto. split; [apply same_masks_refl|eauto].
      + destruct (remove_packed C le m) as [[[le' o] k]| | |] eqn:E; cbn [bind]; try discriminate.
        destruct (remove_packed C gt m) as [[[gt' o'] k']| | |] eqn:E'; cbn [bind]; try discriminate. intros [= <- _ _]. cbn [same_masks]. eauto.
    - destruct (arr_remove C a m) as [[[a' o] k]| | |] eqn:E; cbn [bind]; try discriminate. intros [= <- _ _]. cbn [same_masks]. eapply arr_remove_mask; eauto.
    - destruct (remove_binary C gt m) as [[[gt' o] k]| | |] eqn:E; cbn [bind]; try discriminate. destruct (negb (above v x (x_t m))).
      + destruct (remove_binary C le m) as [[[le' o'] k']| | |] eqn:E'; cbn [bind]; try discriminate. intros [= <- _ _]. cbn [same_masks]. eauto.
      + intros [= <- _ _]. cbn [same_masks]. split; auto. split; [apply same_masks_refl|eauto].
  Qed.
  Lemma tree_remove_masked packed root m root' out n : tree_remove C packed root m = Ok (root', out, n) -> root_masked root -> root_masked root'.
  Proof.
    unfold tree_remove. destruct root as [t|]; [|now intros [= <- _ _]].
    destruct (if packed then remove_packed C t m else remove_binary C t m) as [[[t' o] k]| | |] eqn:E; cbn [bind]; try discriminate. intros [= <- _ _] Hm Ht.
    eapply same_masks_masked; [|now apply Hm]. eapply remove_same; eauto.
  Qed.
  Lemma arr_remove_element_mask (a : earray) m a' b : arr_remove_element C a m = Ok (a', b) -> a_mask a' = a_mask a.
  Proof.
    unfold arr_remove_element, pop_back. destruct (Model.scan M (kequal C m) (a_list a)) as [it|]; [|now intros [= <- _]].
    destruct (move_down (a_list a) _) as [l| | |]; cbn [bind a_list a_mask]; try discriminate. destruct l; cbn [bind]; try discriminate. now intros [= <- _].
  Qed.
  Lemma remove_element_same m : forall t t' b, Tree.remove_element C t m = Ok (t', b) -> same_masks t t'.
  Proof.
    induction t as [a|v x mask le IHl gt IHg]; intros t' b; cbn [Tree.remove_element].
    - destruct (arr_remove_element C a m) as [[a' b']| | |] eqn:E; cbn [bind]; try discriminate. intros [= <- _]. cbn [same_masks]. eapply arr_remove_element_mask; eauto.
    - destruct (above v x m).
      + destruct (Tree.remove_element C gt m) as [[gt' b']| | |] eqn:E; cbn [bind]; try discriminate. intros [= <- _]. cbn [same_masks].
        split; auto. split; [apply same_masks_refl|eauto].
      + destruct (Tree.remove_element C le m) as [[le' b']| | |] eqn:E; cbn [bind]; try discriminate. intros [= <- _]. cbn [same_masks].
        split; auto. split; [eauto|apply same_masks_refl].
  Qed.
  Lemma tree_remove_element_masked root m root' b : tree_remove_element C root m = Ok (root', b) -> root_masked root -> root_masked root'.
  Proof.
    unfold tree_remove_element. destruct root as [t|]; [|now intros [= <- _]].
    destruct (Tree.remove_element C t m) as [[t' b']| | |] eqn:E; cbn [bind]; try discriminate. intros [= <- _] Hm Ht.
    eapply same_masks_masked; [|now apply Hm]. eapply remove_element_same; eauto.
  Qed.

  Lemma build_masked bits : c_tree C = true -> forall fuel l var t, build C fuel bits l var = Ok t -> masked (node_mask t) t.
  Proof.
    intros Ht. induction fuel as [|f IH]; intros l var t; cbn [build]; [discriminate|]. destruct (length l <=? c_leaf C).
    - destruct (arr_of C (map (kext C bits) l)) as [a| | |]; cbn [bind]; try discriminate. intros [= <-]. apply sub_refl.
    - destruct (split_range C l var) as [[[[v x] le] gt]| | |]; cbn [bind]; try discriminate.
      destruct (build C f bits le (Some v)) as [tle| | |] eqn:E1; cbn [bind]; try discriminate.
      destruct (build C f bits gt (Some v)) as [tgt| | |] eqn:E2; cbn [bind]; try discriminate. intros [= <-]. cbn [masked node_mask]. rewrite !klower_and by auto.
      split; [apply combine_narrow, combine_narrow, narrow_max|]. split; [apply sub_refl|].
      split; [apply (masked_sub (node_mask tle)); eauto|apply (masked_sub (node_mask tgt)); eauto].
      + eapply sub_trans; [apply and_sub_l|]. apply and_sub_r.
      + apply and_sub_r.
  Qed.
  Lemma tree_reset_masked l bits root : tree_reset C l bits = Ok root -> root_masked root.
  Proof.
    unfold tree_reset. destruct l as [|e l]; [now intros [= <-]|].
    destruct (build C (length (e :: l)) bits (e :: l) None) as [t| | |] eqn:E; cbn [bind]; try discriminate. intros [= <-] Ht.
    eapply masked_sub; [apply sub_0|]. eapply build_masked; eauto.
  Qed.

  (** ** Every reachable state *)
  Variable packed : bool.
  Variable elem : bool.
  Hypothesis Helem : elem = true -> c_cache C = false.
  Notation kd := (kd M).
  Notation inv := (inv C valid elem).
  Notation kpre := (kpre C valid packed elem).
  Notation kpre_catch := (kpre_catch valid packed elem).
  Definition dinv (s : kd) : Prop := inv s /\ root_masked (k_tree s).

  Lemma rebuild_masked (s s' : kd) : rebuild_kd C packed s = Ok s' -> root_masked (k_tree s').
  Proof.
    unfold rebuild_kd. destruct (tree_for_all C packed (k_tree s) recorder) as [l| | |]; cbn [bind]; try discriminate.
    destruct (kcalc C l) as [bits| | |]; cbn [bind]; try discriminate. destruct (tree_reset C l bits) as [t| | |] eqn:E; cbn [bind]; try discriminate.
    intros [= <-]. rewrite (proj1 (reset_fields C _)). cbn [k_tree]. eapply tree_reset_masked; eauto.
  Qed.
  Lemma report_masked (s : kd) i j s' : report_changes C packed s i j = Ok s' -> root_masked (k_tree s) -> root_masked (k_tree s').
  Proof.
    unfold report_changes. destruct (k_size s + i <? j); [discriminate|]. destruct (negb (c_auto C)); [intros [= <-]; auto|].
    destruct (i + j <? k_left s); [intros [= <-]; auto|]. intros H _. eapply rebuild_masked; eauto.
  Qed.
  Lemma rebuild_debug_ok (s s' : kd) : rebuild_kd C packed s = Ok s' -> root_inv (k_bits s') (k_tree s') -> rebuild_debug C packed s = Ok s'.
  Proof.
    unfold rebuild_kd, rebuild_debug. destruct (tree_for_all C packed (k_tree s) recorder) as [l| | |]; cbn [bind]; try discriminate.
    destruct (kcalc C l) as [bits| | |]; cbn [bind]; try discriminate. destruct (tree_reset C l bits) as [t| | |] eqn:E; cbn [bind]; try discriminate.
    intros [= <-]. destruct (reset_fields C (mk_kd t bits (k_size s) (k_left s) (k_cache s) (S (k_rebuilds s)))) as (-> & -> & _). cbn [k_tree k_bits].
    intros Hr. apply tree_reset_masked in E. rewrite (nodes_debug_ok packed bits), (tree_debug_ok packed bits); auto.
  Qed.
  Lemma report_debug_ok (s : kd) i j s' : report_changes C packed s i j = Ok s' -> root_inv (k_bits s') (k_tree s') -> report_debug C packed s i j = Ok s'.
  Proof.
    unfold report_changes, report_debug. destruct (Nat.ltb_spec (k_size s + i) j) as [H|H]; [discriminate|].
    replace (j <=? k_size s + i) with true by (symmetry; now apply Nat.leb_le). unfold asserted at 1. destruct (negb (c_auto C)); auto.
    destruct (i + j <? k_left s); auto. apply rebuild_debug_ok.
  Qed.
  Lemma insert_masked_ok (s : kd) e : dinv s -> valid e = true -> copies (same_exps (c_ex C) (c_nvars C)) e (kcontents s) < c_leaf C ->
    exists s', insert C packed s e = Ok s' /\ dinv s' /\ insert_debug C packed s e = Ok s'.
  Proof.
    intros [Hi Hm] Hv Hc. assert (H := insert_ok C valid HL packed elem Helem s e Hi Hv).
    apply Nat.ltb_lt in Hc. rewrite Hc in H. destruct H as (s' & H1 & H2 & _). exists s'. split; auto.
    assert (H := tree_insert_ok C valid HL packed (k_bits s) (kext C (k_bits s) e) (k_tree s) (kext_is_ext C (k_bits s) e) Hv (i_root _ _ _ _ Hi)).
    rewrite x_t_kext in H. rewrite kcontents_root in Hc. rewrite Hc in H. destruct H as (root & Hr & R1 & _).
    assert (Rm : root_masked root) by exact (tree_insert_masked packed (k_bits s) _ _ _ (kext_is_ext C (k_bits s) e) Hv (i_root _ _ _ _ Hi) Hm Hr).
    unfold insert in H1. unfold insert_debug. rewrite Hr in *. cbn [bind] in *. split.
    - split; auto. eapply report_masked; [exact H1|exact Rm].
    - rewrite (tree_debug_ok packed (k_bits s) (k_tree s)), (nodes_debug_ok packed (k_bits s) root), (tree_debug_ok packed (k_bits s) root); auto; [|apply Hi].
      rewrite orb_true_r. cbn [asserted andb]. apply report_debug_ok; auto. apply H2.
  Qed.
  Lemma remove_masked_ok (s : kd) m : dinv s -> c_removals C = true ->
    exists r, remove_multiples C packed s m = Ok r /\ dinv (fst (fst r)) /\ remove_multiples_debug C packed s m = Ok r.
  Proof.
    intros [Hi Hm] Hrem. destruct (remove_multiples_ok C valid HL packed elem Helem s m Hi Hrem) as (s' & out & H1 & H2 & _). eexists. split; [exact H1|]. cbn [fst].
    unfold remove_multiples in H1. unfold remove_multiples_debug. rewrite Hrem in *. cbn [negb asserted] in *.
    destruct (tree_remove C packed (k_tree s) (kext C (k_bits s) m)) as [[[root out'] n]| | |] eqn:Hr; cbn [bind] in *; try discriminate.
    assert (Rm := tree_remove_masked _ _ _ _ _ _ Hr Hm). assert (Ri : root_inv (k_bits s) root).
    { unfold tree_remove in Hr. pose proof (i_root _ _ _ _ Hi) as Hri. destruct (k_tree s) as [t|]; [|injection Hr as <- _ _; exact I].
      destruct (tree_remove_ok C valid HL packed (k_bits s) t (kext C (k_bits s) m) Hrem Hri) as (t' & out2 & E & G & _). rewrite E in Hr. cbn [bind] in Hr.
      injection Hr as <- _ _. exact G. }
    rewrite (tree_debug_ok packed (k_bits s) root) by auto. cbn [asserted].
    destruct (report_changes C packed (mk_kd root (k_bits s) (k_size s) (k_left s) (k_cache s) (k_rebuilds s)) 0 n) as [s1| | |] eqn:Hrep; cbn [bind] in H1; try discriminate.
    assert (E : s1 = s') by congruence. subst s1. split.
    - split; auto. eapply report_masked; [exact Hrep|exact Rm].
    - rewrite (report_debug_ok _ _ _ _ Hrep (i_root _ _ _ _ H2)). cbn [bind]. exact H1.
  Qed.
  Lemma element_masked_ok (s : kd) m : dinv s -> elem = true -> c_removals C = true ->
    exists r, remove_element C s m = Ok r /\ dinv (fst r) /\ remove_element_debug C packed s m = Ok r.
  Proof.
    intros [Hi Hm] He Hrem. destruct (remove_element_ok C valid elem Helem s m Hi He Hrem) as (s' & b & H1 & H2 & _). eexists. split; [exact H1|]. cbn [fst].
    unfold remove_element in H1. unfold remove_element_debug. rewrite Hrem in *. cbn [negb asserted] in *.
    destruct (tree_remove_element C (k_tree s) m) as [[root b']| | |] eqn:Hr; cbn [bind] in *; try discriminate. injection H1 as <- <-.
    assert (Rm := tree_remove_element_masked _ _ _ _ Hr Hm). split; [split; auto|].
    rewrite (tree_debug_ok packed (k_bits s) root); auto. apply (i_root _ _ _ _ H2).
  Qed.
  Lemma find_tree (s s' : kd) m r : find_divisor C s m = Ok (s', r) -> k_tree s' = k_tree s.
  Proof.
    unfold find_divisor.
    assert (H : (let* r := tree_find C (k_tree s) (kext C (k_bits s) m) in
      Ok (match r with Some _ => if c_cache C then mk_kd (k_tree s) (k_bits s) (k_size s) (k_left s) r (k_rebuilds s) else s | None => s end, r)) = Ok (s', r) -> k_tree s' = k_tree s).
    { destruct (tree_find C (k_tree s) (kext C (k_bits s) m)) as [q| | |]; cbn [bind]; try discriminate. intros [= <- _]. destruct q; auto. now destruct (c_cache C). }
    destruct (c_cache C); auto. destruct (k_cache s) as [p|]; auto. destruct (entry_at s p) as [e| | |]; cbn [bind]; try discriminate.
    destruct (c_divides C e m); [now intros [= <- _]|auto].
  Qed.

  Lemma step_debug_ok (s : kd) o : dinv s -> kpre (kcontents s) o = true ->
    exists s' r, step C packed s o = Ok (s', r) /\ dinv s' /\ step_debug C packed s o = Ok (s', r).
  Proof.
    intros Hd Hp. pose proof Hd as [Hi Hm]. destruct (step_ok C valid HL packed elem Helem s o Hi Hp) as (s' & r & H1 & H2 & H3).
    assert (Hread : k_tree s' = k_tree s -> step_debug C packed s o = step C packed s o ->
      exists s' r, step C packed s o = Ok (s', r) /\ dinv s' /\ step_debug C packed s o = Ok (s', r)).
    { intros Ht ->. exists s', r. split; auto. split; auto. split; auto. now rewrite Ht. }
    destruct o as [e|es|m|m|m|m cb|m cb|cb|m| |]; cbn [Proofs.kpre] in Hp; try discriminate.
    - clear Hread. apply andb_prop in Hp as [Hv Hc]. apply Nat.ltb_lt in Hc. destruct (insert_masked_ok s e Hd Hv Hc) as (s1 & G1 & G2 & G3). cbn [step step_debug].
      rewrite G1, G3. cbn [bind]. eauto.
    - clear Hread. destruct (remove_masked_ok s m Hd Hp) as ([[s1 b] out] & G1 & G2 & G3). cbn [step step_debug]. rewrite G1, G3. cbn [bind]. eauto.
    - clear Hread. apply andb_prop in Hp as [Hp Hrem]. apply andb_prop in Hp as [He Hpk]. destruct (element_masked_ok s m Hd He Hrem) as ([s1 b] & G1 & G2 & G3).
      cbn [step step_debug]. rewrite Hpk in *. rewrite G1, G3. cbn [bind]. eauto.
    - cbn [step step_debug] in *. unfold find_divisor_debug in *. rewrite (tree_debug_ok packed (k_bits s) (k_tree s)) in * by (auto; apply Hi).
      rewrite orb_true_r in *. cbn [asserted] in *. destruct (find_divisor C s m) as [[s1 q]| | |] eqn:Hf; cbn [bind] in *; try discriminate.
      apply find_tree in Hf. destruct q as [pl|]; [|inversion H1; subst; now apply Hread].
      destruct (entry_at s1 pl) as [e| | |] eqn:Hat; cbn [bind] in *; try discriminate. injection H1 as <- <-.
      assert (Hdiv : c_divides C e m = true) by (inversion H3; subst; cbn [is_divisor] in *; tauto).
      rewrite Hdiv in *. cbn [asserted bind] in *. apply Hread; [exact Hf|]. now rewrite Hat.
    - cbn [step step_debug] in *. apply Hread; auto. destruct (tree_divisors _ _ _ _); cbn [bind] in H1; now inversion H1.
    - cbn [step step_debug] in *. apply Hread; auto. destruct (tree_multiples _ _ _ _ _); cbn [bind] in H1; now inversion H1.
    - cbn [step step_debug] in *. apply Hread; auto. destruct (tree_for_all _ _ _ _); cbn [bind] in H1; now inversion H1.
    - clear Hread. cbn [step step_debug] in *. destruct (rebuild_kd C packed s) as [s1| | |] eqn:Hr; cbn [bind] in H1; try discriminate. injection H1 as <- <-.
      rewrite (rebuild_debug_ok _ _ Hr) by apply H2. cbn [bind]. do 2 eexists. split; [reflexivity|]. split; auto. split; auto. eapply rebuild_masked; eauto.
    - cbn [step step_debug] in *. apply Hread; auto. now inversion H1.
  Qed.
  Lemma construct_dinv s : construct C = Ok s -> dinv s.
  Proof.
    intros Hs. destruct (construct_ok C valid HL elem Helem) as (s0 & H1 & H2 & _). assert (s0 = s) by congruence. subst s0. split; auto.
    unfold construct in Hs. destruct (kcalc C []) as [bits| | |]; cbn [bind] in Hs; try discriminate. injection Hs as <-.
    rewrite (proj1 (reset_fields C _)). exact I.
  Qed.
  Lemma catching_dinv (s s' : kd) o r : dinv s -> kpre_catch o = true -> catching C packed s o = Ok (s', r) -> dinv s'.
  Proof.
    intros Hd Hp Hs. pose proof Hd as [Hi Hm]. destruct (catching_ok C valid HL packed elem Helem s o Hi Hp) as (s1 & r1 & H1 & H2 & H3).
    rewrite Hs in H1. injection H1 as <- <-. unfold catching in Hs. destruct (kpre (kcontents s) o) eqn:Hk.
    - destruct (step_debug_ok s o Hd Hk) as (s2 & r2 & G1 & G2 & _). rewrite G1 in Hs. injection Hs as <- _. exact G2.
    - destruct H3 as [-> _]. destruct (step C packed s o) as [[s2 r2]| | |]; try discriminate. injection Hs as <-. split; auto.
      destruct o; auto. apply abandoned_masked. exact Hm.
  Qed.
End Debug.
