(** The binary tree in memory represents a tree: construction. *)
From Coq Require Import List Arith Bool ZArith NArith String Lia Permutation.
From Verif.Base Require Import Res Arr ResList StdAlg Lists.
From Verif.DivMask Require Import Model.
From Verif.Spec Require Import DivFinder.
From Verif.KD Require Import EntryArray Tree.
From Verif.KDMem Require Import Arena ArenaFacts Binary BinaryProofs BinaryInsert.
Import ListNotations.
Local Notation length := List.length.

Section Reset.
  Context {M : Type}.
  Variable C : kconf M.
  Notation ext := (ext M).
  Notation tree := (tree M).
  Notation memory := (arena (bnode M)).

  (** ** What [build] makes *)
  Fixpoint built (t : tree) : Prop :=
    match t with
    | Leaf _ => True
    | Split _ _ m le gt => m = klower C (klower C max_mask (node_mask le)) (node_mask gt) /\ built le /\ built gt
    end.
  Lemma build_built bits : forall fuel l var t, build C fuel bits l var = Ok t -> built t.
  Proof.
    induction fuel as [|k IH]; intros l var t; cbn [build]; [discriminate|]. destruct (length l <=? c_leaf C).
    - destruct (arr_of C (map (kext C bits) l)); cbn [bind]; try discriminate. intros [= <-]. exact Logic.I.
    - destruct (split_range C l var) as [[[[v x] le] gt]| | |]; cbn [bind]; try discriminate.
      destruct (build C k bits le (Some v)) as [tl| | |] eqn:E1; cbn [bind]; try discriminate.
      destruct (build C k bits gt (Some v)) as [tg| | |] eqn:E2; cbn [bind]; try discriminate.
      intros [= <-]. cbn [built]. split; auto. split; eapply IH; eauto.
  Qed.
  Lemma build_nodes bits : forall fuel l var t, build C fuel bits l var = Ok t -> nodes t < 2 ^ fuel.
  Proof.
    induction fuel as [|k IH]; intros l var t; cbn [build]; [discriminate|]. assert (H2 : 2 ^ S k = 2 ^ k + 2 ^ k) by (cbn [Nat.pow]; lia).
    assert (H1 : 1 <= 2 ^ k) by (apply Nat.neq_0_lt_0, Nat.pow_nonzero; lia). destruct (length l <=? c_leaf C).
    - destruct (arr_of C (map (kext C bits) l)); cbn [bind]; try discriminate. intros [= <-]. cbn [nodes]. lia.
    - destruct (split_range C l var) as [[[[v x] le] gt]| | |]; cbn [bind]; try discriminate.
      destruct (build C k bits le (Some v)) as [tl| | |] eqn:E1; cbn [bind]; try discriminate.
      destruct (build C k bits gt (Some v)) as [tg| | |] eqn:E2; cbn [bind]; try discriminate.
      intros [= <-]. cbn [nodes]. apply IH in E1, E2. lia.
  Qed.

  (** ** The loop over the parts *)
  Definition knows (A : memory) (parent : option nat) (var : option nat) : Prop :=
    match parent with
    | None => var = None
    | Some q => exists v x m le gt, ar_get A q = Ok (BInterior v x m le gt) /\ var = Some v
    end.
  Definition hooked (A A' : memory) (parent : option nat) (is_le : bool) (p : nat) (r r' : option nat) : Prop :=
    match parent with
    | None => r' = Some p
    | Some q => r' = r /\ exists v x m le gt, ar_get A q = Ok (BInterior v x m le gt) /\
        ar_get A' q = Ok (if is_le then BInterior v x m (Some p) gt else BInterior v x m le (Some p))
    end.
  Lemma link_ok A r parent var is_le n : knows A parent var ->
    exists A' r', b_link (mk_btree (grow A n) r) parent is_le (fresh A) = Ok (mk_btree A' r') /\ ar_get A' (fresh A) = Ok n /\
      live A' = live A ++ [fresh A] /\ ar_dead A' = ar_dead A /\ fresh A' = S (fresh A) /\ hooked A A' parent is_le (fresh A) r r' /\
      (forall q, Some q <> parent -> In q (live A) -> ar_get A' q = ar_get A q).
  Proof.
    intros H. assert (Hl : forall q, In q (live A) -> q <> fresh A). { intros q Hq. destruct (live_get A q Hq) as [m Hm]. eapply get_not_fresh; eauto. }
    destruct parent as [q|]; cbn [knows b_link b_arena b_root hooked] in *.
    - destruct H as (v & x & m & le & gt & H1 & _). unfold set_child. assert (H1' : ar_get (grow A n) q = Ok (BInterior v x m le gt)) by (apply get_grow; auto).
      rewrite H1'. cbn [bind].
      set (n' := if is_le then _ else _). rewrite (set_put _ _ n' _ H1'). cbn [bind].
      exists (put (grow A n) q n'), r. split; auto. split. { rewrite (get_put_ne _ _ _ _ _ H1'); [apply get_grow_new|]. apply not_eq_sym. eapply get_not_fresh; eauto. }
      split; [rewrite live_put; apply live_grow|]. split; [reflexivity|]. split; [rewrite fresh_put; apply fresh_grow|]. split.
      + split; auto. exists v, x, m, le, gt. split; auto. eapply get_put_same; eauto.
      + intros z Hz Hzl. rewrite (get_put_ne _ _ _ _ _ H1') by congruence. apply get_grow_other. auto.
    - exists (grow A n), (Some (fresh A)). split; auto. split; [apply get_grow_new|]. split; [apply live_grow|]. split; [reflexivity|]. split; [apply fresh_grow|].
      split; auto. intros z _ Hz. apply get_grow_other. auto.
  Qed.
  Lemma reset_sim bits : forall fuel l var t, build C fuel bits l var = Ok t -> forall A r parent is_le, knows A parent var ->
    exists A' r', rep false A' (fresh A) t (seq (fresh A) (nodes t)) /\ live A' = live A ++ seq (fresh A) (nodes t) /\ ar_dead A' = ar_dead A /\
      fresh A' = fresh A + nodes t /\ hooked A A' parent is_le (fresh A) r r' /\
      (forall q, Some q <> parent -> In q (live A) -> ar_get A' q = ar_get A q) /\
      forall k todo, b_reset_loop C (nodes t + k) (mk_btree A r) bits l parent is_le todo =
        match todo with [] => Ok (mk_btree A' r', None) | (l', q) :: todo' => b_reset_loop C k (mk_btree A' r') bits l' (Some q) false todo' end.
  Proof.
    induction fuel as [|n IH]; intros l var t; cbn [build]; [discriminate|]. destruct (length l <=? c_leaf C) eqn:El.
    - destruct (arr_of C (map (kext C bits) l)) as [a| | |] eqn:Ea; cbn [bind]; try discriminate. intros [= <-] A r parent is_le Hk.
      destruct (link_ok A r parent var is_le (BLeaf a) Hk) as (A' & r' & H1 & H2 & H3 & H4 & H5 & H6 & H7).
      exists A', r'. cbn [nodes seq rep]. split; auto. split; auto. split; auto. split; [lia|]. split; auto. split; auto.
      intros k todo. cbn [Nat.add b_reset_loop]. rewrite El, Ea. cbn [bind]. rewrite new_grow. cbn [b_arena b_root] in *. rewrite H1. reflexivity.
    - destruct (split_range C l var) as [[[[v x] le] gt]| | |] eqn:Es; cbn [bind]; try discriminate.
      destruct (build C n bits le (Some v)) as [tl| | |] eqn:E1; cbn [bind]; try discriminate.
      destruct (build C n bits gt (Some v)) as [tg| | |] eqn:E2; cbn [bind]; try discriminate.
      intros [= <-] A r parent is_le Hk. set (p := fresh A).
      destruct (link_ok A r parent var is_le (BInterior v x max_mask None None) Hk) as (A1 & r1 & L1 & L2 & L3 & L4 & L5 & L6 & L7). fold p in L1, L2, L3, L5, L6.
      destruct (IH le (Some v) tl E1 A1 r1 (Some p) true) as (A2 & r2 & B1 & B2 & B3 & B4 & [B5 B5'] & B6 & B7).
      { exists v, x, max_mask, None, None. auto. }
      subst r2. destruct B5' as (v' & x' & m' & le' & gt' & B8 & B9). rewrite L2 in B8. injection B8 as <- <- <- <- <-.
      destruct (IH gt (Some v) tg E2 A2 r1 (Some p) false) as (A3 & r3 & D1 & D2 & D3 & D4 & [D5 D5'] & D6 & D7).
      { eexists v, x, _, _, _. split; [exact B9|reflexivity]. }
      subst r3. destruct D5' as (v' & x' & m' & le' & gt' & D8 & D9). rewrite B9 in D8. injection D8 as <- <- <- <- <-.
      rewrite L5 in *. rewrite B4 in *.
      assert (Hp : ~ In p (live A)). { intros Hc. destruct (live_get _ _ Hc) as [z Hz]. apply get_not_fresh in Hz. now apply Hz. }
      assert (Hin : forall q, In q (live A) -> In q (live A1)) by (intros q Hq; rewrite L3; apply in_or_app; auto).
      assert (Hin2 : forall q, In q (live A1) -> In q (live A2)) by (intros q Hq; rewrite B2; apply in_or_app; auto).
      exists A3, r1. cbn [nodes]. split.
      { exists (S p), (S p + nodes tl), (seq (S p) (nodes tl)), (seq (S p + nodes tl) (nodes tg)). split; auto. split.
        - apply (rep_frame false tl A2); auto. intros q Hq. apply D6.
          + intros [= ->]. apply in_seq in Hq. lia.
          + eapply rep_live; eauto.
        - split; auto. cbn [seq]. rewrite <- seq_app. reflexivity. }
      split. { rewrite D2, B2, L3, <- !app_assoc. cbn [app seq]. rewrite <- seq_app. reflexivity. }
      split; [congruence|]. split; [lia|]. split.
      { destruct parent as [q|]; cbn [hooked] in *; auto. destruct L6 as [-> (v' & x' & m' & le' & gt' & F1 & F2)]. split; auto.
        exists v', x', m', le', gt'. split; auto. assert (Hq : In q (live A)) by (eapply get_live; eauto).
        assert (Hqp : Some q <> Some p) by congruence. rewrite D6, B6; auto. }
      split. { intros q Hq Hql. assert (Hqp : Some q <> Some p) by congruence. rewrite D6, B6, L7; auto. }
      intros k todo. cbn [Nat.add b_reset_loop]. rewrite El.
      assert (Hv : (match parent with None => Ok None | Some q => let* v0 := var_of A q in Ok (Some v0) end) = Ok var).
      { destruct parent as [q|]; cbn [knows] in Hk; [|subst; reflexivity]. destruct Hk as (v0 & x0 & m0 & l0 & g0 & K1 & ->). unfold var_of. rewrite K1. reflexivity. }
      cbn [b_arena]. rewrite Hv. cbn [bind]. rewrite Es, new_grow. cbn [b_root]. fold p. rewrite L1. cbn [bind]. rewrite <- Nat.add_assoc, B7, D7. reflexivity.
  Qed.

  (** ** The masks *)
  Lemma rep_done t : built t -> c_tree C = false -> forall A p f, rep false A p t f -> rep true A p t f.
  Proof.
    intros Hb Hc. assert (Hk : forall a b, klower C a b = a) by (intros a b; unfold klower; rewrite Hc; reflexivity).
    induction t as [a|v x m le IHl gt IHg]; intros A p f H; auto. destruct Hb as (Hm & Hl & Hg). rewrite !Hk in Hm. subst m.
    destruct H as (pl & pg & fl & fg & H1 & H2 & H3 & ->). exists pl, pg, fl, fg. auto.
  Qed.
  Definition inner (t : tree) : bool := match t with Leaf _ => false | Split _ _ _ _ _ => true end.
  Fixpoint inners (t : tree) : nat := match t with Leaf _ => 0 | Split _ _ _ le gt => S (inners le + inners gt) end.
  Lemma inners_nodes t : inners t <= nodes t.
  Proof. induction t; cbn [inners nodes]; lia. Qed.
  Notation item := (nat * tree * list nat)%type.
  Definition queue (F : list item) : list nat := map (fun i => fst (fst i)) (filter (fun i => inner (snd (fst i))) F).
  Definition area (F : list item) : list nat := List.concat (map snd F).
  Definition forest (done : bool) (A : memory) (F : list item) : Prop := Forall (fun i => rep done A (fst (fst i)) (snd (fst i)) (snd i)) F.
  Definition weight (F : list item) : nat := list_sum (map (fun i => nodes (snd (fst i))) F).
  Definition work (F : list item) : nat := list_sum (map (fun i => inners (snd (fst i))) F).
  Lemma queue_app F G : queue (F ++ G) = queue F ++ queue G.
  Proof. unfold queue. now rewrite filter_app, map_app. Qed.
  Lemma area_app F G : area (F ++ G) = area F ++ area G.
  Proof. unfold area. now rewrite map_app, concat_app. Qed.
  Lemma weight_app F G : weight (F ++ G) = weight F + weight G.
  Proof. unfold weight. now rewrite map_app, list_sum_app. Qed.
  Lemma work_app F G : work (F ++ G) = work F + work G.
  Proof. unfold work. now rewrite map_app, list_sum_app. Qed.
  Lemma forest_area done A F q : forest done A F -> In q (area F) -> exists n, ar_get A q = Ok n.
  Proof.
    intros H Hq. unfold area in Hq. apply in_concat in Hq as (f & Hf & Hq). apply in_map_iff in Hf as ([[p t] f'] & <- & Hi).
    unfold forest in H. rewrite Forall_forall in H. specialize (H _ Hi). eapply rep_get; eauto.
  Qed.
  Lemma rep_kind done (A : memory) p t f : rep done A p t f ->
    exists n, ar_get A p = Ok n /\ match n with BLeaf _ => [] | BInterior _ _ _ _ _ => [p] end = queue [(p, t, f)].
  Proof.
    destruct t as [a|v x m le gt]; intros H.
    - destruct H as [H ->]. exists (BLeaf a). auto.
    - destruct H as (pl & pg & fl & fg & H1 & _). eexists. split; [exact H1|reflexivity].
  Qed.
  Lemma rep_mask (A : memory) p t f : rep true A p t f -> b_mask A p = Ok (node_mask t).
  Proof.
    unfold b_mask. destruct t as [a|v x m le gt]; intros H.
    - destruct H as [-> _]. reflexivity.
    - destruct H as (pl & pg & fl & fg & -> & _). reflexivity.
  Qed.
  Lemma fix_all_app l1 l2 : forall A, b_fix_all C A (l1 ++ l2) = (let* A' := b_fix_all C A l1 in b_fix_all C A' l2).
  Proof. induction l1 as [|p l1 IH]; intros A; cbn [app b_fix_all bind]; auto. destruct (b_fix C A p); cbn [bind]; auto. Qed.

  Lemma masks_sim : forall w fuel A F seen, weight F <= w -> work F <= fuel -> forest false A F -> Forall (fun i => built (snd (fst i))) F -> NoDup (area F) ->
    exists order A', b_record fuel A (length seen) (seen ++ queue F) = Ok (seen ++ order) /\ b_fix_all C A (rev order) = Ok A' /\
      forest true A' F /\ same_size A A' /\ (forall q, ~ In q (area F) -> ar_get A' q = ar_get A q).
  Proof.
    induction w as [|w IH]; intros fuel A F seen Hw Hf HF Hb Hn.
    - destruct F as [|[[p t] f] F].
      2: { exfalso. unfold weight in Hw. cbn [map list_sum fold_right fst snd] in Hw. destruct t; cbn [nodes] in Hw; lia. }
      exists [], A. rewrite app_nil_r. split. { destruct fuel; cbn [b_record queue map filter]; rewrite app_nil_r, Nat.ltb_irrefl; reflexivity. }
      split; auto. split; [constructor|]. split; [apply same_size_refl|auto].
    - destruct F as [|[[p t] f] F].
      { exists [], A. rewrite app_nil_r. split. { destruct fuel; cbn [b_record queue map filter]; rewrite app_nil_r, Nat.ltb_irrefl; reflexivity. }
        split; auto. split; [constructor|]. split; [apply same_size_refl|auto]. }
      apply Forall_cons_iff in HF as [HF1 HF2]. apply Forall_cons_iff in Hb as [Hb1 Hb2]. cbn [fst snd] in HF1, Hb1.
      unfold weight, work in Hw, Hf. cbn [map list_sum fold_right fst snd] in Hw, Hf. fold (list_sum (map (fun i : item => nodes (snd (fst i))) F)) in Hw.
      fold (list_sum (map (fun i : item => inners (snd (fst i))) F)) in Hf. fold (weight F) in Hw. fold (work F) in Hf.
      unfold area in Hn. cbn [map List.concat snd] in Hn. fold (area F) in Hn.
      destruct t as [a|v x m le gt].
      + destruct HF1 as [H1 ->]. cbn [nodes inners] in Hw, Hf. cbn [app] in Hn. apply NoDup_cons_iff in Hn as [Hp Hn].
        destruct (IH fuel A F seen) as (order & A' & R1 & R2 & R3 & R4 & R5); auto; try lia.
        exists order, A'. split; auto. split; auto. split. { constructor; auto. cbn [fst snd rep]. rewrite R5; auto. }
        split; auto. intros q Hq. apply R5. intros Hc. apply Hq. unfold area. cbn [map List.concat snd app]. now right.
      + destruct HF1 as (pl & pg & fl & fg & H1 & H2 & H3 & ->). cbn [nodes inners] in Hw, Hf. destruct Hb1 as (Hm & Hbl & Hbg).
        set (F' := F ++ [(pl, le, fl); (pg, gt, fg)]).
        assert (Hperm : Permutation (area F') ((fl ++ fg) ++ area F)).
        { unfold F'. rewrite area_app. unfold area at 2. cbn [map List.concat snd]. rewrite app_nil_r. apply Permutation_app_comm. }
        assert (Hnd : NoDup (p :: (fl ++ fg) ++ area F)) by exact Hn. apply NoDup_cons_iff in Hnd as [Hp Hnd].
        destruct fuel as [|fuel]; [lia|].
        destruct (IH fuel A F' (seen ++ [p])) as (order & A' & R1 & R2 & R3 & R4 & R5).
        { unfold F'. rewrite weight_app. unfold weight at 2. cbn [map list_sum fold_right fst snd]. lia. }
        { unfold F'. rewrite work_app. unfold work at 2. cbn [map list_sum fold_right fst snd]. lia. }
        { apply Forall_app. split; [assumption|]. constructor; [|constructor; [|constructor]]; cbn [fst snd]; assumption. }
        { apply Forall_app. split; [assumption|]. constructor; [|constructor; [|constructor]]; cbn [fst snd]; assumption. }
        { eapply nodup_perm; [|exact Hnd]. now apply Permutation_sym. }
        apply Forall_app in R3 as [R3 R3']. apply Forall_cons_iff in R3' as [R3l R3']. apply Forall_cons_iff in R3' as [R3g _]. cbn [fst snd] in R3l, R3g.
        assert (Hp' : ar_get A' p = Ok (BInterior v x max_mask (Some pl) (Some pg))).
        { rewrite R5; auto. intros Hc. apply Hp. eapply Permutation_in; eauto. }
        exists (p :: order), (put A' p (BInterior v x m (Some pl) (Some pg))). split.
        { change (queue ((p, Split v x m le gt, p :: fl ++ fg) :: F)) with (p :: queue F). cbn [b_record].
          destruct (Nat.ltb_spec (length seen) (length (seen ++ p :: queue F))) as [_|Hc]; [|rewrite app_length in Hc; cbn [length] in Hc; lia].
          replace (vget (seen ++ p :: queue F) (length seen)) with (Ok p).
          2: { symmetry. apply vget_ok. rewrite nth_error_app2, Nat.sub_diag; auto. }
          cbn [bind]. rewrite H1. cbn [bind nonnull of_option].
          destruct (rep_kind false A pl le fl H2) as (nl & N1 & N2). destruct (rep_kind false A pg gt fg H3) as (ng & N3 & N4).
          rewrite N1. cbn [bind]. rewrite N3. cbn [bind]. rewrite N2, N4.
          replace ((seen ++ p :: queue F) ++ queue [(pl, le, fl)] ++ queue [(pg, gt, fg)]) with ((seen ++ [p]) ++ queue F').
          - replace (S (length seen)) with (length (seen ++ [p])) by (rewrite app_length; cbn [length]; lia). rewrite R1, <- app_assoc. reflexivity.
          - unfold F'. rewrite queue_app. change [(pl, le, fl); (pg, gt, fg)] with ([(pl, le, fl)] ++ [(pg, gt, fg)]). rewrite queue_app, <- !app_assoc. reflexivity. }
        split.
        { cbn [rev]. rewrite fix_all_app, R2. cbn [bind b_fix_all]. unfold b_fix. rewrite Hp'. cbn [bind nonnull of_option].
          rewrite (rep_mask _ _ _ _ R3l). cbn [bind]. rewrite (rep_mask _ _ _ _ R3g). cbn [bind]. rewrite <- Hm, (set_put _ _ _ _ Hp'). reflexivity. }
        assert (Hpa : forall q, In q (fl ++ fg ++ area F) -> q <> p). { intros q Hq ->. apply Hp. now rewrite <- app_assoc. }
        split.
        { constructor.
          - cbn [fst snd rep]. exists pl, pg, fl, fg. split; [eapply get_put_same; eauto|]. split; [|split; auto].
            + eapply rep_frame; [exact R3l|]. intros q Hq. eapply get_put_ne; eauto. apply Hpa, in_or_app. auto.
            + eapply rep_frame; [exact R3g|]. intros q Hq. eapply get_put_ne; eauto. apply Hpa, in_or_app. right. apply in_or_app. auto.
          - unfold forest in *. rewrite Forall_forall in *. intros [[p1 t1] f1] Hi. eapply rep_frame; [exact (R3 _ Hi)|]. cbn [fst snd]. intros q Hq.
            eapply get_put_ne; eauto. apply Hpa, in_or_app. right. apply in_or_app. right. unfold area. apply in_concat. exists f1. split; auto.
            apply in_map_iff. eexists. split; [|exact Hi]. reflexivity. }
        split; [eapply same_size_trans; [exact R4|apply same_size_put]|].
        intros q Hq. unfold area in Hq. cbn [map List.concat snd] in Hq. fold (area F) in Hq. cbn [app] in Hq.
        rewrite (get_put_ne _ _ _ _ _ Hp'); [|intros ->; apply Hq; now left].
        apply R5. intros Hc. apply Hq. right. eapply Permutation_in; eauto.
  Qed.

  (** ** The whole tree *)
  Lemma clear_rel (T : btree M) (root : option tree) : brel T root -> exists T' gone, b_clear T = Ok (T', gone) /\ brel T' None /\
    Permutation gone (match root with None => [] | Some t => tree_entries t end).
  Proof.
    intros H. unfold b_clear. destruct root as [t|]; cbn [brel] in H.
    - destruct H as (p & f & H1 & H2 & H3). rewrite H1.
      destruct (clear_sim true t (b_arena T) p f H2 (brel_nodup _ _ H3)) as (A' & gone & G1 & G2 & G3 & G4).
      specialize (G4 (size (b_arena T)) [] []). rewrite (brel_fuel _ _ _ _ _ H2 H3) in G4. replace (2 * length (ar_cells (b_arena T))) with (size (b_arena T) + size (b_arena T)) by (unfold size; lia).
      rewrite G4. cbn [bind app]. eexists _, gone. split; [reflexivity|]. split; auto. split; reflexivity.
    - destruct H as [H1 H2]. rewrite H1. cbn [bind]. eexists _, []. split; [reflexivity|]. split; auto. split; reflexivity.
  Qed.
  Lemma binary_reset_rel T root l bits root' : brel T root -> tree_reset C l bits = Ok root' -> exists T', b_reset C T l bits = Ok T' /\ brel T' root'.
  Proof.
    intros H Hr. destruct (clear_rel T root H) as (T1 & gone & H1 & H2 & _). unfold b_reset, b_reset_leaves. rewrite H1. cbn [bind].
    destruct l as [|x l]; cbn [tree_reset] in Hr. { injection Hr as <-. exists T1. auto. }
    destruct (build C (length (x :: l)) bits (x :: l) None) as [t| | |] eqn:E; cbn [bind] in Hr; try discriminate. injection Hr as <-.
    destruct T1 as [A r]. destruct H2 as [H2r H2]. cbn [b_arena b_root] in *. subst r.
    destruct (reset_sim bits _ _ _ _ E A None None false eq_refl) as (A' & r' & B1 & B2 & B3 & B4 & B5 & B6 & B7). cbn [hooked] in B5. subst r'.
    assert (Hn := build_nodes _ _ _ _ _ E). specialize (B7 (2 ^ length (x :: l) - nodes t) []).
    replace (nodes t + (2 ^ length (x :: l) - nodes t)) with (2 ^ length (x :: l)) in B7 by lia. rewrite B7. cbn [bind]. clear B7.
    rewrite H2 in B2. cbn [app] in B2. assert (Hb := build_built _ _ _ _ _ E).
    unfold b_masks. cbn [b_root b_arena]. destruct (c_tree C) eqn:Ec; cbn [negb bind].
    - destruct (rep_kind false A' (fresh A) t _ B1) as (n & N1 & N2). rewrite N1. cbn [bind]. rewrite N2.
      destruct (masks_sim (weight [(fresh A, t, seq (fresh A) (nodes t))]) (length (ar_cells A')) A' [(fresh A, t, seq (fresh A) (nodes t))] []) as (order & A2 & R1 & R2 & R3 & R4 & _); [apply Nat.le_refl|..].
      { unfold work. cbn [map list_sum fold_right fst snd]. rewrite Nat.add_0_r. eapply Nat.le_trans; [apply inners_nodes|].
        rewrite (brel_fuel false t A' (fresh A) (seq (fresh A) (nodes t))); auto. rewrite B2. reflexivity. }
      { constructor; [assumption|constructor]. } { constructor; [assumption|constructor]. }
      { unfold area. cbn [map List.concat snd]. rewrite app_nil_r. apply seq_NoDup. }
      cbn [length app] in R1. rewrite R1. cbn [bind]. rewrite R2. cbn [bind]. eexists. split; [reflexivity|].
      apply Forall_cons_iff in R3 as [R3 _]. cbn [fst snd] in R3. exists (fresh A), (seq (fresh A) (nodes t)). split; auto. split; auto. cbn [b_arena].
      rewrite (same_size_live _ _ R4), B2. reflexivity.
    - eexists. split; [reflexivity|]. exists (fresh A), (seq (fresh A) (nodes t)). split; auto. cbn [b_arena]. split; [apply rep_done; auto|]. rewrite B2. reflexivity.
  Qed.
End Reset.
