(** The binary tree in memory represents a tree: insertion. *)
From Coq Require Import List Arith Bool ZArith NArith String Lia Permutation.
From Verif.Base Require Import Res Arr ResList StdAlg Lists.
From Verif.DivMask Require Import Model.
From Verif.Spec Require Import DivFinder.
From Verif.KD Require Import EntryArray Tree.
From Verif.KDMem Require Import Arena ArenaFacts Binary BinaryProofs.
Import ListNotations.
Local Notation length := List.length.

Section Insert.
  Context {M : Type}.
  Variable C : kconf M.
  Notation ext := (ext M).
  Notation tree := (tree M).
  Notation memory := (arena (bnode M)).

  (** The node [q], if there is one, leads to [p] on the side [s]; its variable is [var]. *)
  Definition leads (A : memory) (parent : option nat) (s : bool) (p : nat) (var : option nat) (f : list nat) : Prop :=
    match parent with
    | None => var = None
    | Some q => ~ In q f /\ exists v x m pl pg, ar_get A q = Ok (BInterior v x m (Some pl) (Some pg)) /\ pl <> pg /\ (if s then pg else pl) = p /\ var = Some v
    end.
  (** Afterwards it leads to [p'], and the root is changed only if there is no such node. *)
  Definition linked (A A' : memory) (parent : option nat) (s : bool) (p' : nat) (r r' : option nat) : Prop :=
    match parent with
    | None => r' = Some p'
    | Some q => r' = r /\ exists v x m pl pg, ar_get A q = Ok (BInterior v x m pl pg) /\
                  ar_get A' q = Ok (BInterior v x m (if s then pl else Some p') (if s then Some p' else pg))
    end.

  (** What insert_tree returns and what the C++ code does *)
  Definition put_sim (A : memory) (parent : option nat) (s : bool) (f : list nat) (r : option nat) (t : res tree) (B : res (btree M)) : Prop :=
    match t with
    | Ok t' => exists A' r' p' f', B = Ok (mk_btree A' r') /\ rep true A' p' t' f' /\ linked A A' parent s p' r r' /\
                 (forall q, ~ In q f -> Some q <> parent -> In q (live A) -> ar_get A' q = ar_get A q) /\
                 ar_dead A' = ar_dead A /\ Permutation (live A' ++ f) (live A ++ f')
    | Throw x => B = Throw x
    | _ => True
    end.
  Lemma leaf_put A e parent s p a var r : ar_get A p = Ok (BLeaf a) -> leads A parent s p var [p] -> (parent = None -> r = Some p) ->
    put_sim A parent s [p] r (insert_tree C false (Leaf a) e var) (b_put C (mk_btree A r) e parent p).
  Proof.
    intros Hp Hl Hr. cbn [insert_tree]. unfold b_put, as_leaf. cbn [b_arena b_root]. rewrite Hp. cbn [bind].
    destruct (length (a_list a) =? c_leaf C) eqn:Ef.
    2: { destruct (arr_insert C a e) as [a'| | |]; cbn [bind]; try exact Logic.I; try reflexivity. rewrite (set_put _ _ _ _ Hp). cbn [bind].
         exists (put A p (BLeaf a')), r, p, [p]. split; [reflexivity|]. split; [split; [eapply get_put_same; eauto|reflexivity]|]. split.
         { destruct parent as [q|]; cbn [linked leads] in *; auto. split; auto. destruct Hl as (Hq & v & x & m & pl & pg & H1 & Hne & H2 & H3).
           exists v, x, m, (Some pl), (Some pg). split; auto. rewrite (get_put_ne A p q _ _ Hp) by (intros ->; apply Hq; now left). rewrite H1. destruct s; subst; reflexivity. }
         split. { intros q H1 _ _. apply (get_put_ne _ _ _ _ _ Hp). intros ->. apply H1. now left. } split; [reflexivity|]. rewrite live_put. reflexivity. }
    unfold split_insert_binary, b_split_insert. unfold as_leaf at 1. rewrite Hp. cbn [bind].
    assert (Hv : match parent with None => Ok None | Some q => let* v := var_of A q in Ok (Some v) end = Ok var).
    { destruct parent as [q|]; cbn [leads] in Hl; [|now subst]. destruct Hl as (Hq & v & x & m & pl & pg & H1 & Hne & H2 & ->). unfold var_of. now rewrite H1. }
    rewrite Hv. cbn [bind]. destruct (split_for C e (a_list a) var) as [[[[v x] l] g]| | |]; cbn [bind]; try exact Logic.I; try reflexivity.
    destruct (arr_of C g) as [gt| | |]; cbn [bind]; try exact Logic.I; try reflexivity. rewrite new_grow. cbv zeta.
    set (le := arr_recalculate C (sort_arr C (mk_arr l (a_mask a)))).
    set (mask := klower C (klower C (klower C max_mask (a_mask le)) (a_mask gt)) (x_mask e)).
    set (o := fresh A). set (A1 := grow A (BLeaf gt)).
    assert (Hpo : p <> o) by (eapply get_not_fresh; eauto).
    assert (Hp1 : ar_get A1 p = Ok (BLeaf a)) by (unfold A1; now apply get_grow).
    rewrite (set_put _ _ _ _ Hp1). cbn [bind]. set (A2 := put A1 p (BLeaf le)).
    assert (Hp2 : ar_get A2 p = Ok (BLeaf le)) by (eapply get_put_same; eauto).
    assert (Ho2 : ar_get A2 o = Ok (BLeaf gt)). { unfold A2. rewrite (get_put_ne A1 p o _ _ Hp1) by auto. apply get_grow_new. }
    rewrite new_grow. set (i := fresh A2).
    assert (Hi : i = S o). { unfold i, A2, A1, o. rewrite fresh_put, fresh_grow. reflexivity. }
    match goal with |- context [grow A2 ?n] => set (n0 := n); set (A3 := grow A2 n0) end.
    assert (Hp3 : ar_get A3 p = Ok (BLeaf le)) by (now apply get_grow).
    assert (Ho3 : ar_get A3 o = Ok (BLeaf gt)) by (now apply get_grow).
    assert (Hi3 : ar_get A3 i = Ok n0) by (apply get_grow_new).
    assert (Hpi : p <> i) by (eapply get_not_fresh; eauto).
    assert (Hio : i <> o) by lia.
    assert (Hold : forall q, In q (live A) -> q <> p -> ar_get A3 q = ar_get A q /\ q <> o /\ q <> i).
    { intros q Hq Hqp. destruct (live_get A q Hq) as [n Hn]. assert (q <> o) by (eapply get_not_fresh; eauto). assert (q <> i) by (apply get_bounds in Hn; unfold o in *; lia).
      split; auto. unfold A3. rewrite get_grow_other by auto. unfold A2. rewrite (get_put_ne A1 p q _ _ Hp1) by auto. apply get_grow_other; auto. }
    (* the parent *)
    assert (Hpar : exists A4, match parent with
        | None => Ok A3
        | Some q => let* n := ar_get A3 q in
            match n with BLeaf _ => UB | BInterior _ _ _ ple _ => let* l0 := nonnull ple in set_child A3 q (l0 =? p) i end end = Ok A4 /\
        same_size A3 A4 /\ (forall q, Some q <> parent -> ar_get A4 q = ar_get A3 q) /\
        (forall q, parent = Some q -> q <> p /\ q <> o /\ q <> i /\
           exists v x m pl pg, ar_get A q = Ok (BInterior v x m pl pg) /\ ar_get A4 q = Ok (BInterior v x m (if s then pl else Some i) (if s then Some i else pg)))).
    { destruct parent as [q|].
      2: { exists A3. split; auto. split; [apply same_size_refl|]. split; auto. discriminate. }
      cbn [leads] in Hl. destruct Hl as (Hq & v' & x' & m' & pl & pg & H1 & Hne & H2 & H3).
      assert (Hqp : q <> p) by (intros ->; apply Hq; now left).
      destruct (Hold q (get_live _ _ _ H1) Hqp) as (Hq3 & Hqo & Hqi). rewrite H1 in Hq3.
      rewrite Hq3. cbn [bind nonnull of_option]. unfold set_child. rewrite Hq3. cbn [bind]. rewrite (set_put _ _ _ _ Hq3).
      eexists. split; [reflexivity|]. split; [apply same_size_put|]. split. { intros z Hz. apply (get_put_ne _ _ _ _ _ Hq3). congruence. }
      intros z Hz. injection Hz as <-. split; auto. split; auto. split; auto. exists v', x', m', (Some pl), (Some pg). split; auto. rewrite (get_put_same _ _ _ _ Hq3).
      destruct s; subst p.
      - destruct (Nat.eqb_spec pl pg); [congruence|reflexivity].
      - rewrite Nat.eqb_refl. reflexivity. }
    destruct Hpar as (A4 & HA4 & Hz4 & Hf4 & Hq4). rewrite HA4. cbn [bind].
    assert (Hp4 : ar_get A4 p = Ok (BLeaf le)). { rewrite Hf4; auto. intros Hc. destruct (Hq4 p (eq_sym Hc)) as (Hx & _). congruence. }
    assert (Ho4 : ar_get A4 o = Ok (BLeaf gt)). { rewrite Hf4; auto. intros Hc. destruct (Hq4 o (eq_sym Hc)) as (_ & Hx & _). congruence. }
    assert (Hi4 : ar_get A4 i = Ok n0). { rewrite Hf4; auto. intros Hc. destruct (Hq4 i (eq_sym Hc)) as (_ & _ & Hx & _). congruence. }
    rewrite (set_put _ _ _ _ Hi4). cbn [bind]. fold mask. set (n5 := BInterior v x mask (Some p) (Some o)). set (A5 := put A4 i n5).
    assert (Hp5 : ar_get A5 p = Ok (BLeaf le)) by (unfold A5; rewrite (get_put_ne _ _ _ _ _ Hi4); auto).
    assert (Ho5 : ar_get A5 o = Ok (BLeaf gt)) by (unfold A5; rewrite (get_put_ne _ _ _ _ _ Hi4); auto).
    assert (Hi5 : ar_get A5 i = Ok n5) by (eapply get_put_same; eauto).
    set (w := if above C v x (x_t e) then o else p).
    assert (Hw5 : ar_get A5 w = Ok (BLeaf (if above C v x (x_t e) then gt else le))) by (unfold w; destruct (above C v x (x_t e)); auto).
    unfold as_leaf. rewrite Hw5. cbn [bind]. unfold split_node.
    assert (Hwi : i <> w) by (unfold w; destruct (above C v x (x_t e)); auto).
    assert (Hfin : forall b, exists A', ar_set A5 w (BLeaf b) = Ok A' /\ ar_get A' w = Ok (BLeaf b) /\ ar_get A' i = Ok n5 /\
      (forall q, q <> w -> ar_get A' q = ar_get A5 q) /\ ar_dead A' = ar_dead A /\ live A' = live A ++ [o; i]).
    { intros b. exists (put A5 w (BLeaf b)). split; [eapply set_put; eauto|]. split; [eapply get_put_same; eauto|].
      split; [rewrite (get_put_ne _ _ _ _ _ Hw5); auto|]. split; [intros q Hq; eapply get_put_ne; eauto|].
      split. { cbn [put ar_dead A5]. rewrite (proj1 Hz4). reflexivity. }
      rewrite live_put. unfold A5. rewrite live_put, (same_size_live _ _ Hz4). unfold A3. rewrite live_grow. unfold A2. rewrite live_put. unfold A1. rewrite live_grow.
      rewrite <- app_assoc. reflexivity. }
    assert (Hdone : forall b le' gt', (forall A', ar_get A' w = Ok (BLeaf b) -> (forall q, q <> w -> ar_get A' q = ar_get A5 q) -> ar_get A' p = Ok (BLeaf le') /\ ar_get A' o = Ok (BLeaf gt')) ->
      put_sim A parent s [p] r (Ok (Split v x mask (Leaf le') (Leaf gt')))
        (let* (A6, j) := (let* A6 := ar_set A5 w (BLeaf b) in Ok (A6, i)) in Ok (mk_btree A6 match parent with Some _ => r | None => Some j end))).
    { intros b le' gt' Hg. destruct (Hfin b) as (A' & E1 & E2 & E3 & E4 & E5 & E6). destruct (Hg A' E2 E4) as [G1 G2].
      exists A', (match parent with Some _ => r | None => Some i end), i, [i; p; o]. rewrite E1. cbn [bind]. split; [reflexivity|].
      split. { exists p, o, [p], [o]. split; [exact E3|]. split; [split; auto|]. split; [split; auto|reflexivity]. }
      split. { destruct parent as [q|]; cbn [linked]; auto. split; auto. destruct (Hq4 q eq_refl) as (Q1 & Q2 & Q3 & v' & x' & m' & pl & pg & Q4 & Q5).
        exists v', x', m', pl, pg. split; auto. rewrite E4. { unfold A5. rewrite (get_put_ne _ _ _ _ _ Hi4); auto. } unfold w. destruct (above C v x (x_t e)); auto. }
      split. { intros q Q1' Q2 Q3. assert (Q1 : q <> p) by (intros ->; apply Q1'; now left). destruct (Hold q Q3 Q1) as (Q4 & Q5 & Q6). rewrite E4 by (unfold w; destruct (above C v x (x_t e)); auto).
        unfold A5. rewrite (get_put_ne _ _ _ _ _ Hi4) by auto. rewrite Hf4; auto. }
      split; auto. rewrite E6, <- app_assoc. apply Permutation_app_head. cbn [app]. apply Permutation_sym.
      eapply Permutation_trans; [apply (Permutation_cons_append [p; o] i)|]. cbn [app]. apply perm_trans with (o :: p :: [i]); [apply perm_swap|]. apply perm_skip, perm_swap. }
    destruct (above C v x (x_t e)) eqn:Ea.
    - destruct (arr_insert C gt e) as [b| | |]; cbn [bind]; try exact Logic.I; try reflexivity. refine (Hdone b le b _). intros A' G1 G2. split; auto. rewrite (G2 p Hpo). auto.
    - destruct (arr_insert C le e) as [b| | |]; cbn [bind]; try exact Logic.I; try reflexivity. refine (Hdone b b gt _). intros A' G1 G2. split; auto. rewrite (G2 o (not_eq_sym Hpo)). auto.
  Qed.

  Lemma insert_sim e : forall t A parent s p f var, rep true A p t f -> NoDup f -> leads A parent s p var f ->
    exists A1 parent1 q n, n <= nodes t /\ (forall k, b_walk C (n + k) A e parent p = Ok (A1, parent1, q)) /\
      rep true A1 p (lower_masks C t e) f /\ (forall z, ~ In z f -> ar_get A1 z = ar_get A z) /\ same_size A A1 /\ same_links A A1 /\
      forall r, (parent = None -> r = Some p) -> put_sim A parent s f r (insert_tree C false t e var) (b_put C (mk_btree A1 r) e parent1 q).
  Proof.
    induction t as [a|v x mask le IHl gt IHg]; intros A parent s p f var H Hn Hl.
    - destruct H as [H ->]. exists A, parent, p, 1. split; [cbn [nodes]; lia|]. split. { intros k. cbn [Nat.add b_walk]. now rewrite H. }
      split; [split; auto|]. split; auto. split; [apply same_size_refl|]. split; [apply same_links_refl|].
      intros r Hr. apply leaf_put; auto.
    - destruct H as (pl & pg & fl & fg & H1 & H2 & H3 & ->). apply nodup_split in Hn as (Hnl & Hng & Hpl & Hpg & Hlg).
      assert (Hne : pl <> pg). { intros ->. apply (Hlg pg); eapply rep_head; eauto. }
      set (mask' := klower C mask (x_mask e)). set (A0 := put A p (BInterior v x mask' (Some pl) (Some pg))).
      assert (Hp0 : ar_get A0 p = Ok (BInterior v x mask' (Some pl) (Some pg))) by (eapply get_put_same; eauto).
      assert (Ho0 : forall z, z <> p -> ar_get A0 z = ar_get A z) by (intros z Hz; eapply get_put_ne; eauto).
      assert (Hr0l : rep true A0 pl le fl) by (apply (rep_frame true le A); auto; intros z Hz; apply Ho0; congruence).
      assert (Hr0g : rep true A0 pg gt fg) by (apply (rep_frame true gt A); auto; intros z Hz; apply Ho0; congruence).
      assert (Hk0 : same_links A A0). { intros z v' x' m' l' g' Hz. destruct (Nat.eq_dec z p) as [->|Hzp]; [|exists m'; rewrite Ho0; auto].
        rewrite H1 in Hz. injection Hz as <- <- <- <- <-. eauto. }
      assert (Hlive : live A0 = live A) by apply live_put.
      (* what happened to a child *)
      assert (Hup : forall (s' : bool) (sub : res tree) B r, (parent = None -> r = Some p) ->
        put_sim A0 (Some p) s' (if s' then fg else fl) r sub B ->
        put_sim A parent s (p :: fl ++ fg) r (let* u := sub in Ok (Split v x mask' (if s' then le else u) (if s' then u else gt))) B).
      { intros s' sub B r Hr Hs. destruct sub as [u| | |]; cbn [bind put_sim] in *; auto.
        destruct Hs as (A' & r' & c & fc & E1 & E2 & [-> (v' & x' & m' & l' & g' & E3 & E4)] & E5 & E6 & E7).
        rewrite Hp0 in E3. injection E3 as <- <- <- <- <-.
        exists A', r, p, (p :: (if s' then fl else fc) ++ (if s' then fc else fg)). split; auto. split; [|split; [|split; [|split]]].
        - assert (Hside : rep true A' (if s' then pl else pg) (if s' then le else gt) (if s' then fl else fg)).
          { assert (Hs0 : rep true A0 (if s' then pl else pg) (if s' then le else gt) (if s' then fl else fg)) by (destruct s'; auto).
            apply (rep_frame _ _ A0); auto. intros z Hz. apply E5.
            - destruct s'; [intros Hc; exact (Hlg z Hz Hc)|intros Hc; exact (Hlg z Hc Hz)].
            - intros Hc. injection Hc as ->. destruct s'; auto.
            - eapply rep_live; eauto. }
          destruct s'; [exists pl, c, fl, fc|exists c, pg, fc, fg]; auto.
        - destruct parent as [q|]; cbn [linked]; [|auto]. split; auto. destruct Hl as (Hq & v' & x' & m' & l' & g' & L1 & L2 & L3 & L4).
          exists v', x', m', (Some l'), (Some g'). split; auto.
          assert (Hqp : q <> p) by (intros ->; apply Hq; now left).
          rewrite E5.
          + rewrite Ho0 by auto. rewrite L1. destruct s; subst; reflexivity.
          + intros Hc. apply Hq. right. apply in_or_app. destruct s'; auto.
          + congruence.
          + rewrite Hlive. eapply get_live; eauto.
        - intros q Q1 Q2 Q3. assert (Hqp : q <> p) by (intros ->; apply Q1; now left). rewrite E5.
          + apply Ho0; auto.
          + intros Hc. apply Q1. right. apply in_or_app. destruct s'; auto.
          + congruence.
          + now rewrite Hlive.
        - rewrite E6. reflexivity.
        - rewrite Hlive in E7. destruct s'.
          + change (Permutation (live A' ++ (p :: fl) ++ fg) (live A ++ (p :: fl) ++ fc)).
            rewrite (Permutation_app_comm (p :: fl) fg), (Permutation_app_comm (p :: fl) fc), !app_assoc. apply Permutation_app_tail. exact E7.
          + change (Permutation (live A' ++ [p] ++ (fl ++ fg)) (live A ++ [p] ++ (fc ++ fg))).
            rewrite (Permutation_app_comm [p] (fl ++ fg)), (Permutation_app_comm [p] (fc ++ fg)), <- !app_assoc, !app_assoc. do 2 apply Permutation_app_tail. exact E7. }
      cbn [lower_masks insert_tree]. fold mask'. destruct (above C v x (x_t e)) eqn:Ea.
      + destruct (IHg A0 (Some p) true pg fg (Some v) Hr0g Hng) as (A1 & parent1 & q & n & Hn1 & Hw & Hr1 & Hf1 & Hz1 & Hk1 & Hs).
        { split; auto. exists v, x, mask', pl, pg. auto. }
        exists A1, parent1, q, (S n). split; [cbn [nodes]; lia|]. split.
        { intros k. cbn [Nat.add b_walk]. rewrite H1. cbn [bind]. rewrite (set_put _ _ _ _ H1). cbn [bind]. rewrite Ea. cbn [nonnull of_option bind]. apply Hw. }
        split. { exists pl, pg, fl, fg. rewrite Hf1 by auto. split; auto. split; auto. apply (rep_frame true le A0); auto. }
        split. { intros z Hz. rewrite Hf1, Ho0; auto; intros Hc; apply Hz; [subst; now left|right; apply in_or_app; auto]. }
        split. { eapply same_size_trans; [apply same_size_put|exact Hz1]. } split; [eapply same_links_trans; eauto|].
        intros r Hr. apply (Hup true); auto. apply Hs. discriminate.
      + destruct (IHl A0 (Some p) false pl fl (Some v) Hr0l Hnl) as (A1 & parent1 & q & n & Hn1 & Hw & Hr1 & Hf1 & Hz1 & Hk1 & Hs).
        { split; auto. exists v, x, mask', pl, pg. auto. }
        exists A1, parent1, q, (S n). split; [cbn [nodes]; lia|]. split.
        { intros k. cbn [Nat.add b_walk]. rewrite H1. cbn [bind]. rewrite (set_put _ _ _ _ H1). cbn [bind]. rewrite Ea. cbn [nonnull of_option bind]. apply Hw. }
        split. { exists pl, pg, fl, fg. rewrite Hf1 by auto. split; auto. split; auto. split; auto. apply (rep_frame true gt A0); auto. intros z Hz. apply Hf1. intros Hc. exact (Hlg z Hc Hz). }
        split. { intros z Hz. rewrite Hf1, Ho0; auto; intros Hc; apply Hz; [subst; now left|right; apply in_or_app; auto]. }
        split. { eapply same_size_trans; [apply same_size_put|exact Hz1]. } split; [eapply same_links_trans; eauto|].
        intros r Hr. apply (Hup false); auto. apply Hs. discriminate.
  Qed.

  (** ** The whole tree *)
  (** The memory of the object represents the tree [root], and holds nothing else. *)
  Definition brel (T : btree M) (root : option tree) : Prop :=
    match root with
    | None => b_root T = None /\ live (b_arena T) = []
    | Some t => exists p f, b_root T = Some p /\ rep true (b_arena T) p t f /\ Permutation f (live (b_arena T))
    end.
  Lemma brel_nodup (A : memory) f : Permutation f (live A) -> NoDup f.
  Proof. intros H. eapply nodup_perm; [apply Permutation_sym; eauto|]. apply seq_NoDup. Qed.
  Lemma brel_fuel done (t : tree) (A : memory) p f : rep done A p t f -> Permutation f (live A) -> nodes t = size A.
  Proof. intros H Hp. rewrite <- (rep_length _ _ _ _ _ H), (Permutation_length Hp). unfold live. apply seq_length. Qed.

  Lemma start_rel T root : brel T root ->
    exists T' p f t, b_start T = (T', p) /\ t = match root with None => Leaf arr_empty | Some t => t end /\
      b_root T' = Some p /\ rep true (b_arena T') p t f /\ Permutation f (live (b_arena T')).
  Proof.
    intros H. unfold b_start. destruct root as [t|]; cbn [brel] in H.
    - destruct H as (p & f & H1 & H2 & H3). rewrite H1. exists T, p, f, t. auto.
    - destruct H as [H1 H2]. rewrite H1, new_grow. exists (mk_btree (grow (b_arena T) (BLeaf arr_empty)) (Some (fresh (b_arena T)))), (fresh (b_arena T)), [fresh (b_arena T)], (Leaf arr_empty).
      cbn [b_arena b_root]. split; auto. split; auto. split; auto. split; [split; [apply get_grow_new|reflexivity]|]. rewrite live_grow, H2. reflexivity.
  Qed.
  Lemma binary_insert_rel T root e : brel T root ->
    match tree_insert C false root e with
    | Ok root' => exists T', b_insert C T e = Ok T' /\ brel T' root'
    | Throw x => b_insert C T e = Throw x
    | _ => True
    end.
  Proof.
    intros H. destruct (start_rel T root H) as (T' & p & f & t & E1 & E2 & E3 & E4 & E5). unfold tree_insert. rewrite <- E2.
    destruct (insert_sim e t (b_arena T') None false p f None E4 (brel_nodup _ _ E5) eq_refl) as (A1 & parent1 & q & n & Hn & Hw & Hr & _ & Hz & _ & Hs).
    specialize (Hs (b_root T') (fun _ => E3)).
    assert (Hi : b_insert C T e = b_put C (mk_btree A1 (b_root T')) e parent1 q).
    { unfold b_insert, b_approach. rewrite E1. replace (2 * _) with (n + (2 * size (b_arena T') - n)); [rewrite Hw; reflexivity|].
      rewrite (brel_fuel true t (b_arena T') p f) in Hn by auto. unfold size in *. lia. }
    rewrite Hi. destruct (insert_tree C false t e None) as [t'| | |]; cbn [put_sim bind] in *; auto.
    destruct Hs as (A' & r' & p' & f' & S1 & S2 & S3 & S4 & S5 & S6). cbn [linked] in S3. subst r'.
    exists (mk_btree A' (Some p')). split; auto. exists p', f'. split; auto. split; auto. cbn [b_arena].
    apply Permutation_app_inv_l with (l := f). rewrite (Permutation_app_comm f (live A')), S6. apply Permutation_app_tail. exact E5.
  Qed.
  Lemma binary_abandoned_rel T root e : brel T root -> exists T', b_abandoned C T e = Ok T' /\ brel T' (tree_abandoned C root e).
  Proof.
    intros H. destruct (start_rel T root H) as (T' & p & f & t & E1 & E2 & E3 & E4 & E5). unfold tree_abandoned. rewrite <- E2.
    destruct (insert_sim e t (b_arena T') None false p f None E4 (brel_nodup _ _ E5) eq_refl) as (A1 & parent1 & q & n & Hn & Hw & Hr & _ & Hz & _ & _).
    exists (mk_btree A1 (b_root T')). split.
    { unfold b_abandoned, b_approach. rewrite E1. replace (2 * _) with (n + (2 * size (b_arena T') - n)); [rewrite Hw; reflexivity|].
      rewrite (brel_fuel true t (b_arena T') p f) in Hn by auto. unfold size in *. lia. }
    exists p, f. split; auto. split; auto. cbn [b_arena]. rewrite (same_size_live _ _ Hz). exact E5.
  Qed.
End Insert.
