(** Both trees in memory do what the trees that are values do. *)
From Coq Require Import List Arith Bool ZArith NArith String Lia Permutation.
From Verif.Base Require Import Res Arr ResList StdAlg Lists.
From Verif.DivMask Require Import Model.
From Verif.Spec Require Import DivFinder.
From Verif.KD Require Import EntryArray Tree Model.
From Verif.KDMem Require Import Arena ArenaFacts Binary Packed Model.
From Verif.KDMem Require BinaryProofs BinaryInsert BinaryReset PackedProofs PackedInsert PackedReset.
Import ListNotations.
Local Notation length := List.length.

(** [F_rel] relates a state to the root; [F_at] relates a pointer to an entry to its place. *)
Record faithful {M} (C : kconf M) (packed : bool) (I : impl M) (R : i_state I -> option (tree M) -> Prop) (P : i_state I -> nat * nat -> place -> Prop) : Prop := {
  f_empty : R (i_empty I) None;
  f_insert : forall T root e, R T root -> match tree_insert C packed root e with
    | Ok root' => exists T', i_insert I T e = Ok T' /\ R T' root'
    | Throw x => i_insert I T e = Throw x
    | _ => True
    end;
  f_abandoned : forall T root e, R T root -> exists T', i_abandoned I T e = Ok T' /\ R T' (tree_abandoned C root e) /\ (forall q pl, P T q pl -> P T' q pl);
  f_remove : forall T root m root' o k, R T root -> tree_remove C packed root m = Ok (root', o, k) ->
    exists T', i_remove I T m = Ok (T', o, k) /\ R T' root' /\ (forall q pl, P T q pl -> P T' q pl);
  f_remove_element : packed = true -> forall T root m root' b, R T root -> tree_remove_element C root m = Ok (root', b) ->
    exists T', i_remove_element I T m = Ok (T', b) /\ R T' root' /\ (forall q pl, P T q pl -> P T' q pl);
  f_find : forall T root m r, R T root -> tree_find C root m = Ok r ->
    exists r', i_find I T m = Ok r' /\ match r, r' with Some pl, Some q => P T q pl | None, None => True | _, _ => False end;
  f_at : forall T t q pl e, R T (Some t) -> P T q pl -> deref t pl = Ok e -> i_at I T q = Ok e;
  f_divisors : forall T root m cb xs, R T root -> tree_divisors C root m cb = Ok xs -> i_divisors I T m cb = Ok xs;
  f_multiples : forall T root m cb xs, R T root -> tree_multiples C packed root m cb = Ok xs -> i_multiples I T m cb = Ok xs;
  f_for_all : forall T root cb xs, R T root -> tree_for_all C packed root cb = Ok xs -> i_for_all I T cb = Ok xs;
  f_reset : forall T root l bits root', R T root -> tree_reset C l bits = Ok root' -> exists T', i_reset I T l bits = Ok T' /\ R T' root';
  f_clear : forall T root, R T root -> exists T' gone, i_clear I T = Ok (T', gone) /\ R T' None /\
    Permutation gone (match root with None => [] | Some t => tree_entries t end) }.

Section Binary.
  Import BinaryProofs BinaryInsert BinaryReset.
  Context {M : Type}.
  Variable C : kconf M.
  Notation memory := (arena (bnode M)).
  Definition bplaced (T : btree M) (q : nat * nat) (pl : place) : Prop := exists p, b_root T = Some p /\ placed (b_arena T) p q pl.
  Lemma same_links_lower (A : memory) p v x m le gt m' : ar_get A p = Ok (BInterior v x m le gt) -> same_links A (put A p (BInterior v x m' le gt)).
  Proof.
    intros Hp q v0 x0 m0 le0 gt0 Hq. destruct (Nat.eq_dec q p) as [-> |Hne].
    - rewrite Hp in Hq. injection Hq as -> -> -> -> ->. exists m'. eapply get_put_same; eauto.
    - exists m0. rewrite (get_put_ne _ _ _ _ _ Hp); auto.
  Qed.
  Lemma walk_links e : forall fuel (A : memory) parent p A' parent' p', b_walk C fuel A e parent p = Ok (A', parent', p') -> same_links A A'.
  Proof.
    induction fuel as [|fuel IH]; intros A parent p A' parent' p'; cbn [b_walk]; [discriminate|].
    destruct (ar_get A p) as [[a|v x m le gt]| | |] eqn:E; cbn [bind]; try discriminate. { intros [= -> -> ->]. apply same_links_refl. }
    rewrite (set_put _ _ _ _ E). cbn [bind]. destruct (nonnull _); cbn [bind]; try discriminate. intros H. eapply same_links_trans; [|eapply IH; eauto].
    eapply same_links_lower; eauto.
  Qed.
  Lemma abandoned_keeps (T T' : btree M) e : b_abandoned C T e = Ok T' -> forall q pl, bplaced T q pl -> bplaced T' q pl.
  Proof.
    unfold b_abandoned, b_approach. intros H q pl (p & Hp & Hq). unfold b_start in H. rewrite Hp in H. cbn [bind] in H.
    destruct (b_walk C _ (b_arena T) e None p) as [[[A parent] z]| | |] eqn:E; cbn [bind] in H; try discriminate. injection H as <-. exists p. cbn [b_root b_arena]. split; auto.
    destruct Hq as [H1 H2]. split; auto. eapply follow_links; [|exact H2]. eapply walk_links; eauto.
  Qed.
  Lemma leaf_index (A : memory) p t f q pl e : rep true A p t f -> placed A p q pl -> deref t pl = Ok e ->
    exists a x, ar_get A (fst q) = Ok (BLeaf a) /\ vget (a_list a) (snd q) = Ok x /\ x_t x = e.
  Proof.
    intros H (Hi & Hq) Hd. unfold deref in Hd. destruct (leaf_at t (fst pl)) as [a|] eqn:E; [|discriminate].
    destruct (vget (a_list a) (snd pl)) as [x| | |] eqn:Ex; cbn [bind] in Hd; try discriminate. injection Hd as <-. exists a, x. rewrite Hi. split; auto. eapply follow_leaf; eauto.
  Qed.
  Lemma rep_reps (A : memory) p t f : rep true A p t f -> reps A p t.
  Proof. intros H. exists f. exact H. Qed.
  Theorem binary_faithful : faithful C false (binary_impl C) brel bplaced.
  Proof.
    split; cbn [binary_impl i_state i_empty i_insert i_abandoned i_remove i_remove_element i_find i_at i_divisors i_multiples i_for_all i_reset i_clear].
    - split; reflexivity.
    - intros T root e H. apply binary_insert_rel, H.
    - intros T root e H. destruct (binary_abandoned_rel C T root e H) as (T' & H1 & H2). exists T'. split; auto. split; auto. now apply (abandoned_keeps T T' e).
    - intros T [t|] m root' o k H Hr; cbn [tree_remove] in Hr.
      + destruct H as (p & f & H1 & H2 & H3). destruct (remove_binary C t m) as [[[t' o'] k']| | |] eqn:E; cbn [bind] in Hr; try discriminate. injection Hr as <- <- <-.
        destruct (remove_sim C m t (b_arena T) p f t' o' k' H2) as (A' & n & B1 & B2 & B3 & B4 & B5 & B6); auto. { eapply brel_nodup; eauto. }
        unfold b_remove. rewrite H1. assert (Hf := brel_fuel _ _ _ _ _ H2 H3). unfold size in Hf.
        replace (2 * length (ar_cells (b_arena T))) with (n + (2 * length (ar_cells (b_arena T)) - n)) by lia. rewrite B6. cbn [bind app Nat.add]. eexists. split; [reflexivity|]. split.
        * exists p, f. cbn [b_root b_arena]. split; auto. split; auto. now rewrite (same_size_live _ _ B4).
        * intros q pl (p' & Q1 & Q2 & Q3). exists p'. cbn [b_root b_arena]. split; [congruence|]. split; auto. eapply follow_links; eauto.
      + injection Hr as <- <- <-. destruct H as [H1 H2]. unfold b_remove. rewrite H1. exists T. split; auto. split; [split; auto|auto].
    - discriminate.
    - intros T [t|] m r H Hr; cbn [tree_find] in Hr.
      + destruct H as (p & f & H1 & H2 & H3). assert (Hf := brel_fuel _ _ _ _ _ H2 H3). unfold size in Hf.
        destruct (find_sim C (b_arena T) p m (nodes t) (2 * length (ar_cells (b_arena T))) t [] p [] [] r) as (r' & R1 & R2); auto; [lia|eapply rep_reps; eauto|].
        unfold b_find. rewrite H1, R1. exists r'. split; auto. destruct r as [pl|], r' as [q|]; auto. exists p. auto.
      + injection Hr as <-. destruct H as [H1 _]. unfold b_find. rewrite H1. exists None. auto.
    - intros T t q pl e (p & f & H1 & H2 & H3) (p' & Q1 & Q2) Hd. rewrite H1 in Q1. injection Q1 as <-.
      destruct (leaf_index _ _ _ _ _ _ _ H2 Q2 Hd) as (a & x & L1 & L2 & <-). unfold b_at, as_leaf. rewrite L1. cbn [bind]. rewrite L2. reflexivity.
    - intros T [t|] m cb xs H Hr; cbn [tree_divisors] in Hr; unfold b_divisors.
      + destruct H as (p & f & H1 & H2 & H3). assert (Hf := brel_fuel _ _ _ _ _ H2 H3). unfold size in Hf. rewrite H1.
        eapply divisors_sim; [|eapply rep_reps; eauto|constructor|exact Hr]. lia.
      + destruct H as [-> _]. exact Hr.
    - intros T [t|] m cb xs H Hr; cbn [tree_multiples] in Hr; unfold b_multiples.
      + destruct H as (p & f & H1 & H2 & H3). assert (Hf := brel_fuel _ _ _ _ _ H2 H3). unfold size in Hf. rewrite H1.
        eapply multiples_sim; [|eapply rep_reps; eauto|constructor|exact Hr]. lia.
      + destruct H as [-> _]. exact Hr.
    - intros T [t|] cb xs H Hr; cbn [tree_for_all] in Hr; unfold b_for_all.
      + destruct H as (p & f & H1 & H2 & H3). assert (Hf := brel_fuel _ _ _ _ _ H2 H3). unfold size in Hf. rewrite H1.
        eapply for_all_sim; [|eapply rep_reps; eauto|constructor|exact Hr]. lia.
      + destruct H as [-> _]. exact Hr.
    - intros T root l bits root' H Hr. eapply binary_reset_rel; eauto.
    - intros T root H. apply clear_rel, H.
  Qed.
End Binary.

Section Packed.
  Import PackedProofs PackedInsert PackedReset.
  Context {M : Type}.
  Variable C : kconf M.
  Notation memory := (arena (pnode M)).
  Definition pplaced (T : ptree M) (q : nat * nat) (pl : place) : Prop := exists p, p_root T = Some p /\ placed (p_arena T) p q pl.
  Lemma same_slots_upd (l : list slot) : forall i s s', nth_error l i = Some s -> same_slot s s' -> Forall2 same_slot l (upd l i s').
  Proof.
    induction l as [|x l IH]; intros [|i] s s' H Hs; try discriminate; cbn [upd nth_error] in *.
    - injection H as ->. constructor; auto. clear. induction l; constructor; auto. repeat split.
    - constructor; [repeat split|eauto].
  Qed.
  Lemma same_links_slot (A A' : memory) p i s s' : get_slot A p i = Ok s -> same_slot s s' -> set_slot A p i s' = Ok A' -> same_links A A'.
  Proof.
    intros Hs Hss H. unfold get_slot in Hs. destruct (ar_get A p) as [n| | |] eqn:E; cbn [bind] in Hs; try discriminate. apply vget_ok in Hs.
    rewrite (set_slot_ok _ _ _ _ _ _ E Hs) in H. injection H as <-. intros q nq Hq. destruct (Nat.eq_dec q p) as [-> |Hne].
    - rewrite E in Hq. injection Hq as <-. eexists. split; [eapply get_put_same; eauto|]. split; auto. cbn [p_slots]. eapply same_slots_upd; eauto.
    - exists nq. rewrite (get_put_ne _ _ _ _ _ E); auto. split; auto. split; auto. clear. induction (p_slots nq); constructor; auto. repeat split.
  Qed.
  Lemma p_walk_links e : forall fuel (A : memory) parent p i A' parent' p', p_walk C fuel A e parent p i = Ok (A', parent', p') -> same_links A A'.
  Proof.
    induction fuel as [|fuel IH]; intros A parent p i A' parent' p'; cbn [p_walk]; [discriminate|].
    destruct (ar_get A p) as [n| | |] eqn:E; cbn [bind]; try discriminate. destruct (i =? p_used n). { intros [= -> -> ->]. apply same_links_refl. }
    destruct (vget (p_slots n) i) as [s| | |] eqn:Es; cbn [bind]; try discriminate. destruct (lower_slot C s e) as [s'| | |] eqn:El; cbn [bind]; try discriminate.
    destruct (set_slot A p i s') as [A1| | |] eqn:E1; cbn [bind]; try discriminate. destruct (in_child C s (x_t e)) as [b| | |]; cbn [bind]; try discriminate.
    assert (H1 : same_links A A1).
    { eapply same_links_slot; [|clear E1|exact E1]; [unfold get_slot; rewrite E; exact Es|]. unfold lower_slot in El. destruct (c_tree C).
      - destruct (of_option (s_mask s)); cbn [bind] in El; try discriminate. injection El as <-. repeat split.
      - injection El as <-. repeat split. }
    destruct b.
    - destruct (of_option (s_node s)); cbn [bind]; try discriminate. intros H. eapply same_links_trans; eauto.
    - intros H. eapply same_links_trans; eauto.
  Qed.
  Lemma follow_keeps (A A' : memory) p q pl : same_links A A' -> placed A p q pl -> placed A' p q pl.
  Proof. intros H (H1 & i & H2). split; auto. exists i. eapply follow_links; eauto. Qed.
  Lemma p_abandoned_keeps (T T' : ptree M) e : p_abandoned C T e = Ok T' -> forall q pl, pplaced T q pl -> pplaced T' q pl.
  Proof.
    unfold p_abandoned, p_approach. intros H q pl (p & Hp & Hq). unfold p_start in H. rewrite Hp in H. cbn [bind] in H.
    destruct (p_walk C _ (p_arena T) e None p 0) as [[[A parent] z]| | |] eqn:E; cbn [bind] in H; try discriminate. injection H as <-. exists p. cbn [p_root p_arena]. split; auto.
    eapply follow_keeps; eauto. eapply p_walk_links; eauto.
  Qed.
  Lemma chain_chains (A : memory) p t f : chain C true true A p 0 t f -> chains C A p 0 t.
  Proof. intros H. exists f. exact H. Qed.
  Lemma same_links_entries (A : memory) p n a : ar_get A p = Ok n -> same_links A (put A p (mk_pnode a (p_used n) (p_slots n))).
  Proof.
    intros E q nq Hq. assert (Hr : forall l : list slot, Forall2 same_slot l l) by (induction l; constructor; auto; repeat split).
    destruct (Nat.eq_dec q p) as [-> |Hne].
    - rewrite E in Hq. injection Hq as <-. eexists. split; [eapply get_put_same; eauto|]. split; [reflexivity|apply Hr].
    - exists nq. rewrite (get_put_ne _ _ _ _ _ E); auto. split; auto. split; [reflexivity|apply Hr].
  Qed.
  Theorem packed_faithful : faithful C true (packed_impl C) (prel C) pplaced.
  Proof.
    split; cbn [packed_impl i_state i_empty i_insert i_abandoned i_remove i_remove_element i_find i_at i_divisors i_multiples i_for_all i_reset i_clear].
    - split; reflexivity.
    - intros T root e H. apply packed_insert_rel, H.
    - intros T root e H. destruct (packed_abandoned_rel C T root e H) as (T' & H1 & H2). exists T'. split; auto. split; auto. now apply (p_abandoned_keeps T T' e).
    - intros T [t|] m root' o k H Hr; cbn [tree_remove] in Hr.
      + destruct H as (p & f & H1 & H2 & H3). destruct (remove_packed C t m) as [[[t' o'] k']| | |] eqn:E; cbn [bind] in Hr; try discriminate. injection Hr as <- <- <-.
        destruct (chain_head _ _ _ _ _ _ _ _ H2) as [n0 Hp]. assert (Hn := live_nodup _ _ H3).
        destruct (remove_sim C m t (p_arena T) p 0 f t' o' k' n0 H2 Hn Hp E) as (A' & n & B1 & B2 & B3 & B4 & B5 & _ & B6).
        unfold p_remove. rewrite H1. assert (Hf := prel_fuel _ _ _ _ _ _ _ _ H2 H3). unfold size in Hf.
        replace (2 * length (ar_cells (p_arena T))) with (n + (2 * length (ar_cells (p_arena T)) - n)) by lia. rewrite B6. cbn [bind app Nat.add]. eexists. split; [reflexivity|]. split.
        * exists p, f. cbn [p_root p_arena]. split; auto. split; auto. now rewrite (same_size_live _ _ B4).
        * intros q pl (p' & Q1 & Q2). exists p'. cbn [p_root p_arena]. split; [congruence|]. eapply follow_keeps; eauto.
      + injection Hr as <- <- <-. destruct H as [H1 H2]. unfold p_remove. rewrite H1. exists T. split; auto. split; [split; auto|auto].
    - intros _ T [t|] m root' b H Hr; cbn [tree_remove_element] in Hr.
      + destruct H as (p & f & H1 & H2 & H3). destruct (Tree.remove_element C t m) as [[t' b']| | |] eqn:E; cbn [bind] in Hr; try discriminate. injection Hr as <- <-.
        destruct (chain_head _ _ _ _ _ _ _ _ H2) as [n0 Hp]. assert (Hn := live_nodup _ _ H3).
        destruct (remove_element_sim C m t (p_arena T) p 0 f t' b' n0 H2 Hn Hp E) as (q & nq & a & n & B1 & B2 & B3 & B4 & B5 & B6).
        unfold p_remove_element. rewrite H1. assert (Hf := prel_fuel _ _ _ _ _ _ _ _ H2 H3). unfold size in Hf.
        replace (2 * length (ar_cells (p_arena T))) with (n + (2 * length (ar_cells (p_arena T)) - n)) by lia. rewrite B2. cbn [bind]. rewrite B3. cbn [bind]. rewrite B4. cbn [bind].
        unfold set_entries. rewrite B3. cbn [bind]. rewrite (set_put _ _ _ _ B3). cbn [bind]. eexists. split; [reflexivity|]. split.
        * exists p, f. cbn [p_root p_arena]. split; auto. split; auto. now rewrite live_put.
        * intros z pl (p' & Q1 & Q2). exists p'. cbn [p_root p_arena]. split; [congruence|]. eapply follow_keeps; eauto. now apply same_links_entries.
      + injection Hr as <- <-. destruct H as [H1 H2]. unfold p_remove_element. rewrite H1. exists T. split; auto. split; [split; auto|auto].
    - intros T [t|] m r H Hr; cbn [tree_find] in Hr.
      + destruct H as (p & f & H1 & H2 & H3). assert (Hf := prel_fuel _ _ _ _ _ _ _ _ H2 H3). unfold size in Hf.
        destruct (find_sim C (p_arena T) p m (nodes t) (2 * length (ar_cells (p_arena T))) t [] p 0 [] [] r) as (r' & R1 & R2); auto; [eapply chain_chains; eauto|].
        unfold p_find. rewrite H1, R1. exists r'. split; auto. destruct r as [pl|], r' as [q|]; auto. exists p. auto.
      + injection Hr as <-. destruct H as [H1 _]. unfold p_find. rewrite H1. exists None. auto.
    - intros T t q pl e (p & f & H1 & H2 & H3) (p' & Q1 & Q2 & i & Q3) Hd. rewrite H1 in Q1. injection Q1 as <-. unfold deref in Hd.
      destruct (leaf_at t (fst pl)) as [a|] eqn:E; [|discriminate].
      destruct (follow_leaf C t _ _ _ _ _ _ _ _ H2 Q3 E) as (n & L1 & L2). unfold p_at. rewrite L1. cbn [bind]. rewrite L2, Q2. exact Hd.
    - intros T [t|] m cb xs H Hr; cbn [tree_divisors] in Hr; unfold p_divisors.
      + destruct H as (p & f & H1 & H2 & H3). assert (Hf := prel_fuel _ _ _ _ _ _ _ _ H2 H3). unfold size in Hf. rewrite H1.
        eapply divisors_sim; [|eapply chain_chains; eauto|constructor|exact Hr]. lia.
      + destruct H as [-> _]. exact Hr.
    - intros T [t|] m cb xs H Hr; cbn [tree_multiples] in Hr; unfold p_multiples.
      + destruct H as (p & f & H1 & H2 & H3). assert (Hf := prel_fuel _ _ _ _ _ _ _ _ H2 H3). unfold size in Hf. rewrite H1.
        eapply multiples_sim; [|eapply chain_chains; eauto|constructor|exact Hr]. lia.
      + destruct H as [-> _]. exact Hr.
    - intros T [t|] cb xs H Hr; cbn [tree_for_all] in Hr; unfold p_for_all.
      + destruct H as (p & f & H1 & H2 & H3). assert (Hf := prel_fuel _ _ _ _ _ _ _ _ H2 H3). unfold size in Hf. rewrite H1.
        eapply for_all_sim; [|eapply chain_chains; eauto|constructor|exact Hr]. lia.
      + destruct H as [-> _]. exact Hr.
    - intros T root l bits root' H Hr. eapply packed_reset_rel; eauto.
    - intros T root H. apply packed_clear_rel, H.
  Qed.
End Packed.
