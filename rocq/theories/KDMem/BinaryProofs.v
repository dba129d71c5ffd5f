(** The binary tree in memory represents a tree: searches, removal and destruction. *)
From Coq Require Import List Arith Bool ZArith NArith String Lia Permutation.
From Verif.Base Require Import Res Arr ResList StdAlg Lists.
From Verif.DivMask Require Import Model.
From Verif.Spec Require Import DivFinder.
From Verif.KD Require Import EntryArray Tree.
From Verif.KDMem Require Import Arena ArenaFacts Binary.
Import ListNotations.
Local Notation length := List.length.

Section Rep.
  Context {M : Type}.
  Variable C : kconf M.
  Notation ext := (ext M).
  Notation tree := (tree M).
  Notation memory := (arena (bnode M)).

  (** The node at [p] and those below it represent [t]; [f] lists them.  Without [done] the masks have not been computed yet. *)
  Fixpoint rep (done : bool) (A : memory) (p : nat) (t : tree) (f : list nat) : Prop :=
    match t with
    | Leaf a => ar_get A p = Ok (BLeaf a) /\ f = [p]
    | Split v x m le gt =>
        exists pl pg fl fg, ar_get A p = Ok (BInterior v x (if done then m else max_mask) (Some pl) (Some pg)) /\
          rep done A pl le fl /\ rep done A pg gt fg /\ f = p :: fl ++ fg
    end.

  Lemma rep_frame done t : forall A A' p f, rep done A p t f -> (forall q, In q f -> ar_get A' q = ar_get A q) -> rep done A' p t f.
  Proof.
    induction t as [a|v x m le IHl gt IHg]; intros A A' p f H He.
    - destruct H as [H1 ->]. split; auto. rewrite He; auto. now left.
    - destruct H as (pl & pg & fl & fg & H1 & H2 & H3 & ->). exists pl, pg, fl, fg. split.
      { rewrite He; auto. now left. } split; [|split; auto].
      + apply (IHl A); auto. intros q Hq. apply He. right. apply in_or_app. auto.
      + apply (IHg A); auto. intros q Hq. apply He. right. apply in_or_app. auto.
  Qed.
  Lemma rep_get done t : forall A p f, rep done A p t f -> forall q, In q f -> exists n, ar_get A q = Ok n.
  Proof.
    induction t as [a|v x m le IHl gt IHg]; intros A p f H q Hq.
    - destruct H as [H1 ->]. destruct Hq as [<-|[]]. eauto.
    - destruct H as (pl & pg & fl & fg & H1 & H2 & H3 & ->). destruct Hq as [<-|Hq]; [eauto|]. apply in_app_or in Hq as [Hq|Hq]; eauto.
  Qed.
  Lemma rep_live done t A p f : rep done A p t f -> forall q, In q f -> In q (live A).
  Proof. intros H q Hq. destruct (rep_get done t A p f H q Hq) as [n Hn]. eapply get_live; eauto. Qed.
  Lemma rep_head done t A p f : rep done A p t f -> In p f.
  Proof. destruct t; [intros [_ ->]; now left|]. intros (pl & pg & fl & fg & _ & _ & _ & ->). now left. Qed.
  Lemma rep_head_get done t A p f : rep done A p t f -> exists n, ar_get A p = Ok n.
  Proof. intros H. eapply rep_get; eauto. eapply rep_head; eauto. Qed.
  Lemma rep_length done t : forall A p f, rep done A p t f -> length f = nodes t.
  Proof.
    induction t as [a|v x m le IHl gt IHg]; intros A p f H.
    - destruct H as [_ ->]. reflexivity.
    - destruct H as (pl & pg & fl & fg & H1 & H2 & H3 & ->). cbn [nodes length]. rewrite app_length. erewrite IHl, IHg; eauto.
  Qed.
  Lemma rep_grow done t A n p f : rep done A p t f -> rep done (grow A n) p t f.
  Proof.
    intros H. apply (rep_frame done t A); auto. intros q Hq. apply get_grow_other. destruct (rep_get _ _ _ _ _ H q Hq) as [m Hm].
    eapply get_not_fresh; eauto.
  Qed.
  Lemma rep_put done t A n m q p f : rep done A p t f -> ~ In q f -> ar_get A q = Ok m -> rep done (put A q n) p t f.
  Proof. intros H Hq Hm. apply (rep_frame done t A); auto. intros z Hz. eapply get_put_ne; eauto. congruence. Qed.
  Lemma nodup_split (p : nat) fl fg : NoDup (p :: fl ++ fg) -> NoDup fl /\ NoDup fg /\ ~ In p fl /\ ~ In p fg /\ (forall q, In q fl -> ~ In q fg).
  Proof.
    intros H. apply NoDup_cons_iff in H as [H1 H2]. apply nodup_app in H2 as (H2 & H3 & H4). split; auto. split; auto.
    split; [intros Hp; apply H1, in_or_app; auto|]. split; [intros Hp; apply H1, in_or_app; auto|]. auto.
  Qed.

  (** ** Searches *)
  Definition reps (A : memory) (p : nat) (t : tree) : Prop := exists f, rep true A p t f.

  Lemma divisors_sim A m cb : forall fuel fuel' t p ts ps seen xs, fuel <= fuel' -> reps A p t -> Forall2 (reps A) ps ts ->
    divisors_loop C fuel m cb t ts seen = Ok xs -> b_divisors_loop C fuel' A m cb p ps seen = Ok xs.
  Proof.
    induction fuel as [|k IH]; intros fuel' t p ts ps seen xs Hf [f H] Hs Hr; [discriminate|]. destruct fuel' as [|k']; [lia|].
    cbn [divisors_loop] in Hr. cbn [b_divisors_loop].
    destruct t as [a|v x mask le gt].
    - destruct H as [H ->]. rewrite H. cbn [bind]. destruct (arr_divisors C a m cb seen) as [[seen' go]| | |]; try discriminate. cbn [bind] in *.
      destruct go; auto. destruct Hs as [|q t' ps ts Hq Hs]; auto. apply (IH k' t' q ts ps); auto. lia.
    - destruct H as (pl & pg & fl & fg & H1 & H2 & H3 & ->). rewrite H1. cbn [bind].
      destruct (c_tree C && negb (can_divide mask (x_mask m))).
      + destruct Hs as [|q t' ps ts Hq Hs]; auto. apply (IH k' t' q ts ps); auto. lia.
      + cbn [nonnull of_option bind]. destruct (above C v x (x_t m)); cbn [bind].
        * apply (IH k' le pl (gt :: ts) (pg :: ps)); auto; [lia|now exists fl|]. constructor; auto. now exists fg.
        * apply (IH k' le pl ts ps); auto; [lia|now exists fl].
  Qed.
  Lemma multiples_sim A m cb : forall fuel fuel' t p ts ps seen xs, fuel <= fuel' -> reps A p t -> Forall2 (reps A) ps ts ->
    multiples_loop C fuel m cb t ts seen = Ok xs -> b_multiples_loop C fuel' A m cb p ps seen = Ok xs.
  Proof.
    induction fuel as [|k IH]; intros fuel' t p ts ps seen xs Hf [f H] Hs Hr; [discriminate|]. destruct fuel' as [|k']; [lia|].
    cbn [multiples_loop] in Hr. cbn [b_multiples_loop].
    destruct t as [a|v x mask le gt].
    - destruct H as [H ->]. rewrite H. cbn [bind]. destruct (arr_multiples C a m cb seen) as [[seen' go]| | |]; try discriminate. cbn [bind] in *.
      destruct go; auto. destruct Hs as [|q t' ps ts Hq Hs]; auto. apply (IH k' t' q ts ps); auto. lia.
    - destruct H as (pl & pg & fl & fg & H1 & H2 & H3 & ->). rewrite H1. cbn [bind nonnull of_option].
      destruct (negb (above C v x (x_t m))); cbn [bind].
      * apply (IH k' gt pg (le :: ts) (pl :: ps)); auto; [lia|now exists fg|]. constructor; auto. now exists fl.
      * apply (IH k' gt pg ts ps); auto; [lia|now exists fg].
  Qed.
  Lemma for_all_sim A cb : forall fuel fuel' t p ts ps seen xs, fuel <= fuel' -> reps A p t -> Forall2 (reps A) ps ts ->
    for_all_loop C fuel cb t ts seen = Ok xs -> b_for_all_loop C fuel' A cb p ps seen = Ok xs.
  Proof.
    induction fuel as [|k IH]; intros fuel' t p ts ps seen xs Hf [f H] Hs Hr; [discriminate|]. destruct fuel' as [|k']; [lia|].
    cbn [for_all_loop] in Hr. cbn [b_for_all_loop].
    destruct t as [a|v x mask le gt].
    - destruct H as [H ->]. rewrite H. cbn [bind]. destruct (arr_for_all C a cb seen) as [[seen' go]| | |]; try discriminate. cbn [bind] in *.
      destruct go; auto. destruct Hs as [|q t' ps ts Hq Hs]; auto. apply (IH k' t' q ts ps); auto. lia.
    - destruct H as (pl & pg & fl & fg & H1 & H2 & H3 & ->). rewrite H1. cbn [bind nonnull of_option].
      apply (IH k' le pl (gt :: ts) (pg :: ps)); auto; [lia|now exists fl|]. constructor; auto. now exists fg.
  Qed.

  (** The node a way from [p] leads to *)
  Fixpoint follow (A : memory) (p : nat) (way : list bool) : option nat :=
    match way with
    | [] => Some p
    | b :: way' =>
        match ar_get A p with
        | Ok (BInterior _ _ _ le gt) => match (if b then gt else le) with Some q => follow A q way' | None => None end
        | _ => None
        end
    end.
  Lemma follow_snoc A b way : forall p q v x m le gt r, follow A p way = Some q -> ar_get A q = Ok (BInterior v x m le gt) ->
    (if b : bool then gt else le) = Some r -> follow A p (way ++ [b]) = Some r.
  Proof.
    induction way as [|c way IH]; intros p q v x m le gt r Hf Hq Hr; cbn [app follow] in *.
    - injection Hf as ->. rewrite Hq, Hr. reflexivity.
    - destruct (ar_get A p) as [[a|v' x' m' le' gt']| | |]; try discriminate. destruct (if c then gt' else le'); [|discriminate]. eapply IH; eauto.
  Qed.
  Definition same_links (A A' : memory) : Prop := forall q v x m le gt, ar_get A q = Ok (BInterior v x m le gt) -> exists m', ar_get A' q = Ok (BInterior v x m' le gt).
  Lemma same_links_refl A : same_links A A.
  Proof. intros q v x m le gt H. eauto. Qed.
  Lemma same_links_trans A B D : same_links A B -> same_links B D -> same_links A D.
  Proof. intros H1 H2 q v x m le gt H. destruct (H1 _ _ _ _ _ _ H) as [m' H']. eauto. Qed.
  Lemma same_links_leaf A p a a' : ar_get A p = Ok (BLeaf a) -> same_links A (put A p (BLeaf a')).
  Proof. intros H q v x m le gt Hq. exists m. erewrite get_put_ne; eauto. congruence. Qed.
  Lemma follow_links A A' way : same_links A A' -> forall p q, follow A p way = Some q -> follow A' p way = Some q.
  Proof.
    intros Hs. induction way as [|b way IH]; intros p q; cbn [follow]; auto.
    destruct (ar_get A p) as [[a|v x m le gt]| | |] eqn:E; try discriminate. destruct (Hs _ _ _ _ _ _ E) as [m' ->].
    destruct (if b then gt else le); [auto|discriminate].
  Qed.
  Lemma follow_leaf t : forall A p f way q a, rep true A p t f -> follow A p way = Some q -> leaf_at t way = Some a -> ar_get A q = Ok (BLeaf a).
  Proof.
    induction t as [a|v x m le IHl gt IHg]; intros A p f way q a' H Hf Hl.
    - destruct H as [H ->]. destruct way as [|b way]; [|discriminate]. injection Hf as <-. injection Hl as <-. exact H.
    - destruct H as (pl & pg & fl & fg & H1 & H2 & H3 & ->). destruct way as [|b way]; [discriminate|]. cbn [follow leaf_at] in *. rewrite H1 in Hf.
      destruct b; [eapply IHg|eapply IHl]; eauto.
  Qed.

  (** A place in the tree and a pointer to an entry *)
  Definition placed (A : memory) (root : nat) (q : nat * nat) (pl : place) : Prop := snd q = snd pl /\ follow A root (fst pl) = Some (fst q).
  Lemma find_sim A root m : forall fuel fuel' t way p ts ps r, fuel <= fuel' -> reps A p t -> follow A root way = Some p ->
    Forall2 (fun q wt => reps A q (snd wt) /\ follow A root (fst wt) = Some q) ps ts ->
    find_loop C fuel m way t ts = Ok r ->
    exists r', b_find_loop C fuel' A m p ps = Ok r' /\
      match r, r' with None, None => True | Some pl, Some q => placed A root q pl | _, _ => False end.
  Proof.
    induction fuel as [|k IH]; intros fuel' t way p ts ps r Hf [f H] Hw Hs Hr; [discriminate|]. destruct fuel' as [|k']; [lia|].
    cbn [find_loop] in Hr. cbn [b_find_loop].
    assert (Hnext : forall r, match ts with [] => Ok None | (p', t') :: stack' => find_loop C k m p' t' stack' end = Ok r ->
      exists r', match ps with [] => Ok None | q :: stack' => b_find_loop C k' A m q stack' end = Ok r' /\
        match r, r' with None, None => True | Some pl, Some q => placed A root q pl | _, _ => False end).
    { intros r0 Hr0. destruct Hs as [|q [w' t'] ps ts [Hq1 Hq2] Hs].
      - injection Hr0 as <-. exists None. auto.
      - cbn [fst snd] in *. apply (IH k' t' w' q ts ps); auto. lia. }
    destruct t as [a|v x mask le gt].
    - destruct H as [H ->]. rewrite H. cbn [bind]. destruct (arr_find C a m) as [[i|]| | |]; try discriminate; cbn [bind] in *; auto.
      injection Hr as <-. exists (Some (p, i)). split; auto. split; auto.
    - destruct H as (pl & pg & fl & fg & H1 & H2 & H3 & ->). rewrite H1. cbn [bind].
      destruct (c_tree C && negb (can_divide mask (x_mask m))); auto.
      cbn [nonnull of_option bind].
      assert (Hl : follow A root (way ++ [false]) = Some pl) by (eapply (follow_snoc A false); eauto).
      assert (Hg : follow A root (way ++ [true]) = Some pg) by (eapply (follow_snoc A true); eauto).
      destruct (above C v x (x_t m)); cbn [bind].
      * apply (IH k' le (way ++ [false]) pl ((way ++ [true], gt) :: ts) (pg :: ps)); auto; [lia|now exists fl|]. constructor; auto. cbn [fst snd]. split; auto. now exists fg.
      * apply (IH k' le (way ++ [false]) pl ts ps); auto; [lia|now exists fl].
  Qed.

  (** ** Removal *)
  Lemma remove_sim m : forall t A p f t' o k, rep true A p t f -> NoDup f -> remove_binary C t m = Ok (t', o, k) ->
    exists A' n, n <= nodes t /\ rep true A' p t' f /\ (forall q, ~ In q f -> ar_get A' q = ar_get A q) /\ same_size A A' /\ same_links A A' /\
      forall fuel stack out count, b_remove_loop C (n + fuel) A m p stack out count =
        match stack with
        | [] => Ok (A', out ++ o, count + k)
        | q :: stack' => b_remove_loop C fuel A' m q stack' (out ++ o) (count + k)
        end.
  Proof.
    induction t as [a|v x mask le IHl gt IHg]; intros A p f t' o k H Hn Hr.
    - destruct H as [H ->]. cbn [remove_binary] in Hr. destruct (arr_remove C a m) as [[[a' o'] k']| | |] eqn:E; try discriminate. cbn [bind] in Hr.
      injection Hr as <- <- <-. exists (put A p (BLeaf a')), 1. cbn [nodes]. split; [lia|].
      split; [split; [eapply get_put_same; eauto|reflexivity]|]. split. { intros q Hq. eapply get_put_ne; eauto. intros ->. apply Hq. now left. }
      split; [apply same_size_put|]. split; [eapply same_links_leaf; eauto|].
      intros fuel stack out count. cbn [Nat.add b_remove_loop]. rewrite H. cbn [bind]. rewrite E. cbn [bind]. rewrite (set_put _ _ _ _ H). reflexivity.
    - destruct H as (pl & pg & fl & fg & H1 & H2 & H3 & ->). apply nodup_split in Hn as (Hnl & Hng & Hpl & Hpg & Hlg).
      cbn [remove_binary] in Hr. destruct (remove_binary C gt m) as [[[gt' o1] k1]| | |] eqn:Eg; try discriminate. cbn [bind] in Hr.
      destruct (IHg A pg fg gt' o1 k1 H3 Hng eq_refl) as (A1 & n1 & Hn1 & Hr1 & Hf1 & Hz1 & Hk1 & Hl1).
      assert (H2' : rep true A1 pl le fl) by (apply (rep_frame true le A); auto).
      assert (Hp1 : ar_get A1 p = Ok (BInterior v x mask (Some pl) (Some pg))) by (rewrite Hf1; auto).
      destruct (negb (above C v x (x_t m))) eqn:Ea.
      + destruct (remove_binary C le m) as [[[le' o2] k2]| | |] eqn:El; try discriminate. cbn [bind] in Hr. injection Hr as <- <- <-.
        destruct (IHl A1 pl fl le' o2 k2 H2' Hnl eq_refl) as (A2 & n2 & Hn2 & Hr2 & Hf2 & Hz2 & Hk2 & Hl2).
        exists A2, (S (n1 + n2)). cbn [nodes]. split; [lia|]. split.
        { exists pl, pg, fl, fg. split; [rewrite Hf2; auto|]. split; auto. split; auto. apply (rep_frame true gt' A1); auto.
          intros q Hq. apply Hf2. intros Hc. exact (Hlg q Hc Hq). }
        split. { intros q Hq. rewrite Hf2, Hf1; auto; intros Hc; apply Hq; right; apply in_or_app; auto. }
        split; [eapply same_size_trans; eauto|]. split; [eapply same_links_trans; eauto|].
        intros fuel stack out count. cbn [Nat.add b_remove_loop]. rewrite H1. cbn [bind]. rewrite Ea. cbn [nonnull of_option bind].
        rewrite <- Nat.add_assoc, Hl1, Hl2. destruct stack; rewrite <- ?app_assoc, ?Nat.add_assoc; reflexivity.
      + injection Hr as <- <- <-. exists A1, (S n1). cbn [nodes]. split; [lia|]. split.
        { exists pl, pg, fl, fg. auto. }
        split. { intros q Hq. apply Hf1. intros Hc; apply Hq; right; apply in_or_app; auto. }
        split; auto. split; auto.
        intros fuel stack out count. cbn [Nat.add b_remove_loop]. rewrite H1. cbn [bind]. rewrite Ea. cbn [nonnull of_option bind]. rewrite Hl1. reflexivity.
  Qed.

  (** ** Destruction *)
  Lemma clear_sim done : forall t A p f, rep done A p t f -> NoDup f ->
    exists A' gone, Permutation gone (tree_entries t) /\ (forall q, ~ In q f -> ar_get A' q = ar_get A q) /\ same_size A A' /\
      forall fuel stack acc, b_clear_loop (nodes t + fuel) A p stack acc =
        match stack with [] => Ok (A', acc ++ gone) | q :: stack' => b_clear_loop fuel A' q stack' (acc ++ gone) end.
  Proof.
    induction t as [a|v x mask le IHl gt IHg]; intros A p f H Hn.
    - destruct H as [H ->]. exists (put A p (BLeaf (mk_arr [] (a_mask a)))), (rev (a_list a)). split; [apply Permutation_sym, Permutation_rev|].
      split. { intros q Hq. eapply get_put_ne; eauto. intros ->. apply Hq. now left. } split; [apply same_size_put|].
      intros fuel stack acc. cbn [nodes Nat.add b_clear_loop]. rewrite H. cbn [bind]. rewrite (set_put _ _ _ _ H). reflexivity.
    - destruct H as (pl & pg & fl & fg & H1 & H2 & H3 & ->). apply nodup_split in Hn as (Hnl & Hng & Hpl & Hpg & Hlg).
      destruct (IHl A pl fl H2 Hnl) as (A1 & g1 & Hg1 & Hf1 & Hz1 & Hl1).
      assert (H3' : rep done A1 pg gt fg). { apply (rep_frame done gt A); auto. intros q Hq. apply Hf1. intros Hc. exact (Hlg q Hc Hq). }
      destruct (IHg A1 pg fg H3' Hng) as (A2 & g2 & Hg2 & Hf2 & Hz2 & Hl2).
      exists A2, (g1 ++ g2). split; [apply Permutation_app; auto|]. split. { intros q Hq. rewrite Hf2, Hf1; auto; intros Hc; apply Hq; right; apply in_or_app; auto. }
      split; [eapply same_size_trans; eauto|].
      intros fuel stack acc. cbn [nodes Nat.add b_clear_loop]. rewrite H1. cbn [bind nonnull of_option].
      rewrite <- Nat.add_assoc, Hl1, Hl2. destruct stack; rewrite <- ?app_assoc; reflexivity.
  Qed.
End Rep.
