(** The packed tree in memory represents a tree: searches, removal and destruction. *)
From Coq Require Import List Arith Bool ZArith NArith String Lia Permutation.
From Verif.Base Require Import Res Arr ResList StdAlg Lists.
From Verif.DivMask Require Import Model.
From Verif.Spec Require Import DivFinder.
From Verif.KD Require Import EntryArray Tree.
From Verif.KDMem Require Import Arena ArenaFacts Packed.
Import ListNotations.
Local Notation length := List.length.

Section Rep.
  Context {M : Type}.
  Variable C : kconf M.
  Notation ext := (ext M).
  Notation tree := (tree M).
  Notation memory := (arena (pnode M)).

  (** The children of the node at [p] from index [i] on, and its entries, represent [t]; [f] lists the nodes below.  The masks are right in the
      node itself if [self], and below it if [kids]. *)
  Fixpoint chain (self kids : bool) (A : memory) (p i : nat) (t : tree) (f : list nat) : Prop :=
    match t with
    | Leaf a => exists n, ar_get A p = Ok n /\ p_used n = i /\ i <= length (p_slots n) /\ p_entries n = a /\ f = []
    | Split v x m le gt =>
        exists n s q fg fl, ar_get A p = Ok n /\ i < p_used n /\ nth_error (p_slots n) i = Some s /\
          s_var s = Some v /\ s_exp s = Some x /\ s_node s = Some q /\ (self && c_tree C = true -> s_mask s = Some m) /\
          chain kids kids A q 0 gt fg /\ chain self kids A p (S i) le fl /\ f = (q :: fg) ++ fl
    end.

  Lemma chain_frame kids : forall t self A A' p p' i f n n', chain self kids A p i t f -> ar_get A p = Ok n -> ar_get A' p' = Ok n' ->
    p_used n' = p_used n -> p_entries n' = p_entries n -> length (p_slots n') = length (p_slots n) ->
    (forall j, i <= j -> nth_error (p_slots n') j = nth_error (p_slots n) j) ->
    (forall q, In q f -> ar_get A' q = ar_get A q) -> chain self kids A' p' i t f.
  Proof.
    induction t as [a|v x m le IHl gt IHg]; intros self A A' p p' i f n n' H Hn Hn' Hu He Hz Hs Hf.
    - destruct H as (n0 & H1 & H2 & H3 & H4 & ->). rewrite Hn in H1. injection H1 as <-. exists n'. repeat split; auto; try congruence; lia.
    - destruct H as (n0 & s & q & fg & fl & H1 & H2 & H3 & H4 & H5 & H6 & H7 & H8 & H9 & ->). rewrite Hn in H1. injection H1 as <-.
      exists n', s, q, fg, fl. split; auto. split; [congruence|]. split; [rewrite Hs; auto|]. do 4 (split; [assumption|]). split; [|split; auto].
      + destruct (ar_get A q) as [nq| | |] eqn:Eq.
        2-4: (exfalso; destruct gt; [destruct H8 as (n1 & K & _); congruence|destruct H8 as (n1 & s1 & q1 & fg1 & fl1 & K & _); congruence]).
        assert (Eq' : ar_get A' q = Ok nq) by (rewrite Hf; [assumption|now left]).
        eapply (IHg kids A A' q q 0 fg nq nq); eauto. intros z Hz'. apply Hf. right. apply in_or_app. auto.
      + eapply (IHl self A A' p p' (S i) fl n n'); eauto. { intros j Hj. apply Hs. lia. } intros z Hz'. apply Hf. right. apply in_or_app. auto.
  Qed.
  Lemma chain_head self kids t A p i f : chain self kids A p i t f -> exists n, ar_get A p = Ok n.
  Proof. destruct t; [intros (n & H & _)|intros (n & s & q & fg & fl & H & _)]; eauto. Qed.
  Lemma chain_same self kids t A A' p i f : chain self kids A p i t f -> (forall q, In q (p :: f) -> ar_get A' q = ar_get A q) -> chain self kids A' p i t f.
  Proof.
    intros H Hf. destruct (chain_head _ _ _ _ _ _ _ H) as [n Hn]. eapply (chain_frame kids t self A A' p p i f n n); eauto.
    - rewrite Hf; auto. now left.
    - intros q Hq. apply Hf. now right.
  Qed.
  Lemma chain_get kids t : forall self A p i f, chain self kids A p i t f -> forall q, In q (p :: f) -> exists n, ar_get A q = Ok n.
  Proof.
    induction t as [a|v x m le IHl gt IHg]; intros self A p i f H q Hq.
    - destruct H as (n & H1 & _ & _ & _ & ->). destruct Hq as [<-|[]]. eauto.
    - destruct H as (n & s & q' & fg & fl & H1 & H2 & H3 & H4 & H5 & H6 & H7 & H8 & H9 & ->). destruct Hq as [<-|Hq]; [eauto|].
      apply in_app_or in Hq as [Hq|Hq]; [eapply IHg; eauto|eapply IHl; eauto; now right].
  Qed.
  Lemma chain_live self kids t A p i f : chain self kids A p i t f -> forall q, In q (p :: f) -> In q (live A).
  Proof. intros H q Hq. destruct (chain_get _ _ _ _ _ _ _ H q Hq) as [n Hn]. eapply get_live; eauto. Qed.
  Lemma chain_length kids t : forall self A p i f, chain self kids A p i t f -> nodes t = 2 * length f + 1.
  Proof.
    induction t as [a|v x m le IHl gt IHg]; intros self A p i f H.
    - destruct H as (n & _ & _ & _ & _ & ->). reflexivity.
    - destruct H as (n & s & q' & fg & fl & H1 & H2 & H3 & H4 & H5 & H6 & H7 & H8 & H9 & ->). cbn [nodes app length]. rewrite app_length.
      erewrite IHl, IHg; eauto. lia.
  Qed.
  Lemma chain_used self kids t : forall A p i f n, chain self kids A p i t f -> ar_get A p = Ok n -> i <= p_used n <= length (p_slots n).
  Proof.
    induction t as [a|v x m le IHl gt IHg]; intros A p i f n H Hn.
    - destruct H as (n' & H1 & H2 & H3 & _). rewrite Hn in H1. injection H1 as <-. lia.
    - destruct H as (n' & s & q' & fg & fl & H1 & H2 & H3 & H4 & H5 & H6 & H7 & H8 & H9 & ->). specialize (IHl _ _ _ _ _ H9 Hn). lia.
  Qed.
  Lemma nodup_chain (p q : nat) fg fl : NoDup (p :: (q :: fg) ++ fl) -> NoDup (q :: fg) /\ NoDup (p :: fl) /\ ~ In p (q :: fg) /\ (forall z, In z (q :: fg) -> ~ In z (p :: fl)).
  Proof.
    intros H. apply NoDup_cons_iff in H as [H1 H2]. apply nodup_app in H2 as (H2 & H3 & H4).
    assert (Hp : ~ In p (q :: fg)) by (intros Hc; apply H1, in_or_app; auto).
    split; auto. split. { constructor; auto. intros Hc. apply H1, in_or_app. auto. } split; auto.
    intros z Hz [<-|Hz']; [auto|exact (H4 z Hz Hz')].
  Qed.

  (** ** Searches *)
  Definition chains (A : memory) (p i : nat) (t : tree) : Prop := exists f, chain true true A p i t f.
  Notation starts A := (fun q t => chains A q 0 t).
  Lemma rules_out_ok s m x : (c_tree C = true -> s_mask s = Some m) -> child_rules_out C s x = Ok (c_tree C && negb (can_divide m (x_mask x))).
  Proof. unfold child_rules_out. intros H. destruct (c_tree C); auto. rewrite H by auto. reflexivity. Qed.
  Lemma in_child_ok s v x m : s_var s = Some v -> s_exp s = Some x -> in_child C s m = Ok (above C v x m).
  Proof. unfold in_child. intros -> ->. reflexivity. Qed.

  Lemma divisors_sim A m cb : forall fuel fuel' t p i ts ps seen xs, fuel <= fuel' -> chains A p i t -> Forall2 (starts A) ps ts ->
    divisors_loop C fuel m cb t ts seen = Ok xs -> p_divisors_loop C fuel' A m cb p i ps seen = Ok xs.
  Proof.
    induction fuel as [|k IH]; intros fuel' t p i ts ps seen xs Hf [f H] Hs Hr; [discriminate|]. destruct fuel' as [|k']; [lia|].
    cbn [divisors_loop] in Hr. cbn [p_divisors_loop].
    destruct t as [a|v x mask le gt].
    - destruct H as (n & H1 & H2 & _ & H4 & _). rewrite H1. cbn [bind]. rewrite H2, Nat.eqb_refl, H4.
      destruct (arr_divisors C a m cb seen) as [[seen' go]| | |]; try discriminate. cbn [bind] in *.
      destruct go; auto. destruct Hs as [|q t' ps ts Hq Hs]; auto. apply (IH k' t' q 0 ts ps); auto. lia.
    - destruct H as (n & s & q & fg & fl & H1 & H2 & H3 & H4 & H5 & H6 & H7 & H8 & H9 & ->). rewrite H1. cbn [bind].
      destruct (Nat.eqb_spec i (p_used n)) as [->|_]; [lia|]. rewrite (proj2 (vget_ok _ _ _) H3). cbn [bind]. rewrite (rules_out_ok s mask) by auto. cbn [bind].
      destruct (c_tree C && negb (can_divide mask (x_mask m))).
      + destruct Hs as [|q' t' ps ts Hq Hs]; auto. apply (IH k' t' q' 0 ts ps); auto. lia.
      + rewrite (in_child_ok s v x) by auto. cbn [bind]. rewrite H6. cbn [of_option bind]. destruct (above C v x (x_t m)); cbn [bind].
        * apply (IH k' le p (S i) (gt :: ts) (q :: ps)); auto; [lia|now exists fl|]. constructor; auto. now exists fg.
        * apply (IH k' le p (S i) ts ps); auto; [lia|now exists fl].
  Qed.
  Lemma multiples_sim A m cb : forall fuel fuel' t p i ts ps seen xs, fuel <= fuel' -> chains A p i t -> Forall2 (starts A) ps ts ->
    multiples_loop_packed C fuel m cb t ts seen = Ok xs -> p_multiples_loop C fuel' A m cb p i ps seen = Ok xs.
  Proof.
    induction fuel as [|k IH]; intros fuel' t p i ts ps seen xs Hf [f H] Hs Hr; [discriminate|]. destruct fuel' as [|k']; [lia|].
    cbn [multiples_loop_packed] in Hr. cbn [p_multiples_loop].
    destruct t as [a|v x mask le gt].
    - destruct H as (n & H1 & H2 & _ & H4 & _). rewrite H1. cbn [bind]. rewrite H2, Nat.eqb_refl, H4.
      destruct (arr_multiples C a m cb seen) as [[seen' go]| | |]; try discriminate. cbn [bind] in *.
      destruct go; auto. destruct Hs as [|q t' ps ts Hq Hs]; auto. apply (IH k' t' q 0 ts ps); auto. lia.
    - destruct H as (n & s & q & fg & fl & H1 & H2 & H3 & H4 & H5 & H6 & H7 & H8 & H9 & ->). rewrite H1. cbn [bind].
      destruct (Nat.eqb_spec i (p_used n)) as [->|_]; [lia|]. rewrite (proj2 (vget_ok _ _ _) H3). cbn [bind]. rewrite H6. cbn [of_option bind].
      rewrite (in_child_ok s v x) by auto. cbn [bind]. destruct (above C v x (x_t m)).
      * apply (IH k' gt q 0 ts ps); auto; [lia|now exists fg].
      * apply (IH k' le p (S i) (gt :: ts) (q :: ps)); auto; [lia|now exists fl|]. constructor; auto. now exists fg.
  Qed.

  (** The children of a node *)
  Notation item := (nat * tree * list nat)%type.
  Definition area (F : list item) : list nat := List.concat (map snd F).
  Definition ptrs (F : list item) : list nat := map (fun i => fst (fst i)) F.
  Definition trees (F : list item) : list tree := map (fun i => snd (fst i)) F.
  Definition one (done : bool) (A : memory) (i : item) : Prop := exists f, snd i = fst (fst i) :: f /\ chain done done A (fst (fst i)) 0 (snd (fst i)) f.
  Definition forest (done : bool) (A : memory) (F : list item) : Prop := Forall (one done A) F.
  Fixpoint kids_of (t : tree) : list tree := match t with Leaf _ => [] | Split _ _ _ le gt => gt :: kids_of le end.
  Lemma push_kids t : forall stack, push_children t stack = rev (kids_of t) ++ stack.
  Proof. induction t as [a|v x m le IHl gt IHg]; intros stack; cbn [push_children kids_of rev app]; auto. rewrite IHl, <- app_assoc. reflexivity. Qed.
  Lemma nth_firstn {X} (l : list X) : forall n i, i < n -> nth_error (firstn n l) i = nth_error l i.
  Proof. induction l as [|y l IH]; intros [|n] [|i] H; try lia; cbn [firstn nth_error]; auto. apply IH. lia. Qed.
  Lemma skipn_cons_nth {X} (l : list X) i x : nth_error l i = Some x -> skipn i l = x :: skipn (S i) l.
  Proof. revert l. induction i as [|i IH]; intros [|y l] H; try discriminate; cbn [skipn]. - injection H as ->. reflexivity. - apply IH. exact H. Qed.
  Lemma chain_kids self kids t : forall A p i f n, chain self kids A p i t f -> ar_get A p = Ok n ->
    exists G, child_nodes (skipn i (firstn (p_used n) (p_slots n))) = Ok (ptrs G) /\ trees G = kids_of t /\ area G = f /\ forest kids A G /\
      node_entries t = p_entries n /\
      forall kids' A', ar_get A' p = ar_get A p -> forest kids' A' G -> chain self kids' A' p i t f.
  Proof.
    induction t as [a|v x m le IHl gt IHg]; intros A p i f n H Hn.
    - destruct H as (n' & H1 & H2 & H3 & H4 & ->). rewrite Hn in H1. injection H1 as <-. exists []. rewrite H2.
      rewrite skipn_all2 by (rewrite firstn_length; lia). do 3 (split; [reflexivity|]). split; [constructor|]. split; auto.
      intros kids' A' Hp _. exists n. rewrite Hp. auto.
    - destruct H as (n' & s & q & fg & fl & H1 & H2 & H3 & H4 & H5 & H6 & H7 & H8 & H9 & ->). rewrite Hn in H1. injection H1 as <-.
      destruct (IHl A p (S i) fl n H9 Hn) as (G & G1 & G2 & G3 & G4 & G5 & G6). exists ((q, gt, q :: fg) :: G).
      assert (Hi : nth_error (firstn (p_used n) (p_slots n)) i = Some s) by (rewrite nth_firstn; auto).
      rewrite (skipn_cons_nth _ _ _ Hi). cbn [child_nodes]. rewrite H6. cbn [of_option bind]. rewrite G1. cbn [bind]. split; [reflexivity|].
      split; [cbn [trees map fst snd kids_of]; f_equal; exact G2|]. split; [unfold area in *; cbn [map List.concat snd]; now rewrite G3|].
      split. { constructor; auto. exists fg. auto. }
      split; auto. intros kids' A' Hp HG. apply Forall_cons_iff in HG as [(f' & HG1 & HG2) HG]. cbn [fst snd] in *. injection HG1 as <-.
      exists n, s, q, fg, fl. rewrite Hp. repeat (split; [assumption|]). split; auto.
  Qed.
  Lemma children_ok self kids t A p i f n : chain self kids A p i t f -> ar_get A p = Ok n -> children n = Ok (firstn (p_used n) (p_slots n)).
  Proof. intros H Hn. assert (Hu := chain_used _ _ _ _ _ _ _ _ H Hn). unfold children. destruct (Nat.ltb_spec (length (p_slots n)) (p_used n)); [lia|reflexivity]. Qed.

  Lemma forest_starts A G : forest true A G -> Forall2 (starts A) (ptrs G) (trees G).
  Proof. induction 1 as [|i G (f & H1 & H2) _ IH]; cbn [ptrs trees map]; constructor; auto. exists f. exact H2. Qed.
  Lemma forall2_rev {X Y} (R : X -> Y -> Prop) l l' : Forall2 R l l' -> Forall2 R (rev l) (rev l').
  Proof. induction 1; cbn [rev]; auto. apply Forall2_app; auto. Qed.
  Lemma for_all_sim A cb : forall fuel fuel' t p ts ps seen xs, fuel <= fuel' -> chains A p 0 t -> Forall2 (starts A) ps ts ->
    for_all_loop_packed C fuel cb t ts seen = Ok xs -> p_for_all_loop C fuel' A cb p ps seen = Ok xs.
  Proof.
    induction fuel as [|k IH]; intros fuel' t p ts ps seen xs Hf [f H] Hs Hr; [discriminate|]. destruct fuel' as [|k']; [lia|].
    cbn [for_all_loop_packed] in Hr. cbn [p_for_all_loop]. destruct (chain_head _ _ _ _ _ _ _ H) as [n Hn].
    destruct (chain_kids _ _ _ _ _ _ _ _ H Hn) as (G & G1 & G2 & G3 & G4 & G5 & _). cbn [skipn] in G1. rewrite Hn. cbn [bind]. rewrite G5 in Hr.
    destruct (arr_for_all C (p_entries n) cb seen) as [[seen' go]| | |]; try discriminate. cbn [bind] in *. destruct go; auto.
    rewrite (children_ok _ _ _ _ _ _ _ _ H Hn). cbn [bind]. rewrite G1. cbn [bind]. rewrite push_kids, <- G2 in Hr.
    assert (Hall : Forall2 (starts A) (rev (ptrs G) ++ ps) (rev (trees G) ++ ts)) by (apply Forall2_app; auto; apply forall2_rev, forest_starts; auto).
    destruct Hall as [|q t' ps' ts' Hq Hs']; auto. apply (IH k' t' q ts' ps'); auto. lia.
  Qed.

  (** The place a way leads to *)
  Fixpoint follow (A : memory) (p i : nat) (way : list bool) : option (nat * nat) :=
    match way with
    | [] => Some (p, i)
    | b :: way' =>
        match ar_get A p with
        | Ok n => if i <? p_used n then
                    match nth_error (p_slots n) i with
                    | Some s => if b then (match s_node s with Some q => follow A q 0 way' | None => None end) else follow A p (S i) way'
                    | None => None
                    end
                  else None
        | _ => None
        end
    end.
  Lemma follow_snoc A b way : forall p i q j n s r, follow A p i way = Some (q, j) -> ar_get A q = Ok n -> j < p_used n -> nth_error (p_slots n) j = Some s ->
    s_node s = Some r -> follow A p i (way ++ [b]) = Some (if b : bool then (r, 0) else (q, S j)).
  Proof.
    induction way as [|c way IH]; intros p i q j n s r Hf Hq Hj Hs Hr; cbn [app follow] in *.
    - injection Hf as -> ->. rewrite Hq, (proj2 (Nat.ltb_lt _ _) Hj), Hs, Hr. destruct b; reflexivity.
    - destruct (ar_get A p) as [n'| | |]; try discriminate. destruct (i <? p_used n'); [|discriminate]. destruct (nth_error (p_slots n') i) as [s'|]; [|discriminate].
      destruct c; [destruct (s_node s'); [|discriminate]|]; eapply IH; eauto.
  Qed.
  (** The links are the same; entries and masks may differ. *)
  Definition same_slot (s s' : slot) : Prop := s_var s' = s_var s /\ s_exp s' = s_exp s /\ s_node s' = s_node s.
  Definition same_node (n n' : pnode M) : Prop := p_used n' = p_used n /\ Forall2 same_slot (p_slots n) (p_slots n').
  Definition same_links (A A' : memory) : Prop := forall q n, ar_get A q = Ok n -> exists n', ar_get A' q = Ok n' /\ same_node n n'.
  Lemma same_slots_refl l : Forall2 same_slot l l.
  Proof. induction l; constructor; auto. repeat split. Qed.
  Lemma same_links_refl A : same_links A A.
  Proof. intros q n H. exists n. split; auto. split; auto. apply same_slots_refl. Qed.
  Lemma same_slots_trans l1 l2 : Forall2 same_slot l1 l2 -> forall l3, Forall2 same_slot l2 l3 -> Forall2 same_slot l1 l3.
  Proof.
    induction 1 as [|s1 s2 l1 l2 (E1 & E2 & E3) _ IH]; intros l3 H; inversion H as [|? s3 ? l3' (F1 & F2 & F3) Hl]; subst; constructor; auto.
    repeat split; congruence.
  Qed.
  Lemma same_links_trans A B D : same_links A B -> same_links B D -> same_links A D.
  Proof.
    intros H1 H2 q n H. destruct (H1 _ _ H) as (n1 & K1 & K2 & K3). destruct (H2 _ _ K1) as (n2 & K4 & K5 & K6). exists n2. split; auto. split; [congruence|].
    eapply same_slots_trans; eauto.
  Qed.
  Lemma same_links_put A p n n' : ar_get A p = Ok n -> same_node n n' -> same_links A (put A p n').
  Proof.
    intros H Hs q m Hq. destruct (Nat.eq_dec q p) as [->|Hqp].
    - exists n'. split; [eapply get_put_same; eauto|]. congruence.
    - exists m. rewrite (get_put_ne _ _ _ _ _ H) by auto. split; auto. split; auto. apply same_slots_refl.
  Qed.
  Lemma forall2_nth {X Y} (R : X -> Y -> Prop) l l' : Forall2 R l l' -> forall i x, nth_error l i = Some x -> exists y, nth_error l' i = Some y /\ R x y.
  Proof. induction 1; intros [|i] z Hz; try discriminate; cbn [nth_error] in *; [injection Hz as <-; eauto|auto]. Qed.
  Lemma follow_links A A' way : same_links A A' -> forall p i q, follow A p i way = Some q -> follow A' p i way = Some q.
  Proof.
    intros Hs. induction way as [|b way IH]; intros p i q; cbn [follow]; auto.
    destruct (ar_get A p) as [n| | |] eqn:E; try discriminate. destruct (Hs _ _ E) as (n' & -> & Hu & Hf). rewrite Hu.
    destruct (i <? p_used n); [|discriminate]. destruct (nth_error (p_slots n) i) as [s|] eqn:En; [|discriminate].
    destruct (forall2_nth _ _ _ Hf _ _ En) as (s' & -> & _ & _ & ->). destruct b; [destruct (s_node s); [auto|discriminate]|auto].
  Qed.
  Lemma follow_leaf t : forall A p i f way q j a, chain true true A p i t f -> follow A p i way = Some (q, j) -> leaf_at t way = Some a ->
    exists n, ar_get A q = Ok n /\ p_entries n = a.
  Proof.
    induction t as [a|v x m le IHl gt IHg]; intros A p i f way q j a' H Hf Hl.
    - destruct H as (n & H1 & _ & _ & H4 & _). destruct way as [|b way]; [|discriminate]. injection Hf as <- <-. injection Hl as <-. eauto.
    - destruct H as (n & s & q' & fg & fl & H1 & H2 & H3 & H4 & H5 & H6 & H7 & H8 & H9 & ->). destruct way as [|b way]; [discriminate|]. cbn [follow leaf_at] in *.
      rewrite H1, (proj2 (Nat.ltb_lt _ _) H2), H3, H6 in Hf. destruct b; [eapply IHg|eapply IHl]; eauto.
  Qed.

  (** A place in the tree and a pointer to an entry *)
  Definition placed (A : memory) (root : nat) (q : nat * nat) (pl : place) : Prop := snd q = snd pl /\ exists i, follow A root 0 (fst pl) = Some (fst q, i).
  Lemma find_sim A root m : forall fuel fuel' t way p i ts ps r, fuel <= fuel' -> chains A p i t -> follow A root 0 way = Some (p, i) ->
    Forall2 (fun q wt => chains A q 0 (snd wt) /\ follow A root 0 (fst wt) = Some (q, 0)) ps ts ->
    find_loop C fuel m way t ts = Ok r ->
    exists r', p_find_loop C fuel' A m p i ps = Ok r' /\
      match r, r' with None, None => True | Some pl, Some q => placed A root q pl | _, _ => False end.
  Proof.
    induction fuel as [|k IH]; intros fuel' t way p i ts ps r Hf [f H] Hw Hs Hr; [discriminate|]. destruct fuel' as [|k']; [lia|].
    cbn [find_loop] in Hr. cbn [p_find_loop].
    assert (Hnext : forall r, match ts with [] => Ok None | (p', t') :: stack' => find_loop C k m p' t' stack' end = Ok r ->
      exists r', match ps with [] => Ok None | q :: stack' => p_find_loop C k' A m q 0 stack' end = Ok r' /\
        match r, r' with None, None => True | Some pl, Some q => placed A root q pl | _, _ => False end).
    { intros r0 Hr0. destruct Hs as [|q [w' t'] ps ts [Hq1 Hq2] Hs].
      - injection Hr0 as <-. exists None. auto.
      - cbn [fst snd] in *. apply (IH k' t' w' q 0 ts ps); auto. lia. }
    destruct t as [a|v x mask le gt].
    - destruct H as (n & H1 & H2 & _ & H4 & _). rewrite H1. cbn [bind]. rewrite H2, Nat.eqb_refl, H4.
      destruct (arr_find C a m) as [[j|]| | |]; try discriminate; cbn [bind] in *; auto.
      injection Hr as <-. exists (Some (p, j)). split; auto. split; cbn [fst snd]; eauto.
    - destruct H as (n & s & q & fg & fl & H1 & H2 & H3 & H4 & H5 & H6 & H7 & H8 & H9 & ->). rewrite H1. cbn [bind].
      destruct (Nat.eqb_spec i (p_used n)) as [->|_]; [lia|]. rewrite (proj2 (vget_ok _ _ _) H3). cbn [bind]. rewrite (rules_out_ok s mask) by auto. cbn [bind].
      destruct (c_tree C && negb (can_divide mask (x_mask m))); auto.
      rewrite (in_child_ok s v x) by auto. cbn [bind]. rewrite H6. cbn [of_option bind].
      assert (Hl : follow A root 0 (way ++ [false]) = Some (p, S i)) by (eapply (follow_snoc A false); eauto).
      assert (Hg : follow A root 0 (way ++ [true]) = Some (q, 0)) by (eapply (follow_snoc A true); eauto).
      destruct (above C v x (x_t m)); cbn [bind].
      * apply (IH k' le (way ++ [false]) p (S i) ((way ++ [true], gt) :: ts) (q :: ps)); auto; [lia|now exists fl|]. constructor; auto. cbn [fst snd]. split; auto. now exists fg.
      * apply (IH k' le (way ++ [false]) p (S i) ts ps); auto; [lia|now exists fl].
  Qed.

  (** ** Removal *)
  (** Only entries were changed. *)
  Definition only_entries (n n' : pnode M) : Prop := p_used n' = p_used n /\ p_slots n' = p_slots n.
  Lemma only_same n n' : only_entries n n' -> same_node n n'.
  Proof. intros [H1 H2]. split; auto. rewrite H2. apply same_slots_refl. Qed.
  Lemma entries_ok (A : memory) p n a : ar_get A p = Ok n -> set_entries A p a = Ok (put A p (mk_pnode a (p_used n) (p_slots n))).
  Proof. intros H. unfold set_entries. rewrite H. cbn [bind]. eapply set_put; eauto. Qed.

  Lemma remove_sim m : forall t A p i f t' o k n0, chain true true A p i t f -> NoDup (p :: f) -> ar_get A p = Ok n0 -> remove_packed C t m = Ok (t', o, k) ->
    exists A' n, n <= nodes t /\ chain true true A' p i t' f /\ (forall q, ~ In q (p :: f) -> ar_get A' q = ar_get A q) /\ same_size A A' /\ same_links A A' /\
      (exists n1, ar_get A' p = Ok n1 /\ only_entries n0 n1) /\
      forall fuel stack out count, p_remove_loop C (n + fuel) A m p i stack out count =
        match stack with
        | [] => Ok (A', out ++ o, count + k)
        | q :: stack' => p_remove_loop C fuel A' m q 0 stack' (out ++ o) (count + k)
        end.
  Proof.
    induction t as [a|v x mask le IHl gt IHg]; intros A p i f t' o k n0 H Hn Hp Hr.
    - destruct H as (n & H1 & H2 & H3 & H4 & ->). rewrite Hp in H1. injection H1 as <-. cbn [remove_packed] in Hr.
      destruct (arr_remove C a m) as [[[a' o'] k']| | |] eqn:E; try discriminate. cbn [bind] in Hr. injection Hr as <- <- <-.
      set (n1 := mk_pnode a' (p_used n0) (p_slots n0)). exists (put A p n1), 1. cbn [nodes]. split; [lia|].
      assert (Hg : ar_get (put A p n1) p = Ok n1) by (eapply get_put_same; eauto).
      split. { exists n1. repeat split; auto. } split. { intros q Hq. eapply get_put_ne; eauto. intros ->. apply Hq. now left. }
      split; [apply same_size_put|]. split; [eapply same_links_put; eauto; apply only_same; split; reflexivity|]. split; [exists n1; split; auto; split; reflexivity|].
      intros fuel stack out count. cbn [Nat.add p_remove_loop]. rewrite Hp. cbn [bind]. rewrite H2, Nat.eqb_refl, H4, E. cbn [bind]. rewrite (entries_ok _ _ _ _ Hp).
      rewrite H2. unfold n1. rewrite H2. reflexivity.
    - destruct H as (n & s & q & fg & fl & H1 & H2 & H3 & H4 & H5 & H6 & H7 & H8 & H9 & ->). rewrite Hp in H1. injection H1 as <-.
      apply nodup_chain in Hn as (Hng & Hnl & Hpg & Hgl). destruct (chain_head _ _ _ _ _ _ _ H8) as [nq Hq].
      assert (Hne : (i =? p_used n0) = false) by (apply Nat.eqb_neq; lia). cbn [remove_packed] in Hr.
      assert (Hsub : forall z, ~ In z (p :: (q :: fg) ++ fl) -> ~ In z (q :: fg) /\ ~ In z (p :: fl)).
      { intros z Hz. split; intros Hc; apply Hz; [right; apply in_or_app; auto|]. destruct Hc as [<-|Hc]; [now left|right; apply in_or_app; auto]. }
      destruct (above C v x (x_t m)) eqn:Ea.
      + destruct (remove_packed C gt m) as [[[gt' o1] k1]| | |] eqn:Eg; try discriminate. cbn [bind] in Hr. injection Hr as <- <- <-.
        destruct (IHg A q 0 fg gt' o1 k1 nq H8 Hng Hq eq_refl) as (A1 & n1 & Hn1 & Hr1 & Hf1 & Hz1 & Hk1 & _ & Hl1).
        assert (Hp1 : ar_get A1 p = Ok n0) by (rewrite Hf1; auto).
        exists A1, (S n1). cbn [nodes]. split; [lia|]. split.
        { exists n0, s, q, fg, fl. repeat (split; [assumption|]). split; auto. apply (chain_same true true le A); auto. intros z Hz. apply Hf1. intros Hc. exact (Hgl z Hc Hz). }
        split. { intros z Hz. apply Hf1. apply (Hsub z Hz). } split; auto. split; auto. split; [exists n0; split; auto; split; reflexivity|].
        intros fuel stack out count. cbn [Nat.add p_remove_loop]. rewrite Hp. cbn [bind]. rewrite Hne, (proj2 (vget_ok _ _ _) H3). cbn [bind]. rewrite H6. cbn [of_option bind].
        rewrite (in_child_ok s v x) by auto. cbn [bind]. rewrite Ea, Hl1. reflexivity.
      + destruct (remove_packed C le m) as [[[le' o1] k1]| | |] eqn:El; try discriminate. cbn [bind] in Hr.
        destruct (remove_packed C gt m) as [[[gt' o2] k2]| | |] eqn:Eg; try discriminate. cbn [bind] in Hr. injection Hr as <- <- <-.
        destruct (IHl A p (S i) fl le' o1 k1 n0 H9 Hnl Hp eq_refl) as (A1 & n1 & Hn1 & Hr1 & Hf1 & Hz1 & Hk1 & (m1 & Hm1 & Hu1 & Hs1) & Hl1).
        assert (H8' : chain true true A1 q 0 gt fg) by (apply (chain_same true true gt A); auto).
        assert (Hq1 : ar_get A1 q = Ok nq). { rewrite Hf1; auto. apply Hgl. now left. }
        destruct (IHg A1 q 0 fg gt' o2 k2 nq H8' Hng Hq1 eq_refl) as (A2 & n2 & Hn2 & Hr2 & Hf2 & Hz2 & Hk2 & _ & Hl2).
        assert (Hm2 : ar_get A2 p = Ok m1) by (rewrite Hf2; auto).
        exists A2, (S (n1 + n2)). cbn [nodes]. split; [lia|]. split.
        { exists m1, s, q, fg, fl. split; auto. split; [congruence|]. split; [congruence|]. do 4 (split; [assumption|]). split; auto. split; auto.
          apply (chain_same true true le' A1); auto. intros z Hz. apply Hf2. intros Hc. exact (Hgl z Hc Hz). }
        split. { intros z Hz. rewrite Hf2, Hf1; auto; apply (Hsub z Hz). }
        split; [eapply same_size_trans; eauto|]. split; [eapply same_links_trans; eauto|]. split; [exists m1; split; auto; split; auto|].
        intros fuel stack out count. cbn [Nat.add p_remove_loop]. rewrite Hp. cbn [bind]. rewrite Hne, (proj2 (vget_ok _ _ _) H3). cbn [bind]. rewrite H6. cbn [of_option bind].
        rewrite (in_child_ok s v x) by auto. cbn [bind]. rewrite Ea, <- Nat.add_assoc, Hl1, Hl2. destruct stack; rewrite <- ?app_assoc, ?Nat.add_assoc; reflexivity.
  Qed.
  Lemma remove_element_sim m : forall t A p i f t' b n0, chain true true A p i t f -> NoDup (p :: f) -> ar_get A p = Ok n0 -> remove_element C t m = Ok (t', b) ->
    exists q nq a n, n <= nodes t /\ (forall fuel, p_seek C (n + fuel) A m p i = Ok q) /\ ar_get A q = Ok nq /\ arr_remove_element C (p_entries nq) m = Ok (a, b) /\
      chain true true (put A q (mk_pnode a (p_used nq) (p_slots nq))) p i t' f /\ In q (p :: f).
  Proof.
    induction t as [a|v x mask le IHl gt IHg]; intros A p i f t' b n0 H Hn Hp Hr.
    - destruct H as (n & H1 & H2 & H3 & H4 & ->). rewrite Hp in H1. injection H1 as <-. cbn [remove_element] in Hr.
      destruct (arr_remove_element C a m) as [[a' b']| | |] eqn:E; try discriminate. cbn [bind] in Hr. injection Hr as <- <-.
      exists p, n0, a', 1. cbn [nodes]. split; [lia|]. split. { intros fuel. cbn [Nat.add p_seek]. rewrite Hp. cbn [bind]. now rewrite H2, Nat.eqb_refl. }
      split; auto. split; [now rewrite H4|]. split; [|now left]. eexists. split; [eapply get_put_same; eauto|]. auto.
    - destruct H as (n & s & q & fg & fl & H1 & H2 & H3 & H4 & H5 & H6 & H7 & H8 & H9 & ->). rewrite Hp in H1. injection H1 as <-.
      apply nodup_chain in Hn as (Hng & Hnl & Hpg & Hgl). destruct (chain_head _ _ _ _ _ _ _ H8) as [nq Hq].
      assert (Hne : (i =? p_used n0) = false) by (apply Nat.eqb_neq; lia). cbn [remove_element] in Hr. destruct (above C v x m) eqn:Ea.
      + destruct (remove_element C gt m) as [[gt' b']| | |] eqn:Eg; try discriminate. cbn [bind] in Hr. injection Hr as <- <-.
        destruct (IHg A q 0 fg gt' b' nq H8 Hng Hq eq_refl) as (z & nz & a & k & K1 & K2 & K3 & K4 & K5 & K6).
        exists z, nz, a, (S k). cbn [nodes]. split; [lia|]. split.
        { intros fuel. cbn [Nat.add p_seek]. rewrite Hp. cbn [bind]. rewrite Hne, (proj2 (vget_ok _ _ _) H3). cbn [bind]. rewrite (in_child_ok s v x) by auto. cbn [bind].
          rewrite Ea, H6. cbn [of_option bind]. apply K2. }
        split; auto. split; auto. split; [|right; apply in_or_app; auto].
        assert (Hpz : p <> z) by (intros ->; auto). exists n0, s, q, fg, fl. rewrite (get_put_ne _ _ _ _ _ K3) by auto. repeat (split; [assumption|]). split; auto.
        apply (chain_same true true le A); auto. intros y Hy. apply (get_put_ne _ _ _ _ _ K3). intros ->. exact (Hgl z K6 Hy).
      + destruct (remove_element C le m) as [[le' b']| | |] eqn:El; try discriminate. cbn [bind] in Hr. injection Hr as <- <-.
        destruct (IHl A p (S i) fl le' b' n0 H9 Hnl Hp eq_refl) as (z & nz & a & k & K1 & K2 & K3 & K4 & K5 & K6).
        exists z, nz, a, (S k). cbn [nodes]. split; [lia|]. split.
        { intros fuel. cbn [Nat.add p_seek]. rewrite Hp. cbn [bind]. rewrite Hne, (proj2 (vget_ok _ _ _) H3). cbn [bind]. rewrite (in_child_ok s v x) by auto. cbn [bind].
          rewrite Ea. apply K2. }
        split; auto. split; auto. split; [|destruct K6 as [<-|K6]; [now left|right; apply in_or_app; auto]].
        set (A' := put A z _) in *.
        assert (Hcell : exists n1, ar_get A' p = Ok n1 /\ only_entries n0 n1).
        { destruct (Nat.eq_dec p z) as [->|Hpz].
          - rewrite K3 in Hp. injection Hp as ->. eexists. split; [eapply get_put_same; eauto|]. split; reflexivity.
          - exists n0. split; [unfold A'; rewrite (get_put_ne _ _ _ _ _ K3); auto|split; reflexivity]. }
        destruct Hcell as (n1 & N1 & N2 & N3). exists n1, s, q, fg, fl. split; auto. split; [congruence|]. split; [congruence|]. do 4 (split; [assumption|]). split; [|auto].
        apply (chain_same true true gt A); auto. intros y Hy. apply (get_put_ne _ _ _ _ _ K3). intros ->. exact (Hgl z Hy K6).
  Qed.

  (** ** Destruction *)
  Definition entries_of (F : list item) : list ext := flat_map tree_entries (trees F).
  Lemma kids_entries t : Permutation (tree_entries t) (a_list (node_entries t) ++ flat_map tree_entries (kids_of t)).
  Proof.
    induction t as [a|v x m le IHl gt IHg]; cbn [tree_entries node_entries kids_of flat_map]; [now rewrite app_nil_r|].
    rewrite IHl at 1. rewrite <- app_assoc. apply Permutation_app_head, Permutation_app_comm.
  Qed.
  Lemma trees_rev G : trees (rev G) = rev (trees G).
  Proof. unfold trees. now rewrite map_rev. Qed.
  Lemma ptrs_rev G : ptrs (rev G) = rev (ptrs G).
  Proof. unfold ptrs. now rewrite map_rev. Qed.
  Lemma perm_concat {X} (l l' : list (list X)) : Permutation l l' -> Permutation (List.concat l) (List.concat l').
  Proof.
    induction 1; cbn [List.concat]; auto.
    - now apply Permutation_app_head.
    - rewrite !app_assoc. apply Permutation_app_tail, Permutation_app_comm.
    - eapply Permutation_trans; eauto.
  Qed.
  Lemma area_perm F G : Permutation F G -> Permutation (area F) (area G).
  Proof. intros H. unfold area. apply perm_concat, Permutation_map, H. Qed.
  Lemma area_app F G : area (F ++ G) = area F ++ area G.
  Proof. unfold area. now rewrite map_app, concat_app. Qed.
  Lemma one_frame done A A' i : one done A i -> (forall q, In q (snd i) -> ar_get A' q = ar_get A q) -> one done A' i.
  Proof. intros (f & H1 & H2) H. exists f. split; auto. apply (chain_same done done _ A); auto. intros q Hq. apply H. rewrite H1. exact Hq. Qed.
  Lemma forest_frame done A A' F : forest done A F -> (forall q, In q (area F) -> ar_get A' q = ar_get A q) -> forest done A' F.
  Proof.
    intros H Hf. unfold forest in *. rewrite Forall_forall in *. intros i Hi. apply (one_frame done A); auto. intros q Hq. apply Hf. unfold area.
    apply in_concat. exists (snd i). split; auto. now apply in_map.
  Qed.
  Lemma clear_sim done : forall fuel A F acc, length (area F) <= fuel -> forest done A F -> NoDup (area F) ->
    exists A' gone, p_clear_loop fuel A (ptrs F) acc = Ok (A', acc ++ gone) /\ Permutation gone (entries_of F) /\ same_size A A'.
  Proof.
    induction fuel as [|k IH]; intros A F acc Hf HF Hn.
    { destruct F as [|[[p t] f] F]; [exists A, []; rewrite app_nil_r; split; [reflexivity|split; [constructor|apply same_size_refl]]|].
      apply Forall_cons_iff in HF as [(f' & H1 & _) _]. cbn [fst snd] in H1. subst f. unfold area in Hf. cbn [map List.concat snd app length] in Hf. lia. }
    destruct F as [|[[p t] f0] F]; [exists A, []; rewrite app_nil_r; split; [reflexivity|split; [constructor|apply same_size_refl]]|].
    apply Forall_cons_iff in HF as [(f & H1 & H2) HF]. cbn [fst snd] in H1, H2. subst f0. unfold area in Hf, Hn. cbn [map List.concat snd] in Hf, Hn. fold (area F) in Hf, Hn.
    destruct (chain_head _ _ _ _ _ _ _ H2) as [n Hp]. destruct (chain_kids _ _ _ _ _ _ _ _ H2 Hp) as (G & G1 & G2 & G3 & G4 & G5 & _). cbn [skipn] in G1.
    set (n1 := mk_pnode (mk_arr ([] : list ext) (a_mask (p_entries n))) (p_used n) (p_slots n) : pnode M).
    cbn [app] in Hn. apply NoDup_cons_iff in Hn as [Hnp Hn]. subst f.
    assert (Hperm : Permutation (area (rev G ++ F)) (area G ++ area F)). { rewrite area_app. apply Permutation_app_tail, area_perm, Permutation_sym, Permutation_rev. }
    destruct (IH (put A p n1) (rev G ++ F) (acc ++ rev (a_list (p_entries n)))) as (A' & gone & R1 & R2 & R3).
    - rewrite (Permutation_length Hperm). cbn [app length] in Hf. lia.
    - apply (forest_frame done A).
      + apply Forall_app. split; auto. apply Forall_rev. exact G4.
      + intros q Hq. apply (get_put_ne _ _ _ _ _ Hp). intros ->. apply Hnp. eapply Permutation_in; eauto.
    - eapply nodup_perm; [apply Permutation_sym; exact Hperm|exact Hn].
    - exists A', (rev (a_list (p_entries n)) ++ gone). split; [|split].
      + cbn [ptrs map fst snd p_clear_loop]. rewrite Hp. cbn [bind]. rewrite (entries_ok _ _ _ _ Hp). cbn [bind].
        rewrite (children_ok _ _ _ _ _ _ _ _ H2 Hp). cbn [bind]. rewrite G1. cbn [bind]. fold n1. unfold ptrs in R1. rewrite map_app, map_rev in R1. rewrite app_assoc. exact R1.
      + rewrite R2. unfold entries_of. cbn [trees map fst snd flat_map]. rewrite kids_entries, G5, <- app_assoc. apply Permutation_app; [apply Permutation_sym, Permutation_rev|].
        unfold trees. rewrite map_app, flat_map_app, map_rev. apply Permutation_app_tail. fold (trees G). rewrite G2. apply Permutation_flat_map, Permutation_sym, Permutation_rev.
      + eapply same_size_trans; [apply same_size_put|exact R3].
  Qed.
End Rep.
