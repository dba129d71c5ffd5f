(** Ascending lists, merging them and finding the place of a new entry. *)
From Coq Require Import List Arith Bool Lia Permutation Sorting.Sorted.
From Verif.Base Require Import Res Arr Order.
From Verif.Spec Require Import PQ PQFacts.
From Verif.Geobucket Require Import Model FrontProofs.
Import ListNotations.

Lemma ss_app {A} (R : A -> A -> Prop) l1 l2 :
  StronglySorted R (l1 ++ l2) <-> StronglySorted R l1 /\ StronglySorted R l2 /\ forall x y, In x l1 -> In y l2 -> R x y.
Proof.
  induction l1 as [|a l1 IH]; simpl.
  - split; [intros H; repeat split; auto; [constructor|intros x y []]|intros (_ & H & _); auto].
  - split.
    + intros H. inversion H as [|? ? Hs Hf]; subst. apply IH in Hs as (H1 & H2 & H3). rewrite Forall_forall in Hf.
      split; [|split; auto].
      * constructor; auto. apply Forall_forall. intros x Hx. apply Hf. apply in_or_app; auto.
      * intros x y [<-|Hx] Hy; auto. apply Hf. apply in_or_app; auto.
    + intros (H1 & H2 & H3). inversion H1 as [|? ? Hs Hf]; subst. constructor.
      * apply IH. split; auto.
      * apply Forall_forall. intros x Hx. apply in_app_or in Hx as [Hx|Hx]; [rewrite Forall_forall in Hf; auto|apply H3; auto].
Qed.

Lemma ss_snoc {A} (R : A -> A -> Prop) l x : StronglySorted R (l ++ [x]) <-> StronglySorted R l /\ forall y, In y l -> R y x.
Proof.
  rewrite ss_app. split.
  - intros (H1 & _ & H3). split; auto. intros y Hy. apply H3; simpl; auto.
  - intros (H1 & H2). split; auto. split; [repeat constructor|]. intros y z Hy [<-|[]]; auto.
Qed.

Section Lists.
  Context {E : Type}.
  Variable lt cmp eqv : E -> E -> bool.
  Variable dedup : E -> E -> E.
  Variable C : config.
  Hypothesis Hsw : strict_weak lt.
  Hypothesis cmp_f : forall a b, cmp a b = false -> lt a b = false.
  Hypothesis cmp_t : forall a b, cmp a b = true -> lt b a = false.
  Hypothesis Heq : supportDeduplication C = true -> forall a b, cmp a b = false -> eqv a b = true -> equivalent lt a b.
  Hypothesis Hdd : supportDeduplication C = true -> forall a b, (eqv a b || eqv b a) = true -> equivalent lt (dedup a b) a.

  Notation dd := (dedup_dd (supportDeduplication C) (fun a b => eqv a b || eqv b a) dedup).
  Notation "a <== b" := (lt b a = false) (at level 70).
  Definition asc (l : list E) : Prop := StronglySorted (fun x y => lt y x = false) l.

  Lemma le_trans a b c : a <== b -> b <== c -> a <== c.
  Proof. intros H1 H2. eapply (sw_neg_trans lt Hsw); eauto. Qed.
  Lemma le_refl a : a <== a.
  Proof. apply (sw_irrefl lt Hsw). Qed.
  Lemma lt_le a b : cmp a b = true -> a <== b.
  Proof. apply cmp_t. Qed.

  Lemma eqv_both a b : supportDeduplication C = true -> cmp a b = false -> eqv a b = true ->
    equivalent lt a b /\ equivalent lt (dedup a b) a /\ equivalent lt (dedup b a) b /\ dd a b (dedup a b) /\ dd b a (dedup b a).
  Proof.
    intros Hs Hl He. split; [auto|]. split; [apply Hdd; auto; now rewrite He|].
    split; [apply Hdd; auto; rewrite He; apply orb_true_r|]. split; split; auto; split; auto; rewrite He; auto. apply orb_true_r.
  Qed.

  (** ** The last entry *)
  Lemma last_entry_snoc (l : list E) x : last_entry E (l ++ [x]) = Some x.
  Proof. unfold last_entry. rewrite app_length, Nat.add_1_r. simpl. rewrite Nat.sub_0_r. apply nth_middle. Qed.
  Lemma last_entry_nil : last_entry E [] = None.
  Proof. reflexivity. Qed.
  Lemma last_entry_some (l : list E) : l <> [] -> exists l' x, l = l' ++ [x] /\ last_entry E l = Some x.
  Proof. intros H. destruct (exists_last H) as (l' & x & ->). exists l', x. split; auto. apply last_entry_snoc. Qed.
  Lemma last_entry_inv (l : list E) x : last_entry E l = Some x -> exists l', l = l' ++ [x].
  Proof.
    intros H. destruct l as [|a l0]; [discriminate|]. destruct (last_entry_some (a :: l0)) as (l' & y & Hl & H2); [discriminate|].
    exists l'. rewrite H2 in H. injection H as <-. exact Hl.
  Qed.
  Lemma asc_last l x y : asc l -> last_entry E l = Some x -> In y l -> y <== x.
  Proof.
    intros Ha Hl Hy. apply last_entry_inv in Hl as (l' & ->). apply ss_snoc in Ha as [_ Ha].
    apply in_app_or in Hy as [Hy|[<-|[]]]; auto using le_refl.
  Qed.
  Lemma asc_removelast l : asc l -> asc (removelast l).
  Proof.
    intros Ha. destruct l as [|a l]; auto. destruct (exists_last (l := a :: l)) as (l' & x & H); [discriminate|].
    rewrite H in *. rewrite removelast_snoc. now apply ss_snoc in Ha.
  Qed.

  (** Replacing an entry by an equivalent one keeps the order. *)
  Lemma asc_upd l i x y : asc l -> nth_error l i = Some x -> equivalent lt y x -> asc (upd l i y).
  Proof.
    intros Ha. revert i. induction Ha as [|a l Hs IH Hf]; intros i Hi He; [destruct i; discriminate|].
    rewrite Forall_forall in Hf. destruct i as [|i]; simpl in *.
    - injection Hi as ->. constructor; auto. apply Forall_forall. intros z Hz. eapply le_trans; [|apply Hf; auto]. apply He.
    - constructor; [apply IH; auto|]. apply Forall_forall. intros z Hz. apply In_nth_error in Hz as [j Hj].
      destruct (Nat.eq_dec j i) as [->|Hji].
      + rewrite nth_upd_same in Hj by (now apply nth_error_some_lt in Hi). injection Hj as <-.
        eapply le_trans; [apply Hf; eapply nth_error_In; eauto|]. apply He.
      + rewrite nth_upd_other in Hj by auto. apply Hf. eapply nth_error_In; eauto.
  Qed.

  (** ** merge *)
  Lemma gb_merge_nil_l l2 : gb_merge E cmp eqv dedup C [] l2 = (l2, 0).
  Proof. destruct l2; reflexivity. Qed.
  Lemma gb_merge_nil_r l1 : gb_merge E cmp eqv dedup C l1 [] = (l1, 0).
  Proof. destruct l1; reflexivity. Qed.
  Lemma gb_merge_cons a l1 b l2 : gb_merge E cmp eqv dedup C (a :: l1) (b :: l2) =
    if cmp a b then let (r, k) := gb_merge E cmp eqv dedup C l1 (b :: l2) in (a :: r, k)
    else if negb (supportDeduplication C) || negb (eqv a b) then let (r, k) := gb_merge E cmp eqv dedup C (a :: l1) l2 in (b :: r, k)
    else let (r, k) := gb_merge E cmp eqv dedup C l1 l2 in (dedup a b :: r, S k).
  Proof. reflexivity. Qed.

  Record merged (l1 l2 r : list E) (k : nat) : Prop := {
    m_asc : asc r;
    m_len : length r + k = length l1 + length l2;
    m_low : forall z, (forall x, In x (l1 ++ l2) -> z <== x) -> forall y, In y r -> z <== y;
    m_up : forall x, In x (l1 ++ l2) -> exists y, In y r /\ x <== y;
    m_mg : merges dd (l1 ++ l2) r;
    m_ne : l1 ++ l2 <> [] -> r <> []
  }.

  Lemma asc_cons a l : asc (a :: l) -> asc l /\ forall x, In x l -> a <== x.
  Proof. intros H. inversion H as [|? ? Hs Hf]; subst. rewrite Forall_forall in Hf. auto. Qed.

  Lemma gb_merge_ok : forall l1 l2, asc l1 -> asc l2 -> forall r k, gb_merge E cmp eqv dedup C l1 l2 = (r, k) -> merged l1 l2 r k.
  Proof.
    induction l1 as [|a l1 IH1].
    { intros l2 _ H2 r k H. rewrite gb_merge_nil_l in H. injection H as <- <-.
      split; auto; [intros x Hx; exists x; split; auto using le_refl|apply merges_refl]. }
    induction l2 as [|b l2 IH2].
    { intros H1 _ r k H. rewrite gb_merge_nil_r in H. injection H as <- <-.
      split.
      - auto.
      - simpl; lia.
      - intros z Hz y Hy; apply Hz; now rewrite app_nil_r.
      - intros x Hx. rewrite app_nil_r in Hx. exists x; split; auto using le_refl.
      - rewrite app_nil_r; apply merges_refl.
      - discriminate. }
    intros H1 H2 r k H. rewrite gb_merge_cons in H.
    destruct (asc_cons _ _ H1) as [H1t H1f]. destruct (asc_cons _ _ H2) as [H2t H2f].
    destruct (cmp a b) eqn:Hab.
    - destruct (gb_merge E cmp eqv dedup C l1 (b :: l2)) as [r0 k0] eqn:Hm. injection H as <- <-.
      destruct (IH1 (b :: l2) H1t H2 r0 k0 Hm) as [A1 A2 A3 A4 A5 A6]. split.
      + constructor; auto. apply Forall_forall. intros y Hy. apply (A3 a); auto. intros x Hx.
        apply in_app_or in Hx as [Hx|[<-|Hx]]; auto using lt_le. eapply le_trans; [apply lt_le; exact Hab|auto].
      + simpl in *. lia.
      + intros z Hz y [<-|Hy]; [apply Hz; now left|]. apply A3; auto. intros x Hx. apply Hz. now right.
      + intros x [<-|Hx]; [exists a; split; [now left|apply le_refl]|]. destruct (A4 x Hx) as (y & Hy & Hl). exists y; split; [now right|auto].
      + simpl. now apply merges_cons.
      + discriminate.
    - destruct (negb (supportDeduplication C) || negb (eqv a b)) eqn:Hd.
      + destruct (gb_merge E cmp eqv dedup C (a :: l1) l2) as [r0 k0] eqn:Hm. injection H as <- <-.
        destruct (IH2 H1 H2t r0 k0 eq_refl) as [A1 A2 A3 A4 A5 A6]. split.
        * constructor; auto. apply Forall_forall. intros y Hy. apply (A3 b); auto. intros x Hx.
          apply in_app_or in Hx as [[<-|Hx]|Hx]; auto. eapply le_trans; eauto.
        * simpl in *. lia.
        * intros z Hz y [<-|Hy]; [apply Hz; apply in_or_app; right; now left|]. apply A3; auto. intros x Hx. apply Hz.
          apply in_app_or in Hx as [Hx|Hx]; apply in_or_app; [now left|right; now right].
        * intros x Hx. assert (Hx' : x = b \/ In x ((a :: l1) ++ l2)).
          { apply in_app_or in Hx as [Hx|[<-|Hx]]; [right; apply in_or_app; now left|now left|right; apply in_or_app; now right]. }
          destruct Hx' as [->|Hx']; [exists b; split; [now left|apply le_refl]|]. destruct (A4 x Hx') as (y & Hy & Hl). exists y; split; [now right|auto].
        * eapply merges_perm_l; [symmetry; apply Permutation_middle|]. now apply merges_cons.
        * discriminate.
      + destruct (gb_merge E cmp eqv dedup C l1 l2) as [r0 k0] eqn:Hm. injection H as <- <-.
        apply orb_false_iff in Hd as [Hs He]. apply negb_false_iff in Hs. apply negb_false_iff in He.
        destruct (eqv_both a b Hs Hab He) as (Eab & Eda & _ & Hddab & _).
        destruct (IH1 l2 H1t H2t r0 k0 Hm) as [A1 A2 A3 A4 A5 A6]. split.
        * constructor; auto. apply Forall_forall. intros y Hy. eapply le_trans; [apply Eda|]. apply (A3 a); auto. intros x Hx.
          apply in_app_or in Hx as [Hx|Hx]; auto. eapply le_trans; [apply Eab|auto].
        * simpl in *. lia.
        * intros z Hz y [<-|Hy]; [eapply le_trans; [apply Hz; now left|apply Eda]|]. apply A3; auto. intros x Hx. apply Hz. right.
          apply in_app_or in Hx as [Hx|Hx]; apply in_or_app; [now left|right; now right].
        * intros x Hx. assert (Hx' : x = a \/ x = b \/ In x (l1 ++ l2)).
          { destruct Hx as [<-|Hx]; auto. apply in_app_or in Hx as [Hx|[<-|Hx]]; auto; right; right; apply in_or_app; auto. }
          destruct Hx' as [->|[->|Hx']].
          -- exists (dedup a b). split; [now left|apply Eda].
          -- exists (dedup a b). split; [now left|]. eapply le_trans; [apply Eab|apply Eda].
          -- destruct (A4 x Hx') as (y & Hy & Hl). exists y; split; [now right|auto].
        * eapply merges_dd; [|exact Hddab|apply merges_cons; exact A5]. simpl. constructor. symmetry. apply Permutation_middle.
        * discriminate.
  Qed.

  Lemma merged_swap l1 l2 r k : merged l1 l2 r k -> merged l2 l1 r k.
  Proof.
    intros [A1 A2 A3 A4 A5 A6].
    assert (Hin : forall x, In x (l2 ++ l1) -> In x (l1 ++ l2)) by (intros x Hx; apply in_app_or in Hx; apply in_or_app; tauto).
    assert (Hin' : forall x, In x (l1 ++ l2) -> In x (l2 ++ l1)) by (intros x Hx; apply in_app_or in Hx; apply in_or_app; tauto).
    split.
    - auto.
    - lia.
    - intros z Hz y Hy. apply A3; auto.
    - auto.
    - eapply merges_perm_l; [apply Permutation_app_comm|auto].
    - intros Hne. apply A6. intros H0. apply Hne. destruct l1; [|discriminate]. destruct l2; [auto|discriminate].
  Qed.

  (** The new last entry is not smaller than any entry that went in. *)
  Lemma merged_last l1 l2 r k x : merged l1 l2 r k -> In x (l1 ++ l2) -> exists y, last_entry E r = Some y /\ x <== y.
  Proof.
    intros [A1 A2 A3 A4 A5 A6] Hx. destruct (A4 x Hx) as (y & Hy & Hxy).
    destruct (last_entry_some r) as (r' & z & _ & Hz); [intros ->; destruct Hy|].
    exists z. split; auto. eapply le_trans; eauto. eapply asc_last; eauto.
  Qed.

  (** ** The searches of push *)
  Definition place_ok (l : list E) (x : E) (p : place) : Prop :=
    match p with
    | PAt i => i < length l /\ (forall y, In y (firstn i l) -> y <== x) /\ (forall y, In y (skipn i l) -> x <== y)
    | PEnd => forall y, In y l -> y <== x
    | PDup i => exists y, nth_error l i = Some y /\ supportDeduplication C = true /\ cmp x y = false /\ eqv x y = true
    end.

  Lemma lin_search_ok x : forall l2 l1, asc (l1 ++ l2) -> (forall y, In y l1 -> y <== x) ->
    place_ok (l1 ++ l2) x (lin_search E cmp eqv C l2 x (length l1)).
  Proof.
    induction l2 as [|y l2 IH]; intros l1 Ha Hl; cbn [lin_search].
    - simpl. rewrite app_nil_r. auto.
    - destruct (cmp x y) eqn:Hxy.
      + simpl. rewrite firstn_app, firstn_all, Nat.sub_diag, skipn_app, skipn_all, Nat.sub_diag. simpl. rewrite app_nil_r, app_length. simpl.
        split; [lia|]. split; auto. intros z [<-|Hz]; [now apply lt_le|]. apply ss_app in Ha as (_ & Ha & _).
        apply asc_cons in Ha as [_ Ha]. eapply le_trans; [apply lt_le; exact Hxy|auto].
      + destruct (supportDeduplication C && eqv x y) eqn:Hd.
        * apply andb_true_iff in Hd as [Hs He]. simpl. exists y. split; auto. apply nth_middle.
        * change (l1 ++ y :: l2) with (l1 ++ [y] ++ l2) in *. rewrite app_assoc in *.
          replace (S (length l1)) with (length (l1 ++ [y])) by (rewrite app_length; simpl; lia). apply IH; auto.
          intros z Hz. apply in_app_or in Hz as [Hz|[<-|[]]]; auto.
  Qed.

  Lemma asc_nth l i j x y : asc l -> i <= j -> nth_error l i = Some x -> nth_error l j = Some y -> x <== y.
  Proof.
    intros Ha. revert i j. induction Ha as [|a l Hs IH Hf]; intros i j Hij Hi Hj; [destruct i; discriminate|].
    destruct i as [|i], j as [|j]; simpl in *; try lia.
    - injection Hi as ->. injection Hj as ->. apply le_refl.
    - injection Hi as ->. rewrite Forall_forall in Hf. apply Hf. eapply nth_error_In; eauto.
    - apply (IH i j); auto. lia.
  Qed.

  Lemma nth_firstn {A} (l : list A) : forall n i, i < n -> nth_error (firstn n l) i = nth_error l i.
  Proof. induction l as [|a l IH]; intros [|n] [|i] H; simpl; auto; try lia. apply IH; lia. Qed.
  Lemma nth_skipn {A} (l : list A) : forall n i, nth_error (skipn n l) i = nth_error l (n + i).
  Proof. induction l as [|a l IH]; intros [|n] i; simpl; auto. now destruct i. Qed.

  Lemma bin_search_ok l x : asc l -> forall fuel begin range, range < fuel -> begin + range <= length l ->
    (forall i y, i < begin -> nth_error l i = Some y -> y <== x) ->
    (forall i y, begin + range <= i -> nth_error l i = Some y -> x <== y) ->
    exists p, bin_search E cmp eqv C fuel l x begin range = Ok p /\ place_ok l x p.
  Proof.
    intros Ha. induction fuel as [|fuel IH]; intros begin range Hf Hr Hlo Hhi; [lia|]. cbn [bin_search].
    destruct (Nat.eqb_spec range 0) as [->|Hr0].
    - eexists; split; [reflexivity|]. destruct (Nat.eqb_spec begin (length l)) as [->|Hne].
      + simpl. intros y Hy. apply In_nth_error in Hy as [i Hi]. eapply Hlo; eauto. now apply nth_error_some_lt in Hi.
      + simpl. split; [lia|]. split.
        * intros y Hy. apply In_nth_error in Hy as [i Hi]. pose proof (nth_error_some_lt _ _ _ Hi) as Hil. rewrite firstn_length in Hil.
          rewrite nth_firstn in Hi by lia. apply (Hlo i); auto. lia.
        * intros y Hy. apply In_nth_error in Hy as [i Hi]. rewrite nth_skipn in Hi. apply (Hhi (begin + i)); auto. lia.
    - assert (Hdiv : range / 2 < range) by (apply Nat.div_lt; lia).
      destruct (nth_error_lt l (begin + range / 2)) as [y Hy]; [lia|]. unfold vget. rewrite Hy. cbn [of_option bind].
      destruct (cmp x y) eqn:Hxy.
      + apply IH; auto; try lia. intros i z Hi Hz. eapply le_trans; [apply lt_le; exact Hxy|]. apply (asc_nth l (begin + range / 2) i); auto.
      + destruct (negb (supportDeduplication C) || negb (eqv x y)) eqn:Hd.
        * apply IH; try lia.
          -- intros i z Hi Hz. eapply le_trans; [|apply cmp_f; exact Hxy]. apply (asc_nth l i (begin + range / 2)); auto. lia.
          -- intros i z Hi Hz. apply (Hhi i); auto. lia.
        * eexists; split; [reflexivity|]. apply orb_false_iff in Hd as [Hs He]. apply negb_false_iff in Hs. apply negb_false_iff in He.
          simpl. eauto.
  Qed.

  Lemma asc_insert_at l i x : asc l -> place_ok l x (PAt i) -> asc (firstn i l ++ x :: skipn i l).
  Proof.
    intros Ha (Hi & Hlo & Hhi). rewrite <- (firstn_skipn i l) in Ha. apply ss_app in Ha as (A1 & A2 & A3). apply ss_app. split; auto. split.
    - constructor; auto. apply Forall_forall. auto.
    - intros y z Hy [<-|Hz]; auto.
  Qed.

  Lemma last_insert_at l i x : i < length l -> last_entry E (firstn i l ++ x :: skipn i l) = last_entry E l.
  Proof.
    intros Hi. destruct (last_entry_some (skipn i l)) as (s' & y & Hs & _).
    { intros H. apply (f_equal (@length E)) in H. rewrite skipn_length in H. simpl in H. lia. }
    rewrite <- (firstn_skipn i l) at 3. rewrite Hs. rewrite app_comm_cons, !app_assoc. now rewrite !last_entry_snoc.
  Qed.

  Lemma asc_snoc l x : asc l -> (forall y, In y l -> y <== x) -> asc (l ++ [x]).
  Proof. intros Ha Hl. apply ss_snoc. auto. Qed.

  Lemma ascendingb_ok l : asc l -> ascendingb E lt l = true.
  Proof.
    induction 1 as [|a l Hs IH Hf]; auto. simpl. rewrite IH, andb_true_r. destruct l as [|b l]; auto.
    inversion Hf; subst. now apply negb_true_iff.
  Qed.
End Lists.
