(** Proofs about what an exception in a search leaves. *)
From Coq Require Import List Arith Bool ZArith NArith Lia Permutation.
From Verif.Base Require Import Res Arr ResList StdAlg Fault FaultFacts.
From Verif.DivMask Require Import Model.
From Verif.Spec Require Import DivFinder DivFinderFacts DivCaught.
From Verif.DivList Require Model Throws.
From Verif.KD Require Import EntryArray Tree Model Legal ArrayProofs TreeProofs Throws ThrowsProofs.
Import ListNotations.

(** Having been told [seen], the callback was told [xs], of [all], and agreed every time. *)
Definition part {M : Type} (cb : callback M) (seen all xs : list M) : Prop :=
  exists zs rest, xs = seen ++ zs /\ Permutation (zs ++ rest) all /\ forall u v, zs = u ++ v -> u <> [] -> cb (seen ++ u) = true.

Section Part.
  Context {M : Type}.
  Variable cb : callback M.
  Lemma part_none seen all : part cb seen all seen.
  Proof. exists [], all. rewrite app_nil_r. split; auto. split; auto. intros u v H Hu. symmetry in H. apply app_eq_nil in H. tauto. Qed.
  Lemma part_perm seen all all' xs : Permutation all all' -> part cb seen all xs -> part cb seen all' xs.
  Proof. intros Hp (zs & rest & H1 & H2 & H3). exists zs, rest. split; auto. split; auto. now rewrite H2. Qed.
  Lemma part_more seen all1 all2 xs : part cb seen all1 xs -> part cb seen (all1 ++ all2) xs.
  Proof. intros (zs & rest & H1 & H2 & H3). exists zs, (rest ++ all2). split; auto. split; auto. now rewrite app_assoc, H2. Qed.
  Lemma part_skip seen all1 all2 xs : part cb seen all2 xs -> part cb seen (all1 ++ all2) xs.
  Proof. intros H. eapply part_perm; [apply Permutation_app_comm|]. now apply part_more. Qed.
  Lemma part_app seen all1 all2 seen1 xs : feeds cb seen all1 (seen1, true) -> part cb seen1 all2 xs -> part cb seen (all1 ++ all2) xs.
  Proof.
    intros (z1 & rest1 & H1 & H2 & H3 & H4) (z2 & rest2 & G1 & G2 & G3). cbn [fst snd] in *. subst seen1. destruct H4 as [-> H4].
    rewrite app_nil_r in H2. exists (z1 ++ z2), rest2. split; [now rewrite G1, app_assoc|]. split; [now rewrite <- app_assoc, G2, H2|].
    intros u v He Hu. apply app_split in He as [(w & -> & ->)|(w & Hw & -> & ->)].
    - destruct w as [|a w]; [rewrite app_nil_r in H4; auto|]. apply (H3 u (a :: w)); auto. discriminate.
    - rewrite app_assoc. apply (G3 w v); auto.
  Qed.
  Lemma part_agreed all xs : part cb [] all xs -> agreed cb all xs.
  Proof. intros (zs & rest & -> & H2 & H3). exists rest. split; auto. Qed.
End Part.

Section Left.
  Context {M : Type}.
  Variable C : kconf M.
  Variable valid : M -> bool.
  Hypothesis HL : klegal C valid.
  Variable packed : bool.
  Variable ub_calls : list (ext M) -> ext M -> nat.
  Notation ext := (ext M).
  Notation tree := (tree M).
  Notation todo := (@todo M).
  Notation kdiv := (kdiv C).

  Lemma kdiv_left {St} b (st : St) x y st' : kdiv_x C b st x y = Ok (Left st') -> st' = st.
  Proof.
    unfold kdiv_x, Throws.ediv_x. destruct (has_can_divide (c_use C) (x_mask x) (x_mask y)); [|discriminate].
    destruct b; cbn [client]; intros H; try discriminate. now injection H.
  Qed.
  Lemma kdiv_fine {St} b (st : St) x y b' c : kdiv_x C b st x y = Ok (Fine b' c) -> c = kdiv x y.
  Proof. intros H. destruct (tot_kdiv C b st x y _ eq_refl) as (o & H1 & H2). rewrite H in H1. now injection H1 as <-. Qed.

  Section Feed.
    Variable cb : callback M.
    Variable p : nat -> list M -> ext -> res (fout (list M) bool).
    Variable q : ext -> bool.
    Hypothesis Hfine : forall b seen x b' c, p b seen x = Ok (Fine b' c) -> c = q x.
    Hypothesis Hleft : forall b seen x xs, p b seen x = Ok (Left xs) -> xs = seen.
    Lemma part_one seen x all xs : cb (seen ++ [x]) = true -> part cb (seen ++ [x]) all xs -> part cb seen (x :: all) xs.
    Proof.
      intros Hc H. apply (part_app cb seen [x] all (seen ++ [x])); auto. exists [x], []. cbn [fst snd]. split; auto. split; auto. split; auto.
      intros [|y u] v He Hu Hv; [congruence|]. injection He as -> He. symmetry in He. apply app_eq_nil in He. tauto.
    Qed.
    Lemma feed_left : forall l b seen xs, feed_x cb p b l seen = Ok (Left xs) -> part cb seen (map x_t (filter q l)) xs.
    Proof.
      induction l as [|x l IH]; intros b seen xs H; cbn [feed_x filter] in *; [discriminate|].
      apply fbind_left in H as [H|(b1 & c & H1 & H)]; [apply Hleft in H as ->; apply part_none|]. apply Hfine in H1 as ->. destruct (q x).
      - cbn [map]. apply client_left in H as [->|(b2 & -> & H)]; [apply part_none|]. cbv zeta in H.
        destruct (cb (seen ++ [x_t x])) eqn:Hc; [|discriminate]. apply part_one; auto. eapply IH; eauto.
      - eapply IH; eauto.
    Qed.
    Lemma report_left l b seen xs : arr_report_x C cb p b l seen = Ok (Left xs) -> part cb seen (map x_t (filter q l)) xs.
    Proof.
      unfold arr_report_x. destruct (c_leaf C =? 1); [|apply feed_left]. destruct l as [|x l]; [destruct (c_removals C); discriminate|]. intros H.
      apply fbind_left in H as [H|(b1 & c & H1 & H)]; [apply Hleft in H as ->; apply part_none|]. destruct c; [|discriminate].
      apply client_left in H as [->|(b2 & -> & H)]; [apply part_none|discriminate].
    Qed.
  End Feed.
  Lemma arr_divisors_left b a m cb seen xs : arr_divisors_x C ub_calls b a m cb seen = Ok (Left xs) -> part cb seen (map x_t (filter (fun x => kdiv x m) (a_list a))) xs.
  Proof.
    assert (H1 : forall b (seen : list M) x b' c, kdiv_x C b seen x m = Ok (Fine b' c) -> c = kdiv x m) by (intros; eapply kdiv_fine; eauto).
    assert (H2 : forall b (seen : list M) x xs, kdiv_x C b seen x m = Ok (Left xs) -> xs = seen) by (intros; eapply kdiv_left; eauto).
    unfold arr_divisors_x. destruct (ruled_out C a m); [discriminate|].
    destruct ((c_leaf C =? 1) || negb (c_sorted C)); [exact (report_left cb (fun b seen x => kdiv_x C b seen x m) (fun x => kdiv x m) H1 H2 _ _ _ _)|].
    intros H. apply bind_inv in H as (i & Hi & H). apply clients_left in H as [->|(_ & H)]; [apply part_none|].
    apply (report_left cb (fun b seen x => kdiv_x C b seen x m) (fun x => kdiv x m) H1 H2) in H.
    rewrite <- (firstn_skipn i (a_list a)). rewrite filter_app, map_app. now apply part_more.
  Qed.
  Lemma arr_multiples_left b a m cb seen xs : arr_multiples_x C b a m cb seen = Ok (Left xs) -> part cb seen (map x_t (filter (fun x => kdiv m x) (a_list a))) xs.
  Proof.
    assert (H1 : forall b (seen : list M) x b' c, kdiv_x C b seen m x = Ok (Fine b' c) -> c = kdiv m x) by (intros; eapply kdiv_fine; eauto).
    assert (H2 : forall b (seen : list M) x xs, kdiv_x C b seen m x = Ok (Left xs) -> xs = seen) by (intros; eapply kdiv_left; eauto).
    exact (report_left cb (fun b seen x => kdiv_x C b seen m x) (fun x => kdiv m x) H1 H2 _ _ _ _).
  Qed.
  Lemma arr_for_all_left b a cb seen xs : arr_for_all_x C b a cb seen = Ok (Left xs) -> part cb seen (map x_t (a_list a)) xs.
  Proof.
    intros H. unfold arr_for_all_x in H. apply (report_left cb _ (fun _ => true)) in H.
    - rewrite filter_all in H; auto.
    - intros b0 s0 x b' c He. now injection He as _ <-.
    - discriminate.
  Qed.

  Variable bits : list (nat * Z).
  Variable root : tree.
  (** What is on the stack: nodes of the tree *)
  Definition node_of (pt : list bool * tree) : Prop :=
    tree_inv C valid bits (snd pt) /\ (forall q, leaf_at root (fst pt ++ q) = leaf_at (snd pt) q) /\ incl (tree_entries (snd pt)) (tree_entries root).
  Lemma node_children p v e mask le gt : node_of (p, Split v e mask le gt) -> node_of (p ++ [false], le) /\ node_of (p ++ [true], gt).
  Proof.
    intros (H1 & H2 & H3). cbn [fst snd] in *. cbn [tree_inv] in H1. destruct H1 as (_ & _ & _ & _ & Hl & Hg). cbn [tree_entries] in H3. split; split; auto; split; cbn [fst snd].
    - intros q. rewrite <- app_assoc. apply H2.
    - intros x Hx. apply H3, in_or_app. auto.
    - intros q. rewrite <- app_assoc. apply H2.
    - intros x Hx. apply H3, in_or_app. auto.
  Qed.
  Notation wk t stack := (@work M (t :: map snd stack)).

  Lemma find_loop_left m : forall f b p t stack tmp, Forall node_of ((p, t) :: stack) -> find_loop_x C ub_calls b f m p t stack = Ok (Left tmp) -> Forall node_of tmp.
  Proof.
    induction f as [|f IH]; intros b p t stack tmp Hs H; [discriminate|]. cbn [find_loop_x] in H. inversion Hs as [|? ? Ht Hst]; subst.
    assert (Hnext : forall b, match stack with [] => Ok (Fine b None) | (p', t') :: stack' => find_loop_x C ub_calls b f m p' t' stack' end = Ok (Left tmp) -> Forall node_of tmp).
    { intros b1 H1. destruct stack as [|[p' t'] stack']; [discriminate|]. eapply IH; eauto. }
    destruct t as [a|v e mask le gt].
    - apply fbind_left in H as [H|(b1 & r & H1 & H)]; [apply fleft_left in H as (s0 & _ & ->); auto|]. destruct r; [discriminate|]. eapply Hnext; eauto.
    - apply node_children in Ht as [Hl Hg]. destruct (c_tree C && negb (can_divide mask (x_mask m))); [eapply Hnext; eauto|].
      apply client_left in H as [->|(b1 & -> & H)]; auto. destruct (above C v e (x_t m)).
      + apply client_left in H as [->|(b2 & -> & H)]; auto. eapply IH; [|exact H]. auto.
      + eapply IH; [|exact H]. auto.
  Qed.

  Lemma part_pruned cb seen (f : ext -> bool) l1 l2 l3 xs : (forall x, In x l2 -> f x = false) ->
    part cb seen (map x_t (filter f (l1 ++ l3))) xs -> part cb seen (map x_t (filter f ((l1 ++ l2) ++ l3))) xs.
  Proof. intros Hn H. rewrite !filter_app, (filter_none f l2 Hn), app_nil_r in *. exact H. Qed.

  Lemma divisors_loop_left m cb : forall f b p t stack seen tmp xs, Forall node_of ((p, t) :: stack) ->
    divisors_loop_x C ub_calls b f m cb p t stack seen = Ok (Left (tmp, xs)) ->
    Forall node_of tmp /\ part cb seen (map x_t (filter (fun x => kdiv x m) (wk t stack))) xs.
  Proof.
    induction f as [|f IH]; intros b p t stack seen tmp xs Hs H; [discriminate|]. cbn [divisors_loop_x] in H. inversion Hs as [|? ? Ht Hst]; subst.
    assert (Hnext : forall b seen, match stack with [] => Ok (Fine b seen) | (p', t') :: stack' => divisors_loop_x C ub_calls b f m cb p' t' stack' seen end = Ok (Left (tmp, xs)) ->
      Forall node_of tmp /\ part cb seen (map x_t (filter (fun x => kdiv x m) (work (map snd stack)))) xs).
    { intros b1 seen1 H1. destruct stack as [|[p' t'] stack']; [discriminate|]. eapply IH; eauto. }
    unfold work in *. cbn [map concat]. destruct t as [a|v e mask le gt].
    - destruct Ht as ((Ha & Hfl) & _). cbn [tree_entries]. rewrite filter_app, map_app. apply fbind_left in H as [H|(b1 & r & H1 & H)].
      + apply fleft_left in H as (s0 & H & Hx). injection Hx as -> ->. apply arr_divisors_left in H. split; auto. now apply part_more.
      + apply fleft_fine in H1. destruct (arr_divisors_ok C valid HL bits a m cb seen Ha Hfl) as (r' & G1 & G2).
        destruct (tot_arr_divisors C ub_calls b a m cb seen r' G1) as (o & G3 & G4). rewrite H1 in G3. injection G3 as <-. subst r'. destruct r as [seen1 go].
        destruct go; [|discriminate]. destruct (Hnext _ _ H) as [N1 N2]. split; auto. eapply part_app; eauto.
    - assert (Hch := node_children _ _ _ _ _ _ Ht). destruct Hch as [Hl Hg]. destruct Ht as (Ht & _). cbn [snd tree_inv] in Ht. destruct Ht as (Hv & _ & _ & Hgt & _).
      cbn [tree_entries]. destruct (c_tree C && negb (can_divide mask (x_mask m))).
      { destruct (Hnext _ _ H) as [N1 N2]. split; auto. rewrite filter_app, map_app. now apply part_skip. }
      apply client_left in H as [Hx|(b1 & -> & H)]; [injection Hx as -> ->; split; auto; apply part_none|]. destruct (above C v e (x_t m)) eqn:Ham.
      + apply client_left in H as [Hx|(b2 & -> & H)]; [injection Hx as -> ->; split; auto; apply part_none|].
        apply IH in H as [N1 N2]; auto. split; auto. cbn [map snd concat] in N2. now rewrite app_assoc in N2.
      + apply IH in H as [N1 N2]; auto. split; auto. cbn [map concat] in N2. apply part_pruned; auto.
        intros y Hy. apply (no_divisor_above C valid HL v e); auto.
  Qed.
  Lemma multiples_loop_left m cb : forall f b p t stack seen tmp xs, Forall node_of ((p, t) :: stack) ->
    multiples_loop_x C b f m cb p t stack seen = Ok (Left (tmp, xs)) ->
    Forall node_of tmp /\ part cb seen (map x_t (filter (fun x => kdiv m x) (wk t stack))) xs.
  Proof.
    induction f as [|f IH]; intros b p t stack seen tmp xs Hs H; [discriminate|]. cbn [multiples_loop_x] in H. inversion Hs as [|? ? Ht Hst]; subst.
    unfold work in *. cbn [map concat]. destruct t as [a|v e mask le gt].
    - destruct Ht as ((Ha & Hfl) & _). cbn [tree_entries]. rewrite filter_app, map_app. apply fbind_left in H as [H|(b1 & r & H1 & H)].
      + apply fleft_left in H as (s0 & H & Hx). injection Hx as -> ->. apply arr_multiples_left in H. split; auto. now apply part_more.
      + apply fleft_fine in H1. destruct (arr_multiples_ok C valid bits a m cb seen Ha Hfl) as (r' & G1 & G2).
        destruct (tot_arr_multiples C b a m cb seen r' G1) as (o & G3 & G4). rewrite H1 in G3. injection G3 as <-. subst r'. destruct r as [seen1 go].
        destruct go; [|discriminate]. destruct stack as [|[p' t'] stack']; [discriminate|]. apply IH in H as [N1 N2]; auto. split; auto. eapply part_app; eauto.
    - destruct (node_children _ _ _ _ _ _ Ht) as [Hl Hg]. destruct Ht as (Ht & _). cbn [snd tree_inv] in Ht. destruct Ht as (Hv & _ & Hle & _).
      cbn [tree_entries]. apply client_left in H as [Hx|(b1 & -> & H)]; [injection Hx as -> ->; split; auto; apply part_none|].
      destruct (negb (above C v e (x_t m))) eqn:Ham.
      + apply client_left in H as [Hx|(b2 & -> & H)]; [injection Hx as -> ->; split; auto; apply part_none|].
        apply IH in H as [N1 N2]; auto. split; auto. cbn [map snd concat] in N2. eapply part_perm; [|exact N2]. apply Permutation_map, filter_perm.
        rewrite !app_assoc. apply Permutation_app_tail, Permutation_app_comm.
      + apply IH in H as [N1 N2]; auto. split; auto. cbn [map concat] in N2. rewrite <- app_assoc, filter_app, map_app. now apply part_skip.
  Qed.
  Lemma multiples_loop_packed_left m cb : forall f b p t stack seen tmp xs, Forall node_of ((p, t) :: stack) ->
    multiples_loop_packed_x C b f m cb p t stack seen = Ok (Left (tmp, xs)) ->
    Forall node_of tmp /\ part cb seen (map x_t (filter (fun x => kdiv m x) (wk t stack))) xs.
  Proof.
    induction f as [|f IH]; intros b p t stack seen tmp xs Hs H; [discriminate|]. cbn [multiples_loop_packed_x] in H. inversion Hs as [|? ? Ht Hst]; subst.
    unfold work in *. cbn [map concat]. destruct t as [a|v e mask le gt].
    - destruct Ht as ((Ha & Hfl) & _). cbn [tree_entries]. rewrite filter_app, map_app. apply fbind_left in H as [H|(b1 & r & H1 & H)].
      + apply fleft_left in H as (s0 & H & Hx). injection Hx as -> ->. apply arr_multiples_left in H. split; auto. now apply part_more.
      + apply fleft_fine in H1. destruct (arr_multiples_ok C valid bits a m cb seen Ha Hfl) as (r' & G1 & G2).
        destruct (tot_arr_multiples C b a m cb seen r' G1) as (o & G3 & G4). rewrite H1 in G3. injection G3 as <-. subst r'. destruct r as [seen1 go].
        destruct go; [|discriminate]. destruct stack as [|[p' t'] stack']; [discriminate|]. apply IH in H as [N1 N2]; auto. split; auto. eapply part_app; eauto.
    - destruct (node_children _ _ _ _ _ _ Ht) as [Hl Hg].
      cbn [tree_entries]. apply client_left in H as [Hx|(b1 & -> & H)]; [injection Hx as -> ->; split; auto; apply part_none|].
      apply client_left in H as [Hx|(b2 & -> & H)]; [injection Hx as -> ->; split; auto; apply part_none|].
      destruct (above C v e (x_t m)) eqn:Ham.
      + apply IH in H as [N1 N2]; auto. split; auto. cbn [map concat] in N2. rewrite <- app_assoc, filter_app, map_app. now apply part_skip.
      + apply IH in H as [N1 N2]; auto. split; auto. cbn [map snd concat] in N2. now rewrite app_assoc in N2.
  Qed.
  Lemma for_all_loop_left cb : forall f b p t stack seen tmp xs, Forall node_of ((p, t) :: stack) ->
    for_all_loop_x C b f cb p t stack seen = Ok (Left (tmp, xs)) -> Forall node_of tmp /\ part cb seen (map x_t (wk t stack)) xs.
  Proof.
    induction f as [|f IH]; intros b p t stack seen tmp xs Hs H; [discriminate|]. cbn [for_all_loop_x] in H. inversion Hs as [|? ? Ht Hst]; subst.
    unfold work in *. cbn [map concat]. destruct t as [a|v e mask le gt].
    - destruct Ht as ((Ha & Hfl) & _). cbn [tree_entries]. rewrite map_app. apply fbind_left in H as [H|(b1 & r & H1 & H)].
      + apply fleft_left in H as (s0 & H & Hx). injection Hx as -> ->. apply arr_for_all_left in H. split; auto. now apply part_more.
      + apply fleft_fine in H1. destruct (arr_for_all_ok C valid bits a cb seen Ha Hfl) as (r' & G1 & G2).
        destruct (tot_arr_for_all C b a cb seen r' G1) as (o & G3 & G4). rewrite H1 in G3. injection G3 as <-. subst r'. destruct r as [seen1 go].
        destruct go; [|discriminate]. destruct stack as [|[p' t'] stack']; [discriminate|]. apply IH in H as [N1 N2]; auto. split; auto. eapply part_app; eauto.
    - destruct (node_children _ _ _ _ _ _ Ht) as [Hl Hg].
      cbn [tree_entries]. apply client_left in H as [Hx|(b1 & -> & H)]; [injection Hx as -> ->; split; auto; apply part_none|].
      apply IH in H as [N1 N2]; auto. split; auto. cbn [map snd concat] in N2. now rewrite app_assoc in N2.
  Qed.
  Lemma push_children_nodes : forall t b p stack seen, Forall node_of ((p, t) :: stack) ->
    match push_children_x b p t stack seen with
    | Ok (Fine _ st) => Forall node_of st
    | Ok (Left (st, xs)) => Forall node_of st /\ xs = seen
    | _ => True
    end.
  Proof.
    induction t as [a|v e mask le IHl gt IHg]; intros b p stack seen Hs; inversion Hs as [|? ? Ht Hst]; subst; cbn [push_children_x]; auto.
    destruct (node_children _ _ _ _ _ _ Ht) as [Hl Hg]. destruct b as [|b]; cbn [client]; auto. apply IHl. auto.
  Qed.
  Lemma for_all_loop_packed_left cb : forall f b p t stack seen tmp xs, Forall node_of ((p, t) :: stack) ->
    for_all_loop_packed_x C b f cb p t stack seen = Ok (Left (tmp, xs)) -> Forall node_of tmp /\ part cb seen (map x_t (wk t stack)) xs.
  Proof.
    induction f as [|f IH]; intros b p t stack seen tmp xs Hs H; [discriminate|]. cbn [for_all_loop_packed_x] in H. inversion Hs as [|? ? Ht Hst]; subst.
    destruct Ht as (Hi & Hp & Hin). cbn [fst snd] in *.
    assert (Hst' : Forall (tree_inv C valid bits) (map snd stack)) by (apply Forall_map; eapply Forall_impl; [|exact Hst]; intros ? (? & _); auto).
    destruct (push_children_ok C valid bits t (map snd stack) Hi Hst') as (_ & Ha & Hfl & _ & Hperm).
    apply fbind_left in H as [H|(b1 & r & H1 & H)].
    - apply fleft_left in H as (s0 & H & Hx). injection Hx as -> ->. apply arr_for_all_left in H. split; auto.
      eapply part_perm; [apply Permutation_map; exact Hperm|]. rewrite map_app. now apply part_more.
    - apply fleft_fine in H1. destruct (arr_for_all_ok C valid bits (node_entries t) cb seen Ha Hfl) as (r' & G1 & G2).
      destruct (tot_arr_for_all C b (node_entries t) cb seen r' G1) as (o & G3 & G4). rewrite H1 in G3. injection G3 as <-. subst r'. destruct r as [seen1 go].
      destruct go; [|discriminate].
      assert (Hn := push_children_nodes t b1 p stack seen1 Hs). destruct (push_children_fine t b1 p stack seen1) as ([b2 st|[st ys]] & E & G); rewrite E in *; unfold fbind in H; cbn [bind] in H.
      + destruct st as [|[p' t'] st]; [discriminate|]. apply IH in H as [N1 N2]; auto. split; auto.
        eapply part_perm; [apply Permutation_map; exact Hperm|]. rewrite map_app. eapply part_app; eauto. rewrite <- G. exact N2.
      + injection H as -> ->. destruct Hn as [Hn ->]. split; auto.
        eapply part_perm; [apply Permutation_map; exact Hperm|]. rewrite map_app. eapply part_app; eauto. apply part_none.
  Qed.
End Left.
