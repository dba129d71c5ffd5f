(** Proofs about the trees. *)
From Coq Require Import List Arith Bool ZArith NArith Lia Permutation Sorted.
From Verif.Base Require Import Res Arr ResList StdAlg Order Sort.
From Verif.DivMask Require Import Model Proofs.
From Verif.Spec Require Import DivFinder DivFinderFacts.
From Verif.KD Require Import EntryArray Legal ArrayProofs Tree.
Import ListNotations.
Local Notation length := List.length.

Section Trees.
  Context {M : Type}.
  Variable C : kconf M.
  Variable valid : M -> bool.
  Hypothesis HL : klegal C valid.
  Notation ext := (ext M).
  Notation earray := (earray M).
  Notation tree := (tree M).
  Notation ex := (c_ex C).
  Notation nvars := (c_nvars C).
  Notation kdiv := (kdiv C).
  Notation above := (above C).
  Notation same := (same_exps (c_ex C) (c_nvars C)).
  Notation arr_inv := (arr_inv C valid).

  (** ** The invariant *)
  Fixpoint tree_inv (bits : list (nat * Z)) (t : tree) : Prop :=
    match t with
    | Leaf a => arr_inv bits a /\ filled C a
    | Split v x mask le gt =>
        v < nvars /\ (c_tree C = true -> below mask (tree_entries le ++ tree_entries gt)) /\
        (forall y, In y (tree_entries le) -> above v x (x_t y) = false) /\ (forall y, In y (tree_entries gt) -> above v x (x_t y) = true) /\
        tree_inv bits le /\ tree_inv bits gt
    end.

  Lemma tree_ext bits t : tree_inv bits t -> forall x, In x (tree_entries t) -> is_ext C bits x.
  Proof.
    induction t as [a|v x mask le IHl gt IHg]; cbn [tree_inv tree_entries].
    - intros [Ha _]. apply (r_ext _ _ _ _ Ha).
    - intros (_ & _ & _ & _ & H1 & H2) y Hy. apply in_app_or in Hy as [Hy|Hy]; auto.
  Qed.
  Lemma tree_valid bits t : tree_inv bits t -> forall x, In x (tree_entries t) -> valid (x_t x) = true.
  Proof.
    induction t as [a|v x mask le IHl gt IHg]; cbn [tree_inv tree_entries].
    - intros [Ha _]. apply (r_valid _ _ _ _ Ha).
    - intros (_ & _ & _ & _ & H1 & H2) y Hy. apply in_app_or in Hy as [Hy|Hy]; auto.
  Qed.
  Lemma node_mask_below bits t : tree_inv bits t -> c_tree C = true -> below (node_mask t) (tree_entries t).
  Proof.
    destruct t as [a|v x mask le gt]; cbn [tree_inv tree_entries node_mask].
    - intros [Ha _]. apply (r_mask _ _ _ _ Ha).
    - intros (_ & H & _). exact H.
  Qed.

  (** Which side cannot hold divisors or multiples *)
  Lemma no_divisor_above v x (y m : ext) : v < nvars -> above v x (x_t y) = true -> above v x (x_t m) = false -> kdiv y m = false.
  Proof.
    intros Hv H1 H2. destruct (kdiv y m) eqn:Hd; auto. apply (kdiv_le C valid HL _ _ v) in Hd; auto. unfold Tree.above in *.
    apply Z.ltb_lt in H1. apply Z.ltb_ge in H2. lia.
  Qed.

  (** ** Searches *)
  Definition work (ts : list tree) : list ext := concat (map tree_entries ts).
  Definition size_of (ts : list tree) : nat := fold_right (fun t n => nodes t + n) 0 ts.
  Lemma nodes_pos (t : tree) : 0 < nodes t.
  Proof. destruct t; cbn [nodes]; lia. Qed.

  Lemma divisors_loop_ok bits m cb : forall fuel t stack seen, size_of (t :: stack) <= fuel -> Forall (tree_inv bits) (t :: stack) ->
    exists seen' go, divisors_loop C fuel m cb t stack seen = Ok seen' /\
      feeds cb seen (map x_t (filter (fun x => kdiv x m) (work (t :: stack)))) (seen', go).
  Proof.
    induction fuel as [|f IH]; intros t stack seen Hf Hi; [pose proof (nodes_pos t); cbn [size_of fold_right] in Hf; lia|].
    assert (Hnext : forall seen, size_of stack <= f ->
      exists seen' go, match stack with [] => Ok seen | t' :: stack' => divisors_loop C f m cb t' stack' seen end = Ok seen' /\
        feeds cb seen (map x_t (filter (fun x => kdiv x m) (work stack))) (seen', go)).
    { intros seen0 Hs. destruct stack as [|t' stack]; [do 2 eexists; split; [reflexivity|apply feeds_nil]|]. apply IH; auto. now inversion Hi. }
    unfold work in *. cbn [divisors_loop map concat]. inversion Hi as [|? ? Ht Hst]; subst. destruct t as [a|v x mask le gt]; cbn [size_of fold_right nodes] in Hf.
    - destruct Ht as [Ha Hfl]. destruct (arr_divisors_ok C valid HL bits a m cb seen Ha Hfl) as ([seen1 go1] & -> & H2). cbn [bind tree_entries].
      rewrite filter_app, map_app. destruct go1.
      + destruct (Hnext seen1) as (seen2 & go2 & -> & H4); [unfold size_of; lia|]. do 2 eexists. split; [reflexivity|]. eapply feeds_app; eauto.
      + do 2 eexists. split; [reflexivity|]. now apply feeds_stop.
    - cbn [tree_inv] in Ht. destruct Ht as (Hv & Hb & Hle & Hgt & Hil & Hig). cbn [tree_entries].
      destruct (c_tree C && negb (can_divide mask (x_mask m))) eqn:Hr.
      + apply andb_prop in Hr as [Htr Hr]. apply negb_true_iff in Hr. rewrite filter_app, map_app.
        rewrite (filter_none _ (tree_entries le ++ tree_entries gt)).
        * cbn [map app]. apply Hnext. unfold size_of. lia.
        * intros y Hy. apply (below_rules_out C valid HL bits mask (tree_entries le ++ tree_entries gt)); auto.
          apply in_app_or in Hy as [Hy|Hy]; [exact (tree_ext bits le Hil y Hy)|exact (tree_ext bits gt Hig y Hy)].
      + destruct (above v x (x_t m)) eqn:Ham.
        * destruct (IH le (gt :: stack) seen) as (seen' & go & H1 & H2).
          { cbn [size_of fold_right]. lia. }
          { repeat constructor; auto. }
          cbn [map concat] in H2. rewrite app_assoc in H2. eauto.
        * destruct (IH le stack seen) as (seen' & go & H1 & H2).
          { cbn [size_of fold_right]. lia. }
          { repeat constructor; auto. }
          do 2 eexists. split; [exact H1|]. cbn [map concat] in H2. rewrite !filter_app in *.
          rewrite (filter_none _ (tree_entries gt)), app_nil_r; eauto. intros y Hy. apply (no_divisor_above v x); auto.
  Qed.
  Lemma tree_divisors_ok bits t m cb : tree_inv bits t ->
    exists xs, tree_divisors C (Some t) m cb = Ok xs /\ reported cb (map x_t (filter (fun x => kdiv x m) (tree_entries t))) xs.
  Proof.
    intros Hi. destruct (divisors_loop_ok bits m cb (nodes t) t [] []) as (xs & go & H1 & H2).
    - cbn [size_of fold_right]. lia.
    - now constructor.
    - exists xs. split; auto. unfold work in H2. cbn [map concat] in H2. rewrite app_nil_r in H2. eapply feeds_reported; eauto.
  Qed.

  Lemma multiples_loop_ok bits m cb : forall fuel t stack seen, size_of (t :: stack) <= fuel -> Forall (tree_inv bits) (t :: stack) ->
    exists seen' go, multiples_loop C fuel m cb t stack seen = Ok seen' /\
      feeds cb seen (map x_t (filter (fun x => kdiv m x) (work (t :: stack)))) (seen', go).
  Proof.
    induction fuel as [|f IH]; intros t stack seen Hf Hi; [pose proof (nodes_pos t); cbn [size_of fold_right] in Hf; lia|].
    unfold work in *. cbn [multiples_loop map concat]. inversion Hi as [|? ? Ht Hst]; subst. destruct t as [a|v x mask le gt]; cbn [size_of fold_right nodes] in Hf.
    - destruct Ht as [Ha Hfl]. destruct (arr_multiples_ok C valid bits a m cb seen Ha Hfl) as ([seen1 go1] & -> & H2). cbn [bind tree_entries].
      rewrite filter_app, map_app. destruct go1; [|do 2 eexists; split; [reflexivity|now apply feeds_stop]].
      destruct stack as [|t' stack].
      + do 2 eexists. split; [reflexivity|]. cbn [map concat filter]. rewrite app_nil_r. exact H2.
      + destruct (IH t' stack seen1) as (seen2 & go2 & -> & H4); [unfold size_of in *; lia|auto|]. do 2 eexists. split; [reflexivity|]. eapply feeds_app; eauto.
    - cbn [tree_inv] in Ht. destruct Ht as (Hv & Hb & Hle & Hgt & Hil & Hig). cbn [tree_entries].
      destruct (above v x (x_t m)) eqn:Ham; cbn [negb].
      + destruct (IH gt stack seen) as (seen' & go & H1 & H2).
        { cbn [size_of fold_right]. lia. }
        { repeat constructor; auto. }
        do 2 eexists. split; [exact H1|]. cbn [map concat] in H2. rewrite !filter_app in *.
        rewrite (filter_none _ (tree_entries le)); eauto. intros y Hy. apply (no_divisor_above v x); auto.
      + destruct (IH gt (le :: stack) seen) as (seen' & go & H1 & H2).
        { cbn [size_of fold_right]. lia. }
        { repeat constructor; auto. }
        cbn [map concat] in H2. do 2 eexists. split; [exact H1|]. eapply feeds_perm; [|exact H2]. rewrite !filter_app, !map_app, !app_assoc.
        apply Permutation_app_tail, Permutation_app_comm.
  Qed.
  Lemma multiples_loop_packed_ok bits m cb : forall fuel t stack seen, size_of (t :: stack) <= fuel -> Forall (tree_inv bits) (t :: stack) ->
    exists seen' go, multiples_loop_packed C fuel m cb t stack seen = Ok seen' /\
      feeds cb seen (map x_t (filter (fun x => kdiv m x) (work (t :: stack)))) (seen', go).
  Proof.
    induction fuel as [|f IH]; intros t stack seen Hf Hi; [pose proof (nodes_pos t); cbn [size_of fold_right] in Hf; lia|].
    unfold work in *. cbn [multiples_loop_packed map concat]. inversion Hi as [|? ? Ht Hst]; subst. destruct t as [a|v x mask le gt]; cbn [size_of fold_right nodes] in Hf.
    - destruct Ht as [Ha Hfl]. destruct (arr_multiples_ok C valid bits a m cb seen Ha Hfl) as ([seen1 go1] & -> & H2). cbn [bind tree_entries].
      rewrite filter_app, map_app. destruct go1; [|do 2 eexists; split; [reflexivity|now apply feeds_stop]].
      destruct stack as [|t' stack].
      + do 2 eexists. split; [reflexivity|]. cbn [map concat filter]. rewrite app_nil_r. exact H2.
      + destruct (IH t' stack seen1) as (seen2 & go2 & -> & H4); [unfold size_of in *; lia|auto|]. do 2 eexists. split; [reflexivity|]. eapply feeds_app; eauto.
    - cbn [tree_inv] in Ht. destruct Ht as (Hv & Hb & Hle & Hgt & Hil & Hig). cbn [tree_entries].
      destruct (above v x (x_t m)) eqn:Ham; cbn [negb].
      + destruct (IH gt stack seen) as (seen' & go & H1 & H2).
        { cbn [size_of fold_right]. lia. }
        { repeat constructor; auto. }
        do 2 eexists. split; [exact H1|]. cbn [map concat] in H2. rewrite !filter_app in *.
        rewrite (filter_none _ (tree_entries le)); eauto. intros y Hy. apply (no_divisor_above v x); auto.
      + destruct (IH le (gt :: stack) seen) as (seen' & go & H1 & H2).
        { cbn [size_of fold_right]. lia. }
        { repeat constructor; auto. }
        cbn [map concat] in H2. rewrite app_assoc in H2. eauto.
  Qed.
  Lemma tree_multiples_ok packed bits t m cb : tree_inv bits t ->
    exists xs, tree_multiples C packed (Some t) m cb = Ok xs /\ reported cb (map x_t (filter (fun x => kdiv m x) (tree_entries t))) xs.
  Proof.
    intros Hi. assert (Hs : size_of [t] <= nodes t) by (cbn [size_of fold_right]; lia). assert (Hf : Forall (tree_inv bits) [t]) by now constructor.
    unfold tree_multiples. destruct packed; [destruct (multiples_loop_packed_ok bits m cb (nodes t) t [] [] Hs Hf) as (xs & go & H1 & H2)|
      destruct (multiples_loop_ok bits m cb (nodes t) t [] [] Hs Hf) as (xs & go & H1 & H2)];
    (exists xs; split; auto; unfold work in H2; cbn [map concat] in H2; rewrite app_nil_r in H2; eapply feeds_reported; eauto).
  Qed.

  Lemma for_all_loop_ok bits cb : forall fuel t stack seen, size_of (t :: stack) <= fuel -> Forall (tree_inv bits) (t :: stack) ->
    exists seen' go, for_all_loop C fuel cb t stack seen = Ok seen' /\ feeds cb seen (map x_t (work (t :: stack))) (seen', go).
  Proof.
    induction fuel as [|f IH]; intros t stack seen Hf Hi; [pose proof (nodes_pos t); cbn [size_of fold_right] in Hf; lia|].
    unfold work in *. cbn [for_all_loop map concat]. inversion Hi as [|? ? Ht Hst]; subst. destruct t as [a|v x mask le gt]; cbn [size_of fold_right nodes] in Hf.
    - destruct Ht as [Ha Hfl]. destruct (arr_for_all_ok C valid bits a cb seen Ha Hfl) as ([seen1 go1] & -> & H2). cbn [bind tree_entries].
      rewrite map_app. destruct go1; [|do 2 eexists; split; [reflexivity|now apply feeds_stop]].
      destruct stack as [|t' stack].
      + do 2 eexists. split; [reflexivity|]. cbn [map concat]. rewrite app_nil_r. exact H2.
      + destruct (IH t' stack seen1) as (seen2 & go2 & -> & H4); [unfold size_of in *; lia|auto|]. do 2 eexists. split; [reflexivity|]. eapply feeds_app; eauto.
    - cbn [tree_inv] in Ht. destruct Ht as (Hv & Hb & Hle & Hgt & Hil & Hig). cbn [tree_entries].
      destruct (IH le (gt :: stack) seen) as (seen' & go & H1 & H2).
      { cbn [size_of fold_right]. lia. }
      { repeat constructor; auto. }
      cbn [map concat] in H2. rewrite app_assoc in H2. eauto.
  Qed.
  Lemma push_children_ok bits : forall t stack, tree_inv bits t -> Forall (tree_inv bits) stack ->
    Forall (tree_inv bits) (push_children t stack) /\ arr_inv bits (node_entries t) /\ filled C (node_entries t) /\
    size_of (push_children t stack) < size_of (t :: stack) /\
    Permutation (a_list (node_entries t) ++ work (push_children t stack)) (work (t :: stack)).
  Proof.
    unfold work. induction t as [a|v x mask le IHl gt IHg]; intros stack Ht Hs; cbn [push_children node_entries].
    - destruct Ht as [Ha Hf]. split; [exact Hs|]. split; [exact Ha|]. split; [exact Hf|]. split; [unfold size_of; cbn [fold_right nodes]; lia|reflexivity].
    - cbn [tree_inv] in Ht. destruct Ht as (Hv & Hb & Hle & Hgt & Hil & Hig). destruct (IHl (gt :: stack)) as (H1 & H2 & H3 & H4 & H5); auto.
      split; auto. split; auto. split; auto. split; [unfold size_of in *; cbn [fold_right nodes] in *; lia|]. rewrite H5. cbn [map concat tree_entries].
      now rewrite app_assoc.
  Qed.
  Lemma for_all_loop_packed_ok bits cb : forall fuel t stack seen, size_of (t :: stack) <= fuel -> Forall (tree_inv bits) (t :: stack) ->
    exists seen' go, for_all_loop_packed C fuel cb t stack seen = Ok seen' /\ feeds cb seen (map x_t (work (t :: stack))) (seen', go).
  Proof.
    induction fuel as [|f IH]; intros t stack seen Hf Hi; [pose proof (nodes_pos t); cbn [size_of fold_right] in Hf; lia|].
    inversion Hi as [|? ? Ht Hst]; subst. destruct (push_children_ok bits t stack Ht Hst) as (H1 & H2 & H3 & H4 & H5). cbn [for_all_loop_packed].
    destruct (arr_for_all_ok C valid bits (node_entries t) cb seen H2 H3) as ([seen1 go1] & -> & G2). cbn [bind].
    destruct go1.
    - destruct (push_children t stack) as [|t' stack'].
      + do 2 eexists. split; [reflexivity|]. eapply feeds_perm; [|exact G2]. apply Permutation_map. rewrite <- H5. cbn. now rewrite app_nil_r.
      + destruct (IH t' stack' seen1) as (seen2 & go2 & -> & H6); [lia|auto|]. do 2 eexists. split; [reflexivity|].
        eapply feeds_perm; [|eapply feeds_app; eauto]. rewrite <- map_app. now apply Permutation_map.
    - do 2 eexists. split; [reflexivity|]. eapply feeds_perm; [|eapply feeds_stop; exact G2]. rewrite <- map_app. apply Permutation_map. exact H5.
  Qed.
  Lemma tree_for_all_feeds packed bits t cb : tree_inv bits t ->
    exists xs go, tree_for_all C packed (Some t) cb = Ok xs /\ feeds cb [] (map x_t (tree_entries t)) (xs, go).
  Proof.
    intros Hi. assert (Hs : size_of [t] <= nodes t) by (cbn [size_of fold_right]; lia). assert (Hf : Forall (tree_inv bits) [t]) by now constructor.
    unfold tree_for_all. destruct packed; [destruct (for_all_loop_packed_ok bits cb (nodes t) t [] [] Hs Hf) as (xs & go & H1 & H2)|
      destruct (for_all_loop_ok bits cb (nodes t) t [] [] Hs Hf) as (xs & go & H1 & H2)];
    (exists xs, go; split; auto; unfold work in H2; cbn [map concat] in H2; rewrite app_nil_r in H2; exact H2).
  Qed.

  (** What a found place refers to *)
  Lemma leaf_at_in (t : tree) : forall p a, leaf_at t p = Some a -> forall x, In x (a_list a) -> In x (tree_entries t).
  Proof.
    induction t as [a0|v x mask le IHl gt IHg]; intros [|b p] a H; cbn [leaf_at] in H; try discriminate; cbn [tree_entries].
    - injection H as <-. trivial.
    - intros y Hy. apply in_or_app. destruct b; [right; eapply IHg|left; eapply IHl]; eauto.
  Qed.
  Definition points_to (root : tree) (p : place) (x : ext) : Prop := exists a, leaf_at root (fst p) = Some a /\ nth_error (a_list a) (snd p) = Some x.
  Lemma points_to_deref root p x : points_to root p x -> deref root p = Ok (x_t x) /\ In x (tree_entries root).
  Proof.
    intros (a & H1 & H2). unfold deref. rewrite H1. pose proof H2 as Hg. apply vget_ok in Hg. rewrite Hg. split; auto.
    eapply leaf_at_in; eauto. eapply nth_error_In; eauto.
  Qed.

  Lemma find_loop_ok bits m root : forall fuel p t stack, size_of (t :: map snd stack) <= fuel -> Forall (tree_inv bits) (t :: map snd stack) ->
    Forall (fun pt => forall q, leaf_at root (fst pt ++ q) = leaf_at (snd pt) q) ((p, t) :: stack) ->
    exists r, find_loop C fuel m p t stack = Ok r /\
      match r with
      | Some pl => exists x, points_to root pl x /\ kdiv x m = true
      | None => forall x, In x (work (t :: map snd stack)) -> kdiv x m = false
      end.
  Proof.
    induction fuel as [|f IH]; intros p t stack Hf Hi Hp; [pose proof (nodes_pos t); cbn [size_of fold_right] in Hf; lia|].
    assert (Hnext : size_of (map snd stack) <= f ->
      exists r, match stack with [] => Ok None | (p', t') :: stack' => find_loop C f m p' t' stack' end = Ok r /\
        match r with Some pl => exists x, points_to root pl x /\ kdiv x m = true | None => forall x, In x (work (map snd stack)) -> kdiv x m = false end).
    { intros Hs. destruct stack as [|[p' t'] stack]; [exists None; split; [reflexivity|intros x []]|]. apply IH; auto; [now inversion Hi|now inversion Hp]. }
    unfold work in *. cbn [find_loop map concat]. inversion Hi as [|? ? Ht Hst]; subst. inversion Hp as [|? ? Hpt Hps]; subst. cbn [fst snd] in Hpt.
    destruct t as [a|v x mask le gt]; cbn [size_of fold_right nodes] in Hf.
    - destruct Ht as [Ha Hfl]. destruct (arr_find_ok C valid HL bits a m Ha Hfl) as (r & -> & H2). cbn [bind tree_entries]. destruct r as [i|].
      + eexists. split; [reflexivity|]. destruct H2 as (x & H3 & H4). exists x. split; auto. exists a. split; auto. specialize (Hpt []).
        rewrite app_nil_r in Hpt. exact Hpt.
      + destruct Hnext as (r & -> & H3); [unfold size_of; lia|]. eexists. split; [reflexivity|]. destruct r as [pl|]; auto.
        intros x Hx. apply in_app_or in Hx as [Hx|Hx]; auto.
    - cbn [tree_inv] in Ht. destruct Ht as (Hv & Hb & Hle & Hgt & Hil & Hig). cbn [tree_entries].
      destruct (c_tree C && negb (can_divide mask (x_mask m))) eqn:Hr.
      + apply andb_prop in Hr as [Htr Hr]. apply negb_true_iff in Hr. destruct Hnext as (r & -> & H3); [unfold size_of; lia|].
        eexists. split; [reflexivity|]. destruct r as [pl|]; auto. intros y Hy. apply in_app_or in Hy as [Hy|Hy]; auto.
        apply (below_rules_out C valid HL bits mask (tree_entries le ++ tree_entries gt)); auto.
        apply in_app_or in Hy as [Hy|Hy]; [exact (tree_ext bits le Hil y Hy)|exact (tree_ext bits gt Hig y Hy)].
      + assert (Hpl : forall q, leaf_at root ((p ++ [false]) ++ q) = leaf_at le q) by (intros q; rewrite <- app_assoc; cbn [app]; apply Hpt).
        assert (Hpg : forall q, leaf_at root ((p ++ [true]) ++ q) = leaf_at gt q) by (intros q; rewrite <- app_assoc; cbn [app]; apply Hpt).
        destruct (above v x (x_t m)) eqn:Ham.
        * destruct (IH (p ++ [false]) le ((p ++ [true], gt) :: stack)) as (r & H1 & H2).
          { cbn [size_of fold_right map snd]. lia. }
          { cbn [map snd]. repeat constructor; auto. }
          { repeat constructor; auto. }
          eexists. split; [exact H1|]. destruct r as [pl|]; auto. intros y Hy. apply H2. cbn [map snd concat]. now rewrite app_assoc.
        * destruct (IH (p ++ [false]) le stack) as (r & H1 & H2).
          { cbn [size_of fold_right]. lia. }
          { repeat constructor; auto. }
          { repeat constructor; auto. }
          eexists. split; [exact H1|]. destruct r as [pl|]; auto. intros y Hy. apply in_app_or in Hy as [Hy|Hy].
          { apply in_app_or in Hy as [Hy|Hy]; [apply H2; cbn [map concat]; apply in_or_app; auto|]. apply (no_divisor_above v x); auto. }
          { apply H2. cbn [map concat]. apply in_or_app. auto. }
  Qed.
  Lemma tree_find_ok bits t m : tree_inv bits t ->
    exists r, tree_find C (Some t) m = Ok r /\
      match r with
      | Some pl => exists x, points_to t pl x /\ kdiv x m = true
      | None => forall x, In x (tree_entries t) -> kdiv x m = false
      end.
  Proof.
    intros Hi. destruct (find_loop_ok bits m t (nodes t) [] t []) as (r & H1 & H2).
    - cbn [size_of fold_right map]. lia.
    - cbn [map]; now constructor.
    - constructor; auto.
    - exists r. split; auto. destruct r as [pl|]; auto. intros x Hx. apply H2. unfold work. cbn [map concat]. now rewrite app_nil_r.
  Qed.

  (** ** Removal *)
  Lemma all_false_filter (f : ext -> bool) l : (forall x, In x l -> f x = false) -> filter f l = [] /\ filter (fun x => negb (f x)) l = l.
  Proof. intros H. split; [now apply filter_none|]. apply filter_all. intros x Hx. now rewrite H. Qed.
  Lemma sub_inv bits v x mask le gt le' gt' f :
    tree_inv bits (Split v x mask le gt) -> tree_inv bits le' -> tree_inv bits gt' -> tree_entries le' = filter f (tree_entries le) ->
    tree_entries gt' = filter f (tree_entries gt) -> tree_inv bits (Split v x mask le' gt').
  Proof.
    cbn [tree_inv]. intros (Hv & Hb & Hle & Hgt & _ & _) Hil Hig He1 He2. split; auto. split; [|split; [|split; auto]].
    - intros Ht. apply (below_incl _ (tree_entries le ++ tree_entries gt)); auto. intros y Hy. rewrite He1, He2 in Hy.
      apply in_app_or in Hy as [Hy|Hy]; apply filter_In in Hy as [Hy _]; apply in_or_app; auto.
    - intros y Hy. rewrite He1 in Hy. apply filter_In in Hy as [Hy _]. auto.
    - intros y Hy. rewrite He2 in Hy. apply filter_In in Hy as [Hy _]. auto.
  Qed.
  Lemma tree_remove_ok (packed : bool) bits t m : c_removals C = true -> tree_inv bits t ->
    exists t' out, (if packed then remove_packed C t m else remove_binary C t m) = Ok (t', out, length out) /\ tree_inv bits t' /\
      tree_entries t' = filter (fun x => negb (kdiv m x)) (tree_entries t) /\ Permutation out (map x_t (filter (kdiv m) (tree_entries t))) /\
      forall q a, leaf_at t q = Some a -> exists a', leaf_at t' q = Some a' /\ a_list a' = filter (fun x => negb (kdiv m x)) (a_list a).
  Proof.
    intros Hrem. induction t as [a|v x mask le IHl gt IHg]; intros Hi.
    - destruct Hi as [Ha Hf]. destruct (arr_remove_ok C valid bits a m Ha) as (a' & H1 & H2 & H3).
      exists (Leaf a'), (map x_t (filter (kdiv m) (a_list a))).
      assert (Hr : (let* (a0, out, n) := arr_remove C a m in Ok (Leaf a0, out, n)) =
        Ok (Leaf a', map x_t (filter (kdiv m) (a_list a)), length (map x_t (filter (kdiv m) (a_list a))))).
      { rewrite H1. cbn [bind]. now rewrite map_length. }
      split; [destruct packed; exact Hr|]. split; [|split; [exact H3|split; [reflexivity|]]]; [split; auto; intros Hf'; congruence|].
      intros [|b q] a0 Ha0; cbn [leaf_at] in *; [|discriminate]. injection Ha0 as <-. eauto.
    - pose proof Hi as Hi0. cbn [tree_inv] in Hi0. destruct Hi0 as (Hv & Hb & Hle & Hgt & Hil & Hig).
      destruct (IHl Hil) as (le' & out1 & L1 & L2 & L3 & L4 & L5). destruct (IHg Hig) as (gt' & out2 & G1 & G2 & G3 & G4 & G5).
      destruct (above v x (x_t m)) eqn:Ham.
      + assert (Hno : forall y, In y (tree_entries le) -> kdiv m y = false) by (intros y Hy; apply (no_divisor_above v x); auto).
        destruct (all_false_filter (kdiv m) (tree_entries le) Hno) as [F1 F2].
        exists (Split v x mask le gt'), out2. split; [|split; [|split; [|split]]].
        * destruct packed; cbn [remove_packed remove_binary]; rewrite G1, Ham; reflexivity.
        * eapply sub_inv; eauto.
        * cbn [tree_entries]. now rewrite filter_app, F2, G3.
        * cbn [tree_entries]. rewrite filter_app, F1. exact G4.
        * intros [|[|] q] a Ha; cbn [leaf_at] in *; [discriminate|auto|]. exists a. split; auto. symmetry. apply filter_all.
          intros y Hy. apply negb_true_iff, Hno. eapply leaf_at_in; eauto.
      + exists (Split v x mask le' gt'), (if packed then out1 ++ out2 else out2 ++ out1). split; [|split; [|split; [|split]]].
        * destruct packed; cbn [remove_packed remove_binary]; rewrite L1, Ham, G1; cbn [bind negb]; now rewrite app_length.
        * eapply sub_inv; eauto.
        * cbn [tree_entries]. now rewrite filter_app, L3, G3.
        * cbn [tree_entries]. rewrite filter_app, map_app, <- L4, <- G4. destruct packed; auto. apply Permutation_app_comm.
        * intros [|[|] q] a Ha; cbn [leaf_at] in *; [discriminate|auto|auto].
  Qed.

  Lemma same_above v x a b : v < nvars -> same a b = true -> above v x a = above v x b.
  Proof.
    intros Hv H. unfold same_exps in H. rewrite forallb_forall in H. unfold Tree.above. f_equal. apply Z.eqb_eq, H, in_seq. lia.
  Qed.
  Lemma remove_element_ok bits t m : c_removals C = true -> tree_inv bits t ->
    exists t' b, remove_element C t m = Ok (t', b) /\ tree_inv bits t' /\
      (if b then exists x, Permutation (tree_entries t) (x :: tree_entries t') /\ same m (x_t x) = true
       else tree_entries t' = tree_entries t /\ forall x, In x (tree_entries t) -> same m (x_t x) = false).
  Proof.
    intros Hrem. induction t as [a|v x mask le IHl gt IHg]; intros Hi; cbn [remove_element].
    - destruct Hi as [Ha Hf]. destruct (arr_remove_element_ok C valid bits a m Ha) as (a' & b & -> & H2 & H3). cbn [bind].
      exists (Leaf a'), b. split; auto. split; [split; auto; intros Hf'; congruence|]. destruct b; cbn [tree_entries]; auto.
      destruct H3 as [-> H3]. auto.
    - cbn [tree_inv] in Hi. destruct Hi as (Hv & Hb & Hle & Hgt & Hil & Hig). cbn [tree_entries].
      destruct (above v x m) eqn:Ham.
      + destruct (IHg Hig) as (gt' & b & -> & G2 & G3). cbn [bind]. exists (Split v x mask le gt'), b. split; auto.
        assert (Hin : forall y, In y (tree_entries gt') -> In y (tree_entries gt)).
        { intros y Hy. destruct b; [|destruct G3 as [G3 _]; congruence]. destruct G3 as (z & G3 & _). apply (Permutation_in _ (Permutation_sym G3)). now right. }
        split.
        * cbn [tree_inv]. split; auto. split; [|split; [|split; auto]]; auto. intros Ht. eapply below_incl; [|apply (Hb Ht)].
          intros y Hy. apply in_app_or in Hy as [Hy|Hy]; apply in_or_app; auto.
        * destruct b; cbn [tree_entries].
          { destruct G3 as (z & G3 & G4). exists z. split; auto. rewrite G3. symmetry. apply Permutation_middle. }
          { destruct G3 as [G3 G4]. rewrite G3. split; auto. intros y Hy. apply in_app_or in Hy as [Hy|Hy]; auto.
            destruct (same m (x_t y)) eqn:Hs; auto. apply (same_above v x) in Hs; auto. rewrite Ham, (Hle y Hy) in Hs. discriminate. }
      + destruct (IHl Hil) as (le' & b & -> & G2 & G3). cbn [bind]. exists (Split v x mask le' gt), b. split; auto.
        assert (Hin : forall y, In y (tree_entries le') -> In y (tree_entries le)).
        { intros y Hy. destruct b; [|destruct G3 as [G3 _]; congruence]. destruct G3 as (z & G3 & _). apply (Permutation_in _ (Permutation_sym G3)). now right. }
        split.
        * cbn [tree_inv]. split; auto. split; [|split; [|split; auto]]; auto. intros Ht. eapply below_incl; [|apply (Hb Ht)].
          intros y Hy. apply in_app_or in Hy as [Hy|Hy]; apply in_or_app; auto.
        * destruct b; cbn [tree_entries].
          { destruct G3 as (z & G3 & G4). exists z. split; auto. now rewrite G3. }
          { destruct G3 as [G3 G4]. rewrite G3. split; auto. intros y Hy. apply in_app_or in Hy as [Hy|Hy]; auto.
            destruct (same m (x_t y)) eqn:Hs; auto. apply (same_above v x) in Hs; auto. rewrite Ham, (Hgt y Hy) in Hs. discriminate. }
  Qed.

  (** ** Copies *)
  Notation copies := (copies same).
  Lemma copies_app e l l' : copies e (l ++ l') = copies e l + copies e l'.
  Proof. unfold DivFinder.copies. rewrite filter_app. apply app_length. Qed.
  Lemma copies_perm e l l' : Permutation l l' -> copies e l = copies e l'.
  Proof. apply filter_length_perm. Qed.
  Lemma copies_le_length e l : copies e l <= length l.
  Proof. apply filter_len. Qed.
  Lemma same_refl e : same e e = true.
  Proof. apply forallb_forall. intros v _. apply Z.eqb_refl. Qed.
  Lemma copies_cons e l : copies e (e :: l) = S (copies e l).
  Proof. unfold DivFinder.copies. cbn [filter]. now rewrite same_refl. Qed.
  Lemma copies_zero e l : (forall x, In x l -> same e x = false) -> copies e l = 0.
  Proof. intros H. unfold DivFinder.copies. now rewrite filter_none. Qed.
  Lemma copies_all e l : all_same C (e :: l) -> copies e l = length l.
  Proof.
    intros H. unfold DivFinder.copies. rewrite filter_all; auto. intros x Hx. apply forallb_forall. intros v Hv. apply in_seq in Hv. apply Z.eqb_eq.
    apply H; [now left|now right|lia].
  Qed.
  (** All copies of an entry lie in one leaf. *)
  Lemma tree_copies bits t e : tree_inv bits t -> copies e (map x_t (tree_entries t)) <= c_leaf C.
  Proof.
    induction t as [a|v x mask le IHl gt IHg]; cbn [tree_inv tree_entries].
    - intros [Ha _]. pose proof (copies_le_length e (map x_t (a_list a))) as H. rewrite map_length in H. pose proof (r_len _ _ _ _ Ha). lia.
    - intros (Hv & Hb & Hle & Hgt & Hil & Hig). rewrite map_app, copies_app. destruct (above v x e) eqn:Ham.
      + rewrite (copies_zero e (map x_t (tree_entries le))); [now apply IHg|]. intros y Hy. apply in_map_iff in Hy as (z & <- & Hz).
        destruct (same e (x_t z)) eqn:Hs; auto. apply (same_above v x) in Hs; auto. rewrite Ham, (Hle z Hz) in Hs. discriminate.
      + rewrite (copies_zero e (map x_t (tree_entries gt))); [rewrite Nat.add_0_r; now apply IHl|]. intros y Hy. apply in_map_iff in Hy as (z & <- & Hz).
        destruct (same e (x_t z)) eqn:Hs; auto. apply (same_above v x) in Hs; auto. rewrite Ham, (Hgt z Hz) in Hs. discriminate.
  Qed.

  (** ** Insertion *)
  Lemma split_for_ok bits a e var : arr_inv bits a -> valid (x_t e) = true ->
    (exists v x l g, split_for C e (a_list a) var = Ok (v, x, l, g) /\ v < nvars /\ Permutation (l ++ g) (a_list a) /\
      (forall y, In y l -> above v x (x_t y) = false) /\ (forall y, In y g -> above v x (x_t y) = true) /\
      (if above v x (x_t e) then l <> [] else g <> [])) \/
    (split_for C e (a_list a) var = Throw duplicate /\ all_same C (x_t e :: map x_t (a_list a))).
  Proof.
    intros Ha Hv. unfold split_for. destruct (choose_all C valid HL (x_t e) (map x_t (a_list a)) var) as [(v & x & y & z & -> & H1 & H2 & H3 & H4)|[-> H]].
    - intros y [<-|Hy]; auto. apply in_map_iff in Hy as (w & <- & Hw). now apply (r_valid _ _ _ _ Ha).
    - left. cbn [bind]. pose proof (kl_part_ext C valid HL (fun y => negb (x <? ex (x_t y) v)%Z) (a_list a)) as [P1 P2].
      destruct (c_part_ext C (fun y => negb (x <? ex (x_t y) v)%Z) (a_list a)) as [l g]. cbn [fst snd] in P1, P2.
      exists v, x, l, g. split; auto. split; auto. split; [rewrite P1, P2; apply filter_split|].
      assert (Hl : forall y, In y l <-> In y (a_list a) /\ above v x (x_t y) = false).
      { intros w. split; intros Hw.
        - apply (Permutation_in _ P1), filter_In in Hw as [Hw Hx]. split; auto. now apply negb_true_iff in Hx.
        - apply (Permutation_in _ (Permutation_sym P1)), filter_In. split; [tauto|]. apply negb_true_iff. tauto. }
      assert (Hg : forall y, In y g <-> In y (a_list a) /\ above v x (x_t y) = true).
      { intros w. split; intros Hw.
        - apply (Permutation_in _ P2), filter_In in Hw as [Hw Hx]. split; auto. apply negb_true_iff, negb_false_iff in Hx. exact Hx.
        - apply (Permutation_in _ (Permutation_sym P2)), filter_In. split; [tauto|]. apply negb_true_iff, negb_false_iff. tauto. }
      split; [intros w Hw; now apply Hl in Hw|]. split; [intros w Hw; now apply Hg in Hw|].
      destruct (above v x (x_t e)) eqn:He; unfold Tree.above in He.
      + apply Z.ltb_lt in He. destruct H2 as [<-|H2]; [lia|]. apply in_map_iff in H2 as (w & <- & Hw). intros ->. apply (in_nil (a := w)), Hl.
        split; auto. unfold Tree.above. apply Z.ltb_ge. lia.
      + apply Z.ltb_ge in He. destruct H3 as [<-|H3]; [lia|]. apply in_map_iff in H3 as (w & <- & Hw). intros ->. apply (in_nil (a := w)), Hg.
        split; auto. unfold Tree.above. apply Z.ltb_lt. lia.
    - right. auto.
  Qed.

  Lemma nonempty_length {A} (l : list A) : l <> [] -> 0 < length l.
  Proof. destruct l; cbn [length]; [congruence|lia]. Qed.
  Lemma perm_cons_nonempty {A} (l l' : list A) x : Permutation l (x :: l') -> l <> [].
  Proof. intros H ->. apply Permutation_nil in H. discriminate. Qed.

  Lemma split_node_ok bits v x mask le gt e :
    v < nvars -> arr_inv bits le -> arr_inv bits gt -> is_ext C bits e -> valid (x_t e) = true ->
    (forall y, In y (a_list le) -> above v x (x_t y) = false) -> (forall y, In y (a_list gt) -> above v x (x_t y) = true) ->
    length (a_list le) + length (a_list gt) <= c_leaf C -> (if above v x (x_t e) then a_list le <> [] else a_list gt <> []) ->
    (c_tree C = true -> below mask (e :: a_list le ++ a_list gt)) ->
    exists t, split_node C v x mask le gt e = Ok t /\ tree_inv bits t /\ Permutation (tree_entries t) (e :: a_list le ++ a_list gt).
  Proof.
    intros Hv Hl Hg He Hve Hal Hag Hlen Hne Hb. unfold split_node. destruct (above v x (x_t e)) eqn:Ham.
    - destruct (arr_insert_ok C valid HL bits gt e Hg) as (gt' & -> & H1 & H2); auto; [apply nonempty_length in Hne; lia|]. cbn [bind].
      assert (Hp : Permutation (a_list le ++ a_list gt') (e :: a_list le ++ a_list gt)) by (rewrite H2; symmetry; apply Permutation_middle).
      eexists. split; [reflexivity|]. cbn [tree_inv tree_entries]. split; auto. split; auto. split; [|split; [|split; [|split]]].
      + intros Ht. eapply below_incl; [|apply (Hb Ht)]. intros y. apply (Permutation_in _ Hp).
      + exact Hal.
      + intros y Hy. apply (Permutation_in _ H2) in Hy as [<-|Hy]; auto.
      + split; auto. intros _. exact Hne.
      + split; auto. intros _. now apply perm_cons_nonempty in H2.
    - destruct (arr_insert_ok C valid HL bits le e Hl) as (le' & -> & H1 & H2); auto; [apply nonempty_length in Hne; lia|]. cbn [bind].
      assert (Hp : Permutation (a_list le' ++ a_list gt) (e :: a_list le ++ a_list gt)) by (now rewrite H2).
      eexists. split; [reflexivity|]. cbn [tree_inv tree_entries]. split; auto. split; auto. split; [|split; [|split; [|split]]].
      + intros Ht. eapply below_incl; [|apply (Hb Ht)]. intros y. apply (Permutation_in _ Hp).
      + intros y Hy. apply (Permutation_in _ H2) in Hy as [<-|Hy]; auto.
      + exact Hag.
      + split; auto. intros _. now apply perm_cons_nonempty in H2.
      + split; auto. intros _. exact Hne.
  Qed.

  Lemma split_insert_ok (packed : bool) bits a e var : arr_inv bits a -> is_ext C bits e -> valid (x_t e) = true ->
    let r := if packed then split_insert_packed C a e var else split_insert_binary C a e var in
    (exists t, r = Ok t /\ tree_inv bits t /\ Permutation (tree_entries t) (e :: a_list a)) \/
    (r = Throw duplicate /\ all_same C (x_t e :: map x_t (a_list a))).
  Proof.
    intros Ha He Hv. cbv zeta. unfold split_insert_packed, split_insert_binary.
    destruct (split_for_ok bits a e var Ha Hv) as [(v & x & l & g & -> & H1 & H2 & H3 & H4 & H5)|[-> H]]; [|right; destruct packed; auto].
    left. cbn [bind].
    assert (Hin : forall y, In y (l ++ g) -> In y (a_list a)) by (intros y; apply (Permutation_in _ H2)).
    assert (Hlen := Permutation_length H2). rewrite app_length in Hlen. pose proof (r_len _ _ _ _ Ha) as Hla.
    assert (Hl1 : forall y, In y l -> is_ext C bits y) by (intros y Hy; apply (r_ext _ _ _ _ Ha), Hin, in_or_app; auto).
    assert (Hl2 : forall y, In y l -> valid (x_t y) = true) by (intros y Hy; apply (r_valid _ _ _ _ Ha), Hin, in_or_app; auto).
    assert (Hg1 : forall y, In y g -> is_ext C bits y) by (intros y Hy; apply (r_ext _ _ _ _ Ha), Hin, in_or_app; auto).
    assert (Hg2 : forall y, In y g -> valid (x_t y) = true) by (intros y Hy; apply (r_valid _ _ _ _ Ha), Hin, in_or_app; auto).
    destruct packed.
    - destruct (arr_of_ok C valid HL bits l) as (le & -> & K1 & K2); auto; [lia|]. cbn [bind].
      destruct (kept_ok C valid HL bits g (a_mask a)) as [K3 K4]; auto; [lia|]. set (gt := arr_recalculate C (sort_arr C (mk_arr g (a_mask a)))) in *.
      assert (Hp : Permutation (a_list le ++ a_list gt) (a_list a)) by (now rewrite K2, K4).
      destruct (split_node_ok bits v x (klower C (klower C max_mask (a_mask a)) (x_mask e)) le gt e) as (t & Ht1 & Ht2 & Ht3); auto.
      + intros y Hy. apply H3. now apply (Permutation_in _ K2).
      + intros y Hy. apply H4. now apply (Permutation_in _ K4).
      + rewrite <- app_length, (Permutation_length Hp). exact Hla.
      + destruct (above v x (x_t e)).
        * intros Hn. rewrite Hn in K2. apply Permutation_nil in K2. congruence.
        * intros Hn. rewrite Hn in K4. apply Permutation_nil in K4. congruence.
      + intros Ht. apply (below_incl _ (e :: a_list a)).
        * intros y [<-|Hy]; [now left|right; now apply (Permutation_in _ Hp)].
        * apply below_cons; auto. apply (below_lower_r C _ _ [] (a_list a) Ht below_nil). apply (r_mask _ _ _ _ Ha Ht).
      + exists t. split; auto. split; auto. now rewrite Ht3, Hp.
    - destruct (arr_of_ok C valid HL bits g) as (gt & -> & K1 & K2); auto; [lia|]. cbn [bind].
      destruct (kept_ok C valid HL bits l (a_mask a)) as [K3 K4]; auto; [lia|]. set (le := arr_recalculate C (sort_arr C (mk_arr l (a_mask a)))) in *.
      assert (Hp : Permutation (a_list le ++ a_list gt) (a_list a)) by (now rewrite K2, K4).
      destruct (split_node_ok bits v x (klower C (klower C (klower C max_mask (a_mask le)) (a_mask gt)) (x_mask e)) le gt e) as (t & Ht1 & Ht2 & Ht3); auto.
      + intros y Hy. apply H3. now apply (Permutation_in _ K4).
      + intros y Hy. apply H4. now apply (Permutation_in _ K2).
      + rewrite <- app_length, (Permutation_length Hp). exact Hla.
      + destruct (above v x (x_t e)).
        * intros Hn. rewrite Hn in K4. apply Permutation_nil in K4. congruence.
        * intros Hn. rewrite Hn in K2. apply Permutation_nil in K2. congruence.
      + intros Ht. apply below_cons; auto. apply below_lower_r; auto.
        * apply (below_lower_r C _ _ [] (a_list le) Ht below_nil). apply (r_mask _ _ _ _ K3 Ht).
        * apply (r_mask _ _ _ _ K1 Ht).
      + exists t. split; auto. split; auto. now rewrite Ht3, Hp.
  Qed.

  Lemma lower_masks_entries t e : tree_entries (lower_masks C t e) = tree_entries t.
  Proof.
    induction t as [a|v x mask le IHl gt IHg]; cbn [lower_masks tree_entries]; auto.
    destruct (above v x (x_t e)); cbn [tree_entries]; congruence.
  Qed.
  Lemma lower_masks_inv bits t e : tree_inv bits t -> tree_inv bits (lower_masks C t e).
  Proof.
    induction t as [a|v x mask le IHl gt IHg]; cbn [lower_masks tree_inv]; auto.
    intros (Hv & Hb & Hle & Hgt & Hil & Hig). destruct (above v x (x_t e)); cbn [tree_inv]; rewrite lower_masks_entries.
    - split; auto. split; [|split; [|split; [|split]]]; auto. intros Ht. apply below_lower; auto.
    - split; auto. split; [|split; [|split; [|split]]]; auto. intros Ht. apply below_lower; auto.
  Qed.

  Lemma insert_leaf_ok packed bits a e var : arr_inv bits a -> is_ext C bits e -> valid (x_t e) = true ->
    (exists t, insert_tree C packed (Leaf a) e var = Ok t /\ tree_inv bits t /\ Permutation (tree_entries t) (e :: a_list a)) \/
    (insert_tree C packed (Leaf a) e var = Throw duplicate /\ length (a_list a) = c_leaf C /\ copies (x_t e) (map x_t (a_list a)) = c_leaf C).
  Proof.
    intros Ha He Hv. cbn [insert_tree]. destruct (Nat.eqb_spec (length (a_list a)) (c_leaf C)) as [Hl|Hl].
    - destruct (split_insert_ok packed bits a e var Ha He Hv) as [H|[H1 H2]]; auto. right. split; [destruct packed; auto|]. split; auto.
      rewrite copies_all by exact H2. now rewrite map_length.
    - left. destruct (arr_insert_ok C valid HL bits a e Ha) as (a' & -> & H1 & H2); auto; [pose proof (r_len _ _ _ _ Ha); lia|]. cbn [bind].
      exists (Leaf a'). split; auto. split; [|exact H2]. split; auto. intros _. now apply perm_cons_nonempty in H2.
  Qed.
  Lemma insert_tree_ok packed bits e : is_ext C bits e -> valid (x_t e) = true -> forall t var, tree_inv bits t ->
    (exists t', insert_tree C packed t e var = Ok t' /\ tree_inv bits t' /\ Permutation (tree_entries t') (e :: tree_entries t)) \/
    (insert_tree C packed t e var = Throw duplicate /\ c_leaf C <= copies (x_t e) (map x_t (tree_entries t))).
  Proof.
    intros He Hv. induction t as [a|v x mask le IHl gt IHg]; intros var Hi.
    - destruct Hi as [Ha Hf]. destruct (insert_leaf_ok packed bits a e var Ha He Hv) as [H|(H1 & H2 & H3)]; auto. right. split; auto. cbn [tree_entries]. lia.
    - cbn [tree_inv] in Hi. destruct Hi as (Hvn & Hb & Hle & Hgt & Hil & Hig). cbn [insert_tree tree_entries]. rewrite map_app, copies_app.
      destruct (above v x (x_t e)) eqn:Ham.
      + destruct (IHg (Some v) Hig) as [(gt' & -> & H1 & H2)|[-> H]]; [left|right; cbn [bind]; split; [auto|lia]].
        cbn [bind]. assert (Hp : Permutation (tree_entries le ++ tree_entries gt') (e :: tree_entries le ++ tree_entries gt)) by (rewrite H2; symmetry; apply Permutation_middle).
        eexists. split; [reflexivity|]. cbn [tree_inv tree_entries]. split; auto. split; auto. split; [|split; [|split; [|split]]]; auto.
        * intros Ht. apply (below_incl _ (e :: tree_entries le ++ tree_entries gt)); [intros y; apply (Permutation_in _ Hp)|]. apply below_cons; auto.
        * intros y Hy. apply (Permutation_in _ H2) in Hy as [<-|Hy]; auto.
      + destruct (IHl (Some v) Hil) as [(le' & -> & H1 & H2)|[-> H]]; [left|right; cbn [bind]; split; [auto|lia]].
        cbn [bind]. assert (Hp : Permutation (tree_entries le' ++ tree_entries gt) (e :: tree_entries le ++ tree_entries gt)) by (now rewrite H2).
        eexists. split; [reflexivity|]. cbn [tree_inv tree_entries]. split; auto. split; auto. split; [|split; [|split; [|split]]]; auto.
        * intros Ht. apply (below_incl _ (e :: tree_entries le ++ tree_entries gt)); [intros y; apply (Permutation_in _ Hp)|]. apply below_cons; auto.
        * intros y Hy. apply (Permutation_in _ H2) in Hy as [<-|Hy]; auto.
  Qed.

  Definition root_inv (bits : list (nat * Z)) (root : option tree) : Prop := match root with None => True | Some t => tree_inv bits t end.
  Definition root_entries (root : option tree) : list ext := match root with None => [] | Some t => tree_entries t end.
  (** Insertion succeeds exactly if there is room for another copy. *)
  Lemma tree_insert_ok packed bits e root : is_ext C bits e -> valid (x_t e) = true -> root_inv bits root ->
    if copies (x_t e) (map x_t (root_entries root)) <? c_leaf C then
      exists root', tree_insert C packed root e = Ok root' /\ root_inv bits root' /\ Permutation (root_entries root') (e :: root_entries root)
    else tree_insert C packed root e = Throw duplicate /\ root_inv bits (tree_abandoned C root e) /\ root_entries (tree_abandoned C root e) = root_entries root.
  Proof.
    intros He Hv Hi. unfold tree_insert, tree_abandoned.
    assert (H : (exists t', insert_tree C packed (match root with None => Leaf arr_empty | Some t => t end) e None = Ok t' /\ tree_inv bits t' /\
        Permutation (tree_entries t') (e :: root_entries root)) \/
      (insert_tree C packed (match root with None => Leaf arr_empty | Some t => t end) e None = Throw duplicate /\ c_leaf C <= copies (x_t e) (map x_t (root_entries root)))).
    { destruct root as [t|]; [now apply insert_tree_ok|].
      destruct (insert_leaf_ok packed bits arr_empty e None (empty_inv C valid bits) He Hv) as [H|(_ & H2 & _)]; auto.
      cbn in H2. pose proof (kl_leaf C valid HL). lia. }
    destruct H as [(t' & -> & H1 & H2)|[-> H]]; cbn [bind].
    - assert (Hc := tree_copies bits t' (x_t e) H1). rewrite (copies_perm _ _ _ (Permutation_map x_t H2)) in Hc. cbn [map] in Hc. rewrite copies_cons in Hc.
      replace (copies (x_t e) (map x_t (root_entries root)) <? c_leaf C) with true by (symmetry; apply Nat.ltb_lt; lia). exists (Some t'). auto.
    - replace (copies (x_t e) (map x_t (root_entries root)) <? c_leaf C) with false by (symmetry; apply Nat.ltb_ge; lia). split; auto.
      destruct root as [t|].
      + cbn [root_inv root_entries] in *. split; [now apply lower_masks_inv|apply lower_masks_entries].
      + cbn in H. pose proof (kl_leaf C valid HL). lia.
  Qed.

  (** ** Construction *)
  Lemma split_range_ok l var : (forall a, In a l -> valid a = true) -> (forall e, copies e l <= c_leaf C) -> c_leaf C < length l ->
    exists v x le gt, split_range C l var = Ok (v, x, le, gt) /\ v < nvars /\ Permutation (le ++ gt) l /\ le <> [] /\ gt <> [] /\
      (forall y, In y le -> above v x y = false) /\ (forall y, In y gt -> above v x y = true).
  Proof.
    intros Hv Hc Hl. assert (Hf : exists first, In first l /\ split_range C l var =
      (let* (v, x) := choose C first l nvars var in let (le, gt) := c_part C (fun y => negb (x <? ex y v)%Z) l in Ok (v, x, le, gt))).
    { destruct l as [|first l]; [cbn in Hl; lia|]. exists first. split; [now left|reflexivity]. }
    destruct Hf as (first & Hfirst & ->).
    assert (Hin : forall y, In y (first :: l) <-> In y l) by (intros y; split; [intros [<-|Hy]; auto|now right]).
    destruct (choose_all C valid HL first l var) as [(v & x & y & z & -> & H1 & H2 & H3 & H4)|[_ H]].
    - intros y Hy. apply Hv. now apply Hin.
    - cbn [bind]. pose proof (kl_part C valid HL (fun y => negb (x <? ex y v)%Z) l) as [P1 P2].
      destruct (c_part C (fun y => negb (x <? ex y v)%Z) l) as [le gt]. cbn [fst snd] in P1, P2.
      apply Hin in H2, H3. exists v, x, le, gt. split; auto. split; auto. split; [rewrite P1, P2; apply filter_split|].
      split; [|split; [|split]].
      + intros ->. apply (in_nil (a := y)). apply (Permutation_in _ (Permutation_sym P1)), filter_In. split; auto. apply negb_true_iff, Z.ltb_ge. lia.
      + intros ->. apply (in_nil (a := z)). apply (Permutation_in _ (Permutation_sym P2)), filter_In. split; auto. apply negb_true_iff, negb_false_iff, Z.ltb_lt. lia.
      + intros w Hw. apply (Permutation_in _ P1), filter_In in Hw as [_ Hw]. now apply negb_true_iff in Hw.
      + intros w Hw. apply (Permutation_in _ P2), filter_In in Hw as [_ Hw]. apply negb_true_iff, negb_false_iff in Hw. exact Hw.
    - exfalso. specialize (Hc first). rewrite copies_all in Hc by exact H. lia.
  Qed.

  Lemma build_ok bits : forall fuel l var, l <> [] -> length l <= fuel -> (forall a, In a l -> valid a = true) -> (forall e, copies e l <= c_leaf C) ->
    exists t, build C fuel bits l var = Ok t /\ tree_inv bits t /\ Permutation (map x_t (tree_entries t)) l.
  Proof.
    induction fuel as [|f IH]; intros l var Hn Hf Hv Hc; [destruct l; [congruence|cbn in Hf; lia]|].
    cbn [build]. destruct (Nat.leb_spec (length l) (c_leaf C)) as [Hl|Hl].
    - assert (Hme : forall x, In x (map (kext C bits) l) -> is_ext C bits x /\ In (x_t x) l).
      { intros x Hx. apply in_map_iff in Hx as (y & <- & Hy). split; auto. apply kext_is_ext. }
      destruct (arr_of_ok C valid HL bits (map (kext C bits) l)) as (a & -> & H1 & H2).
      + now rewrite map_length.
      + intros x Hx. now apply Hme.
      + intros x Hx. now apply Hv, Hme.
      + cbn [bind]. exists (Leaf a). split; auto. cbn [tree_inv tree_entries]. split.
        * split; auto. intros _ Hnil. rewrite Hnil in H2. apply Permutation_nil, map_eq_nil in H2. congruence.
        * rewrite H2, map_map. erewrite map_ext; [now rewrite map_id|]. reflexivity.
    - destruct (split_range_ok l var Hv Hc Hl) as (v & x & le & gt & -> & H1 & H2 & H3 & H4 & H5 & H6). cbn [bind].
      assert (Hin : forall y, In y (le ++ gt) -> In y l) by (intros y; apply (Permutation_in _ H2)).
      assert (Hlen := Permutation_length H2). rewrite app_length in Hlen. pose proof (nonempty_length _ H3). pose proof (nonempty_length _ H4).
      assert (Hcc : forall e, copies e le + copies e gt <= c_leaf C).
      { intros e. rewrite <- copies_app, (copies_perm e _ _ H2). apply Hc. }
      destruct (IH le (Some v)) as (tl & -> & L1 & L2); auto; [lia|intros a Ha; apply Hv, Hin, in_or_app; auto|intros e; specialize (Hcc e); lia|]. cbn [bind].
      destruct (IH gt (Some v)) as (tg & -> & G1 & G2); auto; [lia|intros a Ha; apply Hv, Hin, in_or_app; auto|intros e; specialize (Hcc e); lia|]. cbn [bind].
      eexists. split; [reflexivity|]. cbn [tree_inv tree_entries]. split.
      + split; auto. split; [|split; [|split; [|split]]]; auto.
        * intros Ht. pose proof (node_mask_below _ _ L1 Ht) as B1. pose proof (node_mask_below _ _ G1 Ht) as B2. apply below_lower_r; auto.
          { apply (below_lower_r C _ _ [] (tree_entries tl) Ht below_nil). apply B1. }
          { apply B2. }
        * intros y Hy. apply H5. apply (Permutation_in _ L2). now apply in_map.
        * intros y Hy. apply H6. apply (Permutation_in _ G2). now apply in_map.
      + rewrite map_app, L2, G2. exact H2.
  Qed.
  Lemma tree_reset_ok bits l : (forall a, In a l -> valid a = true) -> (forall e, copies e l <= c_leaf C) ->
    exists root, tree_reset C l bits = Ok root /\ root_inv bits root /\ Permutation (map x_t (root_entries root)) l.
  Proof.
    intros Hv Hc. unfold tree_reset. destruct l as [|a l]; [exists None; cbn; auto|].
    destruct (build_ok bits (length (a :: l)) (a :: l) None) as (t & -> & H1 & H2); auto; [discriminate|]. exists (Some t). auto.
  Qed.
End Trees.
