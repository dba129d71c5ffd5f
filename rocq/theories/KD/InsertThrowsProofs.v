(** Proofs about insertions into KD trees in which client functions or allocations throw. *)
From Coq Require Import List Arith Bool ZArith NArith Lia Permutation.
From Verif.Base Require Import Res Arr ResList StdAlg Order Fault FaultFacts.
From Verif.DivMask Require Import Model.
From Verif.Spec Require Import DivFinder DivFinderFacts DivCaught.
From Verif.DivList Require Model.
From Verif.KD Require Import EntryArray Tree Model Legal ArrayProofs TreeProofs Proofs Throws ThrowsProofs InsertThrows.
Import ListNotations.

(** What std::sort and std::partition do: they do their work, or leave the entries in some order when a call throws; std::upper_bound has nothing to
    compare with in an empty range. *)
Definition sort_legal {M} (C : kconf M) (sort_x : nat -> list (ext M) -> fout (list (ext M)) (list (ext M))) : Prop :=
  forall b l, match sort_x b l with Fine _ l' => l' = c_sort_ext C l | Left l' => Permutation l' l end.
Definition part_legal {M} (C : kconf M) (part_x : nat -> (ext M -> bool) -> list (ext M) -> fout (list (ext M)) (list (ext M) * list (ext M))) : Prop :=
  forall b p l, match part_x b p l with Fine _ r => r = c_part_ext C p l | Left l' => Permutation l' l end.

Section InsertThrows.
  Context {M : Type}.
  Variable C : kconf M.
  Variable packed alloc : bool.
  Variable ub_calls : list (ext M) -> ext M -> nat.
  Variable sort_x : nat -> list (ext M) -> fout (list (ext M)) (list (ext M)).
  Variable part_x : nat -> (ext M -> bool) -> list (ext M) -> fout (list (ext M)) (list (ext M) * list (ext M)).
  Hypothesis Hsort : sort_legal C sort_x.
  Hypothesis Hpart : part_legal C part_x.
  Notation ext := (ext M).
  Notation tree := (tree M).
  Notation kd := (kd M).

  (** ** A call throws or does what it does without exceptions *)
  Lemma tot_throw {S A} (m : res (fout S A)) e : tot m (Throw e).
  Proof. intros r H. discriminate H. Qed.
  Lemma tot_allocation {S A} b (s : S) (k : nat -> res (fout S A)) n : (forall b', tot (k b') n) -> tot (allocation alloc b s k) n.
  Proof. intros H. unfold allocation. destruct alloc; [now apply tot_client|apply H]. Qed.
  Lemma tot_arr_insert {St} b (st : St) a e : tot (arr_insert_x C ub_calls b st a e) (arr_insert C a e).
  Proof.
    unfold arr_insert_x, arr_insert. destruct (negb (c_sorted C)).
    - intros r H. rewrite H. cbn [bind]. eexists. split; reflexivity.
    - apply tot_bind. intros it _. apply tot_clients. intros b'. intros r H. rewrite H. cbn [bind]. eexists. split; reflexivity.
  Qed.
  Lemma tot_sort_arr {St} b (st : list ext -> St) a : tot (sort_arr_x C sort_x b st a) (Ok (sort_arr C a)).
  Proof.
    unfold sort_arr_x, sort_arr. destruct (c_sorted C); [|apply tot_ok]. specialize (Hsort b (a_list a)). destruct (sort_x b (a_list a)) as [b' l|l].
    - subst l. apply tot_ok.
    - intros r _. eexists. split; [reflexivity|]. exact I.
  Qed.
  Lemma tot_choose {St} (st : St) first l : forall k b var, tot (choose_x C b st first l k var) (choose C first l k var).
  Proof.
    induction k as [|k IH]; intros b var; cbn [choose_x choose]; [apply tot_throw|]. apply tot_clients. intros b'. cbv zeta.
    destruct (bounds C first l (next_var C var)) as [mn mx]. destruct (Z.eqb mn mx); [apply IH|]. apply tot_bind. intros d _. apply tot_bind. intros x _. apply tot_ok.
  Qed.
  Lemma tot_split_for b a e var : tot (split_for_x C part_x b a e var) (split_for C e (a_list a) var).
  Proof.
    unfold split_for_x, split_for. apply tot_fbind; [apply tot_choose|]. intros b' [v x] _. specialize (Hpart b' (fun y => negb (x <? c_ex C (x_t y) v)%Z) (a_list a)).
    destruct (part_x b' (fun y => negb (x <? c_ex C (x_t y) v)%Z) (a_list a)) as [b'' [l g]|l'].
    - rewrite <- Hpart. apply tot_ok.
    - intros r _. eexists. split; [reflexivity|]. exact I.
  Qed.
  Lemma tot_split_node b st v x mask le gt e : tot (split_node_x C ub_calls b st v x mask le gt e) (split_node C v x mask le gt e).
  Proof.
    unfold split_node_x, split_node. apply tot_client. intros b'. destruct (above C v x (x_t e)); (apply tot_fbind; [apply tot_arr_insert|intros; apply tot_ok]).
  Qed.
  Lemma tot_split_binary b root a e var : tot (split_insert_binary_x C alloc ub_calls sort_x part_x b root a e var) (split_insert_binary C a e var).
  Proof.
    unfold split_insert_binary_x, split_insert_binary. apply tot_fbind; [apply tot_split_for|]. intros b1 [[[v x] l] g] _. apply tot_allocation. intros b2. unfold arr_of.
    intros r H. apply bind_inv in H as (gt & H & H'). apply bind_inv in H as (gt0 & -> & H). injection H as <-. cbn [bind]. revert r H'. fold (tot (S := tree * bool) (A := tree)).
    match goal with |- forall r, ?n = Ok r -> exists f, ?m = Ok f /\ _ => change (tot m n) end.
    apply (tot_fbind_ok _ _ _ _ (tot_sort_arr b2 _ gt0)). intros b3. apply (tot_fbind_ok _ _ _ _ (tot_sort_arr b3 _ (mk_arr l (a_mask a)))). intros b4.
    apply tot_allocation. intros b5. cbv zeta. apply tot_split_node.
  Qed.
  Lemma tot_split_packed b root ch a e var : tot (split_insert_packed_x C alloc ub_calls sort_x part_x b root ch a e var) (split_insert_packed C a e var).
  Proof.
    unfold split_insert_packed_x, split_insert_packed. apply tot_fbind; [apply tot_split_for|]. intros b1 [[[v x] l] g] _. cbv zeta. apply tot_allocation. intros b2. unfold arr_of.
    intros r H. apply bind_inv in H as (gt & H & H'). apply bind_inv in H as (gt0 & -> & H). injection H as <-. cbn [bind]. revert r H'.
    match goal with |- forall r, ?n = Ok r -> exists f, ?m = Ok f /\ _ => change (tot m n) end.
    apply (tot_fbind_ok _ _ _ _ (tot_sort_arr b2 _ gt0)). intros b3. apply (tot_fbind_ok _ _ _ _ (tot_sort_arr b3 _ (mk_arr g (a_mask a)))). intros b4.
    apply tot_split_node.
  Qed.
  Lemma tot_insert_tree e : forall t b root ch var, tot (insert_tree_x C packed alloc ub_calls sort_x part_x b root ch t e var) (insert_tree C packed t e var).
  Proof.
    induction t as [a|v x mask le IHl gt IHg]; intros b root ch var; cbn [insert_tree_x insert_tree].
    - destruct (length (a_list a) =? c_leaf C); [destruct packed; [apply tot_split_packed|apply tot_split_binary]|].
      apply tot_fbind; [apply tot_arr_insert|intros; apply tot_ok].
    - cbv zeta. apply tot_client. intros b'. destruct (above C v x (x_t e)).
      + apply tot_fbind; [apply tot_fleft, IHg|intros; apply tot_ok].
      + apply tot_fbind; [apply tot_fleft, IHl|intros; apply tot_ok].
  Qed.
  Lemma tot_insert b s e : tot (insert_x C packed alloc ub_calls sort_x part_x b s e) (insert C packed s e).
  Proof.
    unfold insert_x, insert, tree_insert. apply tot_clients. intros b1. cbv zeta.
    assert (H : forall b t (k : option tree -> res kd), tot (fbind (fleft (fun st : tree * bool => mk_kd (Some (fst st)) (k_bits s) (k_size s) (k_left s)
        (option_map (moved packed (fst st) (way C t (kext C (k_bits s) e))) (k_cache s)) (k_rebuilds s))
        (insert_tree_x C packed alloc ub_calls sort_x part_x b true [] t (kext C (k_bits s) e) None)) (fun b t' => let* s' := k (Some t') in Ok (Fine b s')))
      (let* t0 := (let* t' := insert_tree C packed t (kext C (k_bits s) e) None in Ok (Some t')) in k t0)).
    { intros b2 t k r H. apply bind_inv in H as (t0 & H & H'). apply bind_inv in H as (t' & H & H''). injection H'' as <-.
      destruct (tot_insert_tree (kext C (k_bits s) e) t b2 true [] None t' H) as ([b3 a|l] & -> & E); unfold fleft, fbind; cbn [bind].
      - subst a. rewrite H'. cbn [bind]. eexists. split; reflexivity.
      - eexists. split; [reflexivity|]. exact I. }
    destruct (k_tree s) as [t|].
    - exact (H b1 t (fun t0 => report_changes C packed (mk_kd t0 (k_bits s) (k_size s) (k_left s) (k_cache s) (k_rebuilds s)) 1 0)).
    - apply tot_allocation. intros b2. exact (H b2 (Leaf arr_empty) (fun t0 => report_changes C packed (mk_kd t0 (k_bits s) (k_size s) (k_left s) (k_cache s) (k_rebuilds s)) 1 0)).
  Qed.
  Lemma tot_change b s o : tot (change_x C packed alloc ub_calls sort_x part_x b s o) (step C packed s o).
  Proof.
    assert (Hg : forall o, tot (S := kd) (let* r := step C packed s o in Ok (Fine b r)) (step C packed s o)).
    { intros o' r H. rewrite H. cbn [bind]. eexists. split; reflexivity. }
    destruct o as [e|es|m|m|m|m cb|m cb|cb|m| |]; cbn [change_x]; try apply Hg.
    - cbn [step]. apply tot_fbind; [apply tot_insert|intros; apply tot_ok].
    - cbn [step]. destruct packed; [|apply tot_ub]. intros r H. apply bind_inv in H as ([s' b'] & H & H'). injection H' as <-. unfold remove_element_x.
      unfold remove_element in H |- *. destruct (negb (c_removals C)); [discriminate H|]. unfold clients. destruct (Nat.leb _ b).
      + rewrite H. unfold fbind. cbn [bind]. eexists. split; reflexivity.
      + unfold fbind. cbn [bind]. eexists. split; [reflexivity|]. exact I.
  Qed.

  (** ** What an exception leaves behind *)
  Lemma choose_fine {St} (st : St) first l : forall k b var b' r, choose_x C b st first l k var = Ok (Fine b' r) -> choose C first l k var = Ok r.
  Proof.
    induction k as [|k IH]; intros b var b' r H; cbn [choose_x choose] in *; [discriminate H|]. apply clients_fine in H as [_ H]. cbv zeta in *.
    destruct (bounds C first l (next_var C var)) as [mn mx]. destruct (Z.eqb mn mx); [eauto|]. apply bind_inv in H as (d & -> & H). apply bind_inv in H as (x & H1 & H).
    cbn [bind]. rewrite H1. cbn [bind]. injection H as _ <-. reflexivity.
  Qed.
  Lemma choose_left {St} (st : St) first l : forall k b var st', choose_x C b st first l k var = Ok (Left st') -> st' = st.
  Proof.
    induction k as [|k IH]; intros b var st' H; cbn [choose_x] in *; [congruence|]. apply clients_left in H as [H|[_ H]]; auto. cbv zeta in *.
    destruct (bounds C first l (next_var C var)) as [mn mx]. destruct (Z.eqb mn mx); [eauto|]. apply bind_inv in H as (d & _ & H). apply bind_inv in H as (x & H1 & H). discriminate H.
  Qed.
  Lemma split_for_fine b a e var b' r : split_for_x C part_x b a e var = Ok (Fine b' r) -> split_for C e (a_list a) var = Ok r.
  Proof.
    unfold split_for_x, split_for. intros H. apply fbind_fine in H as (b1 & [v x] & H1 & H). apply choose_fine in H1. rewrite H1. cbn [bind].
    specialize (Hpart b1 (fun y => negb (x <? c_ex C (x_t y) v)%Z) (a_list a)).
    destruct (part_x b1 (fun y => negb (x <? c_ex C (x_t y) v)%Z) (a_list a)) as [b'' [l g]|l']; [|discriminate H]. rewrite <- Hpart. congruence.
  Qed.
  Lemma split_for_left b a e var st : split_for_x C part_x b a e var = Ok (Left st) -> exists l, st = (Leaf (mk_arr l (a_mask a)), false) /\ Permutation l (a_list a).
  Proof.
    unfold split_for_x. intros H. apply fbind_left in H as [H|(b1 & [v x] & H1 & H)].
    - apply choose_left in H. exists (a_list a). split; auto. now destruct a.
    - specialize (Hpart b1 (fun y => negb (x <? c_ex C (x_t y) v)%Z) (a_list a)).
      destruct (part_x b1 (fun y => negb (x <? c_ex C (x_t y) v)%Z) (a_list a)) as [b'' [l g]|l']; [discriminate H|]. exists l'. split; [congruence|exact Hpart].
  Qed.
  Lemma arr_insert_left {St} b (st st' : St) a e : arr_insert_x C ub_calls b st a e = Ok (Left st') -> st' = st /\ c_sorted C = true /\ 0 < ub_calls (a_list a) e.
  Proof.
    unfold arr_insert_x. destruct (c_sorted C); cbn [negb]; intros H.
    - apply bind_inv in H as (it & _ & H). unfold clients in H. destruct (Nat.leb_spec (ub_calls (a_list a) e) b) as [G|G].
      + apply bind_inv in H as (a' & _ & H). discriminate H.
      + split; [congruence|]. split; [auto|lia].
    - apply bind_inv in H as (a' & _ & H). discriminate H.
  Qed.
  Lemma split_node_left b st v x mask le gt e st' : split_node_x C ub_calls b st v x mask le gt e = Ok (Left st') -> st' = st.
  Proof.
    unfold split_node_x. intros H. apply client_left in H as [H|(b1 & _ & H)]; auto.
    destruct (above C v x (x_t e)); apply fbind_left in H as [H|(b2 & a & _ & H)]; try discriminate H; now apply arr_insert_left in H.
  Qed.

  Variable valid : M -> bool.
  Hypothesis HL : klegal C valid.
  Notation tree_inv := (tree_inv C valid).
  Notation arr_inv := (arr_inv C valid).

  (** A leaf in another order *)
  Lemma permuted_leaf bits a l : c_sorted C = false -> c_removals C = true -> arr_inv bits a -> Permutation l (a_list a) -> tree_inv bits (Leaf (mk_arr l (a_mask a))).
  Proof.
    intros Hs Hr [H1 H2 H3 H4 H5] Hp. assert (Hin : forall x, In x l -> In x (a_list a)) by (intros x; apply (Permutation_in _ Hp)). split.
    - split; cbn [a_list a_mask]; auto.
      + now rewrite (Permutation_length Hp).
      + congruence.
      + intros Ht. apply (below_incl _ (a_list a)); auto.
    - unfold filled. congruence.
  Qed.
  (** Leaves without the entry that is inserted *)
  Lemma split_without bits v x mask le gt e : c_removals C = true -> v < c_nvars C -> arr_inv bits le -> arr_inv bits gt ->
    (forall y, In y (a_list le) -> above C v x (x_t y) = false) -> (forall y, In y (a_list gt) -> above C v x (x_t y) = true) ->
    (c_tree C = true -> below mask (e :: a_list le ++ a_list gt)) -> tree_inv bits (Split v x mask (Leaf le) (Leaf gt)).
  Proof.
    intros Hr Hv Hle Hgt H1 H2 Hb. cbn [TreeProofs.tree_inv tree_entries]. split; auto. split; [|split; [|split; [|split]]]; auto.
    - intros Ht. eapply below_incl; [|apply (Hb Ht)]. intros y Hy. now right.
    - split; auto. unfold filled. congruence.
    - split; auto. unfold filled. congruence.
  Qed.
  Lemma split_insert_left b ch a e var bits st : c_sorted C = false -> c_removals C = true -> (alloc = true -> packed = true) -> arr_inv bits a -> is_ext C bits e -> valid (x_t e) = true ->
    (if packed then split_insert_packed_x C alloc ub_calls sort_x part_x b false ch a e var else split_insert_binary_x C alloc ub_calls sort_x part_x b false a e var) = Ok (Left st) ->
    snd st = false /\ tree_inv bits (fst st) /\ Permutation (tree_entries (fst st)) (a_list a).
  Proof.
    intros Hs Hr Hal Ha He Hve H.
    assert (Hgen : forall l, Permutation l (a_list a) -> tree_inv bits (Leaf (mk_arr l (a_mask a)))) by (intros l; now apply permuted_leaf).
    assert (Hsplit : forall b' r, split_for_x C part_x b a e var = Ok (Fine b' r) -> let '(v, x, l, g) := r in
      v < c_nvars C /\ Permutation (l ++ g) (a_list a) /\ (forall y, In y l -> above C v x (x_t y) = false) /\ (forall y, In y g -> above C v x (x_t y) = true)).
    { intros b' r G. apply split_for_fine in G. destruct (split_for_ok C valid HL bits a e var Ha Hve) as [(v & x & l & g & G1 & G2 & G3 & G4 & G5 & _)|[G1 _]]; rewrite G in G1; [|discriminate G1].
      injection G1 as ->. auto. }
    assert (Hsx : forall b (st : list ext -> tree * bool) a', sort_arr_x C sort_x b st a' = Ok (Fine b a')) by (intros; unfold sort_arr_x; now rewrite Hs).
    destruct packed.
    - unfold split_insert_packed_x in H. apply fbind_left in H as [H|(b1 & [[[v x] l] g] & H1 & H)].
      { apply split_for_left in H as (l & -> & H). cbn [fst snd tree_entries a_list]. auto. }
      specialize (Hsplit _ _ H1). cbv beta iota zeta in H, Hsplit. destruct Hsplit as (Hv & Hp & Hl & Hg).
      assert (Hrest : forall b2, (let* le0 := push_all C arr_empty l in
          fbind (sort_arr_x C sort_x b2 (fun _ => (Leaf (mk_arr (l ++ g) (a_mask a)), false)) le0) (fun b le =>
          fbind (sort_arr_x C sort_x b (fun g' => (Split v x (klower C (klower C max_mask (a_mask a)) (x_mask e)) (Leaf le) (with_children ch (Leaf (mk_arr g' (a_mask a)))), false))
                  (mk_arr g (a_mask a))) (fun b gt0 =>
            split_node_x C ub_calls b (Split v x (klower C (klower C max_mask (a_mask a)) (x_mask e)) (Leaf le) (Leaf (arr_recalculate C gt0)), false) v x
              (klower C (klower C max_mask (a_mask a)) (x_mask e)) le (arr_recalculate C gt0) e))) = Ok (Left st) ->
        snd st = false /\ tree_inv bits (fst st) /\ Permutation (tree_entries (fst st)) (a_list a)).
      { clear H. intros b2 H. apply bind_inv in H as (le & Hle & H). rewrite Hsx in H. unfold fbind in H at 1. cbn [bind] in H. rewrite Hsx in H. unfold fbind in H. cbn [bind] in H.
        apply split_node_left in H. subst st. cbn [fst snd]. split; auto.
        assert (Hlen := Permutation_length Hp). rewrite app_length in Hlen. pose proof (r_len _ _ _ _ Ha) as Hla.
        assert (Hin : forall y, In y (l ++ g) -> In y (a_list a)) by (intros y; apply (Permutation_in _ Hp)).
        destruct (arr_of_ok C valid HL bits l) as (le' & K & K1 & K2); [lia| | |].
        { intros y Hy; apply (r_ext _ _ _ _ Ha), Hin, in_or_app; auto. }
        { intros y Hy; apply (r_valid _ _ _ _ Ha), Hin, in_or_app; auto. }
        unfold arr_of in K. rewrite Hle in K. cbn [bind] in K. unfold sort_arr in K. rewrite Hs in K. injection K as <-.
        destruct (kept_ok C valid HL bits g (a_mask a)) as [K3 K4]; [lia| | |].
        { intros y Hy; apply (r_ext _ _ _ _ Ha), Hin, in_or_app; auto. }
        { intros y Hy; apply (r_valid _ _ _ _ Ha), Hin, in_or_app; auto. }
        unfold sort_arr in K3, K4. rewrite Hs in K3, K4.
        assert (Hp2 : Permutation (a_list le ++ a_list (arr_recalculate C (mk_arr g (a_mask a)))) (a_list a)) by (now rewrite K2, K4).
        split; [|exact Hp2]. apply (split_without bits v x _ le _ e); auto.
        + intros y Hy. apply Hl. now apply (Permutation_in _ K2).
        + intros y Hy. apply Hg. now apply (Permutation_in _ K4).
        + intros Ht. apply (below_incl _ (e :: a_list a)).
          * intros y [<-|Hy]; [now left|right; now apply (Permutation_in _ Hp2)].
          * apply below_cons; auto. apply (below_lower_r C _ _ [] (a_list a) Ht below_nil). apply (r_mask _ _ _ _ Ha Ht). }
      unfold allocation in H. destruct alloc; [apply client_left in H as [->|(b2 & -> & H)]; [cbn [fst snd tree_entries a_list]; auto|]|]; eapply Hrest; exact H.
    - unfold split_insert_binary_x in H. apply fbind_left in H as [H|(b1 & [[[v x] l] g] & H1 & H)].
      { apply split_for_left in H as (l & -> & H). cbn [fst snd tree_entries a_list]. auto. }
      specialize (Hsplit _ _ H1). cbv beta iota zeta in H, Hsplit. destruct Hsplit as (Hv & Hp & Hl & Hg).
      unfold allocation in H. destruct alloc; [discriminate (Hal eq_refl)|]. apply bind_inv in H as (gt & Hgt & H). rewrite Hsx in H. unfold fbind in H at 1. cbn [bind] in H.
      rewrite Hsx in H. unfold fbind in H. cbn [bind] in H. apply split_node_left in H. subst st. cbn [fst snd]. split; auto.
      assert (Hlen := Permutation_length Hp). rewrite app_length in Hlen. pose proof (r_len _ _ _ _ Ha) as Hla.
      assert (Hin : forall y, In y (l ++ g) -> In y (a_list a)) by (intros y; apply (Permutation_in _ Hp)).
      destruct (arr_of_ok C valid HL bits g) as (gt' & K & K1 & K2); [lia| | |].
      { intros y Hy; apply (r_ext _ _ _ _ Ha), Hin, in_or_app; auto. }
      { intros y Hy; apply (r_valid _ _ _ _ Ha), Hin, in_or_app; auto. }
      unfold arr_of in K. rewrite Hgt in K. cbn [bind] in K. unfold sort_arr in K. rewrite Hs in K. injection K as <-.
      destruct (kept_ok C valid HL bits l (a_mask a)) as [K3 K4]; [lia| | |].
      { intros y Hy; apply (r_ext _ _ _ _ Ha), Hin, in_or_app; auto. }
      { intros y Hy; apply (r_valid _ _ _ _ Ha), Hin, in_or_app; auto. }
      unfold sort_arr in K3, K4. rewrite Hs in K3, K4. set (le := arr_recalculate C (mk_arr l (a_mask a))) in *.
      assert (Hp2 : Permutation (a_list le ++ a_list gt) (a_list a)) by (now rewrite K2, K4).
      split; [|exact Hp2]. apply (split_without bits v x _ le gt e); auto.
      + intros y Hy. apply Hl. now apply (Permutation_in _ K4).
      + intros y Hy. apply Hg. now apply (Permutation_in _ K2).
      + intros Ht. apply below_cons; auto. apply below_lower_r; auto.
        * apply (below_lower_r C _ _ [] (a_list le) Ht below_nil). apply (r_mask _ _ _ _ K3 Ht).
        * apply (r_mask _ _ _ _ K1 Ht).
  Qed.

  (** ** Trees *)
  Definition calm (root : bool) (t : tree) (e : ext) : Prop :=
    full_leaf C t e = false \/
    c_sorted C = false /\ c_removals C = true /\ (alloc = true -> packed = true) /\ root && in_root C packed t e = false.
  Lemma insert_tree_left bits e : is_ext C bits e -> valid (x_t e) = true -> forall t b root ch var st, tree_inv bits t -> calm root t e ->
    insert_tree_x C packed alloc ub_calls sort_x part_x b root ch t e var = Ok (Left st) ->
    snd st = false /\ tree_inv bits (fst st) /\ Permutation (tree_entries (fst st)) (tree_entries t) /\
    (full_leaf C t e = false -> forall p, leaf_at (fst st) p = leaf_at t p).
  Proof.
    intros He Hv. induction t as [a|v x mask le IHl gt IHg]; intros b root ch var st Hi Hc H; cbn [insert_tree_x] in H.
    - destruct Hi as [Ha Hf]. unfold calm in Hc. cbn [full_leaf in_root tree_entries] in *. destruct (length (a_list a) =? c_leaf C).
      + destruct Hc as [Hc|(Hs & Hr & Hal & Hroot)]; [discriminate Hc|]. rewrite andb_true_r in Hroot. subst root.
        destruct (split_insert_left b ch a e var bits st Hs Hr Hal Ha He Hv H) as (H1 & H2 & H3). split; [auto|]. split; [auto|]. split; [auto|discriminate].
      + apply fbind_left in H as [H|(b1 & a' & _ & H)]; [|discriminate H]. apply arr_insert_left in H as (-> & _ & _). cbn [fst snd].
        split; [auto|]. split; [split; auto|]. split; auto.
    - cbn [TreeProofs.tree_inv] in Hi. destruct Hi as (Hvn & Hb & Hle & Hgt & Hil & Hig). cbv zeta in H. unfold calm in Hc. cbn [full_leaf in_root] in Hc.
      apply client_left in H as [->|(b1 & -> & H)].
      { cbn [fst snd TreeProofs.tree_inv tree_entries]. split; auto. split; [|split; auto]. split; auto. split; auto. intros Ht. apply below_lower; auto. }
      cbn [full_leaf]. destruct (above C v x (x_t e)) eqn:Ham.
      + apply fbind_left in H as [H|(b2 & a & _ & H)]; [|discriminate H]. apply fleft_left in H as (st0 & H & ->).
        destruct (IHg b1 false [] (Some v) st0 Hig) as (H1 & H2 & H3 & H4); [|exact H|].
        { unfold calm. cbn [andb]. tauto. }
        rewrite H1. cbn [fst snd tree_entries TreeProofs.tree_inv]. assert (Hp : Permutation (tree_entries le ++ tree_entries (fst st0)) (tree_entries le ++ tree_entries gt)) by (now rewrite H3).
        split; auto. split; [|split; [exact Hp|]].
        * split; auto. split; [|split; [|split; [|split]]]; auto.
          -- intros Ht. apply below_lower; auto. eapply below_incl; [|apply (Hb Ht)]. intros y. apply (Permutation_in _ Hp).
          -- intros y Hy. apply Hgt. now apply (Permutation_in _ H3).
        * intros Hf [|[|] p]; cbn [leaf_at]; auto.
      + apply fbind_left in H as [H|(b2 & a & _ & H)]; [|discriminate H]. apply fleft_left in H as (st0 & H & ->).
        destruct (IHl b1 (packed && root) (ch ++ [(v, x, klower C mask (x_mask e), gt)]) (Some v) st0 Hil) as (H1 & H2 & H3 & H4); [|exact H|].
        { unfold calm. cbn [negb] in Hc. rewrite andb_true_r in Hc. destruct Hc as [Hc|(G1 & G2 & G3 & G4)]; [now left|right]. split; auto. split; auto. split; auto.
          destruct packed, root; cbn [andb] in *; auto. }
        rewrite H1. cbn [fst snd tree_entries TreeProofs.tree_inv]. assert (Hp : Permutation (tree_entries (fst st0) ++ tree_entries gt) (tree_entries le ++ tree_entries gt)) by (now rewrite H3).
        split; auto. split; [|split; [exact Hp|]].
        * split; auto. split; [|split; [|split; [|split]]]; auto.
          -- intros Ht. apply below_lower; auto. eapply below_incl; [|apply (Hb Ht)]. intros y. apply (Permutation_in _ Hp).
          -- intros y Hy. apply Hle. now apply (Permutation_in _ H3).
        * intros Hf [|[|] p]; cbn [leaf_at]; auto.
  Qed.

  (** ** KDTree *)
  Variable elem : bool.
  Hypothesis Helem : elem = true -> c_cache C = false.
  Notation inv := (inv C valid elem).
  Hypothesis Hub : forall e, ub_calls [] e = 0.
  Lemma leaf_at_way (t : tree) e : exists a, leaf_at t (way C t e) = Some a.
  Proof. induction t as [a|v x mask le IHl gt IHg]; cbn [way leaf_at]; eauto. destruct (above C v x (x_t e)); cbn [leaf_at]; auto. Qed.
  Lemma leaf_not_split (t : tree) : forall p a, leaf_at t p = Some a -> splits_at t p = false.
  Proof. induction t as [a|v x mask le IHl gt IHg]; intros [|[|] p] b H; cbn [leaf_at splits_at] in *; try discriminate H; eauto. Qed.
  Lemma insert_left b s e s' : inv s -> valid e = true ->
    splits C s (DInsert e) = false \/
    c_sorted C = false /\ c_removals C = true /\ (alloc = true -> packed = true) /\ c_cache C = false /\ splits_root C packed s (DInsert e) = false ->
    insert_x C packed alloc ub_calls sort_x part_x b s e = Ok (Left s') -> inv s' /\ Permutation (kcontents s') (kcontents s).
  Proof.
    intros Hi Hv Hc H. unfold insert_x in H. apply clients_left in H as [->|[_ H]]; [auto|]. cbv zeta in H. unfold splits, splits_root in Hc.
    set (e' := kext C (k_bits s) e) in *. assert (He' : is_ext C (k_bits s) e') by apply kext_is_ext. assert (Hv' : valid (x_t e') = true) by (subst e'; now rewrite x_t_kext).
    destruct (k_tree s) as [t|] eqn:Ht.
    - apply fbind_left in H as [H|(b1 & a & _ & H)]; [|apply bind_inv in H as (s1 & _ & H); discriminate H]. apply fleft_left in H as (st & H & ->).
      assert (Hit := i_root _ _ _ _ Hi). rewrite Ht in Hit. cbn [root_inv] in Hit.
      destruct (insert_tree_left (k_bits s) e' He' Hv' t (b - mask_calls C s) true [] None st Hit) as (H1 & H2 & H3 & H4); [|exact H|].
      { unfold calm. cbn [andb]. destruct Hc as [Hc|(G1 & G2 & G3 & G4 & G5)]; [now left|].
        destruct (full_leaf C t e'); [right; auto|left; reflexivity]. }
      assert (Hp : Permutation (kcontents (mk_kd (Some (fst st)) (k_bits s) (k_size s) (k_left s) (option_map (moved packed (fst st) (way C t e')) (k_cache s)) (k_rebuilds s))) (kcontents s)).
      { unfold kcontents. cbn [k_tree]. rewrite Ht. now apply Permutation_map. }
      split; [|exact Hp]. split; cbn [k_tree k_bits k_size k_cache].
      + exact H2.
      + apply (i_bits _ _ _ _ Hi).
      + pose proof (i_size _ _ _ _ Hi) as Hz. apply Permutation_length in Hp. rewrite <- Hp in Hz. exact Hz.
      + intros Hcc. destruct Hc as [Hc|(_ & _ & _ & G & _)]; [|congruence]. assert (Hca := i_cache _ _ _ _ Hi Hcc). destruct (k_cache s) as [c|]; cbn [option_map]; [|exact I].
        destruct Hca as (t0 & y & Ht0 & a & Ha & Hy). rewrite Ht in Ht0. injection Ht0 as <-. specialize (H4 Hc).
        assert (Hm : moved packed (fst st) (way C t e') c = c).
        { unfold moved. destruct (leaf_at_way t e') as (a0 & Ha0). rewrite <- H4 in Ha0. now rewrite (leaf_not_split _ _ _ Ha0). }
        rewrite Hm. exists (fst st), y. split; auto. exists a. rewrite H4. auto.
    - assert (Hn : forall b1, fbind (fleft (fun st : tree * bool => mk_kd (Some (fst st)) (k_bits s) (k_size s) (k_left s)
          (option_map (moved packed (fst st) (way C (Leaf arr_empty) e')) (k_cache s)) (k_rebuilds s))
          (insert_tree_x C packed alloc ub_calls sort_x part_x b1 true [] (Leaf arr_empty) e' None)) (fun b t' =>
          let* s' := report_changes C packed (mk_kd (Some t') (k_bits s) (k_size s) (k_left s) (k_cache s) (k_rebuilds s)) 1 0 in Ok (Fine b s')) <> Ok (Left s')).
      { intros b1 G. apply fbind_left in G as [G|(b2 & a & _ & G)]; [|apply bind_inv in G as (s1 & _ & G); discriminate G]. apply fleft_left in G as (st & G & _).
        cbn [insert_tree_x] in G. change (length (a_list (arr_empty (M := M)))) with 0 in G. pose proof (kl_leaf C valid HL) as Hlf. destruct (Nat.eqb_spec 0 (c_leaf C)) as [E|_]; [lia|].
        apply fbind_left in G as [G|(b2 & a & _ & G)]; [|discriminate G]. apply arr_insert_left in G as (_ & _ & G). unfold arr_empty in G. cbn [a_list] in G. rewrite Hub in G. lia. }
      unfold allocation in H. destruct alloc; [apply client_left in H as [->|(b1 & _ & H)]; [split; auto|]|]; now apply Hn in H.
  Qed.
  Lemma remove_element_left b s m s' : remove_element_x C b s m = Ok (Left s') -> s' = s.
  Proof.
    unfold remove_element_x. destruct (negb (c_removals C)); [congruence|]. intros H. apply clients_left in H as [H|[_ H]]; auto. apply bind_inv in H as (r & _ & H). discriminate H.
  Qed.

  (** Calls in which an exception does harm: those that split a leaf, except in trees that do not sort, have no cache and allow removals, when the
      leaf does not belong to the root and, in the binary tree, no allocation fails. *)
  Definition at_risk (s : kd) (o : dop M) : bool :=
    splits C s o && (c_sorted C || c_cache C || negb (c_removals C) || splits_root C packed s o || alloc && negb packed).
  Notation catch := (catch_change C packed alloc ub_calls sort_x part_x).
  Lemma catch_ok s o b : inv s -> kpre C valid packed elem (kcontents s) o = true ->
    (exists s' r, catch s (o, b) = Ok (s', r) /\ inv s' /\ cstep (c_divides C) (same_exps (c_ex C) (c_nvars C)) true (kcontents s) o r (kcontents s')) \/
    (at_risk s o = true /\ exists s', catch s (o, b) = Ok (s', Threw [])).
  Proof.
    intros Hi Hp. destruct (step_ok C valid HL packed elem Helem s o Hi Hp) as (s1 & r1 & H1 & H2 & H3).
    destruct (tot_change b s o _ H1) as ([b' a|s'] & E & G); unfold catch_change; cbn [fst snd]; rewrite E; cbn [bind].
    - subst a. left. exists s1, (Answered r1). auto.
    - assert (Hcase : (exists e, o = DInsert e) \/ (exists m, o = DRemoveElement m)).
      { destruct o; eauto; cbn [change_x] in E; apply bind_inv in E as (r & _ & E); discriminate E. }
      destruct Hcase as [[e ->]|[m ->]]; cbn [change_x] in E.
      + apply fbind_left in E as [E|(b1 & a & _ & E)]; [|discriminate E]. destruct (at_risk s (DInsert e)) eqn:Hk; [right; eauto|left].
        assert (Hv : valid e = true) by (cbn [kpre] in Hp; now apply andb_prop in Hp).
        destruct (insert_left b s e s' Hi Hv) as [G1 G2]; [|exact E|].
        { unfold at_risk in Hk. destruct (splits C s (DInsert e)); [right|now left]. cbn [andb] in Hk. apply orb_false_iff in Hk as [Hk K5]. apply orb_false_iff in Hk as [Hk K4].
          apply orb_false_iff in Hk as [Hk K3]. apply orb_false_iff in Hk as [K1 K2]. apply negb_false_iff in K3. split; [auto|]. split; [auto|]. split; [|auto].
          intros Ha. rewrite Ha in K5. now apply negb_false_iff in K5. }
        exists s', (Threw []). split; [auto|]. split; [auto|]. constructor. now left.
      + destruct packed; [|discriminate E]. apply fbind_left in E as [E|(b1 & a & _ & E)]; [|discriminate E]. apply remove_element_left in E as ->.
        left. exists s, (Threw []). split; auto. split; auto. constructor. reflexivity.
  Qed.
  Lemma catches_ok : forall h s, inv s ->
    (exists s' rs, run catch s h = Ok (s', rs) /\ inv s' /\ ctrace (c_divides C) (same_exps (c_ex C) (c_nvars C)) true (kcontents s) (map fst h) rs (kcontents s')) \/
    (exists h1 o b h2 s' rs, h = h1 ++ (o, b) :: h2 /\ run catch s h1 = Ok (s', rs) /\ ctrace (c_divides C) (same_exps (c_ex C) (c_nvars C)) true (kcontents s) (map fst h1) rs (kcontents s') /\
      (kpre C valid packed elem (kcontents s') o = false \/ at_risk s' o = true /\ exists s'', catch s' (o, b) = Ok (s'', Threw []))).
  Proof.
    induction h as [|[o b] h IH]; intros s Hi.
    - left. exists s, []. split; [reflexivity|]. split; auto. constructor.
    - destruct (kpre C valid packed elem (kcontents s) o) eqn:Hp; [|right; exists [], o, b, h, s, []; repeat split; auto; constructor].
      destruct (catch_ok s o b Hi Hp) as [(s1 & r & H1 & H2 & H3)|[Hk Ht]]; [|right; exists [], o, b, h, s, []; repeat split; auto; constructor].
      destruct (IH s1 H2) as [(s2 & rs & G1 & G2 & G3)|(h1 & o2 & b2 & h2 & s2 & rs & -> & G1 & G2 & G3)].
      + left. exists s2, (r :: rs). cbn [run]. rewrite H1. cbn [bind]. rewrite G1. split; [reflexivity|]. split; auto. cbn [map fst]. econstructor; eauto.
      + right. exists ((o, b) :: h1), o2, b2, h2, s2, (r :: rs). cbn [run]. rewrite H1. cbn [bind]. rewrite G1. split; [reflexivity|]. split; [reflexivity|]. split; auto.
        cbn [map fst]. econstructor; eauto.
  Qed.
End InsertThrows.
