(** Proofs about KDTree. *)
From Coq Require Import List Arith Bool ZArith NArith Lia Permutation Sorted.
From Verif.Base Require Import Res Arr ResList StdAlg Order Sort.
From Verif.DivMask Require Import Model Proofs Defined.
From Verif.Spec Require Import Reach DivFinder DivFinderFacts Schedule.
From Verif.KD Require Import EntryArray Legal ArrayProofs Tree TreeProofs Model.
Import ListNotations.
Local Notation length := List.length.

Section KD.
  Context {M : Type}.
  Variable C : kconf M.
  Variable valid : M -> bool.
  Hypothesis HL : klegal C valid.
  Variable packed : bool.
  (** Whether removeElement is used; it neither updates the size nor the divisor cache. *)
  Variable elem : bool.
  Hypothesis Helem : elem = true -> c_cache C = false.
  Notation ext := (ext M).
  Notation kd := (kd M).
  Notation divides := (c_divides C).
  Notation same := (same_exps (c_ex C) (c_nvars C)).
  Notation kdiv := (kdiv C).
  Notation root_inv := (root_inv C valid).
  Notation good_bits := (good_bits C).

  Lemma kcontents_root (s : kd) : kcontents s = map x_t (root_entries (k_tree s)).
  Proof. unfold kcontents, root_entries. now destruct (k_tree s). Qed.

  Definition cache_ok (root : option (tree M)) (cache : option place) : Prop :=
    match cache with
    | None => True
    | Some p => exists t x, root = Some t /\ points_to t p x
    end.
  Record inv (s : kd) : Prop := {
    i_root : root_inv (k_bits s) (k_tree s);
    i_bits : good_bits (k_bits s);
    i_size : if elem then length (kcontents s) <= k_size s else k_size s = length (kcontents s);
    i_cache : c_cache C = true -> cache_ok (k_tree s) (k_cache s) }.

  Lemma kcalc_ok l : forallb valid l = true -> exists bits, kcalc C l = Ok bits /\ good_bits bits.
  Proof.
    intros Hv. unfold kcalc. destruct (c_use C) eqn:Hu.
    - destruct (kl_defined C valid HL Hu l Hv) as [bits Hb]. exists bits. split; auto. apply rebuild_shape in Hb as (_ & Hb & _); auto.
      intros l0. apply (kl_sort_data C valid HL l0).
    - exists []. split; auto. intros v thr [].
  Qed.

  Lemma root_valid bits root : root_inv bits root -> forallb valid (map x_t (root_entries root)) = true.
  Proof.
    intros Hr. apply forallb_forall. intros y Hy. apply in_map_iff in Hy as (x & <- & Hx). destruct root as [t|]; [|destruct Hx].
    now apply (tree_valid C valid bits t).
  Qed.
  Lemma root_copies bits root e : root_inv bits root -> copies same e (map x_t (root_entries root)) <= c_leaf C.
  Proof. intros Hr. destruct root as [t|]; [now apply (tree_copies C valid bits)|cbn; lia]. Qed.
  Lemma root_ext bits root x : root_inv bits root -> In x (root_entries root) -> is_ext C bits x.
  Proof. intros Hr. destruct root as [t|]; [now apply (tree_ext C valid)|intros []]. Qed.

  (** The tree's filters are those of the specification. *)
  Lemma filter_x_t (p : ext -> bool) (q : M -> bool) l : (forall x, In x l -> p x = q (x_t x)) -> map x_t (filter p l) = filter q (map x_t l).
  Proof.
    induction l as [|x l IH]; intros H; cbn [filter map]; auto. rewrite (H x) by now left. destruct (q (x_t x)); cbn [map]; rewrite IH; auto; intros y Hy; apply H; now right.
  Qed.
  Lemma root_multiples bits root m : good_bits bits -> root_inv bits root ->
    map x_t (filter (kdiv (kext C bits m)) (root_entries root)) = multiples divides m (map x_t (root_entries root)).
  Proof.
    intros Hb Hr. apply (filter_x_t (kdiv (kext C bits m)) (fun e => divides m e)). intros x Hx.
    rewrite (kdiv_ok C valid HL bits); auto; [apply kext_is_ext|now apply (root_ext bits root)].
  Qed.
  Lemma root_non_multiples bits root m : good_bits bits -> root_inv bits root ->
    map x_t (filter (fun x => negb (kdiv (kext C bits m) x)) (root_entries root)) = non_multiples divides m (map x_t (root_entries root)).
  Proof.
    intros Hb Hr. apply (filter_x_t (fun x => negb (kdiv (kext C bits m) x)) (fun e => negb (divides m e))). intros x Hx.
    rewrite (kdiv_ok C valid HL bits); auto; try apply kext_is_ext; now apply (root_ext bits root).
  Qed.
  Lemma root_divisors bits root m : good_bits bits -> root_inv bits root ->
    map x_t (filter (fun x => kdiv x (kext C bits m)) (root_entries root)) = divisors divides m (map x_t (root_entries root)).
  Proof.
    intros Hb Hr. apply (filter_x_t (fun x => kdiv x (kext C bits m)) (fun e => divides e m)). intros x Hx.
    rewrite (kdiv_ok C valid HL bits); auto; try apply kext_is_ext; now apply (root_ext bits root).
  Qed.

  (** ** Rebuilding *)
  Lemma reset_fields (s : kd) : k_tree (reset_changes C s) = k_tree s /\ k_bits (reset_changes C s) = k_bits s /\ k_size (reset_changes C s) = k_size s /\
    k_cache (reset_changes C s) = (if c_cache C then None else k_cache s).
  Proof. unfold reset_changes. destruct (c_auto C); cbn; auto. Qed.
  Lemma reset_inv (s : kd) : root_inv (k_bits s) (k_tree s) -> good_bits (k_bits s) ->
    (if elem then length (kcontents s) <= k_size s else k_size s = length (kcontents s)) -> inv (reset_changes C s) /\ kcontents (reset_changes C s) = kcontents s.
  Proof.
    intros H1 H2 H3. destruct (reset_fields s) as (E1 & E2 & E3 & E4). assert (Hc : kcontents (reset_changes C s) = kcontents s) by (unfold kcontents; now rewrite E1).
    split; auto. split; rewrite ?Hc, ?E1, ?E2, ?E3, ?E4; auto. intros ->. exact I.
  Qed.
  Lemma construct_ok : exists s, construct C = Ok s /\ inv s /\ kcontents s = [].
  Proof.
    unfold construct. destruct (kcalc_ok []) as (bits & -> & Hb); auto. cbn [bind]. eexists. split; [reflexivity|].
    destruct (reset_inv (mk_kd None bits 0 0 None 0)) as [H1 H2]; auto; [exact I|destruct elem; cbn; lia].
  Qed.

  Lemma for_all_root bits root cb : root_inv bits root ->
    exists xs, tree_for_all C packed root cb = Ok xs /\ reported cb (map x_t (root_entries root)) xs.
  Proof.
    intros Hr. destruct root as [t|]; [|exists []; split; auto; exists []; cbn; split; auto; split; [intros [|] [|] H; cbn in H; congruence|congruence]].
    destruct (tree_for_all_feeds C valid packed bits t cb Hr) as (xs & go & H1 & H2). exists xs. split; auto. eapply feeds_reported; eauto.
  Qed.
  (** The size may be wrong in advance: only the tree matters here. *)
  Lemma rebuild_ok (s : kd) : root_inv (k_bits s) (k_tree s) -> (if elem then length (kcontents s) <= k_size s else k_size s = length (kcontents s)) ->
    exists s', rebuild_kd C packed s = Ok s' /\ inv s' /\ Permutation (kcontents s') (kcontents s).
  Proof.
    intros Hr Hs. unfold rebuild_kd. destruct (for_all_root (k_bits s) (k_tree s) recorder Hr) as (l & -> & Hl). cbn [bind].
    apply reported_all in Hl; [|reflexivity]. assert (Hv : forallb valid l = true).
    { pose proof (root_valid _ _ Hr) as Hv. rewrite forallb_forall in *. intros x Hx. apply Hv. now apply (Permutation_in _ Hl). }
    destruct (kcalc_ok l Hv) as (bits & -> & Hb). cbn [bind].
    destruct (tree_reset_ok C valid HL bits l) as (root & -> & R1 & R2).
    { rewrite forallb_forall in Hv. exact Hv. }
    { intros e. rewrite (copies_perm C e _ _ Hl). now apply (root_copies (k_bits s)). }
    cbn [bind]. eexists. split; [reflexivity|].
    assert (Hp : Permutation (kcontents (mk_kd root bits (k_size s) (k_left s) (k_cache s) (S (k_rebuilds s)))) (kcontents s)).
    { rewrite !kcontents_root. cbn [k_tree]. now rewrite R2, Hl. }
    destruct (reset_inv (mk_kd root bits (k_size s) (k_left s) (k_cache s) (S (k_rebuilds s)))) as [H1 H2]; auto.
    - rewrite (Permutation_length Hp). exact Hs.
    - split; auto. now rewrite H2.
  Qed.
  (** [s] holds what was there before plus [additions] minus [removals], and its size is still the old one. *)
  Lemma report_ok (s : kd) additions removals : root_inv (k_bits s) (k_tree s) -> good_bits (k_bits s) ->
    (if elem then length (kcontents s) + removals <= k_size s + additions else k_size s + additions = length (kcontents s) + removals) ->
    (c_cache C = true -> additions + removals = 0 -> cache_ok (k_tree s) (k_cache s)) ->
    exists s', report_changes C packed s additions removals = Ok s' /\ inv s' /\ Permutation (kcontents s') (kcontents s).
  Proof.
    intros Hr Hb Hs Hc. unfold report_changes. replace (k_size s + additions <? removals) with false.
    2: { symmetry. apply Nat.ltb_ge. destruct elem; lia. }
    set (cache := if c_cache C && negb (additions + removals =? 0) then None else k_cache s).
    assert (Hcache : c_cache C = true -> cache_ok (k_tree s) cache).
    { intros Hcc. subst cache. rewrite Hcc. cbn [andb]. destruct (Nat.eqb_spec (additions + removals) 0) as [H0|H0]; cbn [negb]; [auto|exact I]. }
    assert (Hgen : forall left, inv (mk_kd (k_tree s) (k_bits s) (k_size s + additions - removals) left cache (k_rebuilds s))).
    { intros left. split; auto. unfold kcontents in *. cbn [k_tree k_size] in *. destruct elem; lia. }
    destruct (c_auto C); cbn [negb]; [|eexists; split; [reflexivity|]; split; auto].
    destruct (additions + removals <? k_left s); [eexists; split; [reflexivity|]; split; auto|].
    exact (rebuild_ok (mk_kd (k_tree s) (k_bits s) (k_size s + additions - removals) (k_left s) cache (k_rebuilds s)) Hr (i_size _ (Hgen (k_left s)))).
  Qed.

  (** ** The operations *)
  Lemma insert_ok s e : inv s -> valid e = true ->
    if copies same e (kcontents s) <? c_leaf C then exists s', insert C packed s e = Ok s' /\ inv s' /\ Permutation (kcontents s') (e :: kcontents s)
    else insert C packed s e = Throw duplicate /\ inv (abandoned C s e) /\ kcontents (abandoned C s e) = kcontents s.
  Proof.
    intros Hi Hv. unfold insert. rewrite kcontents_root.
    assert (H := tree_insert_ok C valid HL packed (k_bits s) (kext C (k_bits s) e) (k_tree s) (kext_is_ext C (k_bits s) e) Hv (i_root _ Hi)).
    rewrite x_t_kext in H. destruct (copies same e (map x_t (root_entries (k_tree s))) <? c_leaf C).
    - destruct H as (root & -> & H1 & H2). cbn [bind].
      assert (Hp : Permutation (kcontents (mk_kd root (k_bits s) (k_size s) (k_left s) (k_cache s) (k_rebuilds s))) (e :: kcontents s)).
      { rewrite !kcontents_root. cbn [k_tree]. rewrite H2. reflexivity. }
      destruct (report_ok (mk_kd root (k_bits s) (k_size s) (k_left s) (k_cache s) (k_rebuilds s)) 1 0) as (s' & -> & G1 & G2); auto.
      + apply (i_bits _ Hi).
      + rewrite (Permutation_length Hp). cbn [length k_size]. pose proof (i_size _ Hi). destruct elem; lia.
      + lia.
      + exists s'. split; auto. split; auto. rewrite G2, Hp. now rewrite kcontents_root.
    - destruct H as (-> & H1 & H2). split; auto.
      assert (Hc : kcontents (abandoned C s e) = kcontents s) by (rewrite !kcontents_root; unfold abandoned; cbn [k_tree]; now rewrite H2).
      split; [|now rewrite Hc, kcontents_root]. split; auto.
      + apply (i_bits _ Hi).
      + rewrite Hc. apply (i_size _ Hi).
      + intros Hcc. pose proof (i_cache _ Hi Hcc) as Hca. unfold abandoned. cbn [k_tree k_cache]. destruct (k_cache s) as [p|]; [|exact I].
        destruct Hca as (t & x & Ht & a & Hl & Hx). unfold tree_abandoned. rewrite Ht. exists (lower_masks C t (kext C (k_bits s) e)), x.
        split; auto. exists a. split; auto. revert Hl. generalize (fst p). clear. induction t as [a0|v y mask le IHl gt IHg]; intros q; cbn [lower_masks leaf_at]; auto.
        destruct (above C v y (x_t (kext C (k_bits s) e))); cbn [leaf_at]; destruct q as [|[|] q]; auto.
  Qed.

  Lemma root_remove_ok s m : inv s -> c_removals C = true ->
    exists root out, tree_remove C packed (k_tree s) (kext C (k_bits s) m) = Ok (root, out, length out) /\ root_inv (k_bits s) root /\
      map x_t (root_entries root) = non_multiples divides m (kcontents s) /\ Permutation out (multiples divides m (kcontents s)) /\
      (out = [] -> forall p, cache_ok (k_tree s) p -> cache_ok root p).
  Proof.
    intros Hi Hrem. rewrite kcontents_root. rewrite <- (root_multiples (k_bits s)), <- (root_non_multiples (k_bits s)); try apply Hi.
    pose proof (i_root _ Hi) as Hr. destruct (k_tree s) as [t|]; cbn [tree_remove root_entries].
    - destruct (tree_remove_ok C valid HL packed (k_bits s) t (kext C (k_bits s) m) Hrem Hr) as (t' & out & -> & H1 & H2 & H3 & H4). cbn [bind].
      exists (Some t'), out. split; auto. split; auto. cbn [root_entries]. rewrite H2. split; auto. split; auto.
      intros -> [p|] Hp; [|exact I]. destruct Hp as (t0 & x & Ht0 & a & Ha & Hx). injection Ht0 as <-. exists t', x. split; auto.
      destruct (H4 _ _ Ha) as (a' & Ha' & Hl). exists a'. split; auto. rewrite Hl, filter_all; auto. intros y Hy.
      apply Permutation_nil, map_eq_nil in H3. destruct (kdiv (kext C (k_bits s) m) y) eqn:Hd; auto. exfalso.
      assert (Hin : In y (filter (kdiv (kext C (k_bits s) m)) (tree_entries t))) by (apply filter_In; split; auto; eapply leaf_at_in; eauto).
      rewrite H3 in Hin. destruct Hin.
    - exists None, []. split; auto.
  Qed.
  Lemma remove_multiples_ok s m : inv s -> c_removals C = true ->
    exists s' out, remove_multiples C packed s m = Ok (s', match out with [] => false | _ => true end, out) /\ inv s' /\
      Permutation out (multiples divides m (kcontents s)) /\ Permutation (kcontents s') (non_multiples divides m (kcontents s)).
  Proof.
    intros Hi Hrem. unfold remove_multiples. rewrite Hrem. cbn [negb].
    destruct (root_remove_ok s m Hi Hrem) as (root & out & -> & H1 & H2 & H3 & H4). cbn [bind].
    assert (Hc : kcontents (mk_kd root (k_bits s) (k_size s) (k_left s) (k_cache s) (k_rebuilds s)) = non_multiples divides m (kcontents s)).
    { rewrite kcontents_root. cbn [k_tree]. exact H2. }
    assert (Hlen : length (non_multiples divides m (kcontents s)) + length out = length (kcontents s)).
    { rewrite (Permutation_length H3). unfold multiples, non_multiples.
      pose proof (Permutation_length (filter_split (fun e => divides m e) (kcontents s))) as Hl. rewrite app_length in Hl. lia. }
    destruct (report_ok (mk_kd root (k_bits s) (k_size s) (k_left s) (k_cache s) (k_rebuilds s)) 0 (length out)) as (s' & -> & G1 & G2); auto.
    - apply (i_bits _ Hi).
    - rewrite Hc. cbn [k_size]. pose proof (i_size _ Hi). destruct elem; lia.
    - intros Hcc H0. cbn [k_tree k_cache]. apply H4; [destruct out; auto; cbn in H0; lia|]. now apply (i_cache _ Hi).
    - cbn [bind]. exists s', out. split; [destruct out; reflexivity|]. split; auto. split; auto. now rewrite G2, Hc.
  Qed.

  Lemma remove_element_ok s m : inv s -> elem = true -> c_removals C = true ->
    exists s' b, remove_element C s m = Ok (s', b) /\ inv s' /\ dstep divides same (kcontents s) (DRemoveElement m) (DOBool b) (kcontents s').
  Proof.
    intros Hi He Hrem. unfold remove_element. rewrite Hrem. cbn [negb]. pose proof (i_root _ Hi) as Hr. pose proof (i_size _ Hi) as Hsz. rewrite He in Hsz.
    rewrite kcontents_root in *. destruct (k_tree s) as [t|] eqn:Ht; cbn [tree_remove_element root_entries] in *.
    - destruct (TreeProofs.remove_element_ok C valid (k_bits s) t m Hrem Hr) as (t' & b & -> & H1 & H2). cbn [bind].
      do 2 eexists. split; [reflexivity|]. destruct b.
      + destruct H2 as (x & H2 & H3). rewrite kcontents_root. cbn [k_tree root_entries]. split.
        * split; cbn [k_tree k_bits k_size k_cache]; auto; [apply (i_bits _ Hi)| |intros Hcc; rewrite (Helem He) in Hcc; discriminate].
          rewrite He, kcontents_root. cbn [k_tree root_entries]. rewrite (Permutation_length (Permutation_map x_t H2)) in Hsz. cbn [map length] in Hsz. lia.
        * apply d_element with (x_t x); auto. now rewrite H2.
      + destruct H2 as [H2 H3]. rewrite kcontents_root. cbn [k_tree root_entries]. split.
        * split; cbn [k_tree k_bits k_size k_cache]; auto; [apply (i_bits _ Hi)| |intros Hcc; rewrite (Helem He) in Hcc; discriminate].
          rewrite He, kcontents_root. cbn [k_tree root_entries]. now rewrite H2.
        * apply d_no_element; [now rewrite H2|]. intros y Hy. apply in_map_iff in Hy as (x & <- & Hx). auto.
    - cbn [bind]. do 2 eexists. split; [reflexivity|]. split.
      + split; cbn [k_tree k_bits k_size k_cache]; auto; [apply (i_bits _ Hi)| |intros Hcc; rewrite (Helem He) in Hcc; discriminate].
        rewrite He. cbn. lia.
      + apply d_no_element; [reflexivity|intros y []].
  Qed.

  Lemma find_divisor_ok s m : inv s ->
    exists s' r, step C packed s (DFindDivisor m) = Ok (s', DOFound r) /\ inv s' /\ kcontents s' = kcontents s /\ is_divisor divides m (kcontents s) r.
  Proof.
    intros Hi. cbn [step].
    assert (Hplace : forall (s' : kd) pl x, k_tree s' = k_tree s -> (exists t, k_tree s = Some t /\ points_to t pl x) ->
      entry_at s' pl = Ok (x_t x) /\ In (x_t x) (kcontents s)).
    { intros s' pl x E (t & Ht & Hp). unfold entry_at. rewrite E, Ht. apply points_to_deref in Hp as [Hd Hin]. split; auto.
      rewrite kcontents_root, Ht. now apply in_map. }
    assert (Hsearch : exists s' r, (let* r := tree_find C (k_tree s) (kext C (k_bits s) m) in
        Ok (match r with Some _ => if c_cache C then mk_kd (k_tree s) (k_bits s) (k_size s) (k_left s) r (k_rebuilds s) else s | None => s end, r)) = Ok (s', r) /\
      inv s' /\ k_tree s' = k_tree s /\
      match r with
      | Some pl => exists x, (exists t, k_tree s = Some t /\ points_to t pl x) /\ divides (x_t x) m = true
      | None => forall e, In e (kcontents s) -> divides e m = false
      end).
    { pose proof (i_root _ Hi) as Hr. rewrite kcontents_root. destruct (k_tree s) as [t|] eqn:Ht.
      - destruct (tree_find_ok C valid HL (k_bits s) t (kext C (k_bits s) m) Hr) as (r & -> & H2). cbn [bind].
        do 2 eexists. split; [reflexivity|]. destruct r as [pl|].
        + destruct H2 as (x & H2 & H3). split; [|split; [now destruct (c_cache C)|exists x; split; [eauto|]]].
          * destruct (c_cache C) eqn:Hcc; auto. split; cbn [k_tree k_bits k_size k_cache]; auto.
            { apply (i_bits _ Hi). }
            { pose proof (i_size _ Hi) as Hs. unfold kcontents in *. cbn [k_tree]. now rewrite Ht in Hs. }
            { intros _. exists t, x. auto. }
          * apply kdiv_divides in H3. exact H3.
        + split; auto. split; auto. intros e He. apply in_map_iff in He as (x & <- & Hx). specialize (H2 x Hx).
          rewrite (kdiv_ok C valid HL (k_bits s)) in H2; [exact H2|apply (i_bits _ Hi)|now apply (tree_ext C valid (k_bits s) t)|apply kext_is_ext].
      - cbn [tree_find bind]. exists s, None. split; auto. split; auto. split; auto. intros e []. }
    assert (Hdone : forall s' r, inv s' -> k_tree s' = k_tree s ->
      match r with
      | Some pl => exists x, (exists t, k_tree s = Some t /\ points_to t pl x) /\ divides (x_t x) m = true
      | None => forall e, In e (kcontents s) -> divides e m = false
      end ->
      exists s2 r2, match r with None => Ok (s', DOFound None) | Some p => let* e := entry_at s' p in Ok (s', DOFound (Some e)) end = Ok (s2, DOFound r2) /\
        inv s2 /\ kcontents s2 = kcontents s /\ is_divisor divides m (kcontents s) r2).
    { intros s' r H1 H2 H3. assert (Hc : kcontents s' = kcontents s) by (unfold kcontents; now rewrite H2). destruct r as [pl|].
      - destruct H3 as (x & Hx & Hd). destruct (Hplace s' pl x H2 Hx) as [-> Hin]. cbn [bind]. exists s', (Some (x_t x)). cbn [is_divisor]. auto.
      - exists s', None. cbn [is_divisor]. auto. }
    assert (Hs2 : exists s2 r2, (let* (s', r) := (let* r := tree_find C (k_tree s) (kext C (k_bits s) m) in
        Ok (match r with Some _ => if c_cache C then mk_kd (k_tree s) (k_bits s) (k_size s) (k_left s) r (k_rebuilds s) else s | None => s end, r)) in
        match r with None => Ok (s', DOFound None) | Some p => let* e := entry_at s' p in Ok (s', DOFound (Some e)) end) = Ok (s2, DOFound r2) /\
        inv s2 /\ kcontents s2 = kcontents s /\ is_divisor divides m (kcontents s) r2).
    { destruct Hsearch as (s' & r & -> & H1 & H2 & H3). cbn [bind]. now apply Hdone. }
    unfold find_divisor. destruct (c_cache C) eqn:Hcc; [|exact Hs2]. pose proof (i_cache _ Hi Hcc) as Hca.
    destruct (k_cache s) as [p|]; [|exact Hs2]. destruct Hca as (t & x & Ht & Hp). destruct (Hplace s p x eq_refl) as [He Hin]; [eauto|].
    rewrite He. cbn [bind]. destruct (divides (x_t x) m) eqn:Hd; [|exact Hs2]. cbn [bind]. apply (Hdone s (Some p)); eauto 10.
  Qed.

  (** Inserted entries are valid and do not have too many copies; the rest is what the configuration allows. *)
  Definition kpre (l : list M) (o : dop M) : bool :=
    match o with
    | DInsert e => valid e && (copies same e l <? c_leaf C)
    | DInsertRange _ | DToFront _ => false
    | DRemoveMultiples _ => c_removals C
    | DRemoveElement _ => elem && packed && c_removals C
    | DSize => negb elem
    | _ => true
    end.

  Lemma step_ok s o : inv s -> kpre (kcontents s) o = true ->
    exists s' r, step C packed s o = Ok (s', r) /\ inv s' /\ dstep divides same (kcontents s) o r (kcontents s').
  Proof.
    intros Hi Hp. destruct o as [e|es|m|m|m|m cb|m cb|cb|m| |]; cbn [kpre] in Hp; try discriminate.
    - apply andb_prop in Hp as [Hv Hc]. assert (H := insert_ok s e Hi Hv). rewrite Hc in H. destruct H as (s' & H1 & H2 & H3). cbn [step].
      rewrite H1. cbn [bind]. do 2 eexists. split; [reflexivity|]. split; auto. now constructor.
    - destruct (remove_multiples_ok s m Hi Hp) as (s' & out & H1 & H2 & H3 & H4). cbn [step]. rewrite H1. cbn [bind]. do 2 eexists. split; [reflexivity|].
      split; auto. now constructor.
    - apply andb_prop in Hp as [Hp Hrem]. apply andb_prop in Hp as [He Hpk]. cbn [step]. rewrite Hpk.
      destruct (remove_element_ok s m Hi He Hrem) as (s' & b & -> & H1 & H2). cbn [bind]. do 2 eexists. split; [reflexivity|]. auto.
    - destruct (find_divisor_ok s m Hi) as (s' & r & H1 & H2 & H3 & H4). exists s', (DOFound r). split; auto. split; auto. constructor; auto. now rewrite H3.
    - cbn [step]. assert (H : exists xs, tree_divisors C (k_tree s) (kext C (k_bits s) m) cb = Ok xs /\ reported cb (divisors divides m (kcontents s)) xs).
      { rewrite kcontents_root, <- (root_divisors (k_bits s)); try apply Hi. pose proof (i_root _ Hi) as Hr. destruct (k_tree s) as [t|].
        - apply (tree_divisors_ok C valid HL (k_bits s)); auto.
        - exists []. split; auto. exists []. cbn. split; auto. split; [intros [|] [|] H; cbn in H; congruence|congruence]. }
      destruct H as (xs & -> & H). cbn [bind]. do 2 eexists. split; [reflexivity|]. split; auto. now constructor.
    - cbn [step]. assert (H : exists xs, tree_multiples C packed (k_tree s) (kext C (k_bits s) m) cb = Ok xs /\ reported cb (multiples divides m (kcontents s)) xs).
      { rewrite kcontents_root, <- (root_multiples (k_bits s)); try apply Hi. pose proof (i_root _ Hi) as Hr. destruct (k_tree s) as [t|].
        - apply (tree_multiples_ok C valid HL packed (k_bits s)); auto.
        - exists []. split; auto. exists []. cbn. split; auto. split; [intros [|] [|] H; cbn in H; congruence|congruence]. }
      destruct H as (xs & -> & H). cbn [bind]. do 2 eexists. split; [reflexivity|]. split; auto. now constructor.
    - cbn [step]. destruct (for_all_root (k_bits s) (k_tree s) cb (i_root _ Hi)) as (xs & -> & H). cbn [bind]. do 2 eexists. split; [reflexivity|].
      split; auto. constructor; auto. now rewrite kcontents_root.
    - cbn [step]. destruct (rebuild_ok s (i_root _ Hi) (i_size _ Hi)) as (s' & -> & H1 & H2). cbn [bind]. do 2 eexists. split; [reflexivity|]. split; auto. now constructor.
    - cbn [step]. do 2 eexists. split; [reflexivity|]. split; auto. apply negb_true_iff in Hp. pose proof (i_size _ Hi) as Hs. rewrite Hp in Hs. rewrite Hs. now constructor.
  Qed.

  Theorem kd_steps : df_steps divides same (step C packed) (construct C) kcontents kpre.
  Proof.
    destruct construct_ok as (s0 & H1 & H2 & H3). apply df_steps_by_inv with inv s0; auto. intros s o Hi Hc. now apply step_ok.
  Qed.

  (** A caller that catches exceptions may insert any number of copies and ask for removals even if they are disabled. *)
  Definition kpre_catch (o : dop M) : bool :=
    match o with
    | DInsert e => valid e
    | DInsertRange _ | DToFront _ => false
    | DRemoveElement _ => elem && packed
    | DSize => negb elem
    | _ => true
    end.
  Lemma catching_ok s o : inv s -> kpre_catch o = true ->
    exists s' r, catching C packed s o = Ok (s', r) /\ inv s' /\
      (if kpre (kcontents s) o then exists r', r = Some r' /\ dstep divides same (kcontents s) o r' (kcontents s') else r = None /\ kcontents s' = kcontents s).
  Proof.
    intros Hi Hp. unfold catching. destruct (kpre (kcontents s) o) eqn:Hk.
    - destruct (step_ok s o Hi Hk) as (s' & r & -> & H1 & H2). do 2 eexists. split; [reflexivity|]. eauto.
    - destruct o as [e|es|m|m|m|m cb|m cb|cb|m| |]; cbn [kpre kpre_catch] in Hk, Hp; try congruence.
      + rewrite Hp in Hk. cbn [andb] in Hk. assert (H := insert_ok s e Hi Hp). rewrite Hk in H. destruct H as (H1 & H2 & H3). cbn [step]. rewrite H1. cbn [bind].
        do 2 eexists. split; [reflexivity|]. auto.
      + cbn [step]. unfold remove_multiples. rewrite Hk. cbn [negb bind]. do 2 eexists. split; [reflexivity|]. auto.
      + rewrite Hp in Hk. cbn [andb] in Hk. apply andb_prop in Hp as [He Hpk]. cbn [step]. rewrite Hpk. unfold remove_element. rewrite Hk. cbn [negb bind].
        do 2 eexists. split; [reflexivity|]. auto.
  Qed.
  Theorem kd_catching : exists s0, construct C = Ok s0 /\ kcontents s0 = [] /\
    forall ops s rs, reached (catching C packed) (fun _ o => kpre_catch o = true) s0 ops s rs -> forall o, kpre_catch o = true ->
    exists s' r, catching C packed s o = Ok (s', r) /\
      (if kpre (kcontents s) o then exists r', r = Some r' /\ dstep divides same (kcontents s) o r' (kcontents s') else r = None /\ kcontents s' = kcontents s).
  Proof.
    destruct construct_ok as (s0 & H1 & H2 & H3). exists s0. split; auto. split; auto. intros ops s rs Hr o Hp.
    assert (Hs : inv s).
    { apply (reached_inv (catching C packed) _ s0 inv H2) in Hr; auto. intros s1 o1 s2 r G1 G2 G3.
      destruct (catching_ok s1 o1 G1 G2) as (s3 & r3 & G4 & G5 & _). congruence. }
    destruct (catching_ok s o Hs Hp) as (s' & r & G1 & _ & G2). eauto.
  Qed.
End KD.

