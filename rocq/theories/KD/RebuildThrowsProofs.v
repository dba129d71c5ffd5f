(** Proofs about rebuilds of KD trees in which client functions or allocations throw. *)
From Coq Require Import List Arith Bool ZArith NArith Lia Permutation.
From Verif.Base Require Import Res Arr ResList StdAlg Order Fault FaultFacts.
From Verif.DivMask Require Import Model.
From Verif.Spec Require Import Reach DivFinder DivFinderFacts DivCaught DivStale DivHonest.
From Verif.DivList Require Model Throws ThrowsProofs LeftProofs.
From Verif.KD Require Import EntryArray Tree Model Legal ArrayProofs TreeProofs Proofs Throws ThrowsProofs ThrowsLeft ThrowsSearch InsertThrows InsertThrowsProofs RebuildThrows.
Import ListNotations.

(** std::partition on the recorded entries does its work or throws. *)
Definition prange_legal {M} (C : kconf M) (prange_x : nat -> (M -> bool) -> list M -> fout (list M) (list M * list M)) : Prop :=
  forall b p l, match prange_x b p l with Fine _ r => r = c_part C p l | Left l' => Permutation l' l end.

Section RebuildThrows.
  Context {M : Type}.
  Variable C : kconf M.
  Variable packed alloc : bool.
  Variable sort_x : nat -> list (ext M) -> fout (list (ext M)) (list (ext M)).
  Variable prange_x : nat -> (M -> bool) -> list M -> fout (list M) (list M * list M).
  Hypothesis Hsort : sort_legal C sort_x.
  Hypothesis Hpart : prange_legal C prange_x.
  Notation ext := (ext M).
  Notation tree := (tree M).
  Notation kd := (kd M).

  (** ** rebuild throws or does what it does without exceptions *)
  Lemma tot_allocations {S A} n b (s : S) (k : nat -> res (fout S A)) r : (forall b', tot (k b') r) -> tot (allocations alloc n b s k) r.
  Proof. intros H. unfold allocations. destruct alloc; [now apply tot_clients|apply H]. Qed.
  Lemma tot_split_range b set l var : tot (split_range_x C prange_x b set l var) (split_range C l var).
  Proof.
    unfold split_range_x, split_range. destruct l as [|first l]; [destruct (c_nvars C =? 0); [apply tot_throw|apply tot_ub]|].
    apply tot_fbind; [apply tot_choose|]. intros b' [v x] _. specialize (Hpart b' (fun y => negb (x <? c_ex C y v)%Z) (first :: l)).
    destruct (prange_x b' (fun y => negb (x <? c_ex C y v)%Z) (first :: l)) as [b'' [le gt]|l'].
    - rewrite <- Hpart. apply tot_ok.
    - intros r _. eexists. split; [reflexivity|]. exact I.
  Qed.
  Lemma tot_leaf b set bits l : tot (leaf_x C alloc sort_x b set bits l) (arr_of C (map (kext C bits) l)).
  Proof.
    unfold leaf_x, arr_of. apply tot_allocations. intros b1. apply tot_clients. intros b2. apply tot_bind. intros a _.
    apply (tot_sort_arr C sort_x Hsort b2).
  Qed.
  Lemma tot_build bits : forall fuel b set kids l var, tot (build_x C packed alloc sort_x prange_x b fuel set kids bits l var) (build C fuel bits l var).
  Proof.
    induction fuel as [|f IH]; intros b set kids l var; cbn [build_x build]; [apply tot_nofuel|]. destruct (length l <=? c_leaf C).
    - apply tot_fbind; [apply tot_leaf|]. intros b1 a _. apply tot_allocations. intros b2. apply tot_ok.
    - apply tot_fbind; [apply tot_split_range|]. intros b1 [[[v x] le] gt] _. apply tot_allocations. intros b2.
      apply tot_fbind; [apply IH|]. intros b3 tle _. apply tot_fbind; [apply IH|]. intros b4 tgt _. apply tot_ok.
  Qed.
  Lemma tot_reset b after l bits : tot (reset_x C packed alloc sort_x prange_x b after l bits) (tree_reset C l bits).
  Proof.
    unfold reset_x, tree_reset. destruct l as [|e l]; [apply tot_ok|]. cbv zeta. apply tot_allocations. intros b1. apply tot_fbind; [apply tot_fleft, tot_build|].
    intros b2 t _. destruct (c_tree C); [apply tot_allocations; intros b3|]; apply tot_ok.
  Qed.
  Lemma tot_for_all b root cb : tot (tree_for_all_x C packed b root cb []) (let* xs := tree_for_all C packed root cb in Ok (xs, [])).
  Proof.
    unfold tree_for_all_x, tree_for_all.
    assert (H := tot_reports (fun fuel => if packed then for_all_loop_packed_x C b fuel cb else for_all_loop_x C b fuel cb)
      (fun f => if packed then for_all_loop_packed C f cb else for_all_loop C f cb) b root).
    destruct packed; apply H; intros f t; [apply (tot_for_all_loop_packed C cb f b [] t [] [])|apply (tot_for_all_loop C cb f b [] t [] [])].
  Qed.
  Lemma tot_rebuild b s : tot (rebuild_all_x C packed alloc sort_x prange_x b s []) (rebuild_kd C packed s).
  Proof.
    unfold rebuild_all_x, rebuild_kd. cbv zeta. apply tot_allocations. intros b1. intros r H. apply bind_inv in H as (l & H & H').
    assert (T := tot_for_all b1 (k_tree s) recorder (l, [])). rewrite H in T. destruct (T eq_refl) as ([b2 a|st] & -> & E); unfold fleft at 1, fbind at 1; cbn [bind].
    2: { eexists. split; [reflexivity|]. exact I. }
    subst a. cbn [fst]. revert r H'. match goal with |- forall r, ?n = Ok r -> exists f, ?m = Ok f /\ _ => change (tot m n) end.
    apply tot_fbind; [apply tot_fleft, ThrowsProofs.tot_calc|]. intros b3 bits _. apply tot_fbind; [apply tot_reset|]. intros b4 t _. apply tot_ok.
  Qed.

  (** ** What an exception leaves behind *)
  Variable valid : M -> bool.
  Hypothesis HL : klegal C valid.
  Variable elem : bool.
  Hypothesis Helem : elem = true -> c_cache C = false.
  Notation inv := (inv C valid elem).
  Notation root_inv := (root_inv C valid).
  Notation good_bits := (good_bits C).
  Notation divides := (c_divides C).

  Lemma allocations_left {S A} n b (s : S) (k : nat -> res (fout S A)) s' : allocations alloc n b s k = Ok (Left s') ->
    alloc = true /\ s' = s \/ exists b', k b' = Ok (Left s').
  Proof.
    unfold allocations. destruct alloc; [|eauto]. intros H. apply clients_left in H as [->|[_ H]]; eauto.
  Qed.
  Lemma tree_for_all_left bits b root cb tmp xs : root_inv bits root -> tree_for_all_x C packed b root cb [] = Ok (Left (tmp, xs)) ->
    exists t, root = Some t /\ Forall (node_of C valid bits t) tmp.
  Proof.
    intros Hr H. destruct root as [t|]; [|discriminate H]. destruct (reports_for_all C valid packed bits b t cb [] Hr) as (o & H1 & H2); auto.
    rewrite H in H1. injection H1 as <-. exists t. split; [reflexivity|apply H2].
  Qed.
  Definition with_bits (s : kd) (bits : list (nat * Z)) : kd := mk_kd (k_tree s) bits (k_size s) (k_left s) (k_cache s) (k_rebuilds s).
  Lemma bare_entries (t : tree) : tree_entries (bare t) = tree_entries t.
  Proof. induction t as [a|v x mask le IHl gt IHg]; cbn [bare tree_entries]; congruence. Qed.
  Lemma reset_left b after l bits t0 r : tree_reset C l bits = Ok t0 -> reset_x C packed alloc sort_x prange_x b after l bits = Ok (Left r) ->
    r = Torn \/ r = Usable (after None) [] \/
    exists t, t0 = Some t /\ alloc = true /\ c_tree C = true /\ r = Usable (after (Some (bare t))) [].
  Proof.
    unfold reset_x, tree_reset. destruct l as [|e l]; [discriminate|]. cbv zeta. intros H0. apply bind_inv in H0 as (t & H0 & H'). injection H' as <-.
    intros H. apply allocations_left in H as [[_ ->]|(b1 & H)]; [auto|]. destruct (tot_build bits (length (e :: l)) b1 false 0 (e :: l) None t H0) as ([b2 a|st] & E & G);
      rewrite E in H; unfold fleft, fbind in H; cbn [bind] in H.
    - subst a. destruct (c_tree C); [|discriminate H]. apply allocations_left in H as [[Ha ->]|(b3 & H)]; [|discriminate H].
      destruct (packed && negb (splits_in t =? 0)); [auto|]. right. right. exists t. auto.
    - injection H as <-. destruct st; auto.
  Qed.

  Lemma rebuild_left s b r : inv s -> rebuild_all_x C packed alloc sort_x prange_x b s [] = Ok (Left r) ->
    let after bits t := mk_kd t bits (k_size s) (k_left s) (option_map (freed C) (k_cache s)) (S (k_rebuilds s)) in
    (exists tmp, r = Usable s tmp /\ tmp_ok C valid s tmp) \/
    (exists bits, r = Usable (with_bits s bits) [] /\ c_use C = true /\ good_bits bits) \/
    (exists bits, r = Usable (after bits None) [] /\ kcontents s <> []) \/
    r = Torn \/
    (exists bits t, r = Usable (after bits (Some (bare t))) [] /\ alloc = true /\ c_tree C = true /\ root_inv bits (Some t) /\ good_bits bits /\
      Permutation (map x_t (tree_entries t)) (kcontents s)).
  Proof.
    intros Hi H after. unfold rebuild_all_x in H. cbv zeta in H. apply allocations_left in H as [[_ ->]|(b1 & H)].
    { left. exists []. split; [reflexivity|]. unfold tmp_ok. destruct (k_tree s); auto. }
    destruct (for_all_root C valid packed (k_bits s) (k_tree s) recorder (i_root _ _ _ _ Hi)) as (l & El & Hl).
    apply reported_all in Hl; [|reflexivity]. assert (T := tot_for_all b1 (k_tree s) recorder (l, [])). rewrite El in T.
    destruct (T eq_refl) as ([b2 a|[tmp xs]] & E & G); clear T; rewrite E in H; unfold fleft at 1, fbind at 1 in H; cbn [bind] in H.
    2: { injection H as <-. left. exists tmp. split; [reflexivity|]. destruct (tree_for_all_left _ _ _ _ _ _ (i_root _ _ _ _ Hi) E) as (t & Et & Ht).
         unfold tmp_ok. now rewrite Et. }
    subst a. cbn [fst] in H.
    assert (Hv : forallb valid l = true).
    { pose proof (root_valid C valid _ _ (i_root _ _ _ _ Hi)) as Hv. rewrite forallb_forall in *. intros x Hx. apply Hv. now apply (Permutation_in _ Hl). }
    destruct (kcalc_ok C valid HL l Hv) as (bits & Eb & Hb).
    apply fbind_left in H as [H|(b3 & bits' & H & H')].
    { apply fleft_left in H as (bits' & H & ->). apply LeftProofs.calc_left in H as [Hu Hg]. right. left. exists bits'. split; [reflexivity|]. split; [exact Hu|exact Hg]. }
    apply fleft_fine in H. assert (bits' = bits).
    { destruct (ThrowsProofs.tot_calc (c_ex C) (c_nvars C) (c_type C) (c_sort_data C) (c_use C) l b2 bits) as (f & E1 & E2); [exact Eb|]. rewrite H in E1. injection E1 as <-. auto. }
    subst bits'. destruct (tree_reset_ok C valid HL bits l) as (root & Er & R1 & R2).
    { rewrite forallb_forall in Hv. exact Hv. }
    { intros e. rewrite (copies_perm C e _ _ Hl). apply (root_copies C valid (k_bits s)). apply Hi. }
    apply fbind_left in H' as [H'|(b4 & t & H' & H'')]; [|discriminate H''].
    assert (Hn : kcontents s <> []).
    { intros En. rewrite kcontents_root in En. rewrite En in Hl. symmetry in Hl. apply Permutation_nil in Hl. subst l. discriminate H'. }
    destruct (reset_left b3 _ l bits root r Er H') as [->|[->|(t & -> & Ha & Hc & ->)]]; [right; right; right; left; reflexivity|right; right; left; exists bits; split; [reflexivity|exact Hn]|].
    right. right. right. right. exists bits, t. split; [reflexivity|]. split; [exact Ha|]. split; [exact Hc|]. split; [exact R1|]. split; [exact Hb|].
    rewrite kcontents_root. etransitivity; [exact R2|exact Hl].
  Qed.

  (** ** After the exception *)
  Lemma steps_from_inv s : inv s -> forall ops s1 rs, reached (step C packed) (fun s o => kpre C valid packed elem (kcontents s) o = true) s ops s1 rs ->
    forall o, kpre C valid packed elem (kcontents s1) o = true -> exists s' r, step C packed s1 o = Ok (s', r) /\ dstep divides (same_exps (c_ex C) (c_nvars C)) (kcontents s1) o r (kcontents s').
  Proof.
    intros Hi ops s1 rs Hr. assert (H1 : inv s1).
    { induction Hr as [|ops s1 rs o s2 r Hr IH Hp Hs]; auto. destruct (step_ok C valid HL packed elem Helem s1 o IH Hp) as (s3 & r3 & E & G & _). rewrite Hs in E. now injection E as <- _. }
    intros o Ho. destruct (step_ok C valid HL packed elem Helem s1 o H1 Ho) as (s' & r & E & _ & G). eauto.
  Qed.
  (** Searches while the calculator and the masks of the entries do not go together *)
  Lemma reported_part cb (p q : ext -> bool) (l : list ext) xs : (forall x, p x = true -> q x = true) -> reported cb (map x_t (filter p l)) xs ->
    some_reported cb (map x_t (filter q l)) xs.
  Proof.
    intros H (rest & H1 & H2 & _). exists (rest ++ map x_t (filter (fun x => q x && negb (p x)) l)). split; [|exact H2]. rewrite app_assoc, H1, <- map_app.
    apply Permutation_map. clear H1 H2 xs cb rest.
    induction l as [|x l IH]; cbn [filter app]; auto. specialize (H x). destruct (p x), (q x); cbn [andb negb app]; auto; [discriminate H; reflexivity|].
    etransitivity; [symmetry; apply Permutation_middle|]. now constructor.
  Qed.
  Lemma some_nil cb : some_reported (M := M) cb [] [].
  Proof. exists []. split; [constructor|]. intros [|] [|] E; cbn in E; congruence. Qed.
  Lemma root_filter_divides root m : map x_t (filter (fun x => divides (x_t x) m) (root_entries root)) = filter (fun e => divides e m) (map x_t (root_entries root)).
  Proof. induction (root_entries root) as [|x l IH]; cbn; auto. destruct (divides (x_t x) m); cbn; congruence. Qed.
  Lemma root_filter_multiples root m : map x_t (filter (fun x => divides m (x_t x)) (root_entries root)) = filter (fun e => divides m e) (map x_t (root_entries root)).
  Proof. induction (root_entries root) as [|x l IH]; cbn; auto. destruct (divides m (x_t x)); cbn; congruence. Qed.
  Lemma stale_ok s bits o : inv s -> is_search o = true -> (elem = true -> o <> DSize) ->
    exists s' r, step C packed (with_bits s bits) o = Ok (s', r) /\ honest divides (kcontents s) o r /\ kcontents s' = kcontents s.
  Proof.
    intros Hi Ho Hsz. assert (Hr := i_root _ _ _ _ Hi). destruct o as [e|es|m|m|m|m cb|m cb|cb|m| |]; try discriminate Ho; cbn [step].
    - assert (Hplace : forall (s' : kd) pl x, k_tree s' = k_tree s -> (exists t, k_tree s = Some t /\ points_to t pl x) ->
        entry_at s' pl = Ok (x_t x) /\ In (x_t x) (kcontents s)).
      { intros s' pl x E (t & Ht & Hp). unfold entry_at. rewrite E, Ht. apply points_to_deref in Hp as [Hd Hin]. split; auto.
        rewrite kcontents_root, Ht. now apply in_map. }
      assert (Hs : exists s' r, (let* r := tree_find C (k_tree s) (kext C bits m) in
          Ok (match r with Some _ => if c_cache C then mk_kd (k_tree s) bits (k_size s) (k_left s) r (k_rebuilds s) else with_bits s bits | None => with_bits s bits end, r)) = Ok (s', r) /\
        k_tree s' = k_tree s /\
        match r with Some pl => exists x, (exists t, k_tree s = Some t /\ points_to t pl x) /\ divides (x_t x) m = true | None => True end).
      { destruct (k_tree s) as [t|] eqn:Ht.
        - destruct (tree_find_ok C valid HL (k_bits s) t (kext C bits m) Hr) as (r & -> & H2). cbn [bind]. do 2 eexists. split; [reflexivity|].
          destruct r as [pl|]; [|split; [exact Ht|exact I]]. destruct H2 as (x & H2 & H3). split; [now destruct (c_cache C)|]. exists x. split; [eauto|].
          apply kdiv_divides in H3. now rewrite x_t_kext in H3.
        - cbn [tree_find bind]. do 2 eexists. split; [reflexivity|]. split; [exact Ht|exact I]. }
      assert (Hdone : forall (s' : kd) r, k_tree s' = k_tree s ->
        match r with Some pl => exists x, (exists t, k_tree s = Some t /\ points_to t pl x) /\ divides (x_t x) m = true | None => True end ->
        exists s'' d, (let* (s', r) := Ok (s', r) in match r with None => Ok (s', DOFound None) | Some p => let* e := entry_at s' p in Ok (s', DOFound (Some e)) end) = Ok (s'', d) /\
          honest divides (kcontents s) (DFindDivisor m) d /\ kcontents s'' = kcontents s).
      { intros s' [pl|] E H; cbn [bind].
        - destruct H as (x & Hx & Hd). destruct (Hplace s' pl x E Hx) as [-> Hin]. cbn [bind]. do 2 eexists. split; [reflexivity|]. split; [|unfold kcontents; now rewrite E].
          constructor. auto.
        - do 2 eexists. split; [reflexivity|]. split; [constructor; exact I|unfold kcontents; now rewrite E]. }
      unfold find_divisor. cbv zeta. cbn [with_bits k_tree k_bits k_size k_left k_rebuilds k_cache]. destruct Hs as (s1 & r1 & E1 & E2 & E3).
      destruct (c_cache C) eqn:Hcc.
      + destruct (k_cache s) as [p|] eqn:Hp.
        * pose proof (i_cache _ _ _ _ Hi Hcc) as Hc. rewrite Hp in Hc. destruct Hc as (t & x & Ht & Hpt).
          destruct (Hplace (with_bits s bits) p x eq_refl) as [Ee Hin]; [eauto|]. rewrite Ee. cbn [bind].
          destruct (divides (x_t x) m) eqn:Hd.
          -- apply (Hdone (with_bits s bits) (Some p) eq_refl). exists x. split; [eauto|exact Hd].
          -- rewrite E1. apply Hdone; auto.
        * rewrite E1. apply Hdone; auto.
      + rewrite E1. apply Hdone; auto.
    - assert (H : exists xs, tree_divisors C (k_tree s) (kext C bits m) cb = Ok xs /\ some_reported cb (DivFinder.divisors divides m (kcontents s)) xs).
      { rewrite kcontents_root. unfold DivFinder.divisors. rewrite <- root_filter_divides. destruct (k_tree s) as [t|].
        - destruct (tree_divisors_ok C valid HL (k_bits s) t (kext C bits m) cb Hr) as (xs & -> & H). exists xs. split; [reflexivity|].
          eapply reported_part; [|exact H]. intros x Hx. apply kdiv_divides in Hx. now rewrite x_t_kext in Hx.
        - exists []. split; [reflexivity|apply some_nil]. }
      destruct H as (xs & H & G). cbn [with_bits k_tree k_bits]. rewrite H. cbn [bind]. do 2 eexists. split; [reflexivity|]. split; [now constructor|reflexivity].
    - assert (H : exists xs, tree_multiples C packed (k_tree s) (kext C bits m) cb = Ok xs /\ some_reported cb (DivFinder.multiples divides m (kcontents s)) xs).
      { rewrite kcontents_root. unfold DivFinder.multiples. rewrite <- root_filter_multiples. destruct (k_tree s) as [t|].
        - destruct (tree_multiples_ok C valid HL packed (k_bits s) t (kext C bits m) cb Hr) as (xs & -> & H). exists xs. split; [reflexivity|].
          eapply reported_part; [|exact H]. intros x Hx. apply kdiv_divides in Hx. now rewrite x_t_kext in Hx.
        - exists []. split; [reflexivity|apply some_nil]. }
      destruct H as (xs & H & G). cbn [with_bits k_tree k_bits]. rewrite H. cbn [bind]. do 2 eexists. split; [reflexivity|]. split; [now constructor|reflexivity].
    - cbn [with_bits k_tree]. destruct (for_all_root C valid packed (k_bits s) (k_tree s) cb Hr) as (xs & -> & H). cbn [bind]. do 2 eexists. split; [reflexivity|].
      split; [|reflexivity]. constructor. now rewrite kcontents_root.
    - do 2 eexists. split; [reflexivity|]. split; [|reflexivity]. pose proof (i_size _ _ _ _ Hi) as Hs. destruct elem; [now specialize (Hsz eq_refl)|].
      cbn [with_bits k_size]. rewrite Hs. constructor.
  Qed.

  (** rebuild, once it returns, makes up for all this *)
  Lemma stale_rebuild s bits : rebuild_kd C packed (with_bits s bits) = rebuild_kd C packed s.
  Proof. reflexivity. Qed.
  Lemma bare_nodes (t : tree) : nodes (bare t) = nodes t.
  Proof. induction t as [a|v x mask le IHl gt IHg]; cbn [bare nodes]; congruence. Qed.
  Lemma bare_node_entries (t : tree) : node_entries (bare t) = node_entries t.
  Proof. induction t as [a|v x mask le IHl gt IHg]; cbn [bare node_entries]; congruence. Qed.
  Lemma bare_push (t : tree) : forall stack, push_children (bare t) (map bare stack) = map bare (push_children t stack).
  Proof. induction t as [a|v x mask le IHl gt IHg]; intros stack; cbn [bare push_children]; auto. apply (IHl (gt :: stack)). Qed.
  Lemma bare_loop cb : forall f t stack seen, for_all_loop C f cb (bare t) (map bare stack) seen = for_all_loop C f cb t stack seen.
  Proof.
    induction f as [|f IH]; intros t stack seen; cbn [for_all_loop]; auto. destruct t as [a|v x mask le gt]; cbn [bare].
    - destruct (arr_for_all C a cb seen) as [[seen' go]| | |]; cbn [bind]; auto. destruct go; auto. destruct stack as [|t' stack]; cbn [map]; auto.
    - apply (IH le (gt :: stack)).
  Qed.
  Lemma bare_loop_packed cb : forall f t stack seen, for_all_loop_packed C f cb (bare t) (map bare stack) seen = for_all_loop_packed C f cb t stack seen.
  Proof.
    induction f as [|f IH]; intros t stack seen; cbn [for_all_loop_packed]; auto. rewrite bare_node_entries, bare_push.
    destruct (arr_for_all C (node_entries t) cb seen) as [[seen' go]| | |]; cbn [bind]; auto. destruct go; auto. destruct (push_children t stack) as [|t' stack']; cbn [map]; auto.
  Qed.
  Lemma bare_for_all cb t : tree_for_all C packed (Some (bare t)) cb = tree_for_all C packed (Some t) cb.
  Proof. unfold tree_for_all. rewrite bare_nodes. destruct packed; [apply (bare_loop_packed cb (nodes t) t [] [])|apply (bare_loop cb (nodes t) t [] [])]. Qed.
  Lemma bare_rebuild s t : k_tree s = Some (bare t) -> forall bits, root_inv bits (Some t) ->
    (if elem then length (map x_t (tree_entries t)) <= k_size s else k_size s = length (map x_t (tree_entries t))) ->
    exists s', rebuild_kd C packed s = Ok s' /\ inv s' /\ Permutation (kcontents s') (map x_t (tree_entries t)).
  Proof.
    intros Ht bits Hr Hs. destruct (rebuild_ok C valid HL packed elem (mk_kd (Some t) bits (k_size s) (k_left s) (k_cache s) (k_rebuilds s))) as (s' & H1 & H2 & H3); auto.
    exists s'. split; [|split; [exact H2|rewrite H3, kcontents_root; reflexivity]].
    unfold rebuild_kd in *. cbn [k_tree k_size k_left k_cache k_rebuilds] in H1. rewrite Ht, bare_for_all. exact H1.
  Qed.
End RebuildThrows.
