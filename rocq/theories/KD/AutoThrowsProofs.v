(** Proofs about exceptions in automatic rebuilds of KDTree. *)
From Coq Require Import List Arith Bool ZArith NArith Lia Permutation.
From Verif.Base Require Import Res Arr ResList StdAlg Order Sort Fault FaultFacts.
From Verif.DivMask Require Import Model.
From Verif.Spec Require Import DivFinder DivFinderFacts DivCaught DivStale DivHurt DivHonest.
From Verif.KD Require Import EntryArray Tree Model Legal ArrayProofs TreeProofs Proofs Throws ThrowsProofs ThrowsSearch.
From Verif.KD Require Import InsertThrows InsertThrowsProofs RemoveThrows RemoveThrowsProofs RebuildThrows RebuildThrowsProofs AutoThrows.
Import ListNotations.
Local Notation length := List.length.

Section AutoThrows.
  Context {M : Type}.
  Variable C : kconf M.
  Variable packed : bool.
  Variable alloc : bool.
  Variable ub_calls : list (ext M) -> ext M -> nat.
  Variable sort_x : nat -> list (ext M) -> fout (list (ext M)) (list (ext M)).
  Variable part_x : nat -> (ext M -> bool) -> list (ext M) -> fout (list (ext M)) (list (ext M) * list (ext M)).
  Variable prange_x : nat -> (M -> bool) -> list M -> fout (list M) (list M * list M).
  Hypothesis Hub : forall e, ub_calls [] e = 0.
  Hypothesis Hsort : sort_legal C sort_x.
  Hypothesis Hpart : part_legal C part_x.
  Hypothesis Hprange : prange_legal C prange_x.
  Notation kd := (kd M).
  Notation tree := (tree M).
  Notation report_x := (report_x C packed alloc sort_x prange_x).
  Notation insert_auto_x := (insert_auto_x C packed alloc ub_calls sort_x part_x prange_x).
  Notation remove_auto_x := (remove_auto_x C packed alloc sort_x prange_x).
  Notation auto_x := (auto_x C packed alloc ub_calls sort_x part_x prange_x).
  Notation rebuild_x := (rebuild_all_x C packed alloc sort_x prange_x).

  (** ** Without an exception nothing changes *)
  Lemma tot_report b s i j : tot (report_x b s [] i j) (let* s' := report_changes C packed s i j in Ok (s', [])).
  Proof.
    unfold AutoThrows.report_x, report_changes. cbv zeta. destruct (k_size s + i <? j); [apply tot_ub|]. destruct (negb (c_auto C)); [apply tot_ok|].
    destruct (i + j <? k_left s); [apply tot_ok|]. apply tot_fbind; [now apply tot_rebuild|]. intros. apply tot_ok.
  Qed.
  Lemma tot_insert_auto b s e : tot (insert_auto_x b s e) (insert C packed s e).
  Proof.
    unfold AutoThrows.insert_auto_x, insert, tree_insert. apply tot_clients. intros b1. cbv zeta.
    assert (H : forall b t, tot (fbind (fleft (fun st : tree * bool => Usable (mk_kd (Some (fst st)) (k_bits s) (k_size s) (k_left s)
        (option_map (moved packed (fst st) (way C t (kext C (k_bits s) e))) (k_cache s)) (k_rebuilds s)) [])
        (insert_tree_x C packed alloc ub_calls sort_x part_x b true [] t (kext C (k_bits s) e) None)) (fun b t' =>
          fbind (report_x b (mk_kd (Some t') (k_bits s) (k_size s) (k_left s) (k_cache s) (k_rebuilds s)) [] 1 0) (fun b r => Ok (Fine b (fst r)))))
      (let* t0 := (let* t' := insert_tree C packed t (kext C (k_bits s) e) None in Ok (Some t')) in
       report_changes C packed (mk_kd t0 (k_bits s) (k_size s) (k_left s) (k_cache s) (k_rebuilds s)) 1 0)).
    { intros b2 t r H. apply bind_inv in H as (t0 & H & H'). apply bind_inv in H as (t' & H & H''). injection H'' as <-.
      destruct (tot_insert_tree C packed alloc ub_calls sort_x part_x Hsort Hpart (kext C (k_bits s) e) t b2 true [] None t' H) as ([b3 a|l] & -> & E); unfold fleft, fbind at 1; cbn [bind].
      - subst a. assert (T := tot_report b3 (mk_kd (Some t') (k_bits s) (k_size s) (k_left s) (k_cache s) (k_rebuilds s)) 1 0 (r, [])). rewrite H' in T.
        destruct (T eq_refl) as ([b4 a|x] & -> & G); unfold fbind; cbn [bind]; eexists; (split; [reflexivity|]); [now subst a|exact I].
      - eexists. split; [reflexivity|]. exact I. }
    destruct (k_tree s) as [t|]; [apply H|]. apply tot_allocation. intros b2. apply H.
  Qed.
  Lemma tot_remove_auto b s m : tot (remove_auto_x b s m []) (let* (s', c, out) := remove_multiples C packed s m in Ok (s', c, out, [])).
  Proof.
    unfold AutoThrows.remove_auto_x, remove_multiples. destruct (negb (c_removals C)); [intros r H; discriminate H|]. apply tot_clients. intros b1 r H.
    apply bind_inv in H as ([[s' c] out] & H & H'). injection H' as <-. apply bind_inv in H as ([[t out'] n] & H & H'). apply bind_inv in H' as (s1 & H1 & H'). injection H' as -> <- ->.
    assert (T := tot_tree_remove C packed b1 (k_tree s) (kext C (k_bits s) m) (t, out, n, [])). rewrite H in T.
    destruct (T eq_refl) as ([b2 a|st] & -> & E); unfold fleft at 1, fbind at 1; cbn [bind]; [|eexists; split; [reflexivity|]; exact I]. subst a.
    assert (T' := tot_report b2 (mk_kd t (k_bits s) (k_size s) (k_left s) (k_cache s) (k_rebuilds s)) 0 n (s', [])). rewrite H1 in T'.
    destruct (T' eq_refl) as ([b3 a|x] & -> & G); unfold fleft, fbind; cbn [bind]; eexists; (split; [reflexivity|]); [now subst a|exact I].
  Qed.
  Lemma tot_auto b s o : tot (auto_x b s [] o) (let* (s', r) := step C packed s o in Ok (s', [], r)).
  Proof.
    assert (Hg : forall o, tot (fleft (fun st : kd * todo * list M => let '(s', tmp', xs) := st in (Usable s' tmp', xs)) (all_x C packed alloc ub_calls sort_x part_x b s [] o))
      (let* (s', r) := step C packed s o in Ok (s', [], r))) by (intros o'; now apply tot_fleft, tot_all).
    destruct o as [e|es|m|m|m|m cb|m cb|cb|m| |]; cbn [AutoThrows.auto_x]; try apply Hg; cbn [step].
    - intros r H. apply bind_inv in H as ([s' r'] & H & H'). injection H' as <-. apply bind_inv in H as (s1 & H & H'). injection H' as -> <-.
      destruct (tot_insert_auto b s e s' H) as ([b' a|x] & -> & E); unfold fleft, fbind; cbn [bind]; eexists; (split; [reflexivity|]); [now subst a|exact I].
    - intros r H. apply bind_inv in H as ([s' r'] & H & H'). injection H' as <-. apply bind_inv in H as ([[s1 c] out] & H & H'). injection H' as -> <-.
      assert (T := tot_remove_auto b s m (s', c, out, [])). rewrite H in T.
      destruct (T eq_refl) as ([b' a|x] & -> & E); unfold fleft, fbind; cbn [bind]; [subst a; eexists; split; reflexivity|eexists; split; [reflexivity|exact I]].
    - intros r H. apply bind_inv in H as ([s' r'] & H & H'). injection H' as <-. apply bind_inv in H as (s1 & H & H'). injection H' as -> <-.
      destruct (tot_rebuild C packed alloc sort_x prange_x Hsort Hprange b s s' H) as ([b' a|x] & -> & E); unfold fleft, fbind; cbn [bind]; eexists; (split; [reflexivity|]); [now subst a|exact I].
  Qed.

  (** ** What an exception leaves behind *)
  Variable valid : M -> bool.
  Hypothesis HL : klegal C valid.
  Variable elem : bool.
  Hypothesis Helem : elem = true -> c_cache C = false.
  Notation inv := (inv C valid elem).
  Notation root_inv := (root_inv C valid).
  Notation good_bits := (good_bits C).
  Notation divides := (c_divides C).
  Notation same := (same_exps (c_ex C) (c_nvars C)).

  (** An exception in reportChanges comes from the rebuild, when the change has been counted. *)
  Lemma report_left b s i j x : root_inv (k_bits s) (k_tree s) -> good_bits (k_bits s) -> (if elem then length (kcontents s) + j <= k_size s + i else k_size s + i = length (kcontents s) + j) ->
    (c_cache C = true -> i + j = 0 -> cache_ok (k_tree s) (k_cache s)) -> report_x b s [] i j = Ok (Left x) ->
    exists s1, inv s1 /\ kcontents s1 = kcontents s /\ k_size s1 = k_size s + i - j /\ k_left s1 = k_left s /\ c_auto C = true /\ k_left s <= i + j /\ rebuild_x b s1 [] = Ok (Left x).
  Proof.
    intros Hr Hb Hs Hc H. unfold AutoThrows.report_x in H. cbv zeta in H. destruct (k_size s + i <? j); [discriminate H|]. destruct (c_auto C) eqn:Ha; cbn [negb] in H; [|discriminate H].
    destruct (Nat.ltb_spec (i + j) (k_left s)) as [Hl|Hl]; [discriminate H|]. apply fbind_left in H as [H|(b1 & a & _ & H)]; [|discriminate H].
    eexists. split; [|split; [|split; [|split; [|split; [|split; [exact Hl|exact H]]]]]]; auto. split; cbn [k_tree k_bits k_size k_cache]; auto.
    - unfold kcontents in *. cbn [k_tree]. destruct elem; lia.
    - intros Hcc. rewrite Hcc. cbn [andb]. destruct (Nat.eqb_spec (i + j) 0); cbn [negb]; [auto|exact I].
  Qed.
  (** insert: either the exception is one of C88, or the entry has been inserted and counted. *)
  Lemma insert_auto_left b s e x : inv s -> valid e = true -> copies same e (kcontents s) < c_leaf C -> insert_auto_x b s e = Ok (Left x) ->
    (exists s', x = Usable s' [] /\ insert_x C packed alloc ub_calls sort_x part_x b s e = Ok (Left s')) \/
    (exists b1 s1, inv s1 /\ Permutation (kcontents s1) (e :: kcontents s) /\ k_size s1 = S (k_size s) /\ k_left s1 = k_left s /\ c_auto C = true /\ k_left s <= 1 /\
      rebuild_x b1 s1 [] = Ok (Left x)).
  Proof.
    intros Hi Hv Hco H. assert (T := tree_insert_ok C valid HL packed (k_bits s) (kext C (k_bits s) e) (k_tree s) (kext_is_ext C (k_bits s) e) Hv (i_root _ _ _ _ Hi)).
    rewrite x_t_kext, <- kcontents_root in T. apply Nat.ltb_lt in Hco. rewrite Hco in T. destruct T as (root & T & R1 & R2). unfold tree_insert in T.
    unfold AutoThrows.insert_auto_x, insert_x in *. cbv zeta in *. unfold clients in *. destruct (mask_calls C s <=? b); [|injection H as <-; left; eexists; split; reflexivity].
    set (b0 := b - mask_calls C s) in *. clearbody b0.
    assert (G : forall b t, (let* t' := insert_tree C packed t (kext C (k_bits s) e) None in Ok (Some t')) = Ok root ->
      fbind (fleft (fun st : tree * bool => Usable (mk_kd (Some (fst st)) (k_bits s) (k_size s) (k_left s)
        (option_map (moved packed (fst st) (way C t (kext C (k_bits s) e))) (k_cache s)) (k_rebuilds s)) [])
        (insert_tree_x C packed alloc ub_calls sort_x part_x b true [] t (kext C (k_bits s) e) None)) (fun b t' =>
          fbind (report_x b (mk_kd (Some t') (k_bits s) (k_size s) (k_left s) (k_cache s) (k_rebuilds s)) [] 1 0) (fun b r => Ok (Fine b (fst r)))) = Ok (Left x) ->
      (exists s', x = Usable s' [] /\ fbind (fleft (fun st : tree * bool => mk_kd (Some (fst st)) (k_bits s) (k_size s) (k_left s)
        (option_map (moved packed (fst st) (way C t (kext C (k_bits s) e))) (k_cache s)) (k_rebuilds s))
        (insert_tree_x C packed alloc ub_calls sort_x part_x b true [] t (kext C (k_bits s) e) None)) (fun b t' =>
          let* s' := report_changes C packed (mk_kd (Some t') (k_bits s) (k_size s) (k_left s) (k_cache s) (k_rebuilds s)) 1 0 in Ok (Fine b s')) = Ok (Left s')) \/
      (exists b1 s1, inv s1 /\ Permutation (kcontents s1) (e :: kcontents s) /\ k_size s1 = S (k_size s) /\ k_left s1 = k_left s /\ c_auto C = true /\ k_left s <= 1 /\
        rebuild_x b1 s1 [] = Ok (Left x))).
    { clear H T. intros b1 t T H. apply bind_inv in T as (t' & T & T'). injection T' as T'.
      destruct (tot_insert_tree C packed alloc ub_calls sort_x part_x Hsort Hpart (kext C (k_bits s) e) t b1 true [] None t' T) as ([b3 a|l] & E & Ea); rewrite E in *;
        unfold fleft, fbind at 1 in H; cbn [bind] in H.
      - subst a. right. apply fbind_left in H as [H|(b4 & a & _ & H)]; [|discriminate H].
        assert (Hp : Permutation (kcontents (mk_kd (Some t') (k_bits s) (k_size s) (k_left s) (k_cache s) (k_rebuilds s))) (e :: kcontents s)).
        { rewrite !kcontents_root. cbn [k_tree]. rewrite T', R2. reflexivity. }
        destruct (report_left b3 (mk_kd (Some t') (k_bits s) (k_size s) (k_left s) (k_cache s) (k_rebuilds s)) 1 0 x) as (s1 & G1 & G2 & G3 & G4 & G5 & G6 & G7);
          cbn [k_tree k_bits k_size k_left k_cache] in *.
        + rewrite T'. exact R1.
        + apply (i_bits _ _ _ _ Hi).
        + rewrite (Permutation_length Hp). cbn [length]. pose proof (i_size _ _ _ _ Hi). destruct elem; lia.
        + lia.
        + exact H.
        + exists b3, s1. split; [exact G1|]. split; [now rewrite G2|]. split; [lia|]. auto.
      - injection H as <-. left. eexists. split; reflexivity. }
    destruct (k_tree s) as [t|]; [now apply G|]. unfold allocation in *. destruct alloc; [|now apply G]. destruct b0 as [|b0]; [injection H as <-; left; eexists; split; reflexivity|]. now apply G.
  Qed.
  (** removeMultiples: either the exception is one of C89, or all multiples have been given to the output, removed and counted. *)
  Lemma remove_auto_left b s m x xs : inv s -> c_removals C = true -> remove_auto_x b s m [] = Ok (Left (x, xs)) ->
    (exists s' tmp, x = Usable s' tmp /\ remove_multiples_x C packed b s m [] = Ok (Left (s', tmp, xs))) \/
    (exists b1 s1, inv s1 /\ Permutation (kcontents s1) (non_multiples divides m (kcontents s)) /\ Permutation xs (multiples divides m (kcontents s)) /\
      k_size s1 = k_size s - length xs /\ k_left s1 = k_left s /\ c_auto C = true /\ k_left s <= length xs /\ rebuild_x b1 s1 [] = Ok (Left x)).
  Proof.
    intros Hi Hrem H. destruct (root_remove_ok C valid HL packed elem s m Hi Hrem) as (root & out & T & R1 & R2 & R3 & R4).
    unfold AutoThrows.remove_auto_x, remove_multiples_x in *. rewrite Hrem in *. cbn [negb] in *. unfold clients in *.
    destruct (mask_calls C s <=? b); [|injection H as <- <-; left; do 2 eexists; split; reflexivity]. set (b0 := b - mask_calls C s) in *. clearbody b0.
    assert (T' := tot_tree_remove C packed b0 (k_tree s) (kext C (k_bits s) m) (root, out, length out, [])). rewrite T in T'.
    destruct (T' eq_refl) as ([b2 a|[[t tmp] ys]] & E & Ea); clear T'; rewrite E in *; unfold fleft at 1, fbind at 1 in H; cbn [bind] in H.
    2: { injection H as <- <-. left. do 2 eexists. split; reflexivity. }
    subst a. right. apply fbind_left in H as [H|(b4 & a & _ & H)]; [|discriminate H]. apply fleft_left in H as (x' & H & Ex). injection Ex as -> ->.
    set (s0 := mk_kd root (k_bits s) (k_size s) (k_left s) (k_cache s) (k_rebuilds s)) in *.
    assert (Hc : kcontents s0 = non_multiples divides m (kcontents s)) by (rewrite kcontents_root; exact R2).
    assert (Hlen : length (non_multiples divides m (kcontents s)) + length out = length (kcontents s)).
    { rewrite (Permutation_length R3). unfold multiples, non_multiples.
      pose proof (Permutation_length (filter_split (fun e => divides m e) (kcontents s))) as Hl. rewrite app_length in Hl. lia. }
    destruct (report_left b2 s0 0 (length out) x') as (s1 & G1 & G2 & G3 & G4 & G5 & G6 & G7); subst s0; cbn [k_tree k_bits k_size k_left k_cache] in *.
    - exact R1.
    - apply (i_bits _ _ _ _ Hi).
    - rewrite Hc. pose proof (i_size _ _ _ _ Hi). destruct elem; lia.
    - intros Hcc Hz. apply R4; [now destruct out|]. apply (i_cache _ _ _ _ Hi Hcc).
    - exact H.
    - exists b2, s1. split; [exact G1|]. split; [now rewrite G2, Hc|]. split; [exact R3|]. split; [lia|]. auto.
  Qed.

  (** ** Afterwards *)
  Lemma insert_left_size b s e s' : insert_x C packed alloc ub_calls sort_x part_x b s e = Ok (Left s') -> k_size s' = k_size s.
  Proof.
    unfold insert_x. cbv zeta. intros H. apply clients_left in H as [->|[_ H]]; [reflexivity|].
    assert (G : forall b t (f : tree -> res kd) g, fbind (fleft (fun st : tree * bool => mk_kd (Some (fst st)) (k_bits s) (k_size s) (k_left s) (g st) (k_rebuilds s))
        (insert_tree_x C packed alloc ub_calls sort_x part_x b true [] t (kext C (k_bits s) e) None)) (fun b t' => let* s' := f t' in Ok (Fine b s')) = Ok (Left s') -> k_size s' = k_size s).
    { intros b1 t f g G. apply fbind_left in G as [G|(b2 & a & _ & G)]; [|apply bind_inv in G as (s1 & _ & G); discriminate G]. apply fleft_left in G as (st & _ & ->). reflexivity. }
    destruct (k_tree s) as [t|]; [exact (G _ _ _ _ H)|]. unfold allocation in H. destruct alloc; [|exact (G _ _ _ _ H)].
    apply client_left in H as [->|(b1 & _ & H)]; [reflexivity|exact (G _ _ _ _ H)].
  Qed.
  (** As long as _changesTillRebuild allows for one change only, an insertion rebuilds. *)
  Lemma insert_rebuilds s e s2 : c_auto C = true -> k_left s <= 1 -> insert C packed s e = Ok s2 -> k_rebuilds s2 = S (k_rebuilds s).
  Proof.
    intros Ha Hl H. unfold insert in H. apply bind_inv in H as (t & _ & H). unfold report_changes in H. cbv zeta in H. destruct (_ <? _) in H; [discriminate H|].
    rewrite Ha in H. cbn [negb k_left] in H. replace (1 + 0 <? k_left s) with false in H by (symmetry; apply Nat.ltb_ge; lia).
    unfold rebuild_kd in H. apply bind_inv in H as (l & _ & H). apply bind_inv in H as (bits & _ & H). apply bind_inv in H as (t' & _ & H). injection H as <-.
    unfold reset_changes. rewrite Ha. reflexivity.
  Qed.
  (** What a rebuild that throws leaves, for any tree that is in order *)
  Lemma rebuild_remains s b r : inv s -> rebuild_x b s [] = Ok (Left r) ->
    match r with
    | Torn => True
    | Usable s' tmp => k_size s' = k_size s /\ k_left s' = k_left s /\ (tmp <> [] -> s' = s) /\
        (kcontents s' = [] /\ kcontents s <> [] \/
         Permutation (kcontents s') (kcontents s) /\ exists s2, rebuild_kd C packed s' = Ok s2 /\ inv s2 /\ Permutation (kcontents s2) (kcontents s))
    end.
  Proof.
    intros Hi H. assert (Hk := i_size _ _ _ _ Hi). assert (Hok := rebuild_ok C valid HL packed elem s (i_root _ _ _ _ Hi) Hk).
    destruct (rebuild_left C packed alloc sort_x prange_x Hsort Hprange valid HL elem s b r Hi H)
      as [(tmp & -> & Ht)|[(bits & -> & Hu & Hg)|[(bits & -> & Hn)|[->|(bits & t & -> & _ & _ & Hri & _ & Hp)]]]]; [| | |exact I|]; cbn beta iota.
    - split; [reflexivity|]. split; [reflexivity|]. split; [auto|]. right. auto.
    - split; [reflexivity|]. split; [reflexivity|]. split; [intros E; now destruct E|]. right. split; [reflexivity|]. rewrite stale_rebuild. exact Hok.
    - split; [reflexivity|]. split; [reflexivity|]. split; [intros E; now destruct E|]. left. auto.
    - split; [reflexivity|]. split; [reflexivity|]. split; [intros E; now destruct E|]. right. rewrite kcontents_root. cbn [k_tree root_entries]. rewrite bare_entries. split; [exact Hp|].
      destruct (bare_rebuild C packed valid HL elem (mk_kd (Some (bare t)) bits (k_size s) (k_left s) (option_map (freed C) (k_cache s)) (S (k_rebuilds s))) t eq_refl bits Hri) as (s2 & E2 & G1 & G2).
      { cbn [k_size]. rewrite (Permutation_length Hp). exact Hk. }
      exists s2. split; [exact E2|]. split; [exact G1|]. now rewrite G2.
  Qed.
End AutoThrows.
