(** Proofs about searches made in the callback of a search. *)
From Coq Require Import List Arith Bool ZArith NArith Lia Permutation.
From Verif.Base Require Import Res Arr ResList StdAlg Fault FaultFacts.
From Verif.DivMask Require Import Model.
From Verif.Spec Require Import DivFinder DivFinderFacts DivCaught DivStale PQFacts.
From Verif.DivList Require Model.
From Verif.KD Require Import EntryArray Tree Model Legal ArrayProofs TreeProofs Proofs Throws ThrowsLeft ThrowsSearch Nested.
Import ListNotations.

(** ** What the callback gets *)
Section Got.
  Context {M : Type}.
  Variable cb : callback M.
  Variable quiet : Prop.
  (** Having been told [seen], the callback was told [xs], of [all]: something if there is anything, and everything that it wants if it is [quiet]. *)
  Definition got (seen all xs : list M) : Prop :=
    (exists zs rest, xs = seen ++ zs /\ Permutation (zs ++ rest) all /\ (forall u v, zs = u ++ v -> u <> [] -> v <> [] -> cb (seen ++ u) = true) /\ (zs = [] -> all = [])) /\
    (quiet -> exists go, feeds cb seen all (xs, go)).
  Lemma got_perm seen all all' xs : Permutation all all' -> got seen all xs -> got seen all' xs.
  Proof.
    intros Hp [(zs & rest & H1 & H2 & H3 & H4) Hq]. split.
    - exists zs, rest. split; auto. split; [now rewrite H2|]. split; auto. intros H. rewrite (H4 H) in Hp. now apply Permutation_nil.
    - intros H. destruct (Hq H) as [go G]. exists go. eapply feeds_perm; eauto.
  Qed.
  Lemma got_stop seen all1 all2 xs : feeds cb seen all1 (xs, false) -> got seen (all1 ++ all2) xs.
  Proof.
    intros H. split; [|intros _; exists false; now apply feeds_stop]. destruct H as (zs & rest & H1 & H2 & H3 & H4 & _). cbn [fst] in *.
    exists zs, (rest ++ all2). split; auto. split; [now rewrite app_assoc, H2|]. split; auto. intros H. congruence.
  Qed.
  Lemma got_app seen all1 all2 seen1 xs : feeds cb seen all1 (seen1, true) -> got seen1 all2 xs -> got seen (all1 ++ all2) xs.
  Proof.
    intros H [(z2 & rest2 & G1 & G2 & G3 & G4) Hq]. split; [|intros Q; destruct (Hq Q) as [go G]; exists go; eapply feeds_app; eauto].
    destruct H as (z1 & rest1 & H1 & H2 & H3 & H4). cbn [fst snd] in *. subst seen1. destruct H4 as [-> H4].
    rewrite app_nil_r in H2. exists (z1 ++ z2), rest2. split; [now rewrite G1, app_assoc|]. split; [now rewrite <- app_assoc, G2, H2|]. split.
    - intros u v He Hu Hv. apply app_split in He as [(w & -> & ->)|(w & Hw & -> & ->)].
      + destruct w as [|a w]; [rewrite app_nil_r in H4; auto|]. apply (H3 u (a :: w)); auto. discriminate.
      + rewrite app_assoc. apply (G3 w v); auto.
    - intros He. apply app_eq_nil in He as [-> ->]. rewrite (G4 eq_refl). cbn [app] in H2. apply Permutation_nil in H2. now rewrite H2.
  Qed.
  Lemma got_cut seen all1 all2 xs : feeds cb seen all1 (xs, true) -> xs <> seen -> (quiet -> all2 = []) -> got seen (all1 ++ all2) xs.
  Proof.
    intros H Hx Hq. split; [|intros Q; exists true; now rewrite (Hq Q), app_nil_r]. destruct H as (zs & rest & H1 & H2 & H3 & H4 & _). cbn [fst] in *. subst rest.
    rewrite app_nil_r in H2. exists zs, all2. split; auto. split; [now rewrite H2|]. split; auto. intros ->. rewrite app_nil_r in H1. congruence.
  Qed.
  Lemma got_none seen : got seen [] seen.
  Proof. 
    split; [|intros _; exists true; apply feeds_nil]. exists [], []. rewrite app_nil_r. split; auto. split; auto. split; auto. intros [|] [|] H; cbn in H; congruence.
  Qed.
  Lemma got_pruned {X} (f : X -> M) (q : X -> bool) seen l1 l2 l3 xs : (forall x, In x l2 -> q x = false) ->
    got seen (map f (filter q (l1 ++ l3))) xs -> got seen (map f (filter q ((l1 ++ l2) ++ l3))) xs.
  Proof. intros Hn H. rewrite !filter_app, (filter_none q l2 Hn), app_nil_r in *. exact H. Qed.
End Got.

Section Nested.
  Context {M : Type}.
  Variable C : kconf M.
  Variable valid : M -> bool.
  Hypothesis HL : klegal C valid.
  Variable packed : bool.
  Notation ext := (ext M).
  Notation tree := (tree M).
  Notation todo := (@todo M).
  Notation kd := (kd M).
  Notation kdiv := (kdiv C).
  Notation divides := (c_divides C).
  Notation inv := (inv C valid false).
  Notation contents := (@kcontents M).
  Lemma no_elem : false = true -> c_cache C = false.
  Proof. discriminate. Qed.

  (** ** The searches made in the callback *)
  (** What such a search answers *)
  Definition answer_ok (l : list M) (c : dop M * dout M) : Prop := exists d', sstep divides l true (fst c) (Answered (snd c)) d'.
  Lemma find_divisor_n_ok s m tmp : inv s -> tmp_ok C valid s tmp ->
    exists s' r tmp', find_divisor_n C s m tmp = Ok (s', r, tmp') /\ find_divisor C s m = Ok (s', r) /\ (tmp' = [] \/ tmp' = tmp).
  Proof.
    intros Hi Ht. unfold find_divisor_n, find_divisor. cbv zeta.
    assert (Hsearch : exists s' r tmp', match k_tree s with
      | None => Ok (s, None, tmp)
      | Some t => let* r := find_loop C (steps_for t tmp) (kext C (k_bits s) m) [] t tmp in
          Ok (match r with Some _ => if c_cache C then mk_kd (k_tree s) (k_bits s) (k_size s) (k_left s) r (k_rebuilds s) else s | None => s end, r, [])
      end = Ok (s', r, tmp') /\
      (let* r := tree_find C (k_tree s) (kext C (k_bits s) m) in
          Ok (match r with Some _ => if c_cache C then mk_kd (k_tree s) (k_bits s) (k_size s) (k_left s) r (k_rebuilds s) else s | None => s end, r)) = Ok (s', r) /\
      (tmp' = [] \/ tmp' = tmp)).
    { unfold tmp_ok in *. pose proof (i_root _ _ _ _ Hi) as Hr. destruct (k_tree s) as [t|].
      - destruct (find_stale C valid HL (k_bits s) t (kext C (k_bits s) m) tmp Hr Ht) as (r & -> & ->). cbn [bind]. do 3 eexists. split; [reflexivity|]. auto.
      - cbn [tree_find bind]. do 3 eexists. split; [reflexivity|]. auto. }
    destruct (c_cache C) eqn:Hcc; [|exact Hsearch]. pose proof (i_cache _ _ _ _ Hi Hcc) as Hca. destruct (k_cache s) as [p|]; [|exact Hsearch].
    destruct Hca as (t & x & E & Hp). unfold entry_at. rewrite E in *. apply points_to_deref in Hp as [Hp _]. rewrite Hp. cbn [bind].
    destruct (divides (x_t x) m); [|exact Hsearch]. do 3 eexists. split; [reflexivity|]. auto.
  Qed.
  Lemma search_n_ok s tmp o : inv s -> tmp_ok C valid s tmp -> is_search o = true ->
    exists s' tmp' r r0, search_n C packed s tmp o = Ok (s', tmp', r) /\ step C packed s o = Ok (s', r0) /\ k_tree s' = k_tree s /\ k_bits s' = k_bits s /\
      (tmp' = [] \/ tmp' = tmp) /\ (o = DSize -> tmp' = tmp) /\ answer_ok (contents s) (o, r) /\ (tmp = [] -> r0 = r).
  Proof.
    intros Hi Ht Hs. assert (Hin := stale_incl C valid s tmp Ht).
    assert (Hroot := i_root _ _ _ _ Hi). assert (Hbits := i_bits _ _ _ _ Hi).
    assert (Hrep : forall cb q loop, wanted divides o (contents s ++ map x_t (stale tmp)) = Some (cb, q) ->
      (forall t, k_tree s = Some t -> exists xs, loop (steps_for t tmp) t (map snd tmp) [] = Ok xs /\ reported cb q xs) ->
      (forall t, k_tree s = Some t -> tmp = [] -> step C packed s o = (let* xs := loop (nodes t) t [] [] in Ok (s, DOList xs))) ->
      (k_tree s = None -> step C packed s o = Ok (s, DOList [])) ->
      (exists a0, step C packed s o = Ok (s, a0)) -> o <> DSize ->
      exists s' tmp' r r0, reports_n loop s tmp = Ok (s', tmp', r) /\ step C packed s o = Ok (s', r0) /\ k_tree s' = k_tree s /\ k_bits s' = k_bits s /\
        (tmp' = [] \/ tmp' = tmp) /\ (o = DSize -> tmp' = tmp) /\ answer_ok (contents s) (o, r) /\ (tmp = [] -> r0 = r)).
    { intros cb q loop Hw Ho Hnil Hnone (a0 & Hstep) Hd. unfold reports_n. destruct (k_tree s) as [t|] eqn:Et.
      - destruct (Ho t eq_refl) as (xs & E & H). rewrite E. cbn [bind]. exists s, [], (DOList xs), a0. split; auto. split; auto. split; auto. split; auto. split; auto. split; [congruence|].
        split; [exists false; cbn [fst snd]; eapply s_report; [exact Hin|discriminate|exact Hw|exact H]|]. intros ->. rewrite (Hnil t eq_refl eq_refl) in Hstep.
        assert (E0 : steps_for t [] = nodes t) by (unfold steps_for; cbn [fold_right]; lia). rewrite E0 in E. cbn [map] in E. rewrite E in Hstep. cbn [bind] in Hstep. now injection Hstep as <-.
      - exists s, tmp, (DOList []), a0. split; auto. split; auto. split; auto. split; auto. split; auto. split; auto. unfold tmp_ok in Ht. rewrite Et in Ht. subst tmp.
        split; [|intros _; rewrite (Hnone eq_refl) in Hstep; now injection Hstep as <-]. exists false. cbn [fst snd]. eapply s_report; [exact Hin|discriminate|exact Hw|].
        unfold kcontents in Hw. rewrite Et in Hw. cbn in Hw. assert (q = []) by (destruct o; cbn in Hw; congruence). subst q. apply reported_none. }
    assert (Htok : forall t, k_tree s = Some t -> tree_inv C valid (k_bits s) t /\ Forall (node_of C valid (k_bits s) t) tmp /\ contents s = map x_t (tree_entries t) /\
      size_of (t :: map snd tmp) <= steps_for t tmp /\ Forall (tree_inv C valid (k_bits s)) (t :: map snd tmp)).
    { intros t Et. unfold tmp_ok, kcontents in *. rewrite Et in *. split; auto. split; auto. split; auto. split; [apply steps_enough|]. constructor; auto. eapply nodes_inv; eauto. }
    assert (Hstep : forall o', o' = o -> (forall m, o <> DFindDivisor m) -> exists a0, step C packed s o' = Ok (s, a0)).
    { intros o' -> Hm. destruct (step_ok C valid HL packed false no_elem s o Hi) as (s1 & r1 & S1 & _); [destruct o; auto; discriminate Hs|].
      destruct o as [e|es|m|m|m|m cb|m cb|cb|m| |]; try discriminate Hs; cbn [step] in *; [now destruct (Hm m)| | | |eauto];
        apply bind_inv in S1 as (xs & -> & S1); cbn [bind]; eauto. }
    destruct o as [e|es|m|m|m|m cb|m cb|cb|m| |]; try discriminate Hs; cbn [search_n].
    - (* findDivisor *)
      destruct (find_divisor_ok C valid HL packed false no_elem s m Hi) as (s0 & r0 & F1 & F2 & F3 & F4).
      destruct (find_divisor_n_ok s m tmp Hi Ht) as (s' & r & tmp' & -> & H & Htmp). cbn [bind].
      pose proof H as E0; apply (find_divisor_tree _ false no_elem) in E0 as [E1 E2]. cbn [step] in *. rewrite H in *. cbn [bind] in *.
      exists s', tmp', (DOFound r0), (DOFound r0).
      assert (Hr : match r with None => Ok (s', tmp', DOFound None) | Some p => let* e := entry_at s' p in Ok (s', tmp', DOFound (Some e)) end = Ok (s', tmp', DOFound r0) /\
        match r with None => Ok (s', DOFound None) | Some p => let* e := entry_at s' p in Ok (s', DOFound (Some e)) end = Ok (s', DOFound r0)).
      { destruct r as [p|]; [apply bind_inv in F1 as (e & -> & F1); cbn [bind]|]; injection F1 as <- <-; auto. }
      destruct Hr as [Hr1 Hr2]. split; auto. split; auto. split; auto. split; auto. split; auto. split; [discriminate|]. split; auto. exists true. apply s_find; auto.
    - eapply Hrep; [reflexivity| | | |apply Hstep; congruence|discriminate].
      + intros t Et. destruct (Htok t Et) as (T1 & T2 & T3 & T4 & T5). rewrite T3, <- (proj1 (stale_matches C valid HL (k_bits s) t tmp m Hbits T1 T2)).
        destruct (divisors_loop_ok C valid HL (k_bits s) (kext C (k_bits s) m) cb _ t (map snd tmp) [] T4 T5) as (xs & go & H1 & H2). exists xs. split; auto. eapply feeds_reported; exact H2.
      + intros t Et _. cbn [step]. now rewrite Et.
      + intros Et. cbn [step]. now rewrite Et.
    - eapply Hrep; [reflexivity| | | |apply Hstep; congruence|discriminate].
      + intros t Et. destruct (Htok t Et) as (T1 & T2 & T3 & T4 & T5). rewrite T3, <- (proj2 (stale_matches C valid HL (k_bits s) t tmp m Hbits T1 T2)).
        destruct packed; [destruct (multiples_loop_packed_ok C valid HL (k_bits s) (kext C (k_bits s) m) cb _ t (map snd tmp) [] T4 T5) as (xs & go & H1 & H2)|
          destruct (multiples_loop_ok C valid HL (k_bits s) (kext C (k_bits s) m) cb _ t (map snd tmp) [] T4 T5) as (xs & go & H1 & H2)]; exists xs; (split; auto; eapply feeds_reported; exact H2).
      + intros t Et _. cbn [step]. rewrite Et. unfold tree_multiples. now destruct packed.
      + intros Et. cbn [step]. now rewrite Et.
    - eapply Hrep; [reflexivity| | | |apply Hstep; congruence|discriminate].
      + intros t Et. destruct (Htok t Et) as (T1 & T2 & T3 & T4 & T5). rewrite T3, <- map_app.
        destruct packed; [destruct (for_all_loop_packed_ok C valid (k_bits s) cb _ t (map snd tmp) [] T4 T5) as (xs & go & H1 & H2)|
          destruct (for_all_loop_ok C valid (k_bits s) cb _ t (map snd tmp) [] T4 T5) as (xs & go & H1 & H2)]; exists xs; (split; auto; eapply feeds_reported; exact H2).
      + intros t Et _. cbn [step]. rewrite Et. unfold tree_for_all. now destruct packed.
      + intros Et. cbn [step]. now rewrite Et.
    - (* size *)
      exists s, tmp, (DOSize (k_size s)), (DOSize (k_size s)). split; auto. split; auto. split; auto. split; auto. split; auto. split; auto. split; auto. exists true. cbn [fst snd].
      rewrite (i_size _ _ _ _ Hi). apply s_size.
  Qed.

  (** ** A search whose callback searches *)
  Variable s0 : kd.
  Hypothesis Hs0 : inv s0.
  Variable root : tree.
  Hypothesis Hroot : k_tree s0 = Some root.
  Notation bits := (k_bits s0).
  Notation node := (node_of C valid bits root).
  Variable cb : callback M.
  Variable inner : list M -> list (dop M).
  Hypothesis Hinner : forall xs, forallb is_search (inner xs) = true.
  Definition quiet : Prop := forall xs o, In o (inner xs) -> o = DSize.

  (** The tree is as it was but for the cache *)
  Definition world_ok (w : world) : Prop :=
    inv (fst w) /\ k_tree (fst w) = Some root /\ k_bits (fst w) = bits /\ Forall (answer_ok (contents s0)) (snd w) /\
    forallb is_search (map fst (snd w)) = true /\ exists rs, run (step C packed) s0 (map fst (snd w)) = Ok (fst w, rs).
  Lemma world_start : world_ok (s0, []).
  Proof. unfold world_ok. cbn [fst snd map run forallb]. split; auto. split; auto. split; auto. split; auto. split; auto. eauto. Qed.
  Lemma calls_ok : forall ops w tmp, world_ok w -> Forall node tmp -> forallb is_search ops = true ->
    exists w' tmp', calls_n C packed w tmp ops = Ok (w', tmp') /\ world_ok w' /\ (tmp' = [] \/ tmp' = tmp) /\ ((forall o, In o ops -> o = DSize) -> tmp' = tmp).
  Proof.
    induction ops as [|o ops IH]; intros w tmp Hw Ht Hs; cbn [calls_n forallb] in *; [exists w, tmp; auto|]. apply andb_prop in Hs as [Ho Hs].
    destruct Hw as (W1 & W2 & W3 & W4 & W5 & rs & W6).
    destruct (search_n_ok (fst w) tmp o) as (s' & tmp' & r & r0 & E & H1 & H2 & H3 & H4 & H5 & H6 & _); auto; [unfold tmp_ok; rewrite W2, W3; auto|]. rewrite E. cbn [bind].
    assert (Hc : contents (fst w) = contents s0) by (unfold kcontents; now rewrite W2, Hroot).
    assert (Hi' : inv s').
    { destruct (step_ok C valid HL packed false no_elem (fst w) o W1) as (s2 & r2 & G1 & G2 & _); [destruct o; auto; discriminate Ho|]. rewrite H1 in G1. now injection G1 as <- _. }
    assert (Ht' : Forall node tmp') by (destruct H4 as [->| ->]; auto).
    destruct (IH (s', snd w ++ [(o, r)]) tmp') as (w2 & tmp2 & G1 & G2 & G3 & G4); auto.
    - unfold world_ok. cbn [fst snd]. split; auto. split; [congruence|]. split; [congruence|]. split; [apply Forall_app; split; auto; constructor; auto; now rewrite <- Hc|].
      rewrite map_app, forallb_app, W5. cbn [map fst forallb]. rewrite Ho. split; auto. exists (rs ++ [r0]).
      rewrite run_app, W6. cbn [bind run]. rewrite H1. reflexivity.
    - exists w2, tmp2. split; auto. split; auto. split.
      + destruct G3 as [->| ->]; auto.
      + intros Hq. rewrite G4, H5; auto; intros; apply Hq; cbn [In]; auto.
  Qed.

  (** What a leaf leaves of _tmp *)
  Definition left_ok (tmp tmp' : todo) (seen seen' : list M) : Prop := (tmp' = tmp \/ tmp' = [] /\ seen' <> seen) /\ (quiet -> tmp' = tmp).
  Definition leaf_ok (plain : res (list M * bool)) (m : world -> todo -> list M -> res (world * todo * (list M * bool))) (seen : list M) : Prop :=
    forall r w tmp, plain = Ok r -> world_ok w -> Forall node tmp ->
    exists w' tmp', m w tmp seen = Ok (w', tmp', r) /\ world_ok w' /\ left_ok tmp tmp' seen (fst r).
  Lemma grown (seen zs : list M) x : (seen ++ [x]) ++ zs <> seen.
  Proof. intros H. apply (f_equal (@List.length M)) in H. rewrite !app_length in H. cbn [List.length] in H. lia. Qed.
  Lemma feed_grows p : forall (l : list ext) seen, exists zs, fst (Model.feed M cb p l seen) = seen ++ zs.
  Proof. intros l seen. destruct (feed_feeds cb p l seen) as (zs & rest & H & _). eauto. Qed.
  Lemma feed_ok p : forall l seen, leaf_ok (Ok (Model.feed M cb p l seen)) (feed_n C packed cb inner p l) seen.
  Proof.
    intros l seen r w tmp Hr. injection Hr as <-. revert seen w tmp. induction l as [|x l IH]; intros seen w tmp Hw Ht; cbn [Model.feed feed_n].
    { exists w, tmp. cbn [fst]. split; auto. split; auto. split; auto. }
    destruct (p x); [|now apply IH]. cbv zeta. destruct (calls_ok (inner (seen ++ [x_t x])) w tmp Hw Ht (Hinner _)) as (w1 & tmp1 & -> & H1 & H2 & H3). cbn [bind].
    assert (Hq : quiet -> tmp1 = tmp) by (intros Hq; apply H3; intros o Ho; eapply Hq; eauto).
    destruct (cb (seen ++ [x_t x])) eqn:Hc.
    - destruct (IH (seen ++ [x_t x]) w1 tmp1 H1) as (w2 & tmp2 & E & G1 & G2 & G3); [destruct H2 as [->| ->]; auto|]. rewrite E. exists w2, tmp2. split; auto. split; auto.
      destruct (feed_grows p l (seen ++ [x_t x])) as (zs & ->). split; [|intros Q; rewrite G3; auto].
      destruct G2 as [->|[-> _]]; [destruct H2 as [->| ->]; auto|]; right; split; auto; apply grown.
    - exists w1, tmp1. cbn [fst]. split; auto. split; auto. split; auto. destruct H2 as [->| ->]; auto. right. split; auto. rewrite <- (app_nil_r (seen ++ [x_t x])). apply grown.
  Qed.
  Lemma report_ok p l seen : leaf_ok (arr_report C cb p l seen) (arr_report_n C packed cb inner p l) seen.
  Proof.
    unfold arr_report, arr_report_n. destruct (c_leaf C =? 1); [|apply feed_ok]. intros r w tmp Hr Hw Ht. destruct l as [|x l].
    - destruct (c_removals C); [|discriminate]. injection Hr as <-. exists w, tmp. split; auto. split; auto. split; auto.
    - injection Hr as <-. destruct (p x); [|exists w, tmp; split; auto; split; auto; split; auto]. cbv zeta.
      destruct (calls_ok (inner (seen ++ [x_t x])) w tmp Hw Ht (Hinner _)) as (w1 & tmp1 & -> & H1 & H2 & H3). cbn [bind fst]. exists w1, tmp1. split; auto. split; auto. split.
      + destruct H2 as [->| ->]; auto. right. split; auto. rewrite <- (app_nil_r (seen ++ [x_t x])). apply grown.
      + intros Hq. apply H3. intros o Ho. eapply Hq; eauto.
  Qed.
  Lemma leaf_divisors a m seen : leaf_ok (arr_divisors C a m cb seen) (arr_divisors_n C packed cb inner a m) seen.
  Proof.
    unfold arr_divisors, arr_divisors_n. destruct (ruled_out C a m).
    { intros r w tmp Hr Hw Ht. injection Hr as <-. exists w, tmp. split; auto. split; auto. split; auto. }
    destruct ((c_leaf C =? 1) || negb (c_sorted C)); [apply report_ok|]. intros r w tmp Hr Hw Ht. apply bind_inv in Hr as (i & -> & Hr). cbn [bind]. now apply report_ok.
  Qed.
  Lemma leaf_multiples a m seen : leaf_ok (arr_multiples C a m cb seen) (arr_multiples_n C packed cb inner a m) seen.
  Proof. apply report_ok. Qed.
  Lemma leaf_for_all a seen : leaf_ok (arr_for_all C a cb seen) (arr_for_all_n C packed cb inner a) seen.
  Proof. apply report_ok. Qed.

  Notation wk t stack := (@work M (t :: map snd stack)).
  (** What a loop does *)
  Definition loop_ok (q : ext -> bool) (loop : nat -> list bool -> tree -> world -> todo -> list M -> res (world * list M)) (f : nat) : Prop :=
    forall p t w stack seen, size_of (t :: map snd stack) <= f -> Forall node ((p, t) :: stack) -> world_ok w ->
    exists w' xs, loop f p t w stack seen = Ok (w', xs) /\ world_ok w' /\ got cb quiet seen (map x_t (filter q (wk t stack))) xs.
  Definition next_ok (q : ext -> bool) (loop : nat -> list bool -> tree -> world -> todo -> list M -> res (world * list M)) (f : nat) : Prop :=
    forall w stack seen, size_of (map snd stack) <= f -> Forall node stack -> world_ok w ->
    exists w' xs, match stack with [] => Ok (w, seen) | (p', t') :: stack' => loop f p' t' w stack' seen end = Ok (w', xs) /\ world_ok w' /\
      got cb quiet seen (map x_t (filter q (work (map snd stack)))) xs.
  Lemma next_of q loop f : loop_ok q loop f -> next_ok q loop f.
  Proof.
    intros H w stack seen Hf Hs Hw. destruct stack as [|[p' t'] stack']; [|now apply H]. exists w, seen. split; auto. split; auto. cbn. apply got_none.
  Qed.
  (** At a leaf *)
  Lemma leaf_then q loop f (all : list ext) plain m seen seen1 go w stack : next_ok q loop f -> leaf_ok plain m seen -> plain = Ok (seen1, go) ->
    feeds cb seen (map x_t (filter q all)) (seen1, go) -> size_of (map snd stack) <= f -> Forall node stack -> world_ok w ->
    exists w' xs, (let* (w', stack', r) := m w stack seen in
      let (seen', go) := r in
      if go then (match stack' with [] => Ok (w', seen') | (p', t') :: stack' => loop f p' t' w' stack' seen' end) else Ok (w', seen')) = Ok (w', xs) /\
      world_ok w' /\ got cb quiet seen (map x_t (filter q (all ++ work (map snd stack)))) xs.
  Proof.
    intros Hn Hl Hp Hfd Hf Hs Hw. destruct (Hl _ w stack Hp Hw Hs) as (w1 & tmp1 & -> & H1 & H2 & H3). cbn [bind]. cbn [fst] in H2. rewrite filter_app, map_app. destruct go.
    - destruct H2 as [->|[-> H2]].
      + destruct (Hn w1 stack seen1 Hf Hs H1) as (w2 & xs & E & G1 & G2). exists w2, xs. split; [exact E|]. split; auto. eapply got_app; eauto.
      + exists w1, seen1. split; auto. split; auto. apply got_cut; auto. intros Q. now rewrite <- (H3 Q).
    - exists w1, seen1. split; auto. split; auto. now apply got_stop.
  Qed.
  Lemma size_pos (t : tree) ts : 0 < size_of (t :: ts).
  Proof. pose proof (nodes_pos t). unfold size_of. cbn [fold_right]. lia. Qed.

  Lemma divisors_ok m : forall f, loop_ok (fun x => kdiv x m) (fun f => divisors_loop_n C packed cb inner f m) f.
  Proof.
    induction f as [|f IH]; intros p t w stack seen Hf Hs Hw; [pose proof (size_pos t (map snd stack)); lia|].
    assert (Hn := next_of _ _ _ IH). inversion Hs as [|? ? Ht Hst]; subst. cbn [divisors_loop_n]. unfold size_of in *. cbn [fold_right] in *.
    unfold work in *. cbn [map concat]. destruct t as [a|v e mask le gt].
    - destruct Ht as ((Ha & Hfl) & _). cbn [tree_entries nodes] in *. destruct (arr_divisors_ok C valid HL bits a m cb seen Ha Hfl) as ([seen1 go] & G1 & G2).
      eapply (leaf_then (fun x => kdiv x m) (fun f => divisors_loop_n C packed cb inner f m)); eauto; [apply leaf_divisors|unfold size_of; lia].
    - assert (Hch := node_children _ _ _ _ _ _ _ _ _ _ Ht). destruct Hch as [Hl Hg]. destruct Ht as (Ht & _). assert (Ht' := Ht). cbn [snd tree_inv] in Ht. destruct Ht as (Hv & Hb & _ & Hgt & _).
      cbn [tree_entries nodes] in *. destruct (c_tree C && negb (can_divide mask (x_mask m))) eqn:Hc.
      { apply andb_prop in Hc as [Hc1 Hc2]. destruct (Hn w stack seen) as (w' & xs & E & G1 & G2); auto; [unfold size_of; lia|]. exists w', xs. split; [exact E|]. split; auto.
        apply (got_pruned cb quiet x_t (fun x => kdiv x m) seen [] (tree_entries le ++ tree_entries gt) (concat (map tree_entries (map snd stack)))); auto.
        apply negb_true_iff in Hc2. intros y Hy. apply (below_rules_out C valid HL bits mask (tree_entries le ++ tree_entries gt)); auto.
        apply (tree_ext C valid bits _ Ht' y). exact Hy. }
      destruct (above C v e (x_t m)) eqn:Ham.
      + destruct (IH (p ++ [false]) le w ((p ++ [true], gt) :: stack) seen) as (w' & xs & E & G1 & G2); auto; [unfold size_of; cbn [map snd fold_right]; lia|]. exists w', xs. split; [exact E|]. split; auto.
        unfold work in G2. cbn [map snd concat] in G2. now rewrite app_assoc in G2.
      + destruct (IH (p ++ [false]) le w stack seen) as (w' & xs & E & G1 & G2); auto; [unfold size_of; cbn [map snd fold_right]; lia|]. exists w', xs. split; [exact E|]. split; auto.
        unfold work in G2. cbn [map concat] in G2. apply got_pruned; auto. intros y Hy. apply (no_divisor_above C valid HL v e); auto.
  Qed.
  Lemma multiples_ok m : forall f, loop_ok (fun x => kdiv m x) (fun f => multiples_loop_n C packed cb inner f m) f.
  Proof.
    induction f as [|f IH]; intros p t w stack seen Hf Hs Hw; [pose proof (size_pos t (map snd stack)); lia|].
    assert (Hn := next_of _ _ _ IH). inversion Hs as [|? ? Ht Hst]; subst. cbn [multiples_loop_n]. unfold size_of in *. cbn [fold_right] in *.
    unfold work in *. cbn [map concat]. destruct t as [a|v e mask le gt].
    - destruct Ht as ((Ha & Hfl) & _). cbn [tree_entries nodes] in *. destruct (arr_multiples_ok C valid bits a m cb seen Ha Hfl) as ([seen1 go] & G1 & G2).
      eapply (leaf_then (fun x => kdiv m x) (fun f => multiples_loop_n C packed cb inner f m)); eauto; [apply leaf_multiples|unfold size_of; lia].
    - assert (Hch := node_children _ _ _ _ _ _ _ _ _ _ Ht). destruct Hch as [Hl Hg]. destruct Ht as (Ht & _). cbn [snd tree_inv] in Ht. destruct Ht as (Hv & _ & Hle & _).
      cbn [tree_entries nodes] in *. destruct (negb (above C v e (x_t m))) eqn:Ham.
      + destruct (IH (p ++ [true]) gt w ((p ++ [false], le) :: stack) seen) as (w' & xs & E & G1 & G2); auto; [unfold size_of; cbn [map snd fold_right]; lia|]. exists w', xs. split; [exact E|]. split; auto.
        unfold work in G2. cbn [map snd concat] in G2. eapply got_perm; [|exact G2]. apply Permutation_map, filter_perm. rewrite !app_assoc. apply Permutation_app_tail, Permutation_app_comm.
      + destruct (IH (p ++ [true]) gt w stack seen) as (w' & xs & E & G1 & G2); auto; [unfold size_of; cbn [map snd fold_right]; lia|]. exists w', xs. split; [exact E|]. split; auto.
        unfold work in G2. cbn [map concat] in G2. rewrite <- app_assoc. apply (got_pruned cb quiet x_t (fun x => kdiv m x) seen [] (tree_entries le)); auto.
        apply negb_false_iff in Ham. intros y Hy. apply (no_divisor_above C valid HL v e); auto.
  Qed.
  Lemma multiples_packed_ok m : forall f, loop_ok (fun x => kdiv m x) (fun f => multiples_loop_packed_n C packed cb inner f m) f.
  Proof.
    induction f as [|f IH]; intros p t w stack seen Hf Hs Hw; [pose proof (size_pos t (map snd stack)); lia|].
    assert (Hn := next_of _ _ _ IH). inversion Hs as [|? ? Ht Hst]; subst. cbn [multiples_loop_packed_n]. unfold size_of in *. cbn [fold_right] in *.
    unfold work in *. cbn [map concat]. destruct t as [a|v e mask le gt].
    - destruct Ht as ((Ha & Hfl) & _). cbn [tree_entries nodes] in *. destruct (arr_multiples_ok C valid bits a m cb seen Ha Hfl) as ([seen1 go] & G1 & G2).
      eapply (leaf_then (fun x => kdiv m x) (fun f => multiples_loop_packed_n C packed cb inner f m)); eauto; [apply leaf_multiples|unfold size_of; lia].
    - assert (Hch := node_children _ _ _ _ _ _ _ _ _ _ Ht). destruct Hch as [Hl Hg]. destruct Ht as (Ht & _). cbn [snd tree_inv] in Ht. destruct Ht as (Hv & _ & Hle & _).
      cbn [tree_entries nodes] in *. destruct (above C v e (x_t m)) eqn:Ham.
      + destruct (IH (p ++ [true]) gt w stack seen) as (w' & xs & E & G1 & G2); auto; [unfold size_of; cbn [map snd fold_right]; lia|]. exists w', xs. split; [exact E|]. split; auto.
        unfold work in G2. cbn [map concat] in G2. rewrite <- app_assoc. apply (got_pruned cb quiet x_t (fun x => kdiv m x) seen [] (tree_entries le)); auto.
        intros y Hy. apply (no_divisor_above C valid HL v e); auto.
      + destruct (IH (p ++ [false]) le w ((p ++ [true], gt) :: stack) seen) as (w' & xs & E & G1 & G2); auto; [unfold size_of; cbn [map snd fold_right]; lia|]. exists w', xs. split; [exact E|]. split; auto.
        unfold work in G2. cbn [map snd concat] in G2. now rewrite app_assoc in G2.
  Qed.
  Lemma every (l : list ext) : filter (fun _ => true) l = l.
  Proof. apply filter_all. auto. Qed.
  Lemma for_all_ok : forall f, loop_ok (fun _ => true) (fun f => for_all_loop_n C packed cb inner f) f.
  Proof.
    induction f as [|f IH]; intros p t w stack seen Hf Hs Hw; [pose proof (size_pos t (map snd stack)); lia|].
    assert (Hn := next_of _ _ _ IH). inversion Hs as [|? ? Ht Hst]; subst. cbn [for_all_loop_n]. unfold size_of in *. cbn [fold_right] in *.
    unfold work in *. cbn [map concat]. destruct t as [a|v e mask le gt].
    - destruct Ht as ((Ha & Hfl) & _). cbn [tree_entries nodes] in *. destruct (arr_for_all_ok C valid bits a cb seen Ha Hfl) as ([seen1 go] & G1 & G2).
      eapply (leaf_then (fun _ => true) (fun f => for_all_loop_n C packed cb inner f)); eauto; [apply leaf_for_all|now rewrite every|unfold size_of; lia].
    - assert (Hch := node_children _ _ _ _ _ _ _ _ _ _ Ht). destruct Hch as [Hl Hg]. cbn [tree_entries nodes] in *.
      destruct (IH (p ++ [false]) le w ((p ++ [true], gt) :: stack) seen) as (w' & xs & E & G1 & G2); auto; [unfold size_of; cbn [map snd fold_right]; lia|]. exists w', xs. split; [exact E|]. split; auto.
      unfold work in G2. cbn [map snd concat] in G2. now rewrite app_assoc in G2.
  Qed.
  Lemma push_children_n_nodes : forall t p stack, Forall node ((p, t) :: stack) -> Forall node (push_children_n p t stack) /\ map snd (push_children_n p t stack) = push_children t (map snd stack).
  Proof.
    induction t as [a|v e mask le IHl gt IHg]; intros p stack Hs; inversion Hs as [|? ? Ht Hst]; subst; cbn [push_children_n push_children]; auto.
    assert (Hch := node_children _ _ _ _ _ _ _ _ _ _ Ht). destruct Hch as [Hl Hg]. apply (IHl (p ++ [false]) ((p ++ [true], gt) :: stack)). auto.
  Qed.
  Lemma node_inv p t : node (p, t) -> tree_inv C valid bits t.
  Proof. now intros (H & _). Qed.
  Lemma all_inv stack : Forall node stack -> Forall (tree_inv C valid bits) (map snd stack).
  Proof. intros H. apply Forall_map. eapply Forall_impl; [|exact H]. now intros ? (? & _). Qed.
  Lemma for_all_packed_ok : forall f, loop_ok (fun _ => true) (fun f => for_all_loop_packed_n C packed cb inner f) f.
  Proof.
    induction f as [|f IH]; intros p t w stack seen Hf Hs Hw; [pose proof (size_pos t (map snd stack)); lia|].
    assert (Hn := next_of _ _ _ IH). inversion Hs as [|? ? Ht Hst]; subst. cbn [for_all_loop_packed_n].
    destruct (push_children_ok C valid bits t (map snd stack) (node_inv _ _ Ht) (all_inv _ Hst)) as (P1 & P2 & P3 & P4 & P5).
    destruct (arr_for_all_ok C valid bits (node_entries t) cb seen P2 P3) as ([seen1 go] & G1 & G2).
    destruct (leaf_for_all (node_entries t) seen _ w stack G1 Hw Hst) as (w1 & tmp1 & -> & H1 & H2 & H3). cbn [bind]. cbn [fst] in H2. rewrite every.
    assert (Hp : Permutation (map x_t (a_list (node_entries t)) ++ map x_t (work (push_children t (map snd stack)))) (map x_t (wk t stack))) by (rewrite <- map_app; now apply Permutation_map).
    destruct go; [|exists w1, seen1; split; auto; split; auto; eapply got_perm; [exact Hp|]; now apply got_stop].
    assert (Hs1 : Forall node ((p, t) :: tmp1)) by (constructor; auto; destruct H2 as [->|[-> _]]; auto).
    destruct (push_children_n_nodes t p tmp1 Hs1) as [N1 N2]. 
    assert (Hle : size_of (push_children t (map snd tmp1)) <= f).
    { destruct (push_children_ok C valid bits t (map snd tmp1) (node_inv _ _ Ht)) as (_ & _ & _ & Q4 & _); [apply all_inv; inversion Hs1; auto|].
      assert (size_of (t :: map snd tmp1) <= size_of (t :: map snd stack)); [|lia]. destruct H2 as [->|[-> _]]; auto. unfold size_of. cbn [map fold_right]. lia. }
    destruct (Hn w1 (push_children_n p t tmp1) seen1) as (w2 & xs & E & K1 & K2); auto; [now rewrite N2|]. exists w2, xs. split; [exact E|]. split; auto.
    rewrite every, N2 in K2. eapply got_perm; [exact Hp|]. destruct H2 as [->|[-> H2]]; [eapply got_app; eauto|].
    assert (Hc : Permutation (map x_t (work (push_children t (map snd stack)))) (map x_t (work (push_children t [])) ++ map x_t (work (map snd stack)))).
    { destruct (push_children_ok C valid bits t [] (node_inv _ _ Ht)) as (_ & _ & _ & _ & Q5); [constructor|]. rewrite <- map_app. apply Permutation_map.
      apply (Permutation_app_inv_l (a_list (node_entries t))). rewrite P5, app_assoc, Q5. unfold work. cbn [map concat]. now rewrite app_nil_r. }
    eapply got_perm; [apply Permutation_app_head; symmetry; exact Hc|]. rewrite app_assoc.
    destruct K2 as [K3 K4]. assert (Hg := got_app cb quiet _ _ _ _ _ G2 (conj K3 K4)). cbn [map] in Hg. destruct Hg as [(zs & rest & Z1 & Z2 & Z3 & Z4) _]. split.
    - exists zs, (rest ++ map x_t (work (map snd stack))). split; auto. split; [now rewrite app_assoc, Z2|]. split; auto. intros Hz.
      exfalso. subst zs. rewrite app_nil_r in Z1. subst xs. destruct G2 as (z1 & r1 & Y1 & _). destruct K3 as (z2 & r2 & Y2 & _). cbn [fst] in Y1. subst seen1.
      rewrite <- app_assoc in Y2. rewrite <- (app_nil_r seen) in Y2 at 1. apply app_inv_head in Y2. symmetry in Y2. apply app_eq_nil in Y2 as [-> _]. apply H2. now rewrite app_nil_r.
    - intros Q. assert (E1 := H3 Q). destruct (K4 Q) as [go K5]. exists go. destruct stack; [|discriminate E1]. cbn [map work concat]. rewrite app_nil_r. eapply feeds_app; eauto.
  Qed.
End Nested.

Lemma nested_ok {M : Type} (C : kconf M) valid (HL : klegal C valid) packed s o cb all inner : inv C valid false s ->
  (forall xs, forallb is_search (inner xs) = true) -> wanted (c_divides C) o (kcontents s) = Some (cb, all) ->
  exists s' log xs, nested C packed s o inner = Ok (s', log, xs) /\ kcontents s' = kcontents s /\ got cb (quiet inner) [] all xs /\
    Forall (answer_ok C (kcontents s)) log /\ forallb is_search (map fst log) = true /\ exists rs, run (step C packed) s (map fst log) = Ok (s', rs).
Proof.
  intros Hi Hinner Hw. unfold nested. assert (Hr := i_root _ _ _ _ Hi). assert (Hb := i_bits _ _ _ _ Hi). destruct (k_tree s) as [t|] eqn:Et.
  2: { exists s, [], []. split; auto. split; auto. split; [|split; [constructor|split; auto; exists []; reflexivity]].
       unfold kcontents in Hw. rewrite Et in Hw. assert (all = []) by (destruct o; cbn in Hw; congruence). subst all. apply got_none. }
  assert (Hloop : forall q loop f, loop_ok C valid packed s t cb inner q loop f -> size_of [t] <= f -> map x_t (filter q (tree_entries t)) = all ->
    exists s' log xs, loop f [] t (s, []) [] [] = Ok (s', log, xs) /\ kcontents s' = kcontents s /\ got cb (quiet inner) [] all xs /\
      Forall (answer_ok C (kcontents s)) log /\ forallb is_search (map fst log) = true /\ exists rs, run (step C packed) s (map fst log) = Ok (s', rs)).
  { intros q loop f H Hf Hq. destruct (H [] t (s, []) [] []) as ([s' log] & xs & E & (W1 & W2 & W3 & W4 & W5 & W6) & G); auto.
    - constructor; auto. now apply node_root.
    - now apply world_start.
    - exists s', log, xs. split; auto. cbn [fst snd] in *. split; [unfold kcontents; now rewrite W2, Et|]. split; auto. unfold work in G. cbn [map concat] in G. rewrite app_nil_r, Hq in G. exact G. }
  assert (Hsz : size_of [t] <= nodes t) by (unfold size_of; cbn [fold_right]; lia).
  assert (Hc : kcontents s = map x_t (tree_entries t)) by (unfold kcontents; now rewrite Et). rewrite Hc in Hw.
  assert (Hm : forall m, _) by (intros m; exact (stale_matches C valid HL (k_bits s) t [] m Hb Hr (Forall_nil _))). cbn [stale work map concat] in Hm.
  destruct o as [e|es|m|m|m|m cb0|m cb0|cb0|m| |]; try discriminate Hw; cbn [wanted] in Hw; injection Hw as -> Hall.
  - apply (Hloop (fun x => kdiv C x (kext C (k_bits s) m)) (fun f => divisors_loop_n C packed cb inner f (kext C (k_bits s) m))); auto; [now apply divisors_ok|].
    destruct (Hm m) as [H1 _]. unfold stale, work in H1. cbn [map concat] in H1. rewrite !app_nil_r in H1. now rewrite H1.
  - assert (E : map x_t (filter (fun x => kdiv C (kext C (k_bits s) m) x) (tree_entries t)) = all).
    { destruct (Hm m) as [_ H1]. unfold stale, work in H1. cbn [map concat] in H1. rewrite !app_nil_r in H1. now rewrite H1. }
    destruct packed.
    + apply (Hloop (fun x => kdiv C (kext C (k_bits s) m) x) (fun f => multiples_loop_packed_n C true cb inner f (kext C (k_bits s) m))); auto. now apply multiples_packed_ok.
    + apply (Hloop (fun x => kdiv C (kext C (k_bits s) m) x) (fun f => multiples_loop_n C false cb inner f (kext C (k_bits s) m))); auto. now apply multiples_ok.
  - destruct packed.
    + apply (Hloop (fun _ => true) (fun f => for_all_loop_packed_n C true cb inner f)); auto; [now apply for_all_packed_ok|now rewrite every].
    + apply (Hloop (fun _ => true) (fun f => for_all_loop_n C false cb inner f)); auto; [now apply for_all_ok|now rewrite every].
Qed.
