(** Proofs about changing the top entry in place. *)
From Coq Require Import List Arith Bool Lia Permutation.
From Verif.Base Require Import Res Arr Order.
From Verif.Spec Require Import PQ PQFacts.
From Verif.Heap Require Import Model Proofs.
From Verif.TourTree Require Import Model Proofs Faults FaultsProofs PartialProofs.
From Verif.Geobucket Require Import Model ListProofs Proofs.
From Verif.Queues Require Import InPlace.
Import ListNotations.

(** * What a queue must do for its top entry to be changed in place *)
Section Lift.
  Context {E St : Type}.
  Variable lt : E -> E -> bool.
  Variable dd : E -> E -> E -> Prop.
  Variable step : St -> op E -> res (St * out E).
  Variable change : St -> E -> res St.
  Variable changes : nat -> E.
  Variable abs : St -> list E.
  Variable Inv : St -> Prop.
  Variable api : op E -> bool.
  Definition removes (o : op E) : bool := match o with Pop | DecreaseTop _ => true | _ => false end.

  Hypothesis Hstep : forall s o, Inv s -> api o = true ->
    match step s o with
    | Ok (s', r) => Inv s' /\ sstep lt dd (abs s) o r (abs s')
    | UB => abs s = [] /\ needs_nonempty o = true
    | Throw _ => False
    | NoFuel => False
    end.
  Hypothesis Htop : api Top = true.
  Hypothesis Hchange : forall s s1 t c o, Inv s -> step s Top = Ok (s1, OEntry t) -> api o = true -> removes o = true ->
    exists s2 s3 r, change s1 c = Ok s2 /\ step s2 o = Ok (s3, r) /\ Inv s3 /\
      sstep lt dd (abs s) o (match o with Pop => OEntry t | _ => r end) (abs s3).

  Lemma in_place_pq init : Inv init -> abs init = [] ->
    pq_correct lt dd (in_place step change changes) (init, 0) (fun sn => abs (fst sn)) api.
  Proof.
    intros Hi Ha. apply pq_correct_lift with (Inv := fun sn => Inv (fst sn)); auto. clear init Hi Ha.
    intros [s n] o Hi Hapi. cbn [fst] in Hi. unfold in_place.
    destruct (removes o) eqn:Hr.
    - pose proof (Hstep s Top Hi Htop) as Ht.
      assert (Hn : needs_nonempty o = true) by (destruct o; auto; discriminate).
      assert (G : match (let* (s1, t) := step s Top in let* s2 := change s1 (changes n) in let* (s3, r) := step s2 o in
                         Ok (s3, S n, match o with Pop => t | _ => r end)) with
                  | Ok (s', r) => Inv (fst s') /\ sstep lt dd (abs (fst (s, n))) o r (abs (fst s'))
                  | UB => abs (fst (s, n)) = [] /\ needs_nonempty o = true
                  | Throw _ => False
                  | NoFuel => False
                  end); [|destruct o; auto; discriminate].
      cbn [fst]. destruct (step s Top) as [[s1 t]| | |] eqn:Hs; cbn [bind]; auto; [|tauto].
      destruct Ht as [_ Ht]. inversion Ht as [| | |x l' Hm Hx| | | | |]; subst.
      destruct (Hchange s s1 x (changes n) o Hi Hs Hapi Hr) as (s2 & s3 & r & H1 & H2 & H3 & H4). rewrite H1. cbn [bind]. rewrite H2. cbn [bind fst]. auto.
    - pose proof (Hstep s o Hi Hapi) as Ht.
      destruct o; try discriminate; cbn [fst]; destruct (step s _) as [[s' r]| | |]; cbn [bind fst]; auto.
  Qed.
End Lift.

(** * Heap *)
Section HeapInPlace.
  Context {E : Type}.
  Variable lt eqv : E -> E -> bool.
  Variable supportDedup : bool.
  Variable dedup : E -> E -> E.
  Hypothesis Hsw : strict_weak lt.
  Hypothesis Hdd : supportDedup = true -> forall a b, lt a b = false -> eqv a b = true -> equivalent lt (dedup a b) a.

  (** The hole at the root is filled before it is read. *)
  Lemma moveHoleDown_root c h r : r <> [] -> moveHoleDown E lt (c :: r) 1 = moveHoleDown E lt (h :: r) 1.
  Proof.
    intros Hr. unfold moveHoleDown. cbn [length]. destruct r as [|a [|b r]]; [congruence|reflexivity|].
    cbn [length]. set (n := S (S (S (length r)))). assert (Hf : 2 <= (n + 1) / 2).
    { unfold n. apply Nat.div_le_lower_bound; lia. }
    assert (Hn : exists k, n = S k) by (exists (S (S (length r))); auto). destruct Hn as [k Hn].
    set (fw := (n + 1) / 2) in *. clearbody fw. rewrite Hn. cbn [hole_loop]. destruct (Nat.ltb_spec 1 fw); [|lia].
    change (2 * 1) with 2. change (2 + 1) with 3. cbn [tget vget nth_error of_option bind].
    destruct (lt a b); cbn [tget vget nth_error of_option bind tset]; unfold vset; cbn [length Nat.ltb Nat.leb upd bind]; reflexivity.
  Qed.

  Lemma decreaseTop_root c h r x : heap_decreaseTop E lt eqv supportDedup dedup (c :: r) x = heap_decreaseTop E lt eqv supportDedup dedup (h :: r) x.
  Proof.
    unfold heap_decreaseTop. destruct r as [|a r]; [reflexivity|]. rewrite (moveHoleDown_root c h (a :: r)) by discriminate. reflexivity.
  Qed.

  Lemma pop_root c h r t' x : heap_pop E lt eqv supportDedup dedup (h :: r) = Ok (t', x) -> heap_pop E lt eqv supportDedup dedup (c :: r) = Ok (t', c).
  Proof.
    unfold heap_pop. cbn [tget vget nth_error of_option bind]. destruct r as [|a r]; [intros H; injection H as <- _; reflexivity|].
    change (length (c :: a :: r)) with (length (h :: a :: r)). unfold tget. cbn [length].
    unfold vget. cbn [nth_error]. destruct (nth_error (a :: r) (length r)) as [m|]; cbn [of_option bind]; [|discriminate].
    change (removelast (h :: a :: r)) with (h :: removelast (a :: r)). change (removelast (c :: a :: r)) with (c :: removelast (a :: r)).
    pose proof (decreaseTop_root c h (removelast (a :: r)) m) as H. unfold heap_decreaseTop in H. cbn iota.
    set (f := fun p : list E * nat => let (t1, hole) := p in moveValueUp E lt eqv supportDedup dedup (length t1 + 1) t1 hole m).
    assert (G : forall t (y : E), (let* (t2, hole) := moveHoleDown E lt t 1 in let* t3 := moveValueUp E lt eqv supportDedup dedup (length t2 + 1) t2 hole m in
                      Ok (t3, y)) = (let* t3 := (let* p := moveHoleDown E lt t 1 in f p) in Ok (t3, y))).
    { intros t y. destruct (moveHoleDown E lt t 1) as [[t2 hole]| | |]; reflexivity. }
    rewrite !G. assert (H' : (let* p := moveHoleDown E lt (c :: removelast (a :: r)) 1 in f p) = (let* p := moveHoleDown E lt (h :: removelast (a :: r)) 1 in f p)) by exact H.
    rewrite H'. destruct (let* p := moveHoleDown E lt (h :: removelast (a :: r)) 1 in f p) as [t3| | |]; try discriminate. cbn [bind]. congruence.
  Qed.

  Lemma heap_in_place changes :
    pq_correct lt (dedup_dd supportDedup eqv dedup) (in_place (heap_step E lt eqv supportDedup dedup) heap_change changes) ([], 0) fst (fun _ => true).
  Proof.
    apply (in_place_pq lt _ _ heap_change changes (fun t => t) (valid lt)); auto.
    - intros t o Hv _. apply heap_step_correct; auto.
    - intros t t1 x c o Hv Ht _ Hr. cbn [heap_step] in Ht. destruct t as [|h r]; [discriminate|].
      cbn [heap_top tget vget nth_error of_option bind] in Ht. injection Ht as <- <-.
      cbn [heap_change tset]. unfold vset. cbn [length Nat.ltb Nat.leb upd].
      pose proof (heap_step_correct lt eqv supportDedup dedup Hsw Hdd (h :: r) o Hv) as H.
      destruct o as [x|xs| | |x| | | |]; try discriminate; cbn [heap_step] in *.
      + destruct (heap_pop _ _ _ _ _ (h :: r)) as [[t' x]| | |] eqn:Hp; cbn [bind] in H; try (destruct H; fail); [|destruct H; discriminate].
        assert (x = h).
        { unfold heap_pop in Hp. cbn [tget vget nth_error of_option bind] in Hp. destruct (tget (h :: r) (length (h :: r))); try discriminate. cbn [bind] in Hp.
          destruct (removelast (h :: r)); [congruence|]. destruct (moveHoleDown _ _ _ _) as [[? ?]| | |]; try discriminate. cbn [bind] in Hp.
          destruct (moveValueUp _ _ _ _ _ _ _ _ _); try discriminate. cbn [bind] in Hp. congruence. }
        subst x. exists (c :: r), t', (OEntry c). split; [reflexivity|]. rewrite (pop_root c h r t' h Hp). split; [reflexivity|]. exact H.
      + destruct (heap_decreaseTop _ _ _ _ _ (h :: r) x) as [t'| | |] eqn:Hp; cbn [bind] in H; try (destruct H; fail); [|destruct H; discriminate].
        exists (c :: r), t', ONone. split; [reflexivity|]. rewrite (decreaseTop_root c h r x), Hp. split; [reflexivity|]. exact H.
    - intros i Hi; simpl in Hi; lia.
  Qed.
End HeapInPlace.

(** * TourTree *)
Section TreeInPlace.
  Context {E : Type}.
  Variable lt : E -> E -> bool.
  Hypothesis Hsw : strict_weak lt.
  Notation ltd := (fun a b => Ok (lt a b)).

  Lemma pop_f_total s s' x : tt_pop_f E ltd s = Ok (s', x, None) -> tt_pop E lt s = Ok (s', x).
  Proof.
    intros H. pose proof (tt_pop_map (fun e : E => e) lt ltd (fun _ _ => eq_refl) s) as Hm. rewrite map_tt_id, H in Hm.
    destruct (tt_pop E lt s) as [[s1 y]| | |]; try discriminate. cbn in Hm. rewrite map_tt_id in Hm. congruence.
  Qed.
  Lemma decreaseTop_f_total s s' x : tt_decreaseTop_f E ltd s x = Ok (s', None) -> tt_decreaseTop E lt s x = Ok s'.
  Proof.
    intros H. pose proof (tt_decreaseTop_map (fun e : E => e) lt ltd (fun _ _ => eq_refl) s x) as Hm. rewrite map_tt_id, H in Hm.
    destruct (tt_decreaseTop E lt s x) as [s1| | |]; try discriminate. cbn in Hm. rewrite map_tt_id in Hm. congruence.
  Qed.

  Lemma tt_in_place changes :
    pq_correct lt no_dd (in_place (tt_step E lt) tt_change changes) (tt_new E, 0) (fun sn => contents (fst sn)) (tt_api E).
  Proof.
    apply (in_place_pq lt _ _ tt_change changes contents (TourTree.Proofs.inv lt)); auto; [| |apply tt_new_inv].
    - apply tt_step_correct; auto.
    - intros s s1 t c o Hi Ht Ha Hr.
      assert (Hne : tt_players s <> []).
      { intros He. apply (inv_nil _ _ Hi) in He. cbn [tt_step] in Ht. unfold tt_top in Ht. rewrite He in Ht. discriminate. }
      cbn [tt_step] in Ht. destruct (tt_top E s) as [x| | |] eqn:Htop; try discriminate. cbn [bind] in Ht. injection Ht as <- <-.
      pose proof (tt_step_correct lt Hsw s o Hi Ha) as H.
      destruct o as [y|xs| | |y| | | |]; try discriminate; cbn [tt_step] in *.
      + destruct (pop_changed lt Hsw ltd s c Hi Hne) as (sc & s' & t & Hc & Hp & Ht & Hpc). rewrite Hp in H. cbn [bind] in H.
        assert (t = x) by congruence. subst t. exists sc, s', (OEntry c). split; auto. rewrite (pop_f_total sc s' c) by (apply Hpc; intros ? ? _ _; reflexivity).
        cbn [bind]. auto.
      + destruct (decreaseTop_changed lt Hsw ltd s c y Hi Hne) as (sc & s' & Hc & Hp & Hpc). rewrite Hp in H. cbn [bind] in H.
        exists sc, s', ONone. split; auto. rewrite (decreaseTop_f_total sc s' y) by (apply Hpc; intros ? ? _ _; reflexivity). cbn [bind]. auto.
  Qed.
End TreeInPlace.

(** * Geobucket *)
Section GeoInPlace.
  Context {E : Type}.
  Variable lt eqv : E -> E -> bool.
  Variable dedup : E -> E -> E.
  Variable C : config.
  Hypothesis Hsw : strict_weak lt.
  Hypothesis Heq : supportDeduplication C = true -> forall a b, lt a b = false -> eqv a b = true -> equivalent lt a b.
  Hypothesis Hdd : supportDeduplication C = true -> forall a b, (eqv a b || eqv b a) = true -> equivalent lt (dedup a b) a.
  Hypothesis Hg : 2 <= geoBase C.
  Hypothesis Hm : 1 <= minBucketSize C.
  Hypothesis Hi : 1 <= insertFactor C.
  Notation dd := (dedup_dd (supportDeduplication C) (fun a b => eqv a b || eqv b a) dedup).
  Notation flat := (flat_map (@b_ents E)).
  Notation Inv := (Inv lt C).

  (** Once getMax has been called, it and the change of the top entry refer to the same bucket. *)
  Lemma getMax_change g g1 m c bs : gb_getMax E lt eqv dedup C g = Ok (g1, m) ->
    gb_change C g1 c = (let* b := vget (g_bs g1) m in let* b' := bk_setEntry E C b (b_size E b - 1) c in let* bs := vset (g_bs g1) m b' in
                        Ok (mk_gb bs (g_count g1) (g_front g1))) /\
    gb_getMax E lt eqv dedup C (mk_gb bs (g_count g1) (g_front g1)) = Ok (mk_gb bs (g_count g1) (g_front g1), m).
  Proof.
    unfold gb_change, gb_getMax. cbn [g_front]. destruct (g_front g) as [[i|]|a slots n toks] eqn:Hf.
    - intros H. injection H as <- <-. now rewrite Hf.
    - destruct (first_nonempty E (g_bs g) 0) as [i| | |]; try discriminate. cbn [bind].
      destruct (cm_loop _ _ _ _ _ _ _ _ _) as [[[bs' cnt] j]| | |]; try discriminate. cbn [bind]. intros H. injection H as <- <-. auto.
    - destruct (n =? 0) eqn:Hn; [discriminate|]. destruct (slot slots 0) as [i| | |] eqn:Hs; try discriminate. cbn [bind]. intros H. injection H as <- <-.
      rewrite Hf, Hn, Hs. auto.
  Qed.

  Lemma removelast_upd_last (l : list E) c : removelast (upd l (length l - 1) c) = removelast l.
  Proof.
    destruct l as [|a l] using rev_ind; auto. rewrite app_length. cbn [length]. rewrite upd_app_r by lia.
    replace (length l + 1 - 1 - length l) with 0 by lia. cbn [upd]. now rewrite !removelast_last.
  Qed.

  Lemma gb_pop_changed g g1 t c : Inv g -> gb_top E lt eqv dedup C g = Ok (g1, t) ->
    exists g2 g3 r m, gb_change C g1 c = Ok g2 /\ gb_pop E lt eqv dedup C g2 = Ok (g3, r) /\ Inv g3 /\
      merges dd (flat (g_bs g)) (t :: m) /\ is_max lt t (t :: m) /\ merges dd m (flat (g_bs g3)).
  Proof.
    intros Hinv Ht. unfold gb_top in Ht. pose proof (getMax_ok lt eqv dedup C Hsw Heq Hdd Hg Hm Hi g Hinv) as Hgm.
    destruct (gb_getMax E lt eqv dedup C g) as [[g' m]| | |] eqn:HG; try discriminate. cbn [bind] in Ht.
    destruct Hgm as (Hi1 & Hmg & x & Hx & Hmax). pose proof (i_wf _ _ _ _ (proj1 Hi1)) as Hw. rewrite (key_ok lt C _ _ _ Hw Hx) in Ht. cbn [bind] in Ht.
    injection Ht as -> ->. pose proof Hx as Hx0. apply ko_inv in Hx as (b & Hb & Hx).
    assert (Hbm : is_max lt t (flat (g_bs g1))) by (eapply flat_max; eauto; apply Hi1).
    pose proof (wf_good _ _ _ Hw _ _ Hb) as [A L B]. pose proof (nth_error_some_lt _ _ _ Hb) as Hml.
    assert (Hne : b_ents b <> []) by (intros H; rewrite H in Hx; discriminate).
    assert (Hlen : length (b_ents b) - 1 < length (b_ents b)) by (destruct (b_ents b); [congruence|simpl; lia]).
    set (bc := mk_b (b_cap b) (upd (b_ents b) (length (b_ents b) - 1) c) (if collectMax C && true then Some c else b_back b)).
    assert (Hset : bk_setEntry E C b (b_size E b - 1) c = Ok bc).
    { unfold bk_setEntry, b_size, bc. rewrite vset_ok by auto. cbn [bind]. rewrite upd_length, Nat.eqb_refl. reflexivity. }
    assert (Hbce : b_empty E bc = false).
    { destruct (b_empty_spec bc) as [He|He]; auto. cbn [bc b_ents] in He. apply (f_equal (@length _)) in He. rewrite upd_length in He. simpl in He.
      destruct (b_ents b); [congruence|discriminate]. }
    set (b' := mk_b (b_cap b) (removelast (b_ents b)) (if collectMax C then new_back E (removelast (b_ents b)) (b_back bc) else b_back bc)).
    assert (Hpop : bk_pop_back E C bc = Ok b').
    { unfold bk_pop_back. rewrite Hbce. unfold b', bc. cbn [b_ents b_cap b_back]. now rewrite removelast_upd_last. }
    assert (Hgd : bgood lt C b').
    { split; cbn [b' b_ents b_cap b_back].
      - now apply asc_removelast.
      - rewrite removelast_length. lia.
      - intros Hc Hn. rewrite Hc. unfold new_back. destruct (@last_entry_some E _ Hn) as (l' & z & _ & ->). auto. }
    assert (Hbk : exists r, bk_back E C bc = Ok r).
    { unfold bk_back. rewrite Hbce. cbn [bc b_back b_ents]. destruct (collectMax C); cbn [andb of_option]; [eauto|].
      unfold last_entry. rewrite upd_length, nth_upd_same by auto. cbn. eauto. }
    destruct Hbk as [r Hbk].
    destruct (getMax_change g g1 m c (upd (g_bs g1) m bc) HG) as [Hch HG2].
    destruct (pop_rest lt eqv dedup C Hsw Heq Hdd Hg Hm Hi g1 m b t b' Hi1 Hb Hx) as (Hdec & Hp & bs' & cnt' & f' & Hk & Hi' & Mg); auto.
    exists (mk_gb (upd (g_bs g1) m bc) (g_count g1) (g_front g1)), (mk_gb bs' cnt' f'), r, (flat (upd (g_bs g1) m b')).
    split. { rewrite Hch. unfold vget. rewrite Hb. cbn [of_option bind]. rewrite Hset. cbn [bind]. now rewrite vset_ok. }
    split.
    { unfold gb_pop. rewrite HG2. cbn [bind g_bs g_count g_front]. unfold vget. rewrite nth_upd_same by auto. cbn [of_option bind].
      rewrite Hbk. cbn [bind]. rewrite Hpop. cbn [bind]. rewrite vset_ok by (now rewrite upd_length). cbn [bind]. rewrite upd_upd, Hdec. cbn [bind].
      rewrite Hk. reflexivity. }
    split; auto. split; [eapply merges_trans; [exact Hmg|now apply merges_perm]|]. split; auto.
    eapply is_max_perm; eauto.
  Qed.

  Lemma gb_in_place changes :
    pq_correct lt dd (in_place (gb_step E lt eqv dedup C) (gb_change C) changes) (gb_new E C, 0) (fun sn => gb_forAll E (fst sn))
      (range_calls lt (negb (trackFront C))).
  Proof.
    apply (in_place_pq lt _ _ (gb_change C) changes (gb_forAll E) Inv); auto.
    - apply gb_step_ok; auto.
    - intros g g1 t c o Hinv Ht _ Hr. cbn [gb_step] in Ht. destruct (gb_top E lt eqv dedup C g) as [[g' x]| | |] eqn:Htop; try discriminate.
      cbn [bind] in Ht. injection Ht as -> ->. unfold gb_forAll.
      destruct (gb_pop_changed g g1 t c Hinv Htop) as (g2 & g3 & r & m & Hc & Hp & Hi3 & M1 & M2 & M3).
      destruct o as [y|xs| | |y| | | |]; try discriminate; cbn [gb_step].
      + exists g2, g3, (OEntry r). rewrite Hp. cbn [bind]. split; auto. split; auto. split; auto. econstructor; eauto.
      + destruct (push_ok lt eqv dedup C Hsw Heq Hdd Hg Hm g3 y Hi3) as (g4 & Hpu & Hi4 & M4).
        exists g2, g4, ONone. unfold gb_decreaseTop. rewrite Hp. cbn [bind]. rewrite Hpu. cbn [bind]. split; auto. split; auto. split; auto.
        econstructor; eauto. eapply merges_trans; [apply merges_cons; exact M3|auto].
    - apply gb_new_inv; auto.
  Qed.
End GeoInPlace.
