(** Proofs about Geobucket when client functions throw: histories in which any number of calls throw. *)
From Coq Require Import List Arith Bool Lia.
From Verif.Base Require Import Res Arr Order Fault FaultFacts.
From Verif.Spec Require Import PQ PQFacts Caught.
From Verif.Geobucket Require Import Model Faults Throws ThrowsProofs TotalProofs ListProofs Proofs KeepProofs.
Import ListNotations.

(** Two runs that do the same, and return and leave behind what is related. *)
Definition frel {S A : Type} (RS : S -> S -> Prop) (RA : A -> A -> Prop) (m m' : res (fout S A)) : Prop :=
  forall f, m = Ok f -> exists f', m' = Ok f' /\
    match f, f' with Fine b a, Fine b' a' => b = b' /\ RA a a' | Left s, Left s' => RS s s' | _, _ => False end.

Lemma frel_ok {S A} (RS : S -> S -> Prop) (RA : A -> A -> Prop) b a a' : RA a a' -> frel RS RA (Ok (Fine b a)) (Ok (Fine b a')).
Proof. intros Ha f H. injection H as <-. eexists. split; [reflexivity|]. split; auto. Qed.
Lemma frel_left {S A} (RS : S -> S -> Prop) (RA : A -> A -> Prop) s s' : RS s s' -> frel RS RA (Ok (Left s)) (Ok (Left s')).
Proof. intros Ha f H. injection H as <-. eexists. split; [reflexivity|]. exact Ha. Qed.
Lemma frel_ub {S A} (RS : S -> S -> Prop) (RA : A -> A -> Prop) m : frel RS RA UB m.
Proof. intros f H. discriminate H. Qed.
Lemma frel_nofuel {S A} (RS : S -> S -> Prop) (RA : A -> A -> Prop) m : frel RS RA NoFuel m.
Proof. intros f H. discriminate H. Qed.
Lemma frel_bind {S A B} (RS : S -> S -> Prop) (RA : B -> B -> Prop) (n : res A) f f' : (forall a, n = Ok a -> frel RS RA (f a) (f' a)) -> frel RS RA (bind n f) (bind n f').
Proof. intros Hf r H. apply bind_inv in H as (a & -> & H). cbn [bind]. now apply (Hf a). Qed.
Lemma frel_bind2 {S A B} (RS : S -> S -> Prop) (RA : B -> B -> Prop) (h : A -> A) (n n' : res A) f f' :
  (forall a, n = Ok a -> n' = Ok (h a)) -> (forall a, frel RS RA (f a) (f' (h a))) -> frel RS RA (bind n f) (bind n' f').
Proof. intros Hn Hf r H. apply bind_inv in H as (a & Ha & H). rewrite (Hn a Ha). cbn [bind]. now apply (Hf a). Qed.
Lemma frel_fbind {S A B} (RS : S -> S -> Prop) (RA : A -> A -> Prop) (RB : B -> B -> Prop) (m m' : res (fout S A)) f f' :
  frel RS RA m m' -> (forall b a a', RA a a' -> frel RS RB (f b a) (f' b a')) -> frel RS RB (fbind m f) (fbind m' f').
Proof.
  intros Hm Hf r H. unfold fbind in *. destruct m as [[b a|s]| | |]; cbn [bind] in H; try discriminate H; destruct (Hm _ eq_refl) as ([b' a'|s'] & -> & Hr); cbn [bind]; try contradiction.
  - destruct Hr as [<- Ha]. now apply (Hf b a a').
  - injection H as <-. eexists. split; [reflexivity|]. exact Hr.
Qed.
Lemma frel_fleft {S S' A} (RS : S -> S -> Prop) (RS' : S' -> S' -> Prop) (RA : A -> A -> Prop) (g g' : S -> S') (m m' : res (fout S A)) :
  frel RS RA m m' -> (forall s s', RS s s' -> RS' (g s) (g' s')) -> frel RS' RA (fleft g m) (fleft g' m').
Proof.
  intros Hm Hf r H. unfold fleft in *. destruct m as [[b a|s]| | |]; cbn [bind] in H; try discriminate H; destruct (Hm _ eq_refl) as ([b' a'|s'] & -> & Hr); cbn [bind]; try contradiction.
  - destruct Hr as [<- Ha]. injection H as <-. eexists. split; [reflexivity|]. split; auto.
  - injection H as <-. eexists. split; [reflexivity|]. now apply Hf.
Qed.
Lemma frel_client {S A} (RS : S -> S -> Prop) (RA : A -> A -> Prop) b s s' k k' : RS s s' -> (forall b', frel RS RA (k b') (k' b')) -> frel RS RA (client b s k) (client b s' k').
Proof. intros Hs Hk. destruct b as [|b]; cbn [client]; [now apply frel_left|apply Hk]. Qed.
Lemma frel_refl {S A} (RS : S -> S -> Prop) (RA : A -> A -> Prop) m : (forall s, RS s s) -> (forall a, RA a a) -> frel RS RA m m.
Proof. intros H1 H2 f ->. exists f. split; [reflexivity|]. destruct f; auto. Qed.

Section UpX.
  Context {E : Type}.
  Variable lt eqv : E -> E -> bool.
  Variable dedup : E -> E -> E.
  Variable C : config.
  Hypothesis Hpm : premerge C = true.
  Notation geobucket := (geobucket E).
  Variable d : nat.
  Notation raised := (fun g g' : geobucket => g' = up d g).
  Notation raised1 := (fun (r r' : geobucket * _) => r' = (up d (fst r), snd r)).
  Notation tri := (fun (r r' : list (bucket E) * nat * _) => r' = (fst (fst r), snd (fst r) + d, snd r)).

  Lemma cm_upx : forall k b bs cnt m it,
    frel (fun s s' => s' = (fst s, snd s + d)) tri (cm_loop_x E lt eqv dedup C b k bs cnt m it) (cm_loop_x E lt eqv dedup C b k bs (cnt + d) m it).
  Proof.
    induction k as [|k IH]; intros b bs cnt m it; cbn [cm_loop_x]; [now apply frel_ok|].
    apply frel_bind; intros bk _. destruct (b_empty E bk); [apply IH|]. apply frel_bind; intros ki _. apply frel_bind; intros km _.
    apply frel_client; [reflexivity|]. intros b1. destruct (lt ki km); [apply IH|]. destruct (supportDeduplication C && eqv ki km); [|apply IH].
    apply frel_client; [reflexivity|]. intros b2. do 6 (apply frel_bind; intros ? _).
    apply (frel_bind2 _ _ (fun c => c + d)); [intros c Hc; now apply dec_up|]. intros c. apply IH.
  Qed.
  Lemma kd_upx a n i : forall k b bs cnt slots toks pos,
    frel tri tri (kd_loop_x E lt eqv dedup C b k bs cnt a slots n toks i pos) (kd_loop_x E lt eqv dedup C b k bs (cnt + d) a slots n toks i pos).
  Proof.
    induction k as [|k IH]; intros b bs cnt slots toks pos; cbn [kd_loop_x].
    - do 2 (apply frel_bind; intros ? _). now apply frel_ok.
    - do 3 (apply frel_bind; intros ? _). apply frel_client; [reflexivity|]. intros b1. destruct (lt _ _).
      + do 2 (apply frel_bind; intros ? _). apply IH.
      + destruct (_ || _); [do 2 (apply frel_bind; intros ? _); now apply frel_ok|]. apply frel_client; [reflexivity|]. intros b2.
        do 6 (apply frel_bind; intros ? _). apply (frel_bind2 _ _ (fun c => c + d)); [intros c Hc; now apply dec_up|]. intros c.
        destruct (b_empty E _); [do 2 (apply frel_bind; intros ? _); now apply frel_ok|]. do 2 (apply frel_bind; intros ? _). apply IH.
  Qed.
  Lemma keyDecreased_upx b bs cnt f i :
    frel tri tri (f_keyDecreased_x E lt eqv dedup C b bs cnt f i) (f_keyDecreased_x E lt eqv dedup C b bs (cnt + d) f i).
  Proof.
    unfold f_keyDecreased_x. destruct f as [c|a slots n toks]; [now apply frel_ok|]. apply frel_bind; intros ? _. destruct (b_empty E _).
    - apply frel_bind; intros ? _. now apply frel_ok.
    - do 2 (apply frel_bind; intros ? _). destruct (_ <=? _); [apply frel_ub|apply kd_upx].
  Qed.
  Lemma getMax_upx b g : frel raised raised1 (gb_getMax_x E lt eqv dedup C b g) (gb_getMax_x E lt eqv dedup C b (up d g)).
  Proof.
    unfold gb_getMax_x. cbn [up g_front g_bs g_count]. destruct (g_front g) as [[m|]|a slots n toks] eqn:Hf.
    - apply frel_ok. reflexivity.
    - apply frel_bind; intros m _. eapply frel_fbind; [eapply frel_fleft; [apply cm_upx|]|].
      + intros s s' ->. reflexivity.
      + intros b1 [[bs cnt] m1] a' ->. now apply frel_ok.
    - destruct (n =? 0); [apply frel_ub|]. apply frel_bind; intros m _. now apply frel_ok.
  Qed.
  Lemma addBucket_upx b g : frel raised raised (gb_addBucket_x E C b g) (gb_addBucket_x E C b (up d g)).
  Proof.
    unfold gb_addBucket_x. apply frel_client; [reflexivity|]. intros b1. apply (frel_bind2 _ _ (up d)); [intros g1 H1; now apply addBucket_up|].
    intros g1. now apply frel_ok.
  Qed.
  Lemma front_upx bs cnt (m : res (fout front front)) :
    frel raised raised (fbind (fleft (mk_gb bs cnt) m) (fun b f => Ok (Fine b (mk_gb bs cnt f))))
      (fbind (fleft (mk_gb bs (cnt + d)) m) (fun b f => Ok (Fine b (mk_gb bs (cnt + d) f)))).
  Proof.
    apply (frel_fbind _ (fun f f' : front => f = f')).
    - apply (frel_fleft (fun f f' : front => f = f')); [now apply frel_refl|]. now intros s s' ->.
    - intros b1 f f' ->. now apply frel_ok.
  Qed.
  Lemma mergeRange_upx b g i l : frel raised raised (gb_mergeRange_x E lt eqv dedup C b g i l) (gb_mergeRange_x E lt eqv dedup C b (up d g) i l).
  Proof.
    unfold gb_mergeRange_x. cbn [up g_front g_bs g_count]. apply frel_bind; intros bk _.
    destruct (match bucketStorage C with Plain => largest E (g_bs g) <? b_size E bk | _ => false end); [apply frel_ub|].
    destruct (match bucketStorage C with Plain => gb_merge_x E lt eqv dedup C b l (b_ents bk) | _ => gb_merge_x E lt eqv dedup C b (b_ents bk) l end) as [b1 [r k]|[w k]].
    - apply (frel_bind2 _ _ (fun c => c + d)); [intros c Hc; now apply dec_up|]. intros c. do 2 (apply frel_bind; intros ? _). now apply front_upx.
    - apply (frel_bind2 _ _ (fun c => c + d)); [intros c Hc; now apply dec_up|]. intros c. destruct (_ <? _); [apply frel_ub|].
      apply frel_bind; intros ? _. now apply frel_left.
  Qed.
  Lemma mergeToNonEmpty_upx b g i j : frel raised raised (gb_mergeToNonEmpty_x E lt eqv dedup C b g i j) (gb_mergeToNonEmpty_x E lt eqv dedup C b (up d g) i j).
  Proof.
    unfold gb_mergeToNonEmpty_x. cbn [up g_front g_bs g_count]. do 3 (apply frel_bind; intros ? _).
    eapply frel_fbind; [apply (mergeRange_upx b (mk_gb (g_bs g) (g_count g) a0))|]. intros b1 g1 g1' ->. cbn [up g_bs g_front g_count].
    do 3 (apply frel_bind; intros ? _). now apply frel_ok.
  Qed.
  Lemma assign_upx b g i l : frel raised raised (gb_assign_x E lt C b g i l) (gb_assign_x E lt C b (up d g) i l).
  Proof. unfold gb_assign_x. cbn [up g_front g_bs g_count]. do 3 (apply frel_bind; intros ? _). now apply front_upx. Qed.
  Lemma pre_range_upx : forall fuel b g r inc, frel raised raised1 (pre_range_x E C fuel b g r inc) (pre_range_x E C fuel b (up d g) r inc).
  Proof.
    induction fuel as [|fuel IH]; intros b g r inc; cbn [pre_range_x]; [apply frel_nofuel|]. change (g_bs (up d g)) with (g_bs g). apply frel_bind; intros ? _.
    destruct (_ <=? _); [now apply frel_ok|]. destruct (_ =? _); [|apply IH]. eapply frel_fbind; [apply addBucket_upx|]. intros b1 g1 g1' ->. now apply frel_ok.
  Qed.
  Lemma insert_upx b g i l : frel raised raised (gb_insert_x E lt eqv dedup C b g i l) (gb_insert_x E lt eqv dedup C b (up d g) i l).
  Proof.
    unfold gb_insert_x. rewrite Hpm. unfold gb_insert_premerge_x. change (g_bs (up d g)) with (g_bs g). eapply frel_fbind; [apply pre_range_upx|].
    intros b1 [g1 rb] a' ->. cbn [fst snd]. change (g_bs (up d g1)) with (g_bs g1).
    assert (Hmv : forall b k g r, frel raised raised (let* g' := pre_moves E C k g r in Ok (Fine b g')) (let* g' := pre_moves E C k (up d g) r in Ok (Fine b g'))).
    { intros b2 k g2 r. apply (frel_bind2 _ _ (up d)); [intros g3 H3; now apply pre_moves_up|]. intros g3. now apply frel_ok. }
    apply (frel_fbind _ raised).
    - destruct (i =? rb); [apply frel_ok; reflexivity|]. apply frel_bind; intros r _. destruct (b_empty E r); [apply Hmv|].
      eapply frel_fbind; [apply mergeToNonEmpty_upx|]. intros b2 g2 g2' ->. apply Hmv.
    - intros b2 g2 g2' ->. change (g_bs (up d g2)) with (g_bs g2). apply frel_bind; intros r _. destruct (b_empty E r); [apply assign_upx|apply mergeRange_upx].
  Qed.
  Lemma push_upx b g x : frel raised raised (push_x E lt eqv dedup C b g x) (push_x E lt eqv dedup C b (up d g) x).
  Proof.
    unfold push_x. change (g_bs (up d g)) with (g_bs g). change (g_front (up d g)) with (g_front g). change (S (g_count (up d g))) with (S (g_count g) + d). cbv zeta.
    apply frel_bind; intros bk _. destruct (b_size E bk =? b_cap bk); [apply (insert_upx b (mk_gb (g_bs g) (S (g_count g)) (g_front g)))|].
    destruct (b_empty E bk); [do 2 (apply frel_bind; intros ? _); now apply front_upx|].
    apply (frel_fbind _ (fun p p' => p' = p)).
    - assert (Hb : forall fuel b beg rg, frel raised (fun p p' => p' = p) (bin_search_x E lt eqv C (mk_gb (g_bs g) (S (g_count g)) (g_front g)) fuel b (b_ents bk) x beg rg)
                 (bin_search_x E lt eqv C (mk_gb (g_bs g) (S (g_count g) + d) (g_front g)) fuel b (b_ents bk) x beg rg)).
      { induction fuel as [|fuel IH]; intros b1 beg rg; cbn [bin_search_x]; [apply frel_nofuel|]. destruct (rg =? 0); [now apply frel_ok|].
        apply frel_bind; intros y _. apply frel_client; [reflexivity|]. intros b2. destruct (lt x y); [apply IH|]. destruct (_ || _); [apply IH|now apply frel_ok]. }
      assert (Hl : forall l b pos, frel raised (fun p p' => p' = p) (lin_search_x E lt eqv C (mk_gb (g_bs g) (S (g_count g)) (g_front g)) b l x pos)
                 (lin_search_x E lt eqv C (mk_gb (g_bs g) (S (g_count g) + d) (g_front g)) b l x pos)).
      { induction l as [|y l IH]; intros b1 pos; cbn [lin_search_x]; [now apply frel_ok|].
        apply frel_client; [reflexivity|]. intros b2. destruct (lt x y); [now apply frel_ok|]. destruct (_ && _); [now apply frel_ok|apply IH]. }
      destruct (minBucketBinarySearch C); [apply Hb|apply Hl].
    - intros b1 p p' ->. destruct p.
      + do 2 (apply frel_bind; intros ? _). now apply frel_ok.
      + do 2 (apply frel_bind; intros ? _). now apply front_upx.
      + apply frel_client; [reflexivity|]. intros b2. do 3 (apply frel_bind; intros ? _).
        apply (frel_bind2 _ _ (fun c => c + d)); [intros c Hc; now apply dec_up|]. intros c. now apply frel_ok.
  Qed.
  Lemma pushRange_upx b g xs : frel raised raised (pushRange_x E lt eqv dedup C b g xs) (pushRange_x E lt eqv dedup C b (up d g) xs).
  Proof.
    unfold pushRange_x. change (g_bs (up d g)) with (g_bs g). change (g_front (up d g)) with (g_front g). cbv zeta.
    replace (mk_gb (g_bs g) (g_count (up d g) + length xs) (g_front g)) with (up d (mk_gb (g_bs g) (g_count g + length xs) (g_front g)))
      by (unfold up; cbn [g_bs g_count g_front]; f_equal; lia).
    assert (Ha : forall fuel b g adj, frel raised raised (add_loop_x E C fuel b g adj) (add_loop_x E C fuel b (up d g) adj)).
    { induction fuel as [|fuel IH]; intros b1 g1 adj; cbn [add_loop_x]; [apply frel_nofuel|]. change (g_bs (up d g1)) with (g_bs g1).
      destruct (_ <? _); [|now apply frel_ok]. eapply frel_fbind; [apply addBucket_upx|]. intros b2 g2 g2' ->. apply IH. }
    eapply frel_fbind; [apply Ha|]. intros b1 g1 g1' ->. change (g_bs (up d g1)) with (g_bs g1). apply frel_bind; intros i _. apply insert_upx.
  Qed.
  Lemma pop_upx b g : frel raised raised1 (pop_x E lt eqv dedup C b g) (pop_x E lt eqv dedup C b (up d g)).
  Proof.
    unfold pop_x. eapply frel_fbind; [apply getMax_upx|]. intros b1 [g1 m] a' ->. cbn [fst snd]. change (g_bs (up d g1)) with (g_bs g1).
    change (g_front (up d g1)) with (g_front g1). change (g_count (up d g1)) with (g_count g1 + d). do 4 (apply frel_bind; intros ? _).
    apply (frel_bind2 _ _ (fun c => c + d)); [intros c Hc; now apply dec_up|]. intros c.
    eapply frel_fbind; [eapply frel_fleft; [apply keyDecreased_upx|]|].
    - intros s s' ->. reflexivity.
    - intros b2 [[bs cnt] f] a' ->. now apply frel_ok.
  Qed.
  Lemma step_upx b g o : match o with Size | Empty | Clear => False | _ => True end ->
    frel raised raised1 (gb_step_x E lt eqv dedup C b g o) (gb_step_x E lt eqv dedup C b (up d g) o).
  Proof.
    intros Ho. destruct o as [x|xs| | |x| | | |]; try contradiction; cbn [gb_step_x].
    - eapply frel_fbind; [apply push_upx|]. intros b1 g1 g1' ->. now apply frel_ok.
    - eapply frel_fbind; [apply pushRange_upx|]. intros b1 g1 g1' ->. now apply frel_ok.
    - eapply frel_fbind; [apply pop_upx|]. intros b1 [g1 y] g1' ->. now apply frel_ok.
    - unfold top_x. eapply frel_fbind; [eapply frel_fbind; [apply getMax_upx|]|].
      + intros b1 [g1 y] g1' ->. cbn [fst snd]. change (g_bs (up d g1)) with (g_bs g1). apply frel_bind; intros x _. apply (frel_ok _ raised1). reflexivity.
      + intros b1 [g1 y] g1' ->. now apply frel_ok.
    - unfold decreaseTop_x. eapply frel_fbind; [eapply frel_fbind; [apply pop_upx|]|].
      + intros b1 [g1 y] g1' ->. cbn [fst snd]. apply push_upx.
      + intros b1 g1 g1' ->. now apply frel_ok.
    - cbn [gb_step bind]. now apply frel_ok.
  Qed.
End UpX.

Section History.
  Context {E : Type}.
  Variable lt eqv : E -> E -> bool.
  Variable dedup : E -> E -> E.
  Variable C : config.
  Hypothesis Hsw : strict_weak lt.
  Hypothesis Heq : supportDeduplication C = true -> forall a b, lt a b = false -> eqv a b = true -> equivalent lt a b.
  Hypothesis Hdd : supportDeduplication C = true -> forall a b, (eqv a b || eqv b a) = true -> equivalent lt (dedup a b) a.
  Hypothesis Hg : 2 <= geoBase C.
  Hypothesis Hm : 1 <= minBucketSize C.
  Hypothesis Hif : 1 <= insertFactor C.
  Hypothesis Htf : trackFront C = false.
  Hypothesis Hpm : premerge C = true.
  Hypothesis Hst : bucketStorage C <> Plain.
  Hypothesis Hs : supportDeduplication C = false.

  Notation geobucket := (geobucket E).
  Notation dd := (dedup_dd (supportDeduplication C) (fun a b => eqv a b || eqv b a) dedup).
  Notation flat := (flat_map (@b_ents E)).
  Notation Inv := (Inv lt C).
  Notation inv := (inv lt C).
  Notation cache_ok := (cache_ok lt).
  Definition over (d : nat) (g : geobucket) : Prop := exists g0, Inv g0 /\ g = up d g0.

  Lemma dd_none l l' : merges dd l l' -> merges no_dd l l'.
  Proof. apply merges_mono. intros a b c [H _]. congruence. Qed.

  Lemma kept_over d p g g' : kept lt eqv dedup C p g g' -> over (d + p) (up d g') /\ merges no_dd (flat (g_bs g)) (flat (g_bs g')).
  Proof.
    intros (g0 & [Hw Hc Hf] & Hcf & Hmg & Hbs & Hfr & Hcnt). split; [|rewrite Hbs; now apply dd_none].
    exists (mk_gb (g_bs g0) (length (flat (g_bs g0))) (g_front g0)). split.
    - split; [split; cbn [g_bs g_count g_front]; auto|exact Hcf].
    - unfold up. cbn [g_bs g_count g_front]. specialize (Hcnt Hs). destruct g' as [bs cnt f]. cbn [g_bs g_count g_front] in *. subst. f_equal. lia.
  Qed.

  Lemma empty_up b d g : Inv g -> flat (g_bs g) = [] -> gb_getMax_x E lt eqv dedup C b (up d g) = UB.
  Proof.
    intros Hi Hfl. destruct (cache_front lt C Htf _ _ (proj1 Hi)) as [c Hc]. pose proof (proj2 Hi) as Hcf. unfold gb_getMax_x, up. cbn [g_front g_bs g_count]. rewrite Hc in *. destruct c as [m|].
    - destruct Hcf as (x & Hx & _). rewrite (flat_nil_ko _ Hfl) in Hx. discriminate Hx.
    - pose proof (first_nonempty_ok C Hg Hm Hif (g_bs g) 0) as Hfn. destruct (first_nonempty E (g_bs g) 0) as [m| | |]; try contradiction; [|reflexivity].
      destruct Hfn as (_ & (bk & Hb & Hbn) & _). exfalso. apply Hbn. destruct (b_ents bk) as [|y l] eqn:Hy; [reflexivity|]. exfalso.
      assert (Hin : In y (flat (g_bs g))) by (apply in_flat_map; exists bk; split; [eapply nth_error_In; eauto|rewrite Hy; now left]). rewrite Hfl in Hin. destruct Hin.
  Qed.

  Lemma left_over d b g o g' : Inv g -> range_calls lt true o = true -> gb_step_x E lt eqv dedup C b g o = Ok (Left g') ->
    exists p, over (d + p) (up d g') /\ xstep lt no_dd (gb_forAll E g) d o None (gb_forAll E g') (d + p).
  Proof.
    intros Hi Ho H. unfold gb_forAll. destruct o as [x|xs| | |x| | | |]; cbn [gb_step_x] in H; try (apply bind_inv in H as (y & _ & H); discriminate H).
    - apply fbind_left in H as [H|(b1 & g1 & _ & H)]; [|discriminate H]. apply (push_left lt eqv dedup C) in H; auto. destruct (kept_over d _ _ _ H) as [H1 H2].
      exists 1. split; [exact H1|]. now apply x_push.
    - apply fbind_left in H as [H|(b1 & g1 & _ & H)]; [|discriminate H]. apply (pushRange_left lt eqv dedup C) in H; auto; [|intros ->; discriminate Ho]. destruct (kept_over d _ _ _ H) as [H1 H2].
      exists (length xs). split; [exact H1|]. now apply x_range.
    - apply fbind_left in H as [H|(b1 & [g1 y] & _ & H)]; [|discriminate H]. apply (pop_left lt eqv dedup C) in H as [H1 H2]; auto.
      exists 0. rewrite Nat.add_0_r. split; [exists g'; auto|]. apply x_pop. now apply dd_none.
    - apply fbind_left in H as [H|(b1 & [g1 y] & _ & H)]; [|discriminate H]. apply (top_left lt eqv dedup C) in H as [H1 H2]; auto.
      exists 0. rewrite Nat.add_0_r. split; [exists g'; auto|]. apply x_top. now apply dd_none.
    - apply fbind_left in H as [H|(b1 & g1 & _ & H)]; [|discriminate H]. unfold decreaseTop_x in H. apply fbind_left in H as [H|(b1 & [g1 y] & Hp & H)].
      + apply (pop_left lt eqv dedup C) in H as [H1 H2]; auto. exists 0. rewrite Nat.add_0_r. split; [exists g'; auto|]. apply x_dec. now apply dd_none.
      + apply pop_normal in Hp. pose proof (pop_ok lt eqv dedup C Hsw Heq Hdd Hg Hm Hif g Hi) as Hok. rewrite Hp in Hok. destruct Hok as (Hi1 & m & H1 & H2 & H3).
        apply (push_left lt eqv dedup C) in H; auto. destruct (kept_over d _ _ _ H) as [H4 H5]. exists 1. split; [exact H4|].
        apply (x_lost _ _ _ _ x y m); [now apply dd_none|exact H2|]. eapply merges_trans; [apply dd_none; exact H3|exact H5].
  Qed.

  Lemma try_ok d g b o : over d g -> range_calls lt true o = true ->
    match gb_try E lt eqv dedup C g (b, o) with
    | Ok (g', r) => exists p, over p g' /\ xstep lt no_dd (gb_forAll E g) d o r (gb_forAll E g') p
    | UB => gb_forAll E g = [] /\ needs_nonempty o = true
    | Throw _ => False
    | NoFuel => False
    end.
  Proof.
    intros (g0 & Hi & ->) Ho.
    assert (Hapi : range_calls lt (negb (trackFront C)) o = true) by (rewrite Htf; exact Ho).
    pose proof (gb_step_ok lt eqv dedup C Hsw Heq Hdd Hg Hm Hif g0 o Hi Hapi) as Hok.
    unfold gb_try. cbn [fst snd]. change (gb_forAll E (up d g0)) with (gb_forAll E g0).
    assert (Hcase : match o with Size | Empty | Clear => False | _ => True end \/ o = Size \/ o = Empty \/ o = Clear) by (destruct o; auto).
    destruct Hcase as [Hgen|[->|[->| ->]]].
    - destruct (gb_step E lt eqv dedup C g0 o) as [[g1 r]| | |] eqn:Hstep; try contradiction.
      + destruct (step_tot lt eqv dedup C b g0 o _ Hstep) as (f & Hf & _). destruct (step_upx lt eqv dedup C Hpm d b g0 o Hgen _ Hf) as (f' & Hf' & Hr).
        rewrite Hf'. cbn [bind]. destruct f as [b1 [g2 r2]|g2], f' as [b1' a'|g2']; try contradiction.
        * destruct Hr as [<- ->]. cbn [fst snd]. apply step_normal in Hf. rewrite Hstep in Hf. injection Hf as <- <-. destruct Hok as [H1 H2].
          exists d. split; [exists g1; auto|]. change (gb_forAll E (up d g1)) with (gb_forAll E g1). apply x_other; [exact Hgen|].
          eapply sstep_mono; [|exact H2]. intros x y z [H3 _]. congruence.
        * subst g2'. destruct (left_over d b g0 o g2 Hi Ho Hf) as (p & H1 & H2). exists (d + p). split; [exact H1|exact H2].
      + destruct Hok as [Hfl Hn]. destruct o; cbn in Hn; try discriminate Hn; cbn [gb_step_x]; unfold decreaseTop_x, top_x, pop_x;
          rewrite (empty_up b d g0 Hi Hfl); cbn; auto.
    - cbn [gb_step_x gb_step bind]. exists d. split; [exists g0; auto|]. change (gb_forAll E (up d g0)) with (gb_forAll E g0).
      replace (gb_size E (up d g0)) with (length (gb_forAll E g0) + d) by (destruct Hi as [[_ Hc _] _]; unfold gb_size, up, gb_forAll; cbn [g_count]; rewrite Hc; lia).
      apply x_size.
    - cbn [gb_step_x gb_step bind]. exists d. split; [exists g0; auto|]. change (gb_forAll E (up d g0)) with (gb_forAll E g0).
      replace (gb_empty E (up d g0)) with (length (gb_forAll E g0) + d =? 0) by
        (destruct Hi as [[_ Hc _] _]; unfold gb_empty, gb_size, up, gb_forAll; cbn [g_count]; rewrite Hc; f_equal; lia).
      apply x_empty.
    - cbn [gb_step_x gb_step bind] in *. destruct Hok as [H1 H2]. exists 0. split.
      + exists (gb_clear E g0). split; [exact H1|]. unfold up, gb_clear. cbn [g_bs g_count g_front]. reflexivity.
      + change (gb_clear E (up d g0)) with (gb_clear E g0). replace (gb_forAll E (gb_clear E g0)) with (@nil E); [apply x_clear|]. now inversion H2.
  Qed.

  Lemma try_run : forall ops g d, over d g -> forallb (fun bo => range_calls lt true (snd bo)) ops = true ->
    match run (gb_try E lt eqv dedup C) g ops with
    | Ok (g', rs) => exists p, over p g' /\ xtrace lt no_dd (gb_forAll E g) d (map snd ops) rs (gb_forAll E g') p
    | UB => exists pre b o post g' rs p, ops = pre ++ (b, o) :: post /\ needs_nonempty o = true /\ run (gb_try E lt eqv dedup C) g pre = Ok (g', rs) /\
              gb_forAll E g' = [] /\ xtrace lt no_dd (gb_forAll E g) d (map snd pre) rs [] p
    | Throw _ => False
    | NoFuel => False
    end.
  Proof.
    induction ops as [|[b o] ops IH]; intros g d Ho Hapi; cbn [run].
    - exists d. split; [exact Ho|constructor].
    - cbn [forallb snd] in Hapi. apply andb_true_iff in Hapi as [Ha Hapi]. pose proof (try_ok d g b o Ho Ha) as Ht.
      destruct (gb_try E lt eqv dedup C g (b, o)) as [[g1 r]| | |] eqn:Hg1; cbn [bind]; try contradiction.
      + destruct Ht as (p & H1 & H2). specialize (IH g1 p H1 Hapi). destruct (run (gb_try E lt eqv dedup C) g1 ops) as [[g2 rs]| | |]; cbn [bind]; try contradiction.
        * destruct IH as (q & H3 & H4). exists q. split; [exact H3|]. cbn [map snd]. eapply xt_cons; eassumption.
        * destruct IH as (pre & b1 & o1 & post & g2 & rs & q & -> & H3 & H4 & H5 & H6). exists ((b, o) :: pre), b1, o1, post, g2, (r :: rs), q.
          split; [reflexivity|]. split; [exact H3|]. cbn [run map snd]. rewrite Hg1. cbn [bind]. rewrite H4. cbn [bind]. split; [reflexivity|]. split; [exact H5|].
          eapply xt_cons; eassumption.
      + destruct Ht as [H1 H2]. exists [], b, o, ops, g, [], d. split; [reflexivity|]. split; [exact H2|]. split; [reflexivity|]. split; [exact H1|]. rewrite H1. constructor.
  Qed.

  Lemma try_history ops : forallb (fun bo => range_calls lt true (snd bo)) ops = true ->
    match run (gb_try E lt eqv dedup C) (gb_new E C) ops with
    | Ok (g', rs) => exists p, xtrace lt no_dd [] 0 (map snd ops) rs (gb_forAll E g') p
    | UB => exists pre b o post g' rs p, ops = pre ++ (b, o) :: post /\ needs_nonempty o = true /\ run (gb_try E lt eqv dedup C) (gb_new E C) pre = Ok (g', rs) /\
              gb_forAll E g' = [] /\ xtrace lt no_dd [] 0 (map snd pre) rs [] p
    | Throw _ => False
    | NoFuel => False
    end.
  Proof.
    intros Hapi. assert (Ho : over 0 (gb_new E C)).
    { exists (gb_new E C). split; [|unfold up, gb_new; cbn [g_bs g_count g_front]; reflexivity]. apply gb_new_inv; auto. }
    pose proof (try_run ops _ 0 Ho Hapi) as H. change (gb_forAll E (gb_new E C)) with (@nil E) in H.
    destruct (run (gb_try E lt eqv dedup C) (gb_new E C) ops) as [[g rs]| | |]; auto. destruct H as (p & _ & H). eauto.
  Qed.
End History.
