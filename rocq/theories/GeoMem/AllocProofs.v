(** Proofs about GeoMem/Alloc.v. *)
From Coq Require Import List Arith Bool Lia Permutation.
From Verif.Base Require Import Res Arr Order Fault FaultFacts.
From Verif.Spec Require Import PQ PQFacts Caught.
From Verif.Geobucket Require Import Model Proofs KeepProofs.
From Verif.GeoMem Require Import Model Areas MemProofs RepProofs Proofs GrowProofs StepProofs Alloc.
Import ListNotations.

Section AllocProofs.
  Context {E : Type}.
  Variable lt eqv : E -> E -> bool.
  Variable dedup : E -> E -> E.
  Variable C : config.
  Variable w : alloc.
  Notation mgb := (mgb E).
  Notation geobucket := (geobucket E).

  (** ** What a call that throws has done before *)

  (** Only buckets were added *)
  Inductive adds : mgb -> mgb -> Prop :=
  | adds_nil g : adds g g
  | adds_cons g g1 g2 : mg_addBucket E C g = Ok g1 -> adds g1 g2 -> adds g g2.
  Lemma adds_trans g g1 g2 : adds g g1 -> adds g1 g2 -> adds g g2.
  Proof. induction 1 as [|g ga gb Ha _ IH]; auto. intros H. econstructor; eauto. Qed.
  Lemma adds_one g g1 : mg_addBucket E C g = Ok g1 -> adds g g1.
  Proof. intros H. econstructor; [exact H|constructor]. Qed.

  (** ... and then an allocation failed *)
  Definition thrown (g s : mgb) : Prop := exists g1, adds g g1 /\ makes w (mg_front E g1) = true /\ mg_spoil E C w g1 = Ok s.

  (** The function with failing allocations against the one without *)
  Definition tri {A} (g : mgb) (m : res (fout mgb A)) (n : res A) : Prop :=
    match m with
    | Ok (Fine _ a) => n = Ok a
    | Ok (Left s) => thrown g s
    | UB => n = UB
    | Throw e => n = Throw e
    | NoFuel => n = NoFuel
    end.

  Lemma tri_pure {A} g b (n : res A) : tri g (let* r := n in Ok (Fine b r)) n.
  Proof. destruct n; cbn; auto. Qed.
  Lemma tri_fine {A} g b (a : A) : tri g (Ok (Fine b a)) (Ok a).
  Proof. reflexivity. Qed.
  Lemma tri_weaken {A} g g1 (m : res (fout mgb A)) n : adds g g1 -> tri g1 m n -> tri g m n.
  Proof. intros Ha. destruct m as [[b a|s]| | |]; auto. intros (g2 & H1 & H2). exists g2. split; [eapply adds_trans; eauto|exact H2]. Qed.
  Lemma tri_bind {A B} g (n : res A) (f : A -> res (fout mgb B)) h : (forall a, n = Ok a -> tri g (f a) (h a)) -> tri g (bind n f) (bind n h).
  Proof. destruct n; cbn [bind]; intros H; [now apply H| | |]; reflexivity. Qed.
  Lemma tri_fbind {A B} g (m : res (fout mgb A)) n (f : nat -> A -> res (fout mgb B)) h :
    tri g m n -> (forall b a, n = Ok a -> tri g (f b a) (h a)) -> tri g (fbind m f) (bind n h).
  Proof.
    intros Hm Hf. unfold fbind. destruct m as [[b a|s]| | |]; cbn [bind tri] in *.
    - rewrite Hm. cbn [bind]. now apply Hf.
    - exact Hm.
    - now rewrite Hm.
    - now rewrite Hm.
    - now rewrite Hm.
  Qed.

  (** The state left by a failure is there unless addBucket itself is undefined *)
  Lemma spoil_ok g : match mg_spoil E C w g with
    | Ok _ => True | UB => mg_addBucket E C g = UB | Throw e => mg_addBucket E C g = Throw e | NoFuel => mg_addBucket E C g = NoFuel end.
  Proof.
    unfold mg_addBucket, mg_spoil. destruct w; [exact I| |]; cbv zeta;
      destruct (_ <? length (m_cells E (mg_mem E g))); try reflexivity;
      destruct (place_loop E C _ _ _ _ _) as [[[bs1 new] off]| | |]; cbn [bind]; try reflexivity;
      destruct (addr E new off) as [buf| | |]; cbn [bind]; try reflexivity;
      (destruct (double C); [destruct (addr E new (off + _)) as [q| | |]; cbn [bind]; try reflexivity|]);
      cbn [bind]; destruct (mg_front E g); exact I.
  Qed.
  Lemma addBucket_tri b g : tri g (mg_addBucket_a E C w b g) (mg_addBucket E C g).
  Proof.
    unfold mg_addBucket_a. destruct (makes w (mg_front E g)) eqn:Hm; [|apply tri_pure]. destruct b as [|b]; [|apply tri_pure].
    pose proof (spoil_ok g) as H. destruct (mg_spoil E C w g) as [s| | |] eqn:Hs; cbn [bind tri]; auto. exists g. split; [constructor|auto].
  Qed.

  Lemma grow_tri : forall fuel b g i acc, tri g (mgrow_loop_a E C w fuel b g i acc) (mgrow_loop E C fuel g i acc).
  Proof.
    induction fuel as [|fuel IH]; intros b g i acc; cbn [mgrow_loop_a mgrow_loop]; [reflexivity|].
    destruct (i =? length (mg_bs E g)) eqn:Hi.
    - apply tri_fbind; [apply addBucket_tri|]. intros b1 g1 H1. apply (tri_weaken g g1); [now apply adds_one|].
      apply tri_bind. intros bk _. cbv zeta. destruct (_ <=? _); [apply tri_fine|apply IH].
    - apply tri_fbind; [apply tri_fine|]. intros b1 g1 H1. injection H1 as <-.
      apply tri_bind. intros bk _. cbv zeta. destruct (_ <=? _); [apply tri_fine|apply IH].
  Qed.
  Lemma nopremerge_tri b g i l : tri g (mg_insert_nopremerge_a E lt eqv dedup C w b g i l) (mg_insert_nopremerge E lt eqv dedup C g i l).
  Proof.
    unfold mg_insert_nopremerge_a, mg_insert_nopremerge. apply tri_bind. intros bk _. destruct (mb_empty E bk); [apply tri_pure|].
    destruct (_ <=? _); [apply tri_pure|]. apply tri_fbind; [apply grow_tri|]. intros b1 g1 _. apply tri_pure.
  Qed.
  Lemma pre_range_tri : forall fuel b g r inc, tri g (mpre_range_a E C w fuel b g r inc) (mpre_range E C fuel g r inc).
  Proof.
    induction fuel as [|fuel IH]; intros b g r inc; cbn [mpre_range_a mpre_range]; [reflexivity|].
    apply tri_bind. intros bk _. destruct (_ <=? _); [apply tri_fine|]. destruct (_ =? _); [|apply IH].
    apply tri_fbind; [apply addBucket_tri|]. intros b1 g1 _. apply tri_fine.
  Qed.
  Lemma premerge_tri b g i l : tri g (mg_insert_premerge_a E lt eqv dedup C w b g i l) (mg_insert_premerge E lt eqv dedup C g i l).
  Proof.
    unfold mg_insert_premerge_a, mg_insert_premerge. apply tri_fbind; [apply pre_range_tri|]. intros b1 [g1 rb] _.
    apply tri_bind. intros g2 _. apply tri_bind. intros bk _. apply tri_pure.
  Qed.
  Lemma insert_tri b g i l : tri g (mg_insert_a E lt eqv dedup C w b g i l) (mg_insert E lt eqv dedup C g i l).
  Proof. unfold mg_insert_a, mg_insert. destruct (premerge C); [apply premerge_tri|apply nopremerge_tri]. Qed.

  (** The state with a greater count *)
  Definition raised (d : nat) (g : mgb) : mgb := mk_mgb E (mg_mem E g) (mg_bs E g) (mg_tmp E g) (mg_tmpNP E g) (mg_count E g + d) (mg_front E g).

  Lemma push_tri b g x : tri (raised 1 g) (mg_push_a E lt eqv dedup C w b g x) (mg_push E lt eqv dedup C g x).
  Proof.
    unfold mg_push_a. destruct (vget (mg_bs E g) 0) as [bk| | |] eqn:Hb; cbn [bind]; try (unfold mg_push; rewrite Hb; reflexivity).
    destruct (mb_size E bk =? mb_cap E bk) eqn:Hf; [|apply tri_pure].
    unfold mg_push. rewrite Hb. cbn [bind]. cbv zeta. rewrite Hf. unfold raised. rewrite Nat.add_1_r. apply insert_tri.
  Qed.
  Lemma add_tri : forall fuel b g adj, tri g (madd_loop_a E C w fuel b g adj) (madd_loop E C fuel g adj).
  Proof.
    induction fuel as [|fuel IH]; intros b g adj; cbn [madd_loop_a madd_loop]; [reflexivity|].
    destruct (_ <? _); [|apply tri_fine]. apply tri_fbind; [apply addBucket_tri|]. intros b1 g1 H1.
    apply (tri_weaken g g1); [now apply adds_one|apply IH].
  Qed.
  Lemma add_adds : forall fuel g adj g', madd_loop E C fuel g adj = Ok g' -> adds g g'.
  Proof.
    induction fuel as [|fuel IH]; intros g adj g' H; cbn [madd_loop] in H; [discriminate|].
    destruct (_ <? _); [|injection H as <-; constructor]. apply bind_inv in H as (g1 & H1 & H). econstructor; eauto.
  Qed.
  Lemma pushRange_tri b g xs : tri (raised (length xs) g) (mg_pushRange_a E lt eqv dedup C w b g xs) (mg_pushRange E lt eqv dedup C g xs).
  Proof.
    unfold mg_pushRange_a, mg_pushRange. cbv zeta. apply tri_fbind; [apply add_tri|]. intros b1 g1 H1.
    apply tri_bind. intros i _. apply (tri_weaken _ g1); [eapply add_adds; exact H1|apply insert_tri].
  Qed.

  (** Which calls throw, and from which state *)
  Inductive throws_from (g : mgb) : op E -> mgb -> Prop :=
  | tf_push x : throws_from g (Push x) (raised 1 g)
  | tf_range xs : throws_from g (PushRange xs) (raised (length xs) g)
  | tf_dec x g1 y : mg_pop E lt eqv dedup C g = Ok (g1, y) -> throws_from g (DecreaseTop x) (raised 1 g1).

  Lemma step_tri b g o :
    match mg_step_a E lt eqv dedup C w b g o with
    | Ok (Fine _ r) => mg_step E lt eqv dedup C g o = Ok r
    | Ok (Left s) => exists g0, throws_from g o g0 /\ thrown g0 s
    | UB => mg_step E lt eqv dedup C g o = UB
    | Throw e => mg_step E lt eqv dedup C g o = Throw e
    | NoFuel => mg_step E lt eqv dedup C g o = NoFuel
    end.
  Proof.
    assert (Hone : forall g0 (m : res (fout mgb mgb)) n o, tri g0 m n -> throws_from g o g0 ->
      match fbind m (fun b g' => Ok (Fine b (g', @ONone E))) with
      | Ok (Fine _ r) => (let* g' := n in Ok (g', @ONone E)) = Ok r
      | Ok (Left s) => exists g0, throws_from g o g0 /\ thrown g0 s
      | UB => (let* g' := n in Ok (g', @ONone E)) = UB
      | Throw e => (let* g' := n in Ok (g', @ONone E)) = Throw e
      | NoFuel => (let* g' := n in Ok (g', @ONone E)) = NoFuel
      end).
    { intros g0 m n o0 Ht Hf. pose proof (tri_fbind g0 m n (fun b g' => Ok (Fine b (g', @ONone E))) (fun g' => Ok (g', @ONone E)) Ht (fun b a _ => tri_fine g0 b _)) as H.
      unfold tri in H. destruct (fbind m _) as [[b1 r|s]| | |]; auto. exists g0. auto. }
    assert (Hpure : forall o, match (let* r := mg_step E lt eqv dedup C g o in Ok (Fine b r)) with
      | Ok (Fine _ r) => mg_step E lt eqv dedup C g o = Ok r
      | Ok (Left s) => exists g0, throws_from g o g0 /\ thrown g0 s
      | UB => mg_step E lt eqv dedup C g o = UB
      | Throw e => mg_step E lt eqv dedup C g o = Throw e
      | NoFuel => mg_step E lt eqv dedup C g o = NoFuel end).
    { intros o0. destruct (mg_step E lt eqv dedup C g o0); reflexivity. }
    destruct o as [x|xs| | |x| | | |]; try (apply Hpure).
    - apply (Hone _ _ _ _ (push_tri b g x)). constructor.
    - apply (Hone _ _ _ _ (pushRange_tri b g xs)). constructor.
    - cbn [mg_step_a mg_step]. unfold mg_decreaseTop_a, mg_decreaseTop. destruct (mg_pop E lt eqv dedup C g) as [[g1 y]| | |] eqn:Hp; try reflexivity.
      cbn [bind]. apply (Hone _ _ _ _ (push_tri b g1 x)). econstructor; eauto.
  Qed.

  (** ** The other allocations *)

  (** Every bucket points into memory that was freed *)
  Definition dangles (g : mgb) : Prop := Forall (fun b => fst (mb_begin E b) <> m_id E (mg_mem E g)) (mg_bs E g).

  Lemma wr_id m p x m' : wr E m p x = Ok m' -> m_id E m' = m_id E m.
  Proof. unfold wr. destruct (_ =? _); [|discriminate]. intros H. apply bind_inv in H as (c & _ & H). injection H as <-. reflexivity. Qed.
  Lemma copy_id : forall fuel m s d m' d', copy_loop E fuel m s d = Ok (m', d') -> m_id E m' = m_id E m.
  Proof.
    induction fuel as [|fuel IH]; intros m s d m' d' H; cbn [copy_loop] in H; [discriminate|]. apply bind_inv in H as ([[x s']|] & _ & H).
    - apply bind_inv in H as (m1 & H1 & H). apply wr_id in H1. apply IH in H. congruence.
    - injection H as <- <-. reflexivity.
  Qed.
  Lemma place_ids nb old : forall bs new off bs' new' off', place_loop E C nb old bs new off = Ok (bs', new', off') ->
    m_id E new' = m_id E new /\ Forall (fun b => fst (mb_begin E b) = m_id E new) bs' /\
    map (fun b => (mb_cap E b, mb_size E b)) bs' = map (fun b => (mb_cap E b, mb_size E b)) bs.
  Proof.
    induction bs as [|b bs IH]; intros new off bs' new' off' H; cbn [place_loop] in H; [injection H as <- <- <-; repeat split; constructor|].
    apply bind_inv in H as (p & Hp & H). apply bind_inv in H as (l & _ & H). apply bind_inv in H as ([new1 e] & Hc & H).
    apply bind_inv in H as ([q off1] & _ & H). apply bind_inv in H as ([[bs1 new2] off2] & Hr & H). injection H as <- <- <-.
    unfold copy in Hc. apply copy_id in Hc. apply IH in Hr as (H1 & H2 & H3). rewrite Hc in *. split; [exact H1|]. split.
    - constructor; [|exact H2]. cbn [mb_begin]. unfold addr in Hp. destruct (_ <? _); [|discriminate]. now injection Hp as <-.
    - cbn [map mb_cap mb_size]. now rewrite H3.
  Qed.
  Lemma spoil_dangles g s : w <> NewMem -> mg_spoil E C w g = Ok s ->
    dangles s /\ exists more, map (fun b => (mb_cap E b, mb_size E b)) (mg_bs E s) = map (fun b => (mb_cap E b, mb_size E b)) (mg_bs E g) ++ more.
  Proof.
    intros Hw H. assert (Hn : forall m n : nat, m = S n -> m <> n) by (intros; lia).
    unfold mg_spoil in H. destruct w; [congruence| |]; cbv zeta in H;
      (destruct (_ <? length (m_cells E (mg_mem E g))); [discriminate|]);
      apply bind_inv in H as ([[bs1 new] off] & Hp & H); apply place_ids in Hp as (H1 & H2 & H3); cbn [m_id] in H1, H2;
      apply bind_inv in H as (buf & Hb & H); apply bind_inv in H as ([oth off'] & _ & H).
    - destruct (mg_front E g); injection H as <-; unfold dangles; cbn [mg_mem mg_bs]; (split; [eapply Forall_impl; [|exact H2]; cbn; intros b; apply Hn|exists []; now rewrite app_nil_r]).
    - destruct (mg_front E g); injection H as <-; unfold dangles; cbn [mg_mem mg_bs].
      + split; [eapply Forall_impl; [|exact H2]; cbn; intros b; apply Hn|exists []; now rewrite app_nil_r].
      + split; [apply Forall_app; split; [eapply Forall_impl; [|exact H2]; cbn; intros b; apply Hn|]|].
        * constructor; [|constructor]. cbn [mb_begin]. unfold addr in Hb. destruct (_ <? _); [|discriminate]. injection Hb as <-. cbn [fst]. now apply Hn.
        * rewrite map_app, H3. eauto.
  Qed.

  Lemma dangling_rd m p : fst p <> m_id E m -> rd E m p = UB.
  Proof. intros H. unfold rd. destruct (Nat.eqb_spec (fst p) (m_id E m)); [contradiction|reflexivity]. Qed.
  Lemma dangling_forAll m : forall bs, Forall (fun b => fst (mb_begin E b) <> m_id E m) bs -> (exists b, In b bs /\ mb_size E b <> 0) -> mforAll_loop E m bs = UB.
  Proof.
    induction bs as [|b bs IH]; intros Hd (b0 & Hin & Hs); [destruct Hin|]. inversion Hd as [|? ? H1 H2]; subst. cbn [mforAll_loop].
    destruct (mb_size E b) as [|n] eqn:Hn.
    - destruct Hin as [<-|Hin]; [congruence|]. cbn [rd_range bind]. rewrite IH; eauto.
    - cbn [rd_range]. now rewrite dangling_rd.
  Qed.
  Lemma dangling_last m b : fst (mb_begin E b) <> m_id E m -> mb_last E m b = UB.
  Proof. intros H. unfold mb_last. destruct (_ =? _); [reflexivity|]. now apply dangling_rd. Qed.
  Lemma dangling_back m b : collectMax C = false -> fst (mb_begin E b) <> m_id E m -> mb_getBack E C m b = UB.
  Proof. intros Hc H. unfold mb_getBack. rewrite Hc. destruct (mb_empty E b); [reflexivity|]. now apply dangling_last. Qed.
  Lemma dangling_key g i : collectMax C = false -> dangles g -> mkey E C (mg_mem E g) (mg_bs E g) i = UB.
  Proof.
    intros Hc Hd. unfold mkey, vget. destruct (nth_error (mg_bs E g) i) as [b|] eqn:Hi; [|reflexivity]. cbn [of_option bind]. apply dangling_back; auto.
    unfold dangles in Hd. rewrite Forall_forall in Hd. apply Hd. eapply nth_error_In; eauto.
  Qed.
  Lemma dangling_cm m bs : collectMax C = false -> Forall (fun b => fst (mb_begin E b) <> m_id E m) bs -> forall k cnt mb it r,
    mcm_loop E lt eqv dedup C k m bs cnt mb it = Ok r -> r = (m, bs, cnt, mb).
  Proof.
    intros Hc Hd. induction k as [|k IH]; intros cnt mb it r H; cbn [mcm_loop] in H; [now injection H as <-|].
    apply bind_inv in H as (b & Hb & H). destruct (mb_empty E b); [eauto|]. rewrite dangling_back in H; [discriminate|exact Hc|].
    rewrite Forall_forall in Hd. apply Hd. unfold vget in Hb. destruct (nth_error bs it) as [b0|] eqn:Hi; [|discriminate]. injection Hb as <-. eapply nth_error_In; eauto.
  Qed.
  Lemma dangling_max g g' i : collectMax C = false -> dangles g -> mg_getMax E lt eqv dedup C g = Ok (g', i) -> mg_mem E g' = mg_mem E g /\ mg_bs E g' = mg_bs E g.
  Proof.
    intros Hc Hd H. unfold mg_getMax in H. destruct (mg_front E g) as [[j|]|a slots n toks].
    - injection H as <- <-. auto.
    - apply bind_inv in H as (j & _ & H). apply bind_inv in H as ([[[m bs] cnt] j'] & Hl & H). apply dangling_cm in Hl; auto. injection Hl as -> -> -> ->.
      injection H as <- <-. auto.
    - destruct (n =? 0); [discriminate|]. apply bind_inv in H as (j & _ & H). injection H as <- <-. auto.
  Qed.
  Lemma dangling_top g r : collectMax C = false -> dangles g -> mg_step E lt eqv dedup C g Top <> Ok r.
  Proof.
    intros Hc Hd H. cbn [mg_step] in H. apply bind_inv in H as ([g1 x] & H & _). unfold mg_top in H. apply bind_inv in H as ([g2 i] & Hm & H).
    apply dangling_max in Hm as [H1 H2]; auto. rewrite H1, H2, dangling_key in H by auto. discriminate.
  Qed.
  Lemma dangling_pop g r : collectMax C = false -> dangles g -> mg_step E lt eqv dedup C g Pop <> Ok r.
  Proof.
    intros Hc Hd H. cbn [mg_step] in H. apply bind_inv in H as ([g1 x] & H & _). unfold mg_pop in H. apply bind_inv in H as ([g2 i] & Hm & H).
    apply dangling_max in Hm as [H1 H2]; auto. rewrite H1, H2 in H. pose proof (dangling_key g i Hc Hd) as Hk. unfold mkey in Hk.
    destruct (vget (mg_bs E g) i); cbn [bind] in *; try discriminate. rewrite Hk in H. discriminate.
  Qed.
  (** Clearing does not help *)
  Lemma dangling_clear_push g b bs x : dangles g -> mg_bs E g = b :: bs -> 1 <= mb_cap E b -> mg_push E lt eqv dedup C (mg_clear E g) x = UB.
  Proof.
    intros Hd Hb Hc. unfold mg_push, mg_clear. cbn [mg_bs mg_mem]. rewrite Hb. cbn [map vget nth_error of_option bind]. cbn [mb_clear mb_size mb_cap]. cbv zeta.
    unfold dangles in Hd. rewrite Hb in Hd. inversion Hd as [|? ? H1 H2]; subst.
    destruct (Nat.eqb_spec 0 (mb_cap E b)); [lia|]. change (mb_empty E (mb_clear E b)) with true. cbv iota. unfold mb_push_back, wr.
    cbn [mb_begin mb_clear padd fst].
    destruct (Nat.eqb_spec (fst (mb_begin E b)) (m_id E (mg_mem E g))); [contradiction|]. reflexivity.
  Qed.
  (** ** The first allocation *)
  Section First.
    Hypothesis Hsw : strict_weak lt.
    Hypothesis Heq : supportDeduplication C = true -> forall a b, lt a b = false -> eqv a b = true -> equivalent lt a b.
    Hypothesis Hdd : supportDeduplication C = true -> forall a b, (eqv a b || eqv b a) = true -> equivalent lt (dedup a b) a.
    Hypothesis Hg : 2 <= geoBase C.
    Hypothesis Hm : 1 <= minBucketSize C.
    Hypothesis Hif : 1 <= insertFactor C.
    Notation dd := (dedup_dd (supportDeduplication C) (fun a b => eqv a b || eqv b a) dedup).
    Notation Inv := (Inv lt C).
    Notation rep := (rep C).

    (** A Geobucket that is right but for a count that is too great by [d] *)
    Definition sound (d : nat) (g : geobucket) (mg : mgb) : Prop := Inv g /\ rep mg (up d g).

    Lemma rep_raised d p g mg : rep mg (up d g) -> rep (raised p mg) (up (d + p) g).
    Proof.
      intros (R & Rc & Rf). split; [exact R|]. split; [|exact Rf]. cbn [raised mg_count up g_count] in *. rewrite Rc. apply Nat.add_assoc || lia.
    Qed.
    Lemma adds_sound d g mg mg' : adds mg mg' -> sound d g mg -> exists g', sound d g' mg' /\ gb_forAll E g' = gb_forAll E g.
    Proof.
      intros Ha. revert g. induction Ha as [mg|mg mg1 mg2 H1 _ IH]; intros g (Hi & R); [exists g; split; [split|]; auto|].
      destruct (CmpProofs.addBucket_ok lt C Hg Hm 0 g (proj1 Hi)) as (g1 & c & Hadd & Hi1 & Hbs & Hc & Hcf).
      destruct (GrowProofs.addBucket_ok C ltac:(lia) Hm _ _ _ R (addBucket_up C d g g1 Hadd)) as (mg1' & H1' & R1).
      rewrite H1 in H1'. injection H1' as <-.
      destruct (IH g1) as (g2 & Hs2 & Hf2); [split; [split|]; auto|]. exists g2. split; [exact Hs2|]. rewrite Hf2.
      unfold gb_forAll. rewrite Hbs, flat_map_app. cbn [flat_map]. rewrite Hc. now rewrite !app_nil_r.
    Qed.
    Lemma pop_up_inv d g mg mg1 y : sound d g mg -> mg_pop E lt eqv dedup C mg = Ok (mg1, y) ->
      exists g1, sound d g1 mg1 /\ gb_pop E lt eqv dedup C g = Ok (g1, y).
    Proof.
      intros (Hi & R) Hp. pose proof (Verif.Geobucket.Proofs.pop_ok lt eqv dedup C Hsw Heq Hdd Hg Hm Hif g Hi) as H.
      destruct (gb_pop E lt eqv dedup C g) as [[g1 z]| | |] eqn:Hgp; try contradiction.
      - destruct (StepProofs.pop_ok lt eqv dedup C ltac:(lia) Hm _ _ _ _ R (pop_up lt eqv dedup C d _ _ _ Hgp)) as (mg1' & Hp' & R').
        rewrite Hp in Hp'. injection Hp' as <- <-. exists g1. split; [split; [apply H|exact R']|reflexivity].
      - pose proof (step_empty lt eqv dedup C mg Pop (all_empty C _ _ R H) eq_refl) as He. cbn [mg_step] in He. rewrite Hp in He. discriminate He.
    Qed.
    Lemma from_sound d g mg o g0 : sound d g mg -> throws_from mg o g0 -> exists p g1, sound p g1 g0 /\
      (match o with DecreaseTop _ => True | _ => gb_forAll E g1 = gb_forAll E g end).
    Proof.
      intros Hso Hf. assert (Hra : forall p g mg, sound d g mg -> sound (d + p) g (raised p mg)) by (intros p g1 mg1 [H1 H2]; split; [exact H1|now apply rep_raised]).
      destruct Hf as [x|xs|x mg1 y Hp]; [exists (d + 1), g; auto|exists (d + length xs), g; auto|].
      destruct (pop_up_inv _ _ _ _ _ Hso Hp) as (g1 & Hs1 & _). exists (d + 1), g1. auto.
    Qed.
    Lemma left_dangles d g mg o b s : sound d g mg -> w <> NewMem -> mg_step_a E lt eqv dedup C w b mg o = Ok (Left s) ->
      dangles s /\ (exists bk bs, mg_bs E s = bk :: bs /\ 1 <= mb_cap E bk) /\
      (match o with DecreaseTop _ => True | _ => gb_forAll E g <> [] -> exists bk, In bk (mg_bs E s) /\ mb_size E bk <> 0 end).
    Proof.
      intros Hso Hn Hl. pose proof (step_tri b mg o) as H. rewrite Hl in H. destruct H as (g0 & Hf & mg1 & Ha & _ & Hs).
      destruct (from_sound _ _ _ _ _ Hso Hf) as (p & g1 & Hs1 & Hkeep). destruct (adds_sound _ _ _ _ Ha Hs1) as (g2 & [Hi R] & Hfl).
      destruct (spoil_dangles _ _ Hn Hs) as (Hd & more & Hmap). split; [exact Hd|].
      destruct R as (R & _). pose proof (r_bs _ _ _ _ _ _ R) as HF. destruct Hi as [[Hwf _ _] _].
      split.
      - destruct (g_bs g2) as [|b0 bs0] eqn:Hbs; [now apply CmpProofs.wf_ne in Hwf|]. cbn [up g_bs] in HF. rewrite Hbs in HF.
        inversion HF as [|mb ? mbs ? Br _ Hmb]. rewrite <- Hmb in Hmap. destruct (mg_bs E s) as [|bk bs]; [discriminate|]. exists bk, bs. split; [reflexivity|].
        cbn [map app] in Hmap. injection Hmap as Hc _ _. rewrite Hc, (br_cap _ _ _ Br).
        pose proof (CmpProofs.wf_cap _ _ _ Hwf 0 b0 eq_refl) as Hcap. cbn [Nat.pow] in Hcap. lia.
      - assert (Hx : gb_forAll E g <> [] -> gb_forAll E g1 = gb_forAll E g -> exists bk, In bk (mg_bs E s) /\ mb_size E bk <> 0).
        { intros Hne Hk. destruct (gb_forAll E g2) as [|y l] eqn:Hy; [congruence|].
          assert (Hin : In y (gb_forAll E g2)) by (rewrite Hy; now left). unfold gb_forAll in Hin. apply in_flat_map in Hin as (b0 & Hb0 & Hyb).
          apply In_nth_error in Hb0 as (i & Hb0). destruct (F2_nth _ _ _ HF _ _ Hb0) as (mb & Hmb & Br).
          assert (Hin : In (mb_cap E mb, mb_size E mb) (map (fun b => (mb_cap E b, mb_size E b)) (mg_bs E s))).
          { rewrite Hmap. apply in_or_app. left. apply (in_map (fun b => (mb_cap E b, mb_size E b))). eapply nth_error_In; eauto. }
          apply in_map_iff in Hin as (bk & Hbk & Hbin). exists bk. split; [exact Hbin|]. injection Hbk as _ ->. rewrite (br_size _ _ _ Br).
          intros Hz. apply length_zero_iff_nil in Hz. rewrite Hz in Hyb. destruct Hyb. }
        destruct Hf as [x|xs|x mg2 y Hp]; auto.
    Qed.

    Hypothesis Hw : w = NewMem.
    Lemma thrown_sound d g mg s : thrown mg s -> sound d g mg -> exists g', sound d g' s /\ gb_forAll E g' = gb_forAll E g.
    Proof.
      intros (mg1 & Ha & _ & Hs) Hso. rewrite Hw in Hs. cbn [mg_spoil] in Hs. injection Hs as <-. eapply adds_sound; eauto.
    Qed.
    Lemma left_sound d g mg o b s : sound d g mg -> mg_step_a E lt eqv dedup C w b mg o = Ok (Left s) ->
      exists p g', sound p g' s /\ xstep lt dd (gb_forAll E g) d o None (gb_forAll E g') p /\
        (match o with DecreaseTop _ => True | _ => gb_forAll E g' = gb_forAll E g end).
    Proof.
      intros Hso Hl. pose proof (step_tri b mg o) as H. rewrite Hl in H. destruct H as (g0 & Hf & Ht).
      assert (Hra : forall p g mg, sound d g mg -> sound (d + p) g (raised p mg)) by (intros p g1 mg1 [H1 H2]; split; [exact H1|now apply rep_raised]).
      destruct Hf as [x|xs|x mg1 y Hp].
      - destruct (thrown_sound _ _ _ _ Ht (Hra 1 _ _ Hso)) as (g' & H1 & H2). exists (d + 1), g'. rewrite H2. split; [exact H1|]. split; [|reflexivity].
        apply x_push, merges_refl.
      - destruct (thrown_sound _ _ _ _ Ht (Hra (length xs) _ _ Hso)) as (g' & H1 & H2). exists (d + length xs), g'. rewrite H2. split; [exact H1|]. split; [|reflexivity].
        apply x_range, merges_refl.
      - destruct (pop_up_inv _ _ _ _ _ Hso Hp) as (g1 & Hs1 & Hgp).
        pose proof (Verif.Geobucket.Proofs.pop_ok lt eqv dedup C Hsw Heq Hdd Hg Hm Hif g (proj1 Hso)) as H. rewrite Hgp in H. destruct H as (_ & m & M1 & M2 & M3).
        destruct (thrown_sound _ _ _ _ Ht (Hra 1 _ _ Hs1)) as (g' & H1 & H2). exists (d + 1), g'. rewrite H2. split; [exact H1|]. split; [|exact I].
        now apply (x_lost _ _ _ _ x y m).
    Qed.

    Lemma step_sound d g mg o : sound d g mg -> range_calls lt (negb (trackFront C)) o = true ->
      match mg_step E lt eqv dedup C mg o with
      | Ok (mg', r) => exists p g', sound p g' mg' /\ xstep lt dd (gb_forAll E g) d o (Some r) (gb_forAll E g') p
      | UB => gb_forAll E g = [] /\ needs_nonempty o = true
      | _ => False
      end.
    Proof.
      intros (Hi & R) Ho. pose proof (gb_step_ok lt eqv dedup C Hsw Heq Hdd Hg Hm Hif g o Hi Ho) as Hok.
      assert (Hcase : match o with Size | Empty | Clear => False | _ => True end \/ o = Size \/ o = Empty \/ o = Clear) by (destruct o; auto).
      destruct Hcase as [Hgen|[->|[->| ->]]].
      - destruct (gb_step E lt eqv dedup C g o) as [[g1 r]| | |] eqn:Hs; try contradiction.
        + assert (Hup : gb_step E lt eqv dedup C (up d g) o = Ok (up d g1, r)).
          { destruct o as [x|xs| | |x| | | |]; try contradiction; cbn [gb_step] in *.
            - apply bind_inv in Hs as (g2 & H1 & H2). injection H2 as <- <-. now rewrite (push_up lt eqv dedup C d _ _ _ H1).
            - apply bind_inv in Hs as (g2 & H1 & H2). injection H2 as <- <-. now rewrite (pushRange_up lt eqv dedup C d _ _ _ H1).
            - apply bind_inv in Hs as ([g2 y] & H1 & H2). injection H2 as <- <-. now rewrite (pop_up lt eqv dedup C d _ _ _ H1).
            - apply bind_inv in Hs as ([g2 y] & H1 & H2). injection H2 as <- <-. now rewrite (top_up lt eqv dedup C d _ _ _ H1).
            - apply bind_inv in Hs as (g2 & H1 & H2). injection H2 as <- <-. now rewrite (decreaseTop_up lt eqv dedup C d _ _ _ H1).
            - injection Hs as <- <-. reflexivity. }
          destruct (step_ok lt eqv dedup C ltac:(lia) Hm _ _ _ _ _ R Hup) as (mg' & -> & R'). destruct Hok as [H1 H2].
          exists d, g1. split; [split; auto|]. now apply x_other.
        + destruct Hok as [Hfl Hn]. rewrite (step_empty lt eqv dedup C mg o (all_empty C _ _ R Hfl) Hn). auto.
      - cbn [mg_step]. exists d, g. split; [split; auto|]. destruct Hi as [[_ Hc _] _]. destruct R as (_ & -> & _). cbn [up g_count]. rewrite Hc. apply x_size.
      - cbn [mg_step]. exists d, g. split; [split; auto|]. destruct Hi as [[_ Hc _] _]. destruct R as (_ & -> & _). cbn [up g_count]. rewrite Hc. apply x_empty.
      - cbn [mg_step]. cbn [gb_step] in Hok. destruct Hok as [H1 H2]. exists 0, (gb_clear E g). split.
        + split; [exact H1|]. exact (clear_ok C ltac:(lia) Hm _ _ R).
        + replace (gb_forAll E (gb_clear E g)) with (@nil E); [apply x_clear|]. now inversion H2.
    Qed.

    Lemma try_sound d g mg b o : sound d g mg -> range_calls lt (negb (trackFront C)) o = true ->
      match mg_try E lt eqv dedup C w mg (b, o) with
      | Ok (mg', r) => exists p g', sound p g' mg' /\ xstep lt dd (gb_forAll E g) d o r (gb_forAll E g') p
      | UB => gb_forAll E g = [] /\ needs_nonempty o = true
      | _ => False
      end.
    Proof.
      intros Hso Ho. pose proof (step_sound d g mg o Hso Ho) as Hs. pose proof (step_tri b mg o) as Ht. unfold mg_try. cbn [fst snd].
      destruct (mg_step_a E lt eqv dedup C w b mg o) as [[b1 [mg1 r]|s]| | |] eqn:Ha; cbn [bind].
      - rewrite Ht in Hs. exact Hs.
      - destruct (left_sound _ _ _ _ _ _ Hso Ha) as (p & g' & H1 & H2 & _). eauto.
      - rewrite Ht in Hs. exact Hs.
      - rewrite Ht in Hs. exact Hs.
      - rewrite Ht in Hs. exact Hs.
    Qed.

    Lemma run_sound : forall ops d g mg, sound d g mg -> forallb (fun bo => range_calls lt (negb (trackFront C)) (snd bo)) ops = true ->
      match run (mg_try E lt eqv dedup C w) mg ops with
      | Ok (mg', rs) => exists p g', sound p g' mg' /\ xtrace lt dd (gb_forAll E g) d (map snd ops) rs (gb_forAll E g') p
      | UB => exists pre b o post mg' g' rs p, ops = pre ++ (b, o) :: post /\ needs_nonempty o = true /\
                run (mg_try E lt eqv dedup C w) mg pre = Ok (mg', rs) /\ sound p g' mg' /\ gb_forAll E g' = [] /\
                xtrace lt dd (gb_forAll E g) d (map snd pre) rs [] p
      | _ => False
      end.
    Proof.
      induction ops as [|[b o] ops IH]; intros d g mg Hso Ho; cbn [run].
      - exists d, g. split; [exact Hso|constructor].
      - cbn [forallb snd] in Ho. apply andb_true_iff in Ho as [Ho Hos]. pose proof (try_sound d g mg b o Hso Ho) as Hs.
        destruct (mg_try E lt eqv dedup C w mg (b, o)) as [[mg1 r]| | |] eqn:Ht; cbn [bind]; try contradiction.
        + destruct Hs as (p & g1 & Hs1 & Hx). specialize (IH p g1 mg1 Hs1 Hos).
          destruct (run (mg_try E lt eqv dedup C w) mg1 ops) as [[mg2 rs]| | |]; cbn [bind]; try contradiction.
          * destruct IH as (p2 & g2 & H1 & H2). exists p2, g2. split; [exact H1|]. cbn [map snd]. econstructor; eauto.
          * destruct IH as (pre & b2 & o2 & post & mg2 & g2 & rs & p2 & -> & Hn & Hr & H1 & H2 & H3).
            exists ((b, o) :: pre), b2, o2, post, mg2, g2, (r :: rs), p2. split; [reflexivity|]. split; [exact Hn|].
            split; [cbn [run]; rewrite Ht; cbn [bind]; now rewrite Hr|]. split; [exact H1|]. split; [exact H2|]. cbn [map snd]. econstructor; eauto.
        + destruct Hs as [Hfl Hn]. exists [], b, o, ops, mg, g, [], d. split; [reflexivity|]. split; [exact Hn|]. split; [reflexivity|]. split; [exact Hso|]. split; [exact Hfl|].
          cbn [map]. rewrite Hfl. constructor.
    Qed.

    Lemma new_sound : exists mg, mg_new E C = Ok mg /\ sound 0 (gb_new E C) mg.
    Proof.
      destruct (new_ok (E := E) C ltac:(lia) Hm) as (mg & H1 & H2). exists mg. split; [exact H1|]. split.
      - apply gb_new_inv; auto.
      - exact H2.
    Qed.
    Lemma held_sound d g mg : sound d g mg -> mg_forAll E mg = Ok (gb_forAll E g).
    Proof. intros [_ R]. now rewrite (forAll_ok C _ _ R). Qed.
  End First.
End AllocProofs.
