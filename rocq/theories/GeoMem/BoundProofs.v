(** Proofs about GeoMem/Model.v: the areas and the amount of memory after any history of calls. *)
From Coq Require Import List Arith Bool Lia.
From Verif.Base Require Import Res Arr Order.
From Verif.Spec Require Import PQ PQFacts.
From Verif.Geobucket Require Import Model Proofs Properties.
From Verif.GeoMem Require Import Model MemProofs RepProofs Proofs GrowProofs StepProofs SizeProofs Areas.
Import ListNotations.

Lemma map_seq {A B} (h : option A -> B) (l : list A) : map (fun i => h (nth_error l i)) (seq 0 (length l)) = map (fun a => h (Some a)) l.
Proof.
  induction l as [|a l IH]; simpl; auto. f_equal. rewrite <- seq_shift, map_map. exact IH.
Qed.
Lemma pairs_map {A B} (f : A -> B) (R : B -> B -> Prop) (l : list A) : NoDup l -> (forall a b, In a l -> In b l -> a <> b -> R (f a) (f b)) ->
  ForallOrdPairs R (map f l).
Proof.
  induction 1 as [|a l Hn Hd IH]; intros H; simpl; constructor.
  - apply Forall_forall. intros y Hy. apply in_map_iff in Hy as (b & <- & Hb). apply H; simpl; auto. intros ->. contradiction.
  - apply IH. intros; apply H; simpl; auto.
Qed.

Section BoundProofs.
  Context {E : Type}.
  Variable lt eqv : E -> E -> bool.
  Variable dedup : E -> E -> E.
  Variable C : config.
  Hypothesis Hlt : strict_weak lt.
  Hypothesis Heq : supportDeduplication C = true -> forall a b, lt a b = false -> eqv a b = true -> equivalent lt a b.
  Hypothesis Hdd : supportDeduplication C = true -> forall a b, (eqv a b || eqv b a) = true -> equivalent lt (dedup a b) a.
  Hypothesis Hg : 2 <= geoBase C.
  Hypothesis Hm : 1 <= minBucketSize C.
  Hypothesis Hi : 1 <= insertFactor C.
  Notation mgb := (mgb E).
  Notation mbucket := (mbucket E).
  Notation rep := (rep C).
  Notation Inv := (Inv lt C).
  Notation caps := (map (mb_cap E)).
  Notation cells g := (m_cells E (mg_mem E g)).
  Notation api := (range_calls lt (negb (trackFront C))).
  Notation cap := (fun i => minBucketSize C * geoBase C ^ i).

  Let Hg1 : 1 <= geoBase C.
  Proof. lia. Qed.

  (** What a history does is what it does to the lists *)
  Lemma reached mg0 ops mg rs : mg_new E C = Ok mg0 -> forallb api ops = true -> run (mg_step E lt eqv dedup C) mg0 ops = Ok (mg, rs) ->
    exists g, run (gb_step E lt eqv dedup C) (gb_new E C) ops = Ok (g, rs) /\ rep mg g /\ Inv g.
  Proof.
    intros Hn Ha Hr. destruct (new_ok (E := E) C Hg1 Hm) as (mg0' & Hn' & R). assert (mg0' = mg0) by congruence. subst mg0'.
    destruct (run (gb_step E lt eqv dedup C) (gb_new E C) ops) as [[g rs']| | |] eqn:Hl.
    - destruct (run_ok lt eqv dedup C Hg1 Hm _ _ _ _ _ R Hl) as (mg' & Hr' & R'). rewrite Hr' in Hr. injection Hr as -> ->.
      exists g. split; auto. split; auto. eapply inv_lift with (Inv := Inv); eauto using gb_new_inv. apply gb_step_ok; auto.
    - pose proof (gb_pq_correct lt eqv dedup C Hlt Heq Hdd Hg Hm Hi ops Ha) as Hp. rewrite Hl in Hp.
      destruct Hp as (pre & o & post & g & rs' & -> & Hne & Hpre & He & _). destruct (run_ok lt eqv dedup C Hg1 Hm _ _ _ _ _ R Hpre) as (mg' & Hr' & R').
      rewrite run_app, Hr' in Hr. cbn [bind run] in Hr. rewrite (step_empty lt eqv dedup C mg' o) in Hr by (eauto using all_empty). discriminate.
    - pose proof (gb_pq_correct lt eqv dedup C Hlt Heq Hdd Hg Hm Hi ops Ha) as Hp. rewrite Hl in Hp. contradiction.
    - pose proof (gb_pq_correct lt eqv dedup C Hlt Heq Hdd Hg Hm Hi ops Ha) as Hp. rewrite Hl in Hp. contradiction.
  Qed.

  (** The other way round *)
  Lemma same_answers mg0 ops : mg_new E C = Ok mg0 -> forallb api ops = true ->
    match run (gb_step E lt eqv dedup C) (gb_new E C) ops, run (mg_step E lt eqv dedup C) mg0 ops with
    | Ok (g, rs), Ok (mg, rs') => rs' = rs /\ mg_forAll E mg = Ok (gb_forAll E g)
    | UB, UB => True
    | _, _ => False
    end.
  Proof.
    intros Hn Ha. destruct (new_ok (E := E) C Hg1 Hm) as (mg0' & Hn' & R). assert (mg0' = mg0) by congruence. subst mg0'.
    pose proof (gb_pq_correct lt eqv dedup C Hlt Heq Hdd Hg Hm Hi ops Ha) as Hp.
    destruct (run (gb_step E lt eqv dedup C) (gb_new E C) ops) as [[g rs']| | |] eqn:Hl; try contradiction.
    - destruct (run_ok lt eqv dedup C Hg1 Hm _ _ _ _ _ R Hl) as (mg' & -> & R'). split; auto. eapply forAll_ok; eauto.
    - destruct Hp as (pre & o & post & g & rs' & -> & Hne & Hpre & He & _). destruct (run_ok lt eqv dedup C Hg1 Hm _ _ _ _ _ R Hpre) as (mg' & Hr' & R').
      rewrite run_app, Hr'. cbn [bind run]. now rewrite (step_empty lt eqv dedup C mg' o) by (eauto using all_empty).
  Qed.

  (** * The areas *)
  Definition names (n : nat) : list name :=
    map Buf (seq 0 n) ++ (match bucketStorage C with DoubleBuffer => map Oth (seq 0 n) | _ => [] end) ++ [Tmp] ++ (if premerge C then [] else [TmpN]).
  Definition ar (g : mgb) (n : name) : ptr * nat :=
    (match loc C (mg_bs E g) (mg_tmp E g) (mg_tmpNP E g) n with Some p => p | None => null end, len C (caps (mg_bs E g)) n).
  Lemma areas_names g : areas C g = map (ar g) (names (length (mg_bs E g))).
  Proof.
    unfold areas, names. rewrite map_app, map_map. f_equal.
    - rewrite <- (map_seq (fun o => match o with Some b => (mb_begin E b, match bucketStorage C with SameSizeBuffer => mlargest E (mg_bs E g) | _ => mb_cap E b end) | None => (null, 0) end)).
      apply map_ext_in. intros i Hin. apply in_seq in Hin. unfold ar, loc, len. destruct (nth_error (mg_bs E g) i) as [b|] eqn:Hb; [|apply nth_error_None in Hb; lia].
      simpl. f_equal. rewrite last_mlargest. destruct (bucketStorage C); auto; symmetry; apply nth_error_nth; now apply map_nth_error.
    - rewrite map_app. f_equal.
      + destruct (bucketStorage C) eqn:Hs; auto. rewrite map_map.
        rewrite <- (map_seq (fun o => match o with Some b => (mb_other E b, mb_cap E b) | None => (null, 0) end)).
        apply map_ext_in. intros i Hin. apply in_seq in Hin. unfold ar, loc, len, double. rewrite Hs. destruct (nth_error (mg_bs E g) i) as [b|] eqn:Hb; [|apply nth_error_None in Hb; lia].
        simpl. f_equal. symmetry; apply nth_error_nth; now apply map_nth_error.
      + unfold ar. destruct (premerge C) eqn:Hp; simpl; rewrite ?Hp, last_mlargest; auto.
  Qed.
  Lemma names_nodup n : NoDup (names n).
  Proof.
    assert (Hs : forall f : nat -> name, (forall i j, f i = f j -> i = j) -> NoDup (map f (seq 0 n))) by (intros; apply FinFun.Injective_map_NoDup; [exact H|apply seq_NoDup]).
    assert (Ha : forall l1 l2 : list name, NoDup l1 -> NoDup l2 -> (forall x, In x l1 -> In x l2 -> False) -> NoDup (l1 ++ l2)).
    { induction l1 as [|x l1 IH]; intros l2 H1 H2 Hx; auto. inversion H1; subst. simpl. constructor.
      - rewrite in_app_iff. intros [|]; auto. eapply Hx; simpl; eauto.
      - apply IH; auto. intros y ? ?. eapply Hx; simpl; eauto. }
    unfold names. apply Ha; [apply Hs; congruence| |].
    - apply Ha.
      + destruct (bucketStorage C); try constructor. apply Hs. congruence.
      + destruct (premerge C); simpl; repeat constructor; simpl; intuition discriminate.
      + intros x H1 H2. assert (exists i, x = Oth i) as (i & ->).
        { destruct (bucketStorage C); try contradiction. apply in_map_iff in H1 as (i & <- & _). eauto. }
        destruct (premerge C); simpl in H2; intuition discriminate.
    - intros x H1 H2. apply in_map_iff in H1 as (i & <- & _). apply in_app_iff in H2 as [H2|H2].
      + destruct (bucketStorage C); try contradiction. apply in_map_iff in H2 as (j & H2 & _). discriminate.
      + destruct (premerge C); simpl in H2; intuition discriminate.
  Qed.
  Lemma names_loc g n : In n (names (length (mg_bs E g))) -> exists p, loc C (mg_bs E g) (mg_tmp E g) (mg_tmpNP E g) n = Some p.
  Proof.
    unfold names. intros H. apply in_app_iff in H as [H|H]; [|apply in_app_iff in H as [H|H]].
    - apply in_map_iff in H as (i & <- & Hin). apply in_seq in Hin. simpl. destruct (nth_error (mg_bs E g) i) eqn:Hb; simpl; eauto. apply nth_error_None in Hb. lia.
    - unfold double, loc. destruct (bucketStorage C) eqn:Hs; try contradiction. apply in_map_iff in H as (i & <- & Hin). apply in_seq in Hin. simpl.
      unfold double. rewrite Hs. destruct (nth_error (mg_bs E g) i) eqn:Hb; simpl; eauto. apply nth_error_None in Hb. lia.
    - destruct H as [<-|H]; [simpl; eauto|]. unfold loc. destruct (premerge C); simpl in H; [contradiction|]. destruct H as [<-|[]]. eauto.
  Qed.
  Lemma sum_app l1 l2 : list_sum (l1 ++ l2) = list_sum l1 + list_sum l2.
  Proof. apply list_sum_app. Qed.
  Lemma sum_const {A} (l : list A) n : list_sum (map (fun _ => n) l) = length l * n.
  Proof. induction l; simpl; auto. Qed.
  Lemma sum_double {A} (f : A -> nat) l : list_sum (map (fun a => f a + f a) l) = list_sum (map f l) + list_sum (map f l).
  Proof. induction l as [|a l IH]; simpl; auto. rewrite IH. lia. Qed.

  Lemma laid mg g : rep mg g -> Inv g -> laid_out C mg.
  Proof.
    intros (R & _) [[W _ _] _]. destruct R as [HF L Hfit]. pose proof L as [L1 L2 L3 L4]. split.
    - rewrite areas_names. apply Forall_forall. intros a Ha. apply in_map_iff in Ha as (n & <- & Hn). destruct (names_loc _ _ Hn) as (p & Hp).
      unfold ar. rewrite Hp. simpl. apply L1; auto.
    - rewrite areas_names. apply pairs_map; [apply names_nodup|]. intros a b Ha Hb Hne.
      destruct (names_loc _ _ Ha) as (p & Hp). destruct (names_loc _ _ Hb) as (q & Hq). unfold apart, ar. rewrite Hp, Hq. simpl. eapply L2; eauto.
    - rewrite L3. unfold areas, RepProofs.total, need, tmps. rewrite !map_app, !sum_app, !map_map. rewrite last_mlargest. simpl.
      assert (Hb : list_sum (map (fun x => match bucketStorage C with SameSizeBuffer => mlargest E (mg_bs E mg) | DoubleBuffer => mb_cap E x + mb_cap E x | Plain => mb_cap E x end) (mg_bs E mg)) =
        list_sum (map (fun x => match bucketStorage C with SameSizeBuffer => mlargest E (mg_bs E mg) | _ => mb_cap E x end) (mg_bs E mg)) +
        list_sum (map snd (match bucketStorage C with DoubleBuffer => map (fun b => (mb_other E b, mb_cap E b)) (mg_bs E mg) | _ => [] end))).
      { destruct (bucketStorage C); simpl; rewrite ?Nat.add_0_r; auto. rewrite map_map, sum_double. reflexivity. }
      simpl in Hb. rewrite Hb. destruct (premerge C); simpl; lia.
    - apply Forall_forall. intros mb Hin. apply In_nth_error in Hin as (i & Hb). destruct (F2_nth_l _ _ _ HF _ _ Hb) as (b & Hb' & Br).
      rewrite (br_size _ _ _ Br), (br_cap _ _ _ Br). apply (wf_good _ _ _ W _ _ Hb').
  Qed.

  (** * The amount *)
  Lemma caps_geo mg g : rep mg g -> Inv g -> caps (mg_bs E mg) = map cap (seq 0 (length (mg_bs E mg))).
  Proof.
    intros (R & _) [[W _ _] _]. rewrite <- (map_seq (fun o => match o with Some b => mb_cap E b | None => 0 end)). apply map_ext_in. intros i Hin.
    apply in_seq in Hin. destruct (nth_error (mg_bs E mg) i) as [mb|] eqn:Hb; [|apply nth_error_None in Hb; lia].
    destruct (F2_nth_l _ _ _ (r_bs _ _ _ _ _ _ R) _ _ Hb) as (b & Hb' & Br). rewrite (br_cap _ _ _ Br). now rewrite (wf_cap _ _ _ W _ _ Hb').
  Qed.
  Lemma geo_sum n : list_sum (map cap (seq 0 (S n))) <= 2 * cap n.
  Proof.
    induction n as [|n IH]; [simpl; lia|]. rewrite seq_S, map_app, sum_app. cbn [Nat.add].
    assert (2 * cap n <= cap (S n)).
    { rewrite Nat.pow_succ_r'. replace (minBucketSize C * (geoBase C * geoBase C ^ n)) with (geoBase C * (minBucketSize C * geoBase C ^ n)) by ring.
      apply Nat.mul_le_mono_r. lia. }
    cbn [map list_sum fold_right]. cbv beta in *. lia.
  Qed.

  (** The buckets that demands of at most [N] entries lead to *)
  Lemma capacity mg0 ops mg rs N : mg_new E C = Ok mg0 -> forallb api ops = true -> run (mg_step E lt eqv dedup C) mg0 ops = Ok (mg, rs) ->
    (forall pre o post s rs, ops = pre ++ o :: post -> run (mg_step E lt eqv dedup C) mg0 pre = Ok (s, rs) -> demand C (length (mg_held s)) o <= N) ->
    exists n, length (mg_bs E mg) = S n /\ caps (mg_bs E mg) = map cap (seq 0 (S n)) /\ cap n <= Nat.max (minBucketSize C) (geoBase C * N).
  Proof.
    intros Hn Ha Hr HN. destruct (reached _ _ _ _ Hn Ha Hr) as (g & Hl & R & I).
    destruct (new_ok (E := E) C Hg1 Hm) as (mg0' & Hn' & R0). assert (mg0' = mg0) by congruence. subst mg0'.
    assert (G : grown C N (gb_new E C) g).
    { eapply (run_grown lt eqv dedup C Hlt Heq Hdd Hg Hm Hi); eauto using gb_new_inv. intros pre o post s rs' He Hp.
      destruct (run_ok lt eqv dedup C Hg1 Hm _ _ _ _ _ R0 Hp) as (mg' & Hr' & R').
      specialize (HN pre o post mg' rs' He Hr'). unfold mg_held in HN. now rewrite (forAll_ok C _ _ R') in HN. }
    rewrite (caps_geo _ _ R I).
    pose proof (rep_len C _ _ R) as Hlen. unfold grown in G. simpl in G. rewrite <- Hlen in G.
    destruct G as [G|[G G']].
    - exists 0. rewrite G. split; auto. split; auto. simpl. lia.
    - exists (length (mg_bs E mg) - 1). split; [lia|]. split; [do 2 f_equal; lia|].
      replace (length (mg_bs E mg) - 1) with (S (length (mg_bs E mg) - 2)) by lia. rewrite Nat.pow_succ_r'.
      replace (minBucketSize C * (geoBase C * geoBase C ^ (length (mg_bs E mg) - 2))) with (geoBase C * (minBucketSize C * geoBase C ^ (length (mg_bs E mg) - 2))) by ring.
      assert (geoBase C * (minBucketSize C * geoBase C ^ (length (mg_bs E mg) - 2)) <= geoBase C * N) by (apply Nat.mul_le_mono_l; lia). lia.
  Qed.

  (** How often the memory of a bucket is there *)
  Definition copies : nat := match bucketStorage C with DoubleBuffer => 2 | _ => 1 end.
  Lemma amount mg g n : rep mg g -> caps (mg_bs E mg) = map cap (seq 0 (S n)) ->
    (bucketStorage C = SameSizeBuffer -> length (cells mg) = (S n + if premerge C then 1 else 2) * cap n) /\
    (bucketStorage C <> SameSizeBuffer -> length (cells mg) <= (2 * copies + if premerge C then 1 else 2) * cap n).
  Proof.
    intros ([_ [_ _ L _] _] & _) Hc. rewrite L, Hc. unfold RepProofs.total, need, tmps, copies.
    assert (Hl : last (map cap (seq 0 (S n))) 0 = cap n) by (rewrite seq_S, map_app; simpl; apply last_last).
    rewrite Hl, map_map. pose proof (geo_sum n) as Hs. cbv beta in *. split; intros Hst.
    - rewrite Hst, sum_const, seq_length. lia.
    - destruct (bucketStorage C); [| |congruence].
      + destruct (premerge C); lia.
      + rewrite sum_double. destruct (premerge C); lia.
  Qed.

  Lemma memory_bound mg0 ops mg rs N : mg_new E C = Ok mg0 -> forallb api ops = true -> run (mg_step E lt eqv dedup C) mg0 ops = Ok (mg, rs) ->
    (forall pre o post s rs, ops = pre ++ o :: post -> run (mg_step E lt eqv dedup C) mg0 pre = Ok (s, rs) -> demand C (length (mg_held s)) o <= N) ->
    let bound := Nat.max (minBucketSize C) (geoBase C * N) in
    let temporary := if premerge C then 1 else 2 in
    exists n, caps (mg_bs E mg) = map cap (seq 0 (S n)) /\ minBucketSize C * geoBase C ^ n <= bound /\
    match bucketStorage C with
    | Plain => length (cells mg) <= (2 + temporary) * bound
    | DoubleBuffer => length (cells mg) <= (4 + temporary) * bound
    | SameSizeBuffer => length (cells mg) <= (S n + temporary) * bound
    end.
  Proof.
    intros Hn Ha Hr HN bound temporary. destruct (capacity _ _ _ _ _ Hn Ha Hr HN) as (n & H1 & H2 & H3). destruct (reached _ _ _ _ Hn Ha Hr) as (g & _ & R & _).
    exists n. split; auto. split; auto. destruct (amount _ _ _ R H2) as (A1 & A2). unfold copies in *. fold temporary in A1, A2.
    destruct (bucketStorage C); [specialize (A2 ltac:(discriminate))|specialize (A2 ltac:(discriminate))|rewrite (A1 eq_refl)].
    - eapply Nat.le_trans; [exact A2|]. apply Nat.mul_le_mono; [simpl; lia|exact H3].
    - eapply Nat.le_trans; [exact A2|]. apply Nat.mul_le_mono; [simpl; lia|exact H3].
    - apply Nat.mul_le_mono_l. exact H3.
  Qed.

  (** A range brings its own bucket *)
  Lemma range_cap mg0 xs mg rs : mg_new E C = Ok mg0 -> api (PushRange xs) = true ->
    run (mg_step E lt eqv dedup C) mg0 [PushRange xs] = Ok (mg, rs) ->
    exists n, length (mg_bs E mg) = S n /\ length xs <= cap n /\ caps (mg_bs E mg) = map cap (seq 0 (S n)) /\ exists g, rep mg g.
  Proof.
    intros Hn Ha Hr. assert (Hf : forallb api [PushRange xs] = true) by (cbn [forallb]; now rewrite Ha).
    destruct (reached _ _ _ _ Hn Hf Hr) as (g & Hl & R & I). cbn [run gb_step] in Hl. binv Hl. destruct a as [g1 r1]. cbn [bind] in Hl. injection Hl as -> <-.
    binv Eb. injection Eb as -> <-. unfold gb_pushRange in Eb0. binv Eb0. binv Eb0.
    destruct (Geobucket.CmpProofs.add_loop_ok lt C Hg Hm (length xs) (length xs * insertFactor C) (S (length xs * insertFactor C))
      (mk_gb (g_bs (gb_new E C)) (g_count (gb_new E C) + length xs) (g_front (gb_new E C)))) as (g2 & ext & H2 & I2 & _ & _ & Hle).
    { destruct (gb_new_inv lt C Hg Hm Hi) as [[W1 W2 W3] _]. split; auto. }
    { lia. }
    rewrite H2 in Eb. injection Eb as ->. pose proof (insert_grown lt eqv dedup C Hg Hm Hi (length xs) _ _ _ _ I2 Eb0) as G.
    rewrite (largest_cap lt C _ (i_wf _ _ _ _ I2)) in Hle.
    assert (Hlen : length (g_bs a) <= length (g_bs g)) by (destruct G as [->|[G _]]; lia).
    assert (Hne : 1 <= length (g_bs a)) by (pose proof (wf_ne _ _ _ (i_wf _ _ _ _ I2)); destruct (g_bs a); simpl; [congruence|lia]).
    rewrite (caps_geo _ _ R I), (rep_len C _ _ R). exists (length (g_bs g) - 1). split; [lia|]. split; [|split; [do 2 f_equal; lia|eauto]].
    assert (length xs * 1 <= length xs * insertFactor C) by (now apply Nat.mul_le_mono_l).
    assert (cap (length (g_bs a) - 1) <= cap (length (g_bs g) - 1)) by (cbv beta; apply Nat.mul_le_mono_l, Nat.pow_le_mono_r; lia).
    cbv beta in *. lia.
  Qed.
End BoundProofs.

(** With SameSizeBuffer the memory is not linear in the entries *)
Definition same_conf : config := mk_config 2 1 1 false true true true true SameSizeBuffer.
Lemma same_good : good_config Nat.ltb Nat.eqb (fun a _ => a) same_conf.
Proof.
  split; [|simpl; repeat split; try lia; discriminate]. split.
  - intros a. apply Nat.ltb_irrefl.
  - intros a b c H1 H2. apply Nat.ltb_lt in H1. apply Nat.ltb_lt in H2. apply Nat.ltb_lt. lia.
  - intros a b c H1 H2. apply Nat.ltb_ge in H1. apply Nat.ltb_ge in H2. apply Nat.ltb_ge. lia.
Qed.
Lemma repeat_pow_nil k : repeat 0 (2 ^ k) <> [].
Proof. assert (2 ^ k <> 0) by (apply Nat.pow_nonzero; lia). destruct (2 ^ k); [lia|discriminate]. Qed.
Lemma same_not_linear K : exists k mg0 mg rs,
  mg_new nat same_conf = Ok mg0 /\ run (mg_step nat Nat.ltb Nat.eqb (fun a _ => a) same_conf) mg0 [PushRange (repeat 0 (2 ^ k))] = Ok (mg, rs) /\
  K * 2 ^ k < length (m_cells nat (mg_mem nat mg)).
Proof.
  exists K. set (C := same_conf).
  destruct same_good as (Hlt & Hg & Hm & Hi & H1 & H2). fold C in Hg, Hm, Hi, H1, H2.
  destruct (new_ok (E := nat) C ltac:(lia) Hm) as (mg0 & Hn & _).
  assert (Ha : range_calls Nat.ltb (negb (trackFront C)) (PushRange (repeat 0 (2 ^ K))) = true).
  { simpl. assert (2 ^ K <> 0) by (apply Nat.pow_nonzero; lia). destruct (2 ^ K) as [|n]; [lia|]. clear. simpl. induction n as [|n IH]; auto. }
  assert (Hf : forallb (range_calls Nat.ltb (negb (trackFront C))) [PushRange (repeat 0 (2 ^ K))] = true) by (cbn [forallb]; now rewrite Ha).
  pose proof (same_answers Nat.ltb Nat.eqb (fun a _ => a) C Hlt H1 H2 Hg Hm Hi mg0 _ Hn Hf) as Hs.
  pose proof (gb_pq_correct Nat.ltb Nat.eqb (fun a _ => a) C Hlt H1 H2 Hg Hm Hi _ Hf) as Hp.
  destruct (run (gb_step nat Nat.ltb Nat.eqb (fun a _ => a) C) (gb_new nat C) [PushRange (repeat 0 (2 ^ K))]) as [[g rs]| | |] eqn:Hl; try contradiction.
  - destruct (run (mg_step nat Nat.ltb Nat.eqb (fun a _ => a) C) mg0 [PushRange (repeat 0 (2 ^ K))]) as [[mg rs']| | |] eqn:Hr; try contradiction.
    exists mg0, mg, rs'. split; auto. split; auto.
    destruct (range_cap Nat.ltb Nat.eqb (fun a _ => a) C Hlt H1 H2 Hg Hm Hi _ _ _ _ Hn Ha Hr) as (n & H3 & H4 & H5 & g' & R).
    destruct (amount C Hg Hm Hi mg g' n R H5) as (Hc & _). rewrite Hc by reflexivity. rewrite repeat_length in H4. cbn [minBucketSize geoBase C same_conf premerge] in *.
    assert (K <= n) by (apply (Nat.pow_le_mono_r_iff 2); lia).
    assert ((S n + 1) * (1 * 2 ^ n) >= (S K + 1) * (1 * 2 ^ K)) by (apply Nat.mul_le_mono; lia).
    assert (2 ^ K <> 0) by (apply Nat.pow_nonzero; lia). lia.
  - destruct Hp as (pre & o & post & s & rs & He & Hn0 & _). destruct pre as [|p pre]; [|destruct pre; discriminate]. injection He as <- <-. discriminate.
Qed.
