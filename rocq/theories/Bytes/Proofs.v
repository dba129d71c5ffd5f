(** Proofs about the memory that geobuckets, sets and triangles report. *)
From Coq Require Import List Arith Bool Lia Permutation.
From Verif.Base Require Import Res Arr Order Count.
From Verif.Spec Require Import PQ PQFacts.
From Verif.Geobucket Require Import Model Counted CountedProofs Proofs CostProofs CostRun.
From Verif.GeoMem Require Import Model Areas MemProofs RepProofs StepProofs SizeProofs BoundProofs.
From Verif.GeoMem Require Proofs.
From Verif.BitTriangle Require Import Model.
From Verif.BitTriangle Require Proofs.
From Verif.StlSet Require Import Model.
From Verif.Bytes Require Import Model.
Import ListNotations.

(** * The room of a vector *)
Lemma doubling_ge n : n <= doubling n.
Proof. induction n as [|n IH]; cbn [doubling]; [lia|]; cbv zeta. destruct (Nat.ltb_spec (doubling n) (S n)); lia. Qed.
Lemma doubling_mono n : doubling n <= doubling (S n).
Proof. cbn [doubling]; cbv zeta. destruct (Nat.ltb_spec (doubling n) (S n)); lia. Qed.
Lemma doubling_le n : doubling n <= 2 * n.
Proof. induction n as [|n IH]; cbn [doubling]; [lia|]; cbv zeta. destruct (Nat.ltb_spec (doubling n) (S n)); lia. Qed.
Lemma words_ge n : n <= words n.
Proof. unfold words. pose proof (Nat.div_mod (n + 63) 64 ltac:(lia)). pose proof (Nat.mod_upper_bound (n + 63) 64 ltac:(lia)). lia. Qed.
Lemma words_le n : words n <= n + 63.
Proof. unfold words. apply Nat.mul_div_le. lia. Qed.
Lemma mono_le (f : nat -> nat) : (forall n, f n <= f (S n)) -> forall n m, n <= m -> f n <= f m.
Proof. intros Hf n m H. induction H as [|m H IH]; [lia|]. specialize (Hf m). lia. Qed.

(** * The room of the front *)
Section Front.
  Context {E : Type}.
  Variable lt eqv : E -> E -> bool.
  Variable dedup : E -> E -> E.
  Variable C : config.
  Notation bucket := (bucket E).
  Notation geobucket := (geobucket E).

  (** The array of the front does not become smaller *)
  Definition fle (f f' : front) : Prop :=
    match f, f' with
    | FCache _, FCache _ => True
    | FOrder _ s n _, FOrder _ s' n' _ => length s <= length s' /\ (n <= length s -> n' <= length s')
    | _, _ => False
    end.
  (** It has room for all buckets *)
  Definition roomy (bs : list bucket) (f : front) : Prop := match f with FCache _ => True | FOrder _ s n _ => length bs <= length s /\ n <= length s end.
  Lemma fle_refl f : fle f f.
  Proof. destruct f; cbn; auto. Qed.
  Lemma fle_trans f g h : fle f g -> fle g h -> fle f h.
  Proof. destruct f, g, h; cbn; auto; try contradiction. lia. Qed.
  Lemma fle_roomy bs bs' f f' : length bs' = length bs -> fle f f' -> roomy bs f -> roomy bs' f'.
  Proof. intros H. destruct f, f'; cbn; auto; try contradiction. rewrite H. lia. Qed.

  Lemma ki_fle bs a b : forall pos slots toks slots' toks', ki_loop E lt C bs a slots toks b pos = Ok (slots', toks') -> length slots' = length slots.
  Proof.
    induction pos as [|p IH]; intros slots toks slots' toks' H; cbn [ki_loop] in H.
    - do 2 binv H. injection H as <- <-. now apply vset_len in Eb.
    - do 3 binv H. destruct (lt _ _); do 2 binv H; [apply IH in H; apply vset_len in Eb2; congruence|]. injection H as <- <-. now apply vset_len in Eb2.
  Qed.
  Lemma keyIncreased_fle bs f b f' : f_keyIncreased E lt C bs f b = Ok f' -> fle f f'.
  Proof.
    destruct f as [m|a slots n toks]; cbn [f_keyIncreased]; intros H; [injection H as <-; exact I|].
    do 3 binv H. destruct a2 as [s t]. injection H as <-. apply ki_fle in Eb1. cbn. lia.
  Qed.
  Lemma reserve_eq a slots n toks k a' slots' toks' : n <= length slots -> fo_reserve a slots n toks k = Ok (a', slots', toks') -> length slots' = Nat.max 1 k /\ n <= Nat.max 1 k.
  Proof.
    unfold fo_reserve. intros Hn H. destruct (Nat.ltb_spec (if k =? 0 then 1 else k) n) as [|Hle]; [discriminate|]. binv H. injection H as _ <- _.
    rewrite app_length, firstn_length, repeat_length. destruct (Nat.eqb_spec k 0); lia.
  Qed.
  Lemma insert_fle bs f b f' : f_insert E lt C bs f b = Ok f' -> fle f f'.
  Proof.
    destruct f as [m|a slots n toks]; cbn [f_insert]; intros H; [injection H as <-; exact I|].
    binv H. destruct a0 as [[a1 s1] t1]. do 2 binv H. apply keyIncreased_fle in H. eapply fle_trans; [|exact H]. cbn. apply vset_inv in Eb0 as [Hs ->]. rewrite upd_length.
    destruct (Nat.eqb_spec n (length slots)) as [Hn|_]; [apply reserve_eq in Eb; lia|]. injection Eb as _ <- _. lia.
  Qed.
  Lemma remove_fle f b f' : f_remove f b = Ok f' -> fle f f'.
  Proof.
    destruct f as [m|a slots n toks]; cbn [f_remove]; intros H; [injection H as <-; exact I|].
    unfold fo_remove in H. do 2 binv H. destruct (_ <=? _); [discriminate|]. binv H. destruct a2 as [s t]. binv H. injection H as <-. apply rm_len in Eb1. cbn. lia.
  Qed.
  Lemma swap_fle f x y f' : f_swapKeys f x y = Ok f' -> fle f f'.
  Proof.
    destruct f as [m|a slots n toks]; cbn [f_swapKeys]; intros H; [injection H as <-; exact I|]. do 6 binv H. injection H as <-. cbn.
    apply write_len in Eb3, Eb4. lia.
  Qed.
  Lemma kd_fle a n b : forall k bs cnt slots toks pos bs' cnt' f', kd_loop E lt eqv dedup C k bs cnt a slots n toks b pos = Ok (bs', cnt', f') -> fle (FOrder a slots n toks) f'.
  Proof.
    induction k as [|k IH]; intros bs cnt slots toks pos bs' cnt' f' H; cbn [kd_loop] in H.
    { do 2 binv H. injection H as _ _ <-. apply vset_len in Eb. cbn. lia. }
    do 3 binv H. destruct (lt _ _). { do 2 binv H. apply IH in H. eapply fle_trans; [|exact H]. apply vset_len in Eb2. cbn. lia. }
    destruct (_ || _). { do 2 binv H. injection H as _ _ <-. apply vset_len in Eb2. cbn. lia. }
    do 7 binv H. destruct (b_empty E _).
    - do 2 binv H. injection H as _ _ <-. apply (remove_fle (FOrder _ _ _ _)) in Eb10. exact Eb10.
    - do 2 binv H. apply IH in H. eapply fle_trans; [|exact H]. apply vset_len in Eb9. cbn. lia.
  Qed.
  Lemma keyDecreased_fle bs cnt f b bs' cnt' f' : f_keyDecreased E lt eqv dedup C bs cnt f b = Ok (bs', cnt', f') -> fle f f'.
  Proof.
    destruct f as [m|a slots n toks]; cbn [f_keyDecreased]; intros H; [injection H as _ _ <-; exact I|].
    binv H. destruct (b_empty E _). { binv H. injection H as _ _ <-. apply (remove_fle (FOrder _ _ _ _)) in Eb0. exact Eb0. }
    do 2 binv H. destruct (_ <=? _); [discriminate|]. eapply fle_trans; [|apply kd_fle in H; exact H]. apply fle_refl.
  Qed.

  Notation up := (fun g g' : geobucket => fle (g_front g) (g_front g')).
  Lemma mergeRange_up g i l g' : gb_mergeRange E lt eqv dedup C g i l = Ok g' -> up g g'.
  Proof.
    unfold gb_mergeRange. intros H. binv H. destruct (match bucketStorage C with Plain => _ | _ => _ end) as [r k]. binv H.
    destruct (match bucketStorage C with Plain => _ | _ => _ end); [discriminate|]. do 3 binv H. injection H as <-. now apply keyIncreased_fle in Eb3.
  Qed.
  Lemma mergeToNonEmpty_up g to from g' : gb_mergeToNonEmpty E lt eqv dedup C g to from = Ok g' -> up g g'.
  Proof.
    unfold gb_mergeToNonEmpty. intros H. do 7 binv H. injection H as <-. apply mergeRange_up in Eb2. apply remove_fle in Eb5. cbn [g_front] in *.
    refine (fle_trans _ _ _ _ (fle_trans _ _ _ Eb2 Eb5)). destruct a; [now apply swap_fle in Eb0|injection Eb0 as <-; apply fle_refl].
  Qed.
  Lemma mergeToEmpty_up g to from l g' : gb_mergeToEmpty E lt eqv dedup C g to from l = Ok g' -> up g g'.
  Proof.
    unfold gb_mergeToEmpty. intros H. do 2 binv H. destruct (gb_merge _ _ _ _ _ _ _) as [r k]. do 6 binv H. injection H as <-.
    apply swap_fle in Eb5. apply keyIncreased_fle in Eb6. eapply fle_trans; eassumption.
  Qed.
  Lemma moveToEmpty_up g to from g' : gb_moveToEmpty E C g to from = Ok g' -> up g g'.
  Proof. unfold gb_moveToEmpty. intros H. do 6 binv H. injection H as <-. now apply swap_fle in Eb4. Qed.
  Lemma assign_up g i l g' : gb_assign E lt C g i l = Ok g' -> up g g'.
  Proof. unfold gb_assign. intros H. do 4 binv H. injection H as <-. now apply insert_fle in Eb2. Qed.
  Lemma carry_up go_on g b l g' : (forall g1 b1 l1 g2, go_on g1 b1 l1 = Ok g2 -> up g1 g2) -> carry E lt eqv dedup C go_on g b l = Ok g' -> up g g'.
  Proof.
    intros Hgo. unfold carry. intros H. do 2 binv H. destruct (b_empty E _); [now apply mergeToEmpty_up in H|].
    destruct (gb_merge _ _ _ _ _ _ _) as [r k]. binv H. destruct (_ <? _); [discriminate|]. do 2 binv H. apply Hgo in H. apply remove_fle in Eb3. eapply fle_trans; eassumption.
  Qed.
  Lemma carry_loop_up : forall fuel g b l g', carry_loop E lt eqv dedup C fuel g b l = Ok g' -> up g g'.
  Proof.
    induction fuel as [|fuel IH]; intros g b l g'; cbn [carry_loop]; [discriminate|]. intros H. binv H.
    destruct (_ <=? _); [now apply mergeRange_up in H|]. eapply carry_up; eauto.
  Qed.
  Lemma pre_moves_up : forall k g rit g', pre_moves E C k g rit = Ok g' -> up g g'.
  Proof.
    induction k as [|k IH]; intros g rit g'; cbn [pre_moves]; intros H; [injection H as <-; apply fle_refl|].
    binv H. apply IH in H. apply moveToEmpty_up in Eb. eapply fle_trans; eassumption.
  Qed.
  Lemma getMax_up g g' i : gb_getMax E lt eqv dedup C g = Ok (g', i) -> up g g'.
  Proof.
    unfold gb_getMax. intros H. destruct (g_front g) as [[c|]|a slots n toks] eqn:Ef.
    - injection H as <- <-. rewrite Ef. exact I.
    - do 2 binv H. destruct a0 as [[bs cnt] m']. injection H as <- <-. exact I.
    - destruct (n =? 0); [discriminate|]. binv H. injection H as <- <-. rewrite Ef. apply fle_refl.
  Qed.
  Lemma pop_up g g' x : gb_pop E lt eqv dedup C g = Ok (g', x) -> up g g'.
  Proof.
    unfold gb_pop. intros H. binv H. destruct a as [g1 i]. do 6 binv H. destruct a4 as [[bs cnt] f]. injection H as <- <-.
    apply getMax_up in Eb. apply keyDecreased_fle in Eb5. eapply fle_trans; eassumption.
  Qed.

  (** What keeps the room for all buckets *)
  Notation ok := (fun g : geobucket => roomy (g_bs g) (g_front g)).
  Lemma kept g g' : same g g' -> up g g' -> ok g -> ok g'.
  Proof. intros Hs Hu. now apply fle_roomy. Qed.
  Lemma addBucket_ok g g' : ok g -> gb_addBucket E C g = Ok g' -> ok g'.
  Proof.
    intros Hk. unfold gb_addBucket. destruct (g_front g) as [m|a slots n toks] eqn:Ef; intros H; [injection H as <-; exact I|].
    binv H. destruct a0 as [[a1 s1] t1]. injection H as <-. cbn [roomy g_bs g_front].
    cbv beta in Hk. rewrite Ef in Hk. cbn [roomy] in Hk. apply reserve_eq in Eb as [Eb Hn]; [|lia].
    rewrite Eb, app_length in *. cbn [length] in *. lia.
  Qed.
  Lemma grow_loop_ok : forall fuel g i acc g', ok g -> grow_loop E C fuel g i acc = Ok g' -> ok g'.
  Proof.
    induction fuel as [|fuel IH]; intros g i acc g' Hk H; cbn [grow_loop] in H; [discriminate|]. binv H. binv H.
    assert (Hk1 : ok a) by (destruct (_ =? _); [exact (addBucket_ok _ _ Hk Eb)|injection Eb as <-; exact Hk]).
    destruct (_ <=? _); [injection H as <-; auto|]. exact (IH _ _ _ _ Hk1 H).
  Qed.
  Lemma pre_range_ok : forall fuel g r inc g' r', ok g -> pre_range E C fuel g r inc = Ok (g', r') -> ok g'.
  Proof.
    induction fuel as [|fuel IH]; intros g r inc g' r' Hk H; cbn [pre_range] in H; [discriminate|]. binv H.
    destruct (_ <=? _); [injection H as <- _; auto|]. destruct (_ =? _); [binv H; injection H as <- _; exact (addBucket_ok _ _ Hk Eb0)|exact (IH _ _ _ _ _ Hk H)].
  Qed.
  Lemma add_loop_ok : forall fuel g adj g', ok g -> add_loop E C fuel g adj = Ok g' -> ok g'.
  Proof.
    induction fuel as [|fuel IH]; intros g adj g' Hk H; cbn [add_loop] in H; [discriminate|].
    destruct (_ <? _); [|injection H as <-; auto]. binv H. exact (IH _ _ _ (addBucket_ok _ _ Hk Eb) H).
  Qed.
  Lemma insert_ok g b l g' : ok g -> gb_insert E lt eqv dedup C g b l = Ok g' -> ok g'.
  Proof.
    intros Hk. unfold gb_insert. destruct (premerge C).
    - unfold gb_insert_premerge. intros H. binv H. destruct a as [g1 r]. apply pre_range_ok in Eb; auto. binv H.
      assert (Hk2 : ok a).
      { destruct (_ =? _); [injection Eb0 as <-; auto|]. binv Eb0. destruct (b_empty E _).
        - eapply kept; [eapply pre_moves_len|eapply pre_moves_up|]; eauto.
        - binv Eb0. eapply kept; [eapply pre_moves_len|eapply pre_moves_up|]; eauto. eapply kept; [eapply mergeToNonEmpty_len|eapply mergeToNonEmpty_up|]; eauto. }
      binv H. destruct (b_empty E _); (eapply kept; [| |exact Hk2]); [eapply assign_len|eapply assign_up|eapply mergeRange_len|eapply mergeRange_up]; eauto.
    - unfold gb_insert_nopremerge. intros H. binv H. destruct (b_empty E _); [eapply kept; [eapply assign_len|eapply assign_up|]; eauto|].
      destruct (_ <=? _); [eapply kept; [eapply mergeRange_len|eapply mergeRange_up|]; eauto|]. binv H. apply grow_loop_ok in Eb0; auto.
      eapply kept; [eapply carry_len|eapply carry_up|exact Eb0]; try exact H; [apply carry_loop_len|apply carry_loop_up].
  Qed.
  Lemma push_ok g x g' : ok g -> gb_push E lt eqv dedup C g x = Ok g' -> ok g'.
  Proof.
    intros Hk H. unfold gb_push in H. binv H. destruct (_ =? _); [now apply insert_ok in H|]. destruct (b_empty E _).
    - do 3 binv H. injection H as <-. apply vset_len in Eb1. apply insert_fle in Eb2. exact (fle_roomy _ _ _ _ Eb1 Eb2 Hk).
    - binv H. destruct a0 as [i| |i].
      + do 2 binv H. injection H as <-. apply vset_len in Eb2. exact (fle_roomy _ _ _ _ Eb2 (fle_refl _) Hk).
      + do 3 binv H. injection H as <-. apply vset_len in Eb2. apply keyIncreased_fle in Eb3. exact (fle_roomy _ _ _ _ Eb2 Eb3 Hk).
      + do 4 binv H. injection H as <-. apply vset_len in Eb3. exact (fle_roomy _ _ _ _ Eb3 (fle_refl _) Hk).
  Qed.
  Lemma step_ok g o g' r : ok g -> gb_step E lt eqv dedup C g o = Ok (g', r) -> ok g'.
  Proof.
    intros Hk. destruct o as [x|xs| | |x| | | |]; cbn [gb_step]; intros H.
    - binv H. injection H as <- _. now apply push_ok in Eb.
    - binv H. injection H as <- _. unfold gb_pushRange in Eb. do 2 binv Eb. apply add_loop_ok in Eb0; [|exact Hk]. now apply insert_ok in Eb.
    - binv H. destruct a as [g1 y]. injection H as <- _. eapply kept; [eapply pop_len|eapply pop_up|]; eauto.
    - binv H. destruct a as [g1 y]. injection H as <- _. unfold gb_top in Eb. binv Eb. destruct a as [g2 i]. binv Eb. injection Eb as <- _.
      eapply kept; [eapply getMax_len|eapply getMax_up|]; eauto.
    - binv H. injection H as <- _. unfold gb_decreaseTop in Eb. binv Eb. destruct a0 as [g1 y]. apply push_ok in Eb; auto. eapply kept; [eapply pop_len|eapply pop_up|]; eauto.
    - injection H as <- _. cbn [gb_clear g_bs g_front]. cbv beta in Hk. destruct (g_front g); cbn in *; auto. rewrite map_length. lia.
    - injection H as <- _. auto.
    - injection H as <- _. auto.
    - injection H as <- _. auto.
  Qed.
End Front.

(** * The memory of a geobucket *)
Section Geobucket.
  Context {E : Type}.
  Variable lt eqv : E -> E -> bool.
  Variable dedup : E -> E -> E.
  Variable C : config.
  Hypothesis Hlt : strict_weak lt.
  Hypothesis Heq : supportDeduplication C = true -> forall a b, lt a b = false -> eqv a b = true -> equivalent lt a b.
  Hypothesis Hdd : supportDeduplication C = true -> forall a b, (eqv a b || eqv b a) = true -> equivalent lt (dedup a b) a.
  Hypothesis Hg : 2 <= geoBase C.
  Hypothesis Hm : 1 <= minBucketSize C.
  Hypothesis Hi : 1 <= insertFactor C.
  Notation geobucket := (geobucket E).
  Notation mgb := (mgb E).
  Notation api := (range_calls lt (negb (trackFront C))).
  Notation Inv := (Inv lt C).
  Notation cap := (fun i => minBucketSize C * geoBase C ^ i).

  (** The array of the front has as many slots as there are buckets *)
  Definition snug (g : geobucket) : Prop := roomy (g_bs g) (g_front g) /\ fs (g_front g) <= length (g_bs g).
  Lemma new_snug : snug (gb_new E C).
  Proof. unfold snug, gb_new. cbn [g_bs g_front]. destruct (trackFront C); cbn; lia. Qed.
  Lemma step_snug g o g' r : Inv g -> api o = true -> gb_step E lt eqv dedup C g o = Ok (g', r) -> snug g -> snug g'.
  Proof.
    intros Hv Ha H [H1 H2]. split; [eapply step_ok; eauto|]. pose proof (step_mono lt eqv dedup C Hlt Heq Hdd Hg Hm Hi _ _ _ _ Hv Ha H) as Hmo.
    pose proof (call_forget lt eqv dedup C g o) as Hf. rewrite H in Hf. destruct (gb_call_c E lt eqv dedup C g o) as [[[g1 r1] c]| | |] eqn:Hc; try discriminate.
    unfold forget in Hf. cbn in Hf. injection Hf as -> ->.
    eapply (call_cost lt eqv dedup C Hlt Heq Hdd Hg Hm Hi (length (g_bs g'))); eauto. lia.
  Qed.
  Lemma run_snug : forall ops g g' rs, Inv g -> forallb api ops = true -> run (gb_step E lt eqv dedup C) g ops = Ok (g', rs) -> snug g -> snug g'.
  Proof.
    induction ops as [|o ops IH]; intros g g' rs Hv Ha H Hs; cbn [run] in H; [injection H as <- _; auto|].
    cbn [forallb] in Ha. apply andb_true_iff in Ha as [Ho Ha]. binv H. destruct a as [g1 r]. binv H. destruct a as [g2 rs']. injection H as <- _.
    pose proof (step_snug _ _ _ _ Hv Ho Eb Hs) as Hs1. destruct (step_inv lt eqv dedup C Hlt Heq Hdd Hg Hm Hi _ _ _ _ Hv Ho Eb) as [Hv1 _]. eauto.
  Qed.
  Lemma snug_front g : Inv g -> snug g -> fs (g_front g) = if trackFront C then length (g_bs g) else 0.
  Proof.
    intros [[_ _ F] _] [H1 H2]. destruct (g_front g) as [m|a slots n toks]; cbn [fs roomy] in *.
    - cbn in F. now rewrite F.
    - destruct F as [F _]. rewrite F. lia.
  Qed.

  (** The cells of [_mem] for [n] buckets *)
  Definition total_cells (n : nat) : nat :=
    let sum := list_sum (map cap (seq 0 n)) in
    let largest := minBucketSize C * geoBase C ^ (n - 1) in
    let temporary := (if premerge C then 1 else 2) * largest in
    match bucketStorage C with
    | Plain => sum + temporary
    | DoubleBuffer => 2 * sum + temporary
    | SameSizeBuffer => n * largest + temporary
    end.
  Lemma cap_mono i j : i <= j -> cap i <= cap j.
  Proof. intros H. apply Nat.mul_le_mono_l, Nat.pow_le_mono_r; lia. Qed.
  Lemma total_cells_mono n : total_cells n <= total_cells (S n).
  Proof.
    unfold total_cells. rewrite seq_S, map_app, list_sum_app. pose proof (cap_mono (n - 1) (S n - 1) ltac:(lia)) as Hc. cbv beta in Hc.
    set (x := minBucketSize C * geoBase C ^ (n - 1)) in *. set (y := minBucketSize C * geoBase C ^ (S n - 1)) in *.
    assert (n * x <= S n * y) by (apply Nat.mul_le_mono; lia). destruct (bucketStorage C), (premerge C); lia.
  Qed.
  Lemma cells_total mg g n : Verif.GeoMem.Proofs.rep C mg g -> map (mb_cap E) (mg_bs E mg) = map cap (seq 0 (S n)) -> length (m_cells E (mg_mem E mg)) = total_cells (S n).
  Proof.
    intros ([_ [_ _ L _] _] & _) Hc. rewrite L, Hc. unfold RepProofs.total, need, tmps, total_cells.
    assert (Hl : last (map cap (seq 0 (S n))) 0 = cap n) by (rewrite seq_S, map_app; simpl; apply last_last).
    rewrite Hl, map_map, Nat.sub_succ, Nat.sub_0_r. cbv beta in *. destruct (bucketStorage C).
    - destruct (premerge C); lia.
    - rewrite (sum_double C Hg Hm Hi). destruct (premerge C); lia.
    - rewrite sum_const, seq_length. destruct (premerge C); lia.
  Qed.

  Lemma flat_sum : forall (bs : list (bucket E)) k, (forall i b, nth_error bs i = Some b -> length (b_ents b) <= cap (k + i)) ->
    length (flat_map (@b_ents E) bs) <= list_sum (map cap (seq k (length bs))).
  Proof.
    induction bs as [|b bs IH]; intros k H; cbn [flat_map length seq map list_sum fold_right]; [lia|]. rewrite app_length.
    specialize (IH (S k) (fun i b' Hb => eq_ind _ (fun j => length (b_ents b') <= cap j) (H (S i) b' Hb) _ (Nat.add_succ_r k i))).
    specialize (H 0 b eq_refl). rewrite Nat.add_0_r in H. cbv beta in *. unfold list_sum in IH. lia.
  Qed.
  Lemma sum_le {A} (f : A -> nat) m l : (forall a, In a l -> f a <= m) -> list_sum (map f l) <= length l * m.
  Proof.
    induction l as [|a l IH]; intros H; cbn [map length]; [auto|]. rewrite Nat.mul_succ_l. change (list_sum (f a :: map f l)) with (f a + list_sum (map f l)).
    specialize (IH (fun x Hx => H x (or_intror Hx))). specialize (H a (or_introl eq_refl)). lia.
  Qed.

  Variable room : nat -> nat.
  Variables entry bucket pointer : nat.
  (** What is reported for [n] buckets *)
  Definition reported (n : nat) : nat := total_cells n * entry + room n * bucket + (if trackFront C then n else 0) * pointer.
  Lemma reported_mono : (forall n, room n <= room (S n)) -> forall n m, n <= m -> reported n <= reported m.
  Proof.
    intros Hr n m H. unfold reported. pose proof (mono_le _ total_cells_mono n m H). pose proof (mono_le _ Hr n m H).
    apply Nat.add_le_mono; [apply Nat.add_le_mono|]; apply Nat.mul_le_mono_r; auto. destruct (trackFront C); lia.
  Qed.
  Lemma memory_reported mg0 ops mg rs : mg_new E C = Ok mg0 -> forallb api ops = true -> run (mg_step E lt eqv dedup C) mg0 ops = Ok (mg, rs) ->
    1 <= length (mg_bs E mg) /\ mg_getMemoryUse room entry bucket pointer mg = reported (length (mg_bs E mg)) /\
    length (m_cells E (mg_mem E mg)) = total_cells (length (mg_bs E mg)).
  Proof.
    intros Hn Ha Hr. destruct (reached lt eqv dedup C Hlt Heq Hdd Hg Hm Hi _ _ _ _ Hn Ha Hr) as (g & Hl & R & V).
    pose proof (rep_len C _ _ R) as Hlen. pose proof (wf_ne _ _ _ (i_wf _ _ _ _ (proj1 V))) as Hne.
    assert (H1 : 1 <= length (mg_bs E mg)) by (rewrite Hlen; destruct (g_bs g); [congruence|cbn; lia]). split; [exact H1|].
    assert (Hc : length (m_cells E (mg_mem E mg)) = total_cells (length (mg_bs E mg))).
    { pose proof (caps_geo lt C Hg Hm Hi _ _ R V) as Hcs. destruct (length (mg_bs E mg)) as [|n] eqn:En; [lia|]. exact (cells_total _ _ _ R Hcs). }
    split; [|exact Hc]. unfold mg_getMemoryUse, reported. rewrite Hc. f_equal. destruct R as (_ & _ & Hf). rewrite Hf.
    assert (Hs : snug g) by (exact (run_snug _ _ _ _ (gb_new_inv lt C Hg Hm Hi) Ha Hl new_snug)). pose proof (snug_front _ V Hs) as Hs'. rewrite <- Hlen in Hs'.
    rewrite <- Hs'. destruct (g_front g); reflexivity.
  Qed.
  Lemma buckets_mono mg0 pre post s rs' mg rs : mg_new E C = Ok mg0 -> forallb api (pre ++ post) = true ->
    run (mg_step E lt eqv dedup C) mg0 pre = Ok (s, rs') -> run (mg_step E lt eqv dedup C) mg0 (pre ++ post) = Ok (mg, rs) ->
    length (mg_bs E s) <= length (mg_bs E mg).
  Proof.
    intros Hn Ha Hp Hr. pose proof Ha as Ha'. rewrite forallb_app in Ha'. apply andb_true_iff in Ha' as [Ha1 Ha2].
    destruct (reached lt eqv dedup C Hlt Heq Hdd Hg Hm Hi _ _ _ _ Hn Ha1 Hp) as (g & Hl & R & V).
    destruct (reached lt eqv dedup C Hlt Heq Hdd Hg Hm Hi _ _ _ _ Hn Ha Hr) as (g' & Hl' & R' & V').
    rewrite (rep_len C _ _ R), (rep_len C _ _ R'). rewrite run_app, Hl in Hl'. cbn [bind] in Hl'. binv Hl'. destruct a as [g2 rs2]. injection Hl' as -> _.
    destruct (run_mono lt eqv dedup C Hlt Heq Hdd Hg Hm Hi _ _ _ _ V Ha2 Eb) as [Hmo _]. exact Hmo.
  Qed.
  Lemma held_fits mg0 ops mg rs : mg_new E C = Ok mg0 -> forallb api ops = true -> run (mg_step E lt eqv dedup C) mg0 ops = Ok (mg, rs) ->
    length (mg_held mg) <= length (m_cells E (mg_mem E mg)).
  Proof.
    intros Hn Ha Hr. destruct (reached lt eqv dedup C Hlt Heq Hdd Hg Hm Hi _ _ _ _ Hn Ha Hr) as (g & Hl & R & V).
    destruct (memory_reported _ _ _ _ Hn Ha Hr) as (_ & _ & Hc). rewrite Hc.
    unfold mg_held. rewrite (forAll_ok C _ _ R). pose proof (rep_len C _ _ R) as Hlen. rewrite Hlen.
    assert (Hf : length (gb_forAll E g) <= list_sum (map cap (seq 0 (length (g_bs g))))).
    { destruct V as [[W _ _] _]. apply (flat_sum (g_bs g) 0). intros i b Hb. cbn [Nat.add]. rewrite <- (wf_cap _ _ _ W _ _ Hb). apply (wf_good _ _ _ W _ _ Hb). }
    eapply Nat.le_trans; [exact Hf|]. unfold total_cells. assert (Hss : list_sum (map cap (seq 0 (length (g_bs g)))) <= length (g_bs g) * (minBucketSize C * geoBase C ^ (length (g_bs g) - 1))).
    { rewrite <- (seq_length (length (g_bs g)) 0) at 2. apply sum_le. intros i Hin. apply in_seq in Hin. apply (cap_mono i). lia. }
    destruct (bucketStorage C); lia.
  Qed.
End Geobucket.

(** * The memory of a triangle *)
Section Triangle.
  Variable room bits : nat -> nat.
  Variable vector : nat.
  (** The column at index [i] has [i] bits *)
  Definition shaped (t : triangle) : Prop := map (@length bool) t = seq 0 (length t).
  Lemma upd_lengths (t : triangle) i c c' : nth_error t i = Some c -> length c' = length c -> map (@length bool) (upd t i c') = map (@length bool) t.
  Proof.
    revert i. induction t as [|d t IH]; intros [|i] H Hl; try discriminate; cbn in *.
    - injection H as ->. congruence.
    - f_equal. now apply IH.
  Qed.
  Lemma setBit_lengths t c r v t' : bt_setBit t c r v = Ok t' -> map (@length bool) t' = map (@length bool) t.
  Proof.
    unfold bt_setBit. intros H. do 2 binv H. unfold vget in Eb. destruct (nth_error t c) as [x|] eqn:Hx; [|discriminate]. injection Eb as ->.
    unfold vset in H. destruct (_ <? _); [|discriminate]. injection H as <-. apply vset_len in Eb0. eapply upd_lengths; eauto.
  Qed.
  Lemma step_shaped t o t' r : bt_step t o = Ok (t', r) -> shaped t -> shaped t' /\ length t <= length t'.
  Proof.
    assert (K : forall t t', map (@length bool) t' = map (@length bool) t -> shaped t -> shaped t' /\ length t <= length t').
    { intros u u' H Hs. assert (Hl : length u' = length u) by (rewrite <- (map_length (@length bool) u'), H; apply map_length). unfold shaped in *. rewrite Hl, H. auto. }
    intros H Hs. destruct o as [|c r0 v|x y v|c r0|x y| |]; cbn [bt_step] in H.
    - injection H as <- _. unfold bt_addColumn, shaped in *. rewrite map_app, Hs, app_length. cbn [length map]. rewrite repeat_length, Nat.add_1_r, seq_S. auto.
    - binv H. injection H as <- _. apply setBit_lengths in Eb. auto.
    - binv H. injection H as <- _. unfold bt_setBitUnordered in Eb. destruct (if _ <? _ then _ else _). apply setBit_lengths in Eb. auto.
    - binv H. injection H as <- _. auto.
    - binv H. injection H as <- _. auto.
    - injection H as <- _. auto.
    - injection H as <- _. auto.
  Qed.
  Lemma run_shaped : forall ops t t' rs, run bt_step t ops = Ok (t', rs) -> shaped t -> shaped t' /\ length t <= length t'.
  Proof.
    induction ops as [|o ops IH]; intros t t' rs H Hs; cbn [run] in H; [injection H as <- _; auto|].
    binv H. destruct a as [t1 r]. binv H. destruct a as [t2 rs']. injection H as <- _. apply step_shaped in Eb as [S1 L1]; auto. apply IH in Eb0 as [S2 L2]; auto. split; [auto|lia].
  Qed.
  Lemma columns_sum cs : forall sum, columns_loop bits cs sum = sum + list_sum (map (fun n => (bits n + 7) / 8) (map (@length bool) cs)).
  Proof. induction cs as [|c cs IH]; intros sum; cbn [columns_loop map]; [cbn; lia|]. rewrite IH. unfold list_sum. cbn [fold_right]. lia. Qed.
  (** What is reported for [n] columns *)
  Definition triangle_reported (n : nat) : nat := room n * vector + list_sum (map (fun i => (bits i + 7) / 8) (seq 0 n)).
  Lemma triangle_memory t : shaped t -> bt_getMemoryUse room bits vector t = triangle_reported (length t).
  Proof. intros Hs. unfold bt_getMemoryUse, triangle_reported. rewrite columns_sum, Hs. reflexivity. Qed.
  Lemma triangle_mono : (forall n, room n <= room (S n)) -> forall n, triangle_reported n <= triangle_reported (S n).
  Proof.
    intros Hr n. unfold triangle_reported. rewrite seq_S, map_app, list_sum_app. pose proof (Nat.mul_le_mono_r _ _ vector (Hr n)). lia.
  Qed.
  Lemma triangle_covers : (forall n, n <= bits n) -> forall n, n * (n - 1) <= 16 * triangle_reported n.
  Proof.
    intros Hb n. enough (n * (n - 1) <= 16 * list_sum (map (fun i => (bits i + 7) / 8) (seq 0 n))) by (unfold triangle_reported; lia).
    induction n as [|n IH]; [cbn; lia|]. rewrite seq_S, map_app, list_sum_app. cbn [map Nat.add]. unfold list_sum at 2. cbn [fold_right].
    pose proof (Nat.div_mod (bits n + 7) 8 ltac:(lia)) as D. pose proof (Nat.mod_upper_bound (bits n + 7) 8 ltac:(lia)). specialize (Hb n).
    assert (S n * (S n - 1) = n * (n - 1) + 2 * n) by (destruct n; cbn; lia). lia.
  Qed.
End Triangle.
Lemma triangle_bound vector n : 16 * triangle_reported doubling words vector n <= 32 * n * vector + n * (n + 125).
Proof.
  assert (A : 16 * list_sum (map (fun i => (words i + 7) / 8) (seq 0 n)) <= n * (n + 125)).
  { induction n as [|n IH]; [cbn; lia|]. rewrite seq_S, map_app, list_sum_app. cbn [map Nat.add]. unfold list_sum at 2. cbn [fold_right].
    assert (H : 8 * ((words n + 7) / 8) <= n + 63).
    { eapply Nat.le_trans; [|apply words_le]. unfold words. rewrite Nat.div_add_l || idtac.
      replace (64 * ((n + 63) / 64) + 7) with (8 * ((n + 63) / 64) * 8 + 7) by lia. rewrite Nat.div_add_l by lia. change (7 / 8) with 0. lia. }
    lia. }
  unfold triangle_reported. pose proof (doubling_le n). assert (doubling n * vector <= 2 * n * vector) by (apply Nat.mul_le_mono_r; auto). lia.
Qed.

(** * The memory of a set *)

Section Set_.
  Context {E : Type}.
  Variable lt : E -> E -> bool.
  Lemma insert_length x m : length (ms_insert E lt x m) = S (length m).
  Proof. induction m as [|y m IH]; cbn [ms_insert]; auto. destruct (stl_cmp E lt x y); cbn [length]; auto. Qed.
  Lemma push_range_length xs : forall m, length (stl_push_range E lt m xs) = length xs + length m.
  Proof. induction xs as [|x xs IH]; intros m; cbn [stl_push_range length]; auto. rewrite IH. unfold stl_push. rewrite insert_length. lia. Qed.
  Notation pop := (fun o : op E => match o with Pop => true | _ => false end).
  Lemma set_length : forall ops m s rs, forallb (stl_api E) ops = true -> run (stl_step E lt) m ops = Ok (s, rs) ->
    length s + length (filter pop ops) = length m + length (pushed ops).
  Proof.
    induction ops as [|o ops IH]; intros m s rs Ha H; cbn [run] in H; [injection H as <- _; reflexivity|].
    cbn [forallb] in Ha. apply andb_true_iff in Ha as [Ho Ha]. binv H. destruct a as [m1 r]. binv H. destruct a as [m2 rs']. injection H as <- _. specialize (IH _ _ _ Ha Eb0).
    destruct o as [x|xs| | |x| | | |]; try discriminate; cbn [stl_step] in Eb; cbn [filter pushed length].
    - injection Eb as <- _. unfold stl_push in IH. rewrite insert_length in IH. lia.
    - injection Eb as <- _. rewrite push_range_length in IH. rewrite app_length. lia.
    - destruct m as [|y m]; [discriminate|]. injection Eb as <- _. cbn [length]. lia.
    - destruct m as [|y m]; [discriminate|]. injection Eb as <- _. exact IH.
    - injection Eb as <- _. exact IH.
    - injection Eb as <- _. exact IH.
  Qed.
  Lemma set_memory pointer int entry ops s rs : forallb (stl_api E) ops = true -> run (stl_step E lt) [] ops = Ok (s, rs) ->
    stl_getMemoryUse pointer int entry s + length (filter pop ops) * (3 * pointer + int + entry) = length (pushed ops) * (3 * pointer + int + entry).
  Proof. intros Ha H. apply set_length in H; auto. cbn [length Nat.add] in H. rewrite <- H. unfold stl_getMemoryUse. rewrite Nat.mul_add_distr_r. f_equal. f_equal. lia. Qed.
End Set_.
