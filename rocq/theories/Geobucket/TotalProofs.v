(** Proofs about Geobucket when client functions throw: an exception is the only other thing that can happen. *)
From Coq Require Import List Arith Bool Lia.
From Verif.Base Require Import Res Arr Fault FaultFacts.
From Verif.Spec Require Import PQ.
From Verif.Geobucket Require Import Model Faults Throws ThrowsProofs.
Import ListNotations.

Section Total.
  Context {E : Type}.
  Variable lt eqv : E -> E -> bool.
  Variable dedup : E -> E -> E.
  Variable C : config.

  Lemma ki_tot bs a i : forall pos b slots toks, tot (ki_loop_x E lt C b bs a slots toks i pos) (ki_loop E lt C bs a slots toks i pos).
  Proof. induction pos as [|p IH]; intros b slots toks; cbn [ki_loop_x ki_loop]; tots. apply IH. Qed.
  Lemma kd_tot a n i : forall k b bs cnt slots toks pos, tot (kd_loop_x E lt eqv dedup C b k bs cnt a slots n toks i pos) (kd_loop E lt eqv dedup C k bs cnt a slots n toks i pos).
  Proof. induction k as [|k IH]; intros b bs cnt slots toks pos; cbn [kd_loop_x kd_loop]; tots; apply IH. Qed.
  Lemma keyIncreased_tot b bs f i : tot (f_keyIncreased_x E lt C b bs f i) (f_keyIncreased E lt C bs f i).
  Proof. unfold f_keyIncreased_x, f_keyIncreased. destruct f as [c|a slots n toks]; tots; [apply ki_tot|]. destruct a2. cbn [fst snd]. tots. Qed.
  Lemma insert_front_tot b bs f i : tot (f_insert_x E lt C b bs f i) (f_insert E lt C bs f i).
  Proof.
    unfold f_insert_x, f_insert. destruct f as [c|a slots n toks]; tots. destruct a0 as [[a0 slots0] toks0]. tots. apply keyIncreased_tot.
  Qed.
  Lemma keyDecreased_tot b bs cnt f i : tot (f_keyDecreased_x E lt eqv dedup C b bs cnt f i) (f_keyDecreased E lt eqv dedup C bs cnt f i).
  Proof. unfold f_keyDecreased_x, f_keyDecreased. destruct f as [c|a slots n toks]; tots. apply kd_tot. Qed.
  Lemma cm_tot : forall k b bs cnt m it, tot (cm_loop_x E lt eqv dedup C b k bs cnt m it) (cm_loop E lt eqv dedup C k bs cnt m it).
  Proof. induction k as [|k IH]; intros b bs cnt m it; cbn [cm_loop_x cm_loop]; tots; apply IH. Qed.
  Lemma getMax_tot b g : tot (gb_getMax_x E lt eqv dedup C b g) (gb_getMax E lt eqv dedup C g).
  Proof.
    unfold gb_getMax_x, gb_getMax. destruct (g_front g) as [[m|]|a slots n toks]; tots; [apply cm_tot|]. destruct a0 as [[bs cnt] m']. tots.
  Qed.
  Lemma addBucket_tot b g : tot (gb_addBucket_x E C b g) (gb_addBucket E C g).
  Proof. unfold gb_addBucket_x. tots. intros r H. rewrite H. cbn [bind]. eexists. split; [reflexivity|]. reflexivity. Qed.

  Lemma merge_part : forall l1 l2 b w k, gb_merge_x E lt eqv dedup C b l1 l2 = Left (w, k) ->
    length w <= length (fst (gb_merge E lt eqv dedup C l1 l2)) /\ k <= snd (gb_merge E lt eqv dedup C l1 l2).
  Proof.
    induction l1 as [|x l1 IH1].
    - intros l2 b w k H. destruct l2; cbn in H; discriminate H.
    - induction l2 as [|y l2 IH2]; intros b w k H.
      + cbn in H. discriminate H.
      + cbn [gb_merge_x gb_merge] in H |- *. destruct b as [|b]; [injection H as <- <-; cbn [length]; lia|]. destruct (lt x y).
        * destruct (gb_merge_x E lt eqv dedup C b l1 (y :: l2)) as [b1 [r1 k1]|[r1 k1]] eqn:Hm; cbn [wrote] in H; [discriminate H|].
          apply IH1 in Hm. destruct (gb_merge E lt eqv dedup C l1 (y :: l2)) as [r2 k2]. injection H as <- <-. cbn [fst snd length] in *. lia.
        * destruct (negb (supportDeduplication C) || negb (eqv x y)).
          -- change (wrote E y 0 (gb_merge_x E lt eqv dedup C b (x :: l1) l2) = Left (w, k)) in H.
             destruct (gb_merge_x E lt eqv dedup C b (x :: l1) l2) as [b1 [r1 k1]|[r1 k1]] eqn:Hm; cbn [wrote] in H; [discriminate H|].
             apply IH2 in Hm. injection H as <- <-.
             change (length (y :: r1) <= length (fst (let (r, k) := gb_merge E lt eqv dedup C (x :: l1) l2 in (y :: r, k))) /\
                     0 + k1 <= snd (let (r, k) := gb_merge E lt eqv dedup C (x :: l1) l2 in (y :: r, k))).
             destruct (gb_merge E lt eqv dedup C (x :: l1) l2) as [r2 k2]. cbn [fst snd length] in *. lia.
          -- destruct b as [|b]; [injection H as <- <-; cbn [length]; lia|].
             destruct (gb_merge_x E lt eqv dedup C b l1 l2) as [b1 [r1 k1]|[r1 k1]] eqn:Hm; cbn [wrote] in H; [discriminate H|].
             apply IH1 in Hm. destruct (gb_merge E lt eqv dedup C l1 l2) as [r2 k2]. injection H as <- <-. cbn [fst snd length] in *. lia.
  Qed.
  Lemma dec_less n k m k' : dec n k = Ok m -> k' <= k -> dec n k' = Ok (n - k').
  Proof. unfold dec. destruct (Nat.leb_spec k n); intros H1 H2; [|discriminate H1]. destruct (Nat.leb_spec k' n); [reflexivity|lia]. Qed.
  Lemma hold_fits (a : nat) (bk : bucket E) r b' : bk_hold E a bk r = Ok b' -> length r <= a.
  Proof. unfold bk_hold. destruct (Nat.leb_spec (length r) a) as [H|H]; intros H1; [exact H|discriminate H1]. Qed.

  Lemma mergeRange_tot b g into l : tot (gb_mergeRange_x E lt eqv dedup C b g into l) (gb_mergeRange E lt eqv dedup C g into l).
  Proof.
    unfold gb_mergeRange_x, gb_mergeRange. cbv zeta. apply tot_bind. intros bk Hbk.
    assert (Hset : forall x, exists bs', vset (g_bs g) into x = Ok bs').
    { intros x. unfold vget in Hbk. unfold vset. destruct (nth_error (g_bs g) into) eqn:Hn; [|discriminate Hbk]. assert (into < length (g_bs g)) by (apply nth_error_Some; congruence).
      destruct (Nat.ltb_spec into (length (g_bs g))); [eauto|lia]. }
    set (small := match bucketStorage C with Plain => largest E (g_bs g) <? b_size E bk | _ => false end).
    assert (Hgen : forall l1 l2, tot
      (match gb_merge_x E lt eqv dedup C b l1 l2 with
       | Fine b0 (r, k) =>
           let* cnt := dec (g_count g) k in let* b' := bk_hold E (area E C (g_bs g) bk) bk r in let* bs' := vset (g_bs g) into b' in
           fbind (fleft (mk_gb bs' cnt) (f_keyIncreased_x E lt C b0 bs' (g_front g) into)) (fun b1 f => Ok (Fine b1 (mk_gb bs' cnt f)))
       | Left (w, k) =>
           let* cnt := dec (g_count g) k in
           if area E C (g_bs g) bk <? length w then UB else
           let* bs' := (match bucketStorage C with
                        | Plain => vset (g_bs g) into (mk_b (b_cap bk) (firstn (b_size E bk) (w ++ skipn (length w) (b_ents bk))) (b_back bk))
                        | _ => Ok (g_bs g) end) in Ok (Left (mk_gb bs' cnt (g_front g)))
       end)
      (let (r, k) := gb_merge E lt eqv dedup C l1 l2 in
       let* cnt := dec (g_count g) k in let* b' := bk_hold E (area E C (g_bs g) bk) bk r in let* bs' := vset (g_bs g) into b' in
       let* f := f_keyIncreased E lt C bs' (g_front g) into in Ok (mk_gb bs' cnt f))).
    { intros l1 l2. destruct (gb_merge_x E lt eqv dedup C b l1 l2) as [b1 [r1 k1]|[w k1]] eqn:Hmx.
      - apply merge_normal in Hmx. rewrite Hmx. tots. apply keyIncreased_tot.
      - apply merge_part in Hmx. destruct (gb_merge E lt eqv dedup C l1 l2) as [r k]. cbn [fst snd] in Hmx. destruct Hmx as [H1 H2].
        intros r0 H. apply bind_inv in H as (cnt & Hc & H). rewrite (dec_less _ _ _ _ Hc H2). cbn [bind].
        apply bind_inv in H as (b' & Hb & H). apply hold_fits in Hb. destruct (Nat.ltb_spec (area E C (g_bs g) bk) (length w)); [lia|].
        destruct (bucketStorage C); cbn [bind]; try (eexists; split; [reflexivity|exact I]).
        destruct (Hset (mk_b (b_cap bk) (firstn (b_size E bk) (w ++ skipn (length w) (b_ents bk))) (b_back bk))) as [bs' ->]. cbn [bind]. eexists. split; [reflexivity|exact I]. }
    intros r H. destruct small eqn:Hs.
    - exfalso. destruct (match bucketStorage C with Plain => gb_merge E lt eqv dedup C l (b_ents bk) | _ => gb_merge E lt eqv dedup C (b_ents bk) l end) as [r1 k1].
      apply bind_inv in H as (cnt & _ & H). discriminate H.
    - destruct (bucketStorage C); [specialize (Hgen l (b_ents bk) r)|specialize (Hgen (b_ents bk) l r)|specialize (Hgen (b_ents bk) l r)];
        (destruct (gb_merge E lt eqv dedup C _ _) as [r1 k1]; exact (Hgen H)).
  Qed.
  Lemma mergeToNonEmpty_tot b g to from : tot (gb_mergeToNonEmpty_x E lt eqv dedup C b g to from) (gb_mergeToNonEmpty E lt eqv dedup C g to from).
  Proof. unfold gb_mergeToNonEmpty_x, gb_mergeToNonEmpty. tots. apply mergeRange_tot. Qed.
  Lemma mergeToEmpty_tot b g to from l : tot (gb_mergeToEmpty_x E lt eqv dedup C b g to from l) (gb_mergeToEmpty E lt eqv dedup C g to from l).
  Proof.
    unfold gb_mergeToEmpty_x, gb_mergeToEmpty. tots. destruct (gb_merge_x E lt eqv dedup C b l (b_ents a0)) as [b1 [r1 k1]|[w k1]] eqn:Hmx.
    - apply merge_normal in Hmx. rewrite Hmx. tots. apply keyIncreased_tot.
    - apply merge_part in Hmx. destruct (gb_merge E lt eqv dedup C l (b_ents a0)) as [r k]. cbn [fst snd] in Hmx. destruct Hmx as [H1 H2].
      intros r0 Hr. apply bind_inv in Hr as (cnt & Hc & Hr). rewrite (dec_less _ _ _ _ Hc H2). cbn [bind].
      apply bind_inv in Hr as (b' & Hb & Hr). apply hold_fits in Hb. destruct (Nat.ltb_spec (area E C (g_bs g) a) (length w)); [lia|]. eexists. split; [reflexivity|exact I].
  Qed.
  Lemma assign_tot b g i l : tot (gb_assign_x E lt C b g i l) (gb_assign E lt C g i l).
  Proof. unfold gb_assign_x, gb_assign. tots. apply insert_front_tot. Qed.
  Lemma grow_tot : forall fuel b g i acc, tot (grow_loop_x E C fuel b g i acc) (grow_loop E C fuel g i acc).
  Proof. induction fuel as [|fuel IH]; intros b g i acc; cbn [grow_loop_x grow_loop]; tots; [apply addBucket_tot|apply IH]. Qed.
  Lemma carry_tot go_x go : (forall b g i l, tot (go_x b g i l) (go g i l)) -> forall b g i l, tot (carry_x E lt eqv dedup C go_x b g i l) (carry E lt eqv dedup C go g i l).
  Proof.
    intros Hgo b g i l. unfold carry_x, carry. tots; [apply mergeToEmpty_tot|]. destruct (gb_merge_x E lt eqv dedup C b l (b_ents a)) as [b1 [r1 k1]|[w k1]] eqn:Hmx.
    - apply merge_normal in Hmx. rewrite Hmx. tots. apply Hgo.
    - apply merge_part in Hmx. destruct (gb_merge E lt eqv dedup C l (b_ents a)) as [r k]. cbn [fst snd] in Hmx. destruct Hmx as [H1 H2].
      intros r0 Hr. apply bind_inv in Hr as (cnt & Hc & Hr). rewrite (dec_less _ _ _ _ Hc H2). cbn [bind]. destruct (Nat.ltb_spec (largest E (g_bs g)) (length r)); [discriminate Hr|].
      destruct (Nat.ltb_spec (largest E (g_bs g)) (length w)); [lia|]. eexists. split; [reflexivity|exact I].
  Qed.
  Lemma carry_loop_tot : forall fuel b g i l, tot (carry_loop_x E lt eqv dedup C fuel b g i l) (carry_loop E lt eqv dedup C fuel g i l).
  Proof. induction fuel as [|fuel IH]; intros b g i l; cbn [carry_loop_x carry_loop]; tots; [apply mergeRange_tot|now apply carry_tot]. Qed.
  Lemma nopremerge_tot b g i l : tot (gb_insert_nopremerge_x E lt eqv dedup C b g i l) (gb_insert_nopremerge E lt eqv dedup C g i l).
  Proof.
    unfold gb_insert_nopremerge_x, gb_insert_nopremerge. tots; [apply assign_tot|apply mergeRange_tot|apply grow_tot|]. apply carry_tot. apply carry_loop_tot.
  Qed.
  Lemma pre_range_tot : forall fuel b g rb inc, tot (pre_range_x E C fuel b g rb inc) (pre_range E C fuel g rb inc).
  Proof. induction fuel as [|fuel IH]; intros b g rb inc; cbn [pre_range_x pre_range]; tots; [apply addBucket_tot|apply IH]. Qed.
  Lemma tot_pure {S} b (n : res (geobucket E)) : tot (let* g := n in Ok (@Fine S _ b g)) n.
  Proof. intros r ->. cbn [bind]. eexists. split; reflexivity. Qed.
  Lemma premerge_tot b g i l : tot (gb_insert_premerge_x E lt eqv dedup C b g i l) (gb_insert_premerge E lt eqv dedup C g i l).
  Proof.
    unfold gb_insert_premerge_x, gb_insert_premerge. tots; [apply pre_range_tot|]. destruct a as [g1 rb]. tots; try apply tot_pure; try apply mergeToNonEmpty_tot; [apply assign_tot|apply mergeRange_tot].
  Qed.
  Lemma insert_tot b g i l : tot (gb_insert_x E lt eqv dedup C b g i l) (gb_insert E lt eqv dedup C g i l).
  Proof. unfold gb_insert_x, gb_insert. destruct (premerge C); [apply premerge_tot|apply nopremerge_tot]. Qed.
  Lemma bin_tot left x l : forall fuel b beg rg, tot (bin_search_x E lt eqv C left fuel b l x beg rg) (bin_search E lt eqv C fuel l x beg rg).
  Proof. induction fuel as [|fuel IH]; intros b beg rg; cbn [bin_search_x bin_search]; tots; apply IH. Qed.
  Lemma lin_tot left x : forall l b pos, tot (lin_search_x E lt eqv C left b l x pos) (Ok (lin_search E lt eqv C l x pos)).
  Proof.
    induction l as [|y l IH]; intros b pos; cbn [lin_search_x lin_search]; tots. destruct (lt x y); tots. destruct (_ && _); tots. apply IH.
  Qed.
  Lemma push_tot b g x : tot (push_x E lt eqv dedup C b g x) (gb_push E lt eqv dedup C g x).
  Proof.
    unfold push_x, gb_push. tots; [apply insert_tot|apply insert_front_tot|apply bin_tot|apply lin_tot|].
    destruct a0; tots; apply keyIncreased_tot.
  Qed.
  Lemma add_tot : forall fuel b g adj, tot (add_loop_x E C fuel b g adj) (add_loop E C fuel g adj).
  Proof. induction fuel as [|fuel IH]; intros b g adj; cbn [add_loop_x add_loop]; tots; [apply addBucket_tot|apply IH]. Qed.
  Lemma pushRange_tot b g xs : tot (pushRange_x E lt eqv dedup C b g xs) (gb_pushRange E lt eqv dedup C g xs).
  Proof. unfold pushRange_x, gb_pushRange. tots; [apply add_tot|apply insert_tot]. Qed.
  Lemma pop_tot b g : tot (pop_x E lt eqv dedup C b g) (gb_pop E lt eqv dedup C g).
  Proof.
    unfold pop_x, gb_pop. tots; [apply getMax_tot|]. destruct a as [g1 m]. tots; [apply keyDecreased_tot|]. destruct a4 as [[bs' cnt'] f]. tots.
  Qed.
  Lemma top_tot b g : tot (top_x E lt eqv dedup C b g) (gb_top E lt eqv dedup C g).
  Proof. unfold top_x, gb_top. tots; [apply getMax_tot|]. destruct a as [g1 m]. tots. Qed.
  Lemma step_tot b g o : tot (gb_step_x E lt eqv dedup C b g o) (gb_step E lt eqv dedup C g o).
  Proof.
    destruct o as [x|xs| | |x| | | |]; cbn [gb_step_x gb_step bind]; tots; try apply push_tot; try apply pushRange_tot; try apply pop_tot; try apply top_tot.
    - destruct a; tots.
    - destruct a; tots.
    - unfold decreaseTop_x, gb_decreaseTop. tots; [apply pop_tot|]. destruct a. apply push_tot.
  Qed.
End Total.
