(** Proofs about GeoMem/Sizes.v. *)
From Coq Require Import List Arith Bool Lia.
From Verif.Base Require Import Res Arr Order.
From Verif.Spec Require Import PQ PQFacts.
From Verif.Geobucket Require Import Model Proofs Properties.
From Verif.GeoMem Require Import Model Areas MemProofs RepProofs Proofs GrowProofs StepProofs BoundProofs Sizes.
Import ListNotations.

(** Takes a computation that ended well apart *)
Ltac parts H :=
  repeat match type of H with
  | UB = Ok _ => discriminate H
  | NoFuel = Ok _ => discriminate H
  | bind ?m _ = Ok _ => let E := fresh "Eb" in destruct m eqn:E; cbn [bind] in H; try discriminate H
  | context [match ?p with (_, _) => _ end] => is_var p; destruct p; cbn [bind] in H
  | (if ?b then _ else _) = Ok _ => let E := fresh "Ei" in destruct b eqn:E; try discriminate H
  | match ?x with _ => _ end = Ok _ => let E := fresh "Em" in destruct x eqn:E; try discriminate H
  end.

Ltac inner H :=
  repeat match type of H with
  | bind (bind ?m _) _ = Ok _ => destruct m; cbn [bind] in H; try discriminate H
  | bind ?m _ = Ok _ => destruct m; cbn [bind] in H; try discriminate H
  | context [match ?p with (_, _) => _ end] => is_var p; destruct p; cbn [bind] in H
  | (if ?b then _ else _) = Ok _ => let E := fresh "Ei" in destruct b eqn:E; try discriminate H
  end.

Section Kept.
  Context {E : Type}.
  Variable lt eqv : E -> E -> bool.
  Variable dedup : E -> E -> E.
  Variable C : config.
  Notation sz m := (length (m_cells E m)).
  Notation msz g := (length (m_cells E (mg_mem E g))).

  (** ** Only addBucket changes the size of the memory *)
  Lemma wr_kept m p x m' : wr E m p x = Ok m' -> sz m' = sz m.
  Proof.
    unfold wr. intros H. parts H. injection H as <-. unfold vset in Eb. parts Eb. injection Eb as <-. apply upd_length.
  Qed.
  Lemma copy_loop_kept fuel : forall m s d r, copy_loop E fuel m s d = Ok r -> sz (fst r) = sz m.
  Proof.
    induction fuel as [|fuel IH]; intros m s d r H; [discriminate|]. cbn [copy_loop] in H. parts H.
    - apply IH in H. apply wr_kept in Eb0. congruence.
    - now injection H as <-.
  Qed.
  Lemma copy_kept m s d r : copy E m s d = Ok r -> sz (fst r) = sz m.
  Proof. apply copy_loop_kept. Qed.
  Lemma merge_loop_kept fuel : forall m s1 s2 d k r, merge_loop E lt eqv dedup C fuel m s1 s2 d k = Ok r -> sz (fst (fst r)) = sz m.
  Proof.
    induction fuel as [|fuel IH]; intros m s1 s2 d k r H; [discriminate|]. cbn [merge_loop] in H. parts H;
      try (apply IH in H; repeat match goal with W : wr _ _ _ _ = Ok _ |- _ => apply wr_kept in W end; congruence);
      (injection H as <-; cbn [fst]; match goal with W : copy _ _ _ _ = Ok _ |- _ => apply copy_kept in W; cbn [fst] in W end; congruence).
  Qed.
  Lemma merge_kept m s1 s2 d r : merge E lt eqv dedup C m s1 s2 d = Ok r -> sz (fst (fst r)) = sz m.
  Proof. apply merge_loop_kept. Qed.
  Lemma shift_kept k : forall m it m', shift_loop E k m it = Ok m' -> sz m' = sz m.
  Proof.
    induction k as [|k IH]; intros m it m' H; cbn [shift_loop] in H; [now injection H as <-|]. parts H. apply IH in H. apply wr_kept in Eb0. congruence.
  Qed.
  Lemma setEntry_kept m b pos x r : mb_setEntry E C m b pos x = Ok r -> sz (fst r) = sz m.
  Proof. unfold mb_setEntry. intros H. parts H. injection H as <-. now apply wr_kept in Eb. Qed.
  Lemma insertAt_kept m b pos x r : mb_insertAtNotEnd E m b pos x = Ok r -> sz (fst r) = sz m.
  Proof. unfold mb_insertAtNotEnd. intros H. parts H. injection H as <-. apply wr_kept in Eb0. apply shift_kept in Eb. cbn [fst]. congruence. Qed.
  Lemma push_back_kept m b x r : mb_push_back E C m b x = Ok r -> sz (fst r) = sz m.
  Proof. unfold mb_push_back. intros H. parts H; injection H as <-; now apply wr_kept in Eb. Qed.
  Lemma mb_assign_kept m b s n r : mb_assign E m b s n = Ok r -> sz (fst r) = sz m.
  Proof. unfold mb_assign. intros H. parts H; injection H as <-; apply copy_kept in Eb; exact Eb. Qed.
  Lemma mb_merge_kept m b s1 s2 r : mb_merge E lt eqv dedup C m b s1 s2 = Ok r -> sz (fst (fst r)) = sz m.
  Proof. unfold mb_merge. intros H. parts H; injection H as <-; apply merge_kept in Eb; exact Eb. Qed.
  Lemma mkd_kept k : forall m bs cnt a slots n toks b pos r, mkd_loop E lt eqv dedup C k m bs cnt a slots n toks b pos = Ok r ->
    sz (fst (fst (fst r))) = sz m.
  Proof.
    induction k as [|k IH]; intros m bs cnt a slots n toks b pos r H; cbn [mkd_loop] in H; cbv zeta in H; parts H; try (injection H as <-; cbn [fst]);
      try apply IH in H; repeat match goal with W : mb_setEntry _ _ _ _ _ _ = Ok _ |- _ => apply setEntry_kept in W; cbn [fst] in W end; congruence.
  Qed.
  Lemma keyDecreased_kept m bs cnt f b r : mf_keyDecreased E lt eqv dedup C m bs cnt f b = Ok r -> sz (fst (fst (fst r))) = sz m.
  Proof.
    unfold mf_keyDecreased. intros H. parts H; try (injection H as <-; reflexivity). now apply mkd_kept in H.
  Qed.
  Lemma mcm_kept k : forall m bs cnt mb it r, mcm_loop E lt eqv dedup C k m bs cnt mb it = Ok r -> sz (fst (fst (fst r))) = sz m.
  Proof.
    induction k as [|k IH]; intros m bs cnt mb it r H; cbn [mcm_loop] in H; parts H; try (injection H as <-; reflexivity); apply IH in H; auto.
    match goal with W : mb_setEntry _ _ _ _ _ _ = Ok _ |- _ => apply setEntry_kept in W; cbn [fst] in W end. congruence.
  Qed.
  Lemma getMax_kept g r : mg_getMax E lt eqv dedup C g = Ok r -> msz (fst r) = msz g.
  Proof. unfold mg_getMax. intros H. parts H; injection H as <-; auto. now apply mcm_kept in Eb0. Qed.
  Lemma mergeRange_kept g i s g' : mg_mergeRange E lt eqv dedup C g i s = Ok g' -> msz g' = msz g.
  Proof.
    unfold mg_mergeRange. intros H. parts H. injection H as <-. cbn [mg_mem].
    parts Eb0; injection Eb0 as <- <- <- <-;
      repeat match goal with
      | W : merge _ _ _ _ _ _ _ _ _ = Ok _ |- _ => apply merge_kept in W; cbn [fst] in W
      | W : copy _ _ _ _ = Ok _ |- _ => apply copy_kept in W; cbn [fst] in W
      | W : mb_merge _ _ _ _ _ _ _ _ _ = Ok _ |- _ => apply mb_merge_kept in W; cbn [fst] in W
      end; congruence.
  Qed.
  Lemma mergeToNonEmpty_kept g to from g' : mg_mergeToNonEmpty E lt eqv dedup C g to from = Ok g' -> msz g' = msz g.
  Proof.
    unfold mg_mergeToNonEmpty. intros H. parts H. injection H as <-. cbn [mg_mem].
    match goal with W : mg_mergeRange _ _ _ _ _ _ _ _ = Ok _ |- _ => apply mergeRange_kept in W; exact W end.
  Qed.
  Lemma mergeToEmpty_kept g to from s g' : mg_mergeToEmpty E lt eqv dedup C g to from s = Ok g' -> msz g' = msz g.
  Proof. unfold mg_mergeToEmpty. intros H. parts H. injection H as <-. cbn [mg_mem]. apply mb_merge_kept in Eb1. exact Eb1. Qed.
  Lemma moveToEmpty_kept g to from g' : mg_moveToEmpty E C g to from = Ok g' -> msz g' = msz g.
  Proof.
    unfold mg_moveToEmpty. intros H. parts H. injection H as <-. cbn [mg_mem]. parts Eb1; injection Eb1 as <- <- <-; auto;
      match goal with W : mb_assign _ _ _ _ _ = Ok _ |- _ => apply mb_assign_kept in W; exact W end.
  Qed.
  Lemma assign_kept g i l g' : mg_assign E lt C g i l = Ok g' -> msz g' = msz g.
  Proof. unfold mg_assign. intros H. parts H. injection H as <-. cbn [mg_mem]. apply mb_assign_kept in Eb0. exact Eb0. Qed.
  Lemma carry_kept fuel : forall g b e g', mcarry_loop E lt eqv dedup C fuel g b e = Ok g' -> msz g' = msz g.
  Proof.
    induction fuel as [|fuel IH]; intros g b e g' H; [discriminate|]. cbn [mcarry_loop] in H. cbv zeta in H. parts H.
    - now apply mergeRange_kept in H.
    - now apply mergeToEmpty_kept in H.
    - apply IH in H. cbn [mg_mem] in H. apply merge_kept in Eb1. cbn [fst] in Eb1. congruence.
  Qed.
  Lemma carry_first_kept fuel g b l g' : mcarry_first E lt eqv dedup C fuel g b l = Ok g' -> msz g' = msz g.
  Proof.
    unfold mcarry_first. intros H. parts H.
    - now apply mergeToEmpty_kept in H.
    - apply carry_kept in H. cbn [mg_mem] in H. apply merge_kept in Eb1. cbn [fst] in Eb1. congruence.
  Qed.
  Lemma moves_kept k : forall g r g', mpre_moves E C k g r = Ok g' -> msz g' = msz g.
  Proof.
    induction k as [|k IH]; intros g r g' H; cbn [mpre_moves] in H; [now injection H as <-|]. parts H. apply IH in H. apply moveToEmpty_kept in Eb. congruence.
  Qed.
  Lemma pop_kept g r : mg_pop E lt eqv dedup C g = Ok r -> msz (fst r) = msz g.
  Proof.
    unfold mg_pop. intros H. parts H. injection H as <-. cbn [fst mg_mem]. apply getMax_kept in Eb. cbn [fst] in Eb.
    match goal with W : mf_keyDecreased _ _ _ _ _ _ _ _ _ _ = Ok _ |- _ => apply keyDecreased_kept in W; cbn [fst] in W end. congruence.
  Qed.
  Lemma top_kept g r : mg_top E lt eqv dedup C g = Ok r -> msz (fst r) = msz g.
  Proof. unfold mg_top. intros H. parts H. injection H as <-. apply getMax_kept in Eb. exact Eb. Qed.
End Kept.

Section Wrapped.
  Context {E : Type}.
  Variable lt eqv : E -> E -> bool.
  Variable dedup : E -> E -> E.
  Variable C : config.
  Variable M : nat.
  Notation mgb := (mgb E).
  Notation sz m := (length (m_cells E m)).
  Notation msz g := (length (m_cells E (mg_mem E g))).

  (** ** The sizes of addBucket *)
  Lemma wrap_small n : n < M -> wrap M n = n.
  Proof. exact (Nat.mod_small n M). Qed.
  Ltac unwrap := repeat match goal with |- context [wrap M ?n] => lazymatch n with context [wrap] => fail | _ => rewrite (wrap_small n) by lia end end.
  Lemma required_ge nbs bs : forall r, r <= required_loop E C nbs bs r.
  Proof.
    induction bs as [|b bs IH]; intros r; cbn [required_loop]; [lia|]. cbv zeta.
    destruct (double C); [pose proof (IH (r + stride E C nbs b + mb_cap E b))|pose proof (IH (r + stride E C nbs b))]; lia.
  Qed.
  Lemma required_s nbs bs : forall r, required_loop E C nbs bs r < M -> required_loop_s E C M nbs bs r = required_loop E C nbs bs r.
  Proof.
    induction bs as [|b bs IH]; intros r H; cbn [required_loop required_loop_s] in *; auto. cbv zeta in *.
    destruct (double C); [|rewrite wrap_small by (pose proof (required_ge nbs bs (r + stride E C nbs b)); lia); auto].
    pose proof (required_ge nbs bs (r + stride E C nbs b + mb_cap E b)). rewrite (wrap_small (r + _)) by lia. rewrite wrap_small by lia. auto.
  Qed.
  Lemma place_kept nbs old bs : forall new off r, place_loop E C nbs old bs new off = Ok r -> sz (snd (fst r)) = sz new /\ off <= snd r.
  Proof.
    induction bs as [|b bs IH]; intros new off r H; cbn [place_loop] in H; [now injection H as <-|]. cbv zeta in H.
    destruct (addr E new off) as [p| | |] eqn:Ea; try discriminate H. cbn [bind] in H.
    destruct (rd_range E old (mb_begin E b) (mb_size E b)) as [l| | |] eqn:El; try discriminate H. cbn [bind] in H.
    destruct (copy E new (Ext E l) p) as [[new1 d]| | |] eqn:Ec; try discriminate H. cbn [bind] in H. apply copy_kept in Ec. cbn [fst] in Ec.
    destruct (double C); [destruct (addr E new1 (off + stride E C nbs b)) as [q| | |]; try discriminate H|]; cbn [bind] in H;
      match type of H with bind ?m _ = _ => destruct m as [[[bs1 new2] off2]| | |] eqn:Ep; try discriminate H end; cbn [bind] in H;
      injection H as <-; apply IH in Ep; cbn [fst snd] in *; destruct Ep as (Ep1 & Ep2); split; congruence || lia.
  Qed.
  Lemma place_s nbs old bs : forall new off r, place_loop E C nbs old bs new off = Ok r -> snd r < M ->
    place_loop_s E C M nbs old bs new off = Ok r.
  Proof.
    induction bs as [|b bs IH]; intros new off r H Hm; cbn [place_loop place_loop_s] in *; auto. cbv zeta in *.
    destruct (addr E new off) as [p| | |] eqn:Ea; try discriminate H. cbn [bind] in *.
    destruct (rd_range E old (mb_begin E b) (mb_size E b)) as [l| | |] eqn:El; try discriminate H. cbn [bind] in *.
    destruct (copy E new (Ext E l) p) as [[new1 d]| | |] eqn:Ec; try discriminate H. cbn [bind] in *.
    assert (Hs : off + stride E C nbs b < M).
    { destruct (double C); [destruct (addr E new1 (off + stride E C nbs b)) as [q| | |]; try discriminate H|]; cbn [bind] in H;
        match type of H with bind ?m _ = _ => destruct m as [[[bs1 new2] off2]| | |] eqn:Ep; try discriminate H end; cbn [bind] in H;
        injection H as <-; apply place_kept in Ep; cbn [snd] in *; lia. }
    rewrite (wrap_small (off + _)) by exact Hs.
    destruct (double C); [destruct (addr E new1 (off + stride E C nbs b)) as [q| | |]; try discriminate H|]; cbn [bind] in *;
      match type of H with bind ?m _ = _ => destruct m as [[[bs1 new2] off2]| | |] eqn:Ep; try discriminate H end; cbn [bind] in H;
      injection H as <-; cbn [snd] in Hm; [rewrite wrap_small by (apply place_kept in Ep; cbn [snd] in Ep; lia)|];
      rewrite (IH _ _ _ Ep Hm); reflexivity.
  Qed.
  Lemma add_grows g g' : mg_addBucket E C g = Ok g' -> msz g <= msz g'.
  Proof.
    unfold mg_addBucket. cbv zeta. set (nbs := match mg_bs E g with [] => _ | _ => _ end). set (req := if premerge C then _ else _). intros H.
    destruct (req <? msz g) eqn:Hl; [discriminate H|]. apply Nat.ltb_ge in Hl. binv H. destruct a as [[bs1 new] off].
    apply place_kept in Eb. cbn [fst snd m_cells] in Eb. rewrite app_length, repeat_length in Eb. parts H; injection H as <-; cbn [mg_mem]; lia.
  Qed.
  Lemma add_s g g' : mg_addBucket E C g = Ok g' -> msz g' < M -> mg_addBucket_s E C M g = Ok g'.
  Proof.
    unfold mg_addBucket, mg_addBucket_s. cbv zeta. set (nbs := match mg_bs E g with [] => minBucketSize C | _ => mlargest E (mg_bs E g) * geoBase C end).
    set (req := if premerge C then _ else _). intros H Hm.
    assert (Hr : req < M).
    { destruct (req <? msz g) eqn:Hl; [discriminate H|]. apply Nat.ltb_ge in Hl. binv H. destruct a as [[bs1 new] off].
      apply place_kept in Eb. cbn [fst snd m_cells] in Eb. rewrite app_length, repeat_length in Eb. parts H; injection H as <-; cbn [mg_mem] in Hm; lia. }
    assert (Hn : nbs < M) by (unfold req in Hr; destruct (premerge C), (double C); lia).
    assert (Hn' : match mg_bs E g with [] => minBucketSize C | _ => wrap M (mlargest E (mg_bs E g) * geoBase C) end = nbs).
    { unfold nbs in *. destruct (mg_bs E g); auto. now apply wrap_small. }
    rewrite Hn'.
    rewrite (required_s nbs (mg_bs E g) 0) by (unfold req in Hr; destruct (premerge C), (double C); lia).
    set (r0 := required_loop E C nbs (mg_bs E g) 0) in *.
    assert (Hreq : (if premerge C then wrap M ((if double C then wrap M (wrap M (r0 + nbs) + nbs) else wrap M (r0 + nbs)) + nbs)
              else wrap M (wrap M ((if double C then wrap M (wrap M (r0 + nbs) + nbs) else wrap M (r0 + nbs)) + nbs) + nbs)) = req).
    { unfold req in *. clear H; clearbody r0 nbs. destruct (premerge C), (double C); unwrap; reflexivity. }
    rewrite Hreq. destruct (req <? msz g) eqn:Hl; [discriminate H|]. binv H. destruct a as [[bs1 new] off].
    assert (Ho : (if premerge C then (if double C then off + nbs + nbs else off + nbs) + nbs
                  else (if double C then off + nbs + nbs else off + nbs) + nbs + nbs) = req).
    { clearbody req r0. destruct (premerge C), (double C); inner H; apply Nat.eqb_eq; assumption. }
    rewrite (place_s _ _ _ _ _ _ Eb) by (cbn [snd]; destruct (premerge C), (double C); lia). cbn [bind].
    clearbody req r0. destruct (addr E new off) as [buf| | |]; try discriminate H. cbn [bind] in *.
    rewrite (wrap_small (off + nbs)) by (destruct (premerge C), (double C); lia).
    destruct (double C); [destruct (addr E new (off + nbs)) as [q| | |]; try discriminate H|]; cbn [bind] in *;
      (destruct (premerge C); cbn [bind] in *; unwrap; try exact H);
      (match type of H with bind ?m _ = _ => destruct m as [f| | |]; try discriminate H end; cbn [bind] in *;
       match type of H with bind ?m _ = _ => destruct m as [tmp| | |]; try discriminate H end; cbn [bind] in *;
       match type of H with bind (bind ?m _) _ = _ => destruct m as [tmpNP| | |]; try discriminate H end; cbn [bind] in *; unwrap; exact H).
  Qed.

  (** ** The calls *)
  (** The memory does not shrink, and as long as there are fewer than [M] cells in the end the sizes that wrap around make no difference *)
  Definition agrees {A} (f : A -> mgb) (g : mgb) (m n : res A) : Prop :=
    forall r, n = Ok r -> msz g <= msz (f r) /\ (msz (f r) < M -> m = Ok r).
  Notation id := (fun g : mgb => g).

  Lemma agrees_add g : agrees id g (mg_addBucket_s E C M g) (mg_addBucket E C g).
  Proof. intros r H. split; [now apply add_grows|now apply add_s]. Qed.
  Lemma agrees_kept {A} (f : A -> mgb) g n : (forall r, n = Ok r -> msz (f r) = msz g) -> agrees f g n n.
  Proof. intros Hk r H. apply Hk in H as Hr. split; [lia|auto]. Qed.
  Lemma agrees_bind {A B} (f : A -> mgb) (f' : B -> mgb) g m n h k :
    agrees f g m n -> (forall a, n = Ok a -> agrees f' (f a) (h a) (k a)) -> agrees f' g (bind m h) (bind n k).
  Proof.
    intros H1 H2 r H. destruct n as [a| | |] eqn:En; try discriminate H. cbn [bind] in H.
    destruct (H1 a eq_refl) as (Ha & Hb). destruct (H2 a eq_refl r H) as (Hc & Hd). split; [lia|]. intros Hm. rewrite Hb by lia. cbn [bind]. auto.
  Qed.
  Lemma agrees_pure {A B} (f : B -> mgb) g (n : res A) h k : (forall a, n = Ok a -> agrees f g (h a) (k a)) -> agrees f g (bind n h) (bind n k).
  Proof. intros Hk r H. destruct n as [a| | |]; try discriminate H. cbn [bind] in *. now apply Hk. Qed.
  Lemma agrees_if {A} (f : A -> mgb) g (b : bool) m n m' n' : (b = true -> agrees f g m n) -> (b = false -> agrees f g m' n') ->
    agrees f g (if b then m else m') (if b then n else n').
  Proof. destruct b; auto. Qed.
  Lemma agrees_none {A} (f : A -> mgb) g m n : (forall r, n <> Ok r) -> agrees f g m n.
  Proof. intros Hn r H. now destruct (Hn r). Qed.

  Lemma grow_s fuel : forall g i acc, agrees id g (mgrow_loop_s E C M fuel g i acc) (mgrow_loop E C fuel g i acc).
  Proof.
    induction fuel as [|fuel IH]; intros g i acc; cbn [mgrow_loop mgrow_loop_s]; [now apply agrees_none|].
    apply agrees_bind with (f := id).
    - apply agrees_if; intros _; [apply agrees_add|]. apply agrees_kept. intros r H. now injection H as <-.
    - intros a _. apply agrees_pure. intros b _. cbv zeta. apply agrees_if; intros _; [|apply IH]. apply agrees_kept. intros r H. now injection H as <-.
  Qed.
  Lemma nopremerge_s g b l : agrees id g (mg_insert_nopremerge_s E lt eqv dedup C M g b l) (mg_insert_nopremerge E lt eqv dedup C g b l).
  Proof.
    apply agrees_pure. intros bk _. apply agrees_if; intros _; [apply agrees_kept; intros r; apply assign_kept|].
    apply agrees_if; intros _; [apply agrees_kept; intros r; apply mergeRange_kept|].
    apply agrees_bind with (f := id); [apply grow_s|]. intros a _. apply agrees_kept. intros r. apply carry_first_kept.
  Qed.
  Lemma pre_range_s fuel : forall g i n, agrees fst g (mpre_range_s E C M fuel g i n) (mpre_range E C fuel g i n).
  Proof.
    induction fuel as [|fuel IH]; intros g i n; cbn [mpre_range mpre_range_s]; [now apply agrees_none|].
    apply agrees_pure. intros b _. apply agrees_if; intros _; [apply agrees_kept; intros r H; now injection H as <-|].
    apply agrees_if; intros _; [|apply IH]. apply agrees_bind with (f := id); [apply agrees_add|]. intros a _. apply agrees_kept. intros r H. now injection H as <-.
  Qed.
  Lemma premerge_s g b l : agrees id g (mg_insert_premerge_s E lt eqv dedup C M g b l) (mg_insert_premerge E lt eqv dedup C g b l).
  Proof.
    apply agrees_bind with (f := fst); [apply pre_range_s|]. intros [g1 rb] _. cbn [fst]. apply agrees_bind with (f := id).
    - apply agrees_kept. intros r H. parts H; [now injection H as <-|now apply moves_kept in H|]. apply moves_kept in H. apply mergeToNonEmpty_kept in Eb0. congruence.
    - intros g2 _. apply agrees_kept. intros r H. parts H; [now apply assign_kept in H|now apply mergeRange_kept in H].
  Qed.
  Lemma insert_s g b l : agrees id g (mg_insert_s E lt eqv dedup C M g b l) (mg_insert E lt eqv dedup C g b l).
  Proof. apply agrees_if; intros _; [apply premerge_s|apply nopremerge_s]. Qed.
  Lemma push_s g x : agrees id g (mg_push_s E lt eqv dedup C M g x) (mg_push E lt eqv dedup C g x).
  Proof.
    unfold mg_push_s. unfold mg_push at 2. cbv zeta. apply agrees_pure. intros b Hb. apply agrees_if; intros Hf.
    { exact (insert_s (mk_mgb E (mg_mem E g) (mg_bs E g) (mg_tmp E g) (mg_tmpNP E g) (S (mg_count E g)) (mg_front E g)) 0 [x]). }
    unfold mg_push. rewrite Hb. cbn [bind]. cbv zeta. rewrite Hf. apply agrees_kept. intros r H.
    parts H; injection H as <-; cbn [mg_mem];
      match goal with
      | W : mb_push_back _ _ _ _ _ = Ok _ |- _ => apply push_back_kept in W; exact W
      | W : mb_insertAtNotEnd _ _ _ _ _ = Ok _ |- _ => apply insertAt_kept in W; exact W
      | W : mb_setEntry _ _ _ _ _ _ = Ok _ |- _ => apply setEntry_kept in W; exact W
      end.
  Qed.
  Lemma add_loop_s fuel : forall g n, agrees id g (madd_loop_s E C M fuel g n) (madd_loop E C fuel g n).
  Proof.
    induction fuel as [|fuel IH]; intros g n; cbn [madd_loop madd_loop_s]; [now apply agrees_none|]. apply agrees_if; intros _.
    - apply agrees_bind with (f := id); [apply agrees_add|]. intros a _. apply IH.
    - apply agrees_kept. intros r H. now injection H as <-.
  Qed.
  Lemma pushRange_s g xs : length xs * insertFactor C < M -> agrees id g (mg_pushRange_s E lt eqv dedup C M g xs) (mg_pushRange E lt eqv dedup C g xs).
  Proof.
    intros Hx. unfold mg_pushRange_s, mg_pushRange. cbv zeta. rewrite wrap_small by exact Hx.
    apply (agrees_bind id id g); [exact (add_loop_s _ (mk_mgb E (mg_mem E g) (mg_bs E g) (mg_tmp E g) (mg_tmpNP E g) (mg_count E g + length xs) (mg_front E g)) _)|].
    intros a _. apply agrees_pure. intros b _. apply insert_s.
  Qed.
  Lemma decreaseTop_s g x : agrees id g (mg_decreaseTop_s E lt eqv dedup C M g x) (mg_decreaseTop E lt eqv dedup C g x).
  Proof.
    apply agrees_bind with (f := fst); [apply agrees_kept; intros r; apply pop_kept|]. intros [g1 y] _. apply push_s.
  Qed.

  (** Geobucket.h:420: adjCount of the call *)
  Definition fits (o : op E) : Prop := match o with PushRange xs => length xs * insertFactor C < M | _ => True end.
  Lemma step_s g o : fits o -> agrees fst g (mg_step_s E lt eqv dedup C M g o) (mg_step E lt eqv dedup C g o).
  Proof.
    assert (Hr : forall (a : mgb) (r : out E), agrees fst a (Ok (a, r)) (Ok (a, r))) by (intros a r; apply agrees_kept; intros r' H; now injection H as <-).
    destruct o as [x|xs| | |x| | | |]; cbn [mg_step mg_step_s fits]; intros Hf.
    - apply agrees_bind with (f := id); [apply push_s|auto].
    - apply agrees_bind with (f := id); [now apply pushRange_s|auto].
    - apply agrees_kept. intros r H. parts H. injection H as <-. apply pop_kept in Eb. exact Eb.
    - apply agrees_kept. intros r H. parts H. injection H as <-. apply top_kept in Eb. exact Eb.
    - apply agrees_bind with (f := id); [apply decreaseTop_s|auto].
    - apply agrees_kept. intros r H. now injection H as <-.
    - apply agrees_kept. intros r H. now injection H as <-.
    - apply agrees_kept. intros r H. now injection H as <-.
    - apply agrees_kept. intros r H. parts H. now injection H as <-.
  Qed.
  Lemma run_s ops : Forall fits ops -> forall g, agrees fst g (run (mg_step_s E lt eqv dedup C M) g ops) (run (mg_step E lt eqv dedup C) g ops).
  Proof.
    induction 1 as [|o ops Hf _ IH]; intros g; cbn [run]; [apply agrees_kept; intros r H; now injection H as <-|].
    apply agrees_bind with (f := fst); [now apply step_s|]. intros [g1 r1] _. cbn [fst].
    apply agrees_bind with (f := fst); [apply IH|]. intros [g2 rs] _. apply agrees_kept. intros r H. now injection H as <-.
  Qed.
  Lemma new_s g : mg_new E C = Ok g -> msz g < M -> mg_new_s E C M = Ok g.
  Proof. intros H Hm. now apply add_s. Qed.
  Lemma empty_s g o : mg_step E lt eqv dedup C g Pop = UB -> mg_step E lt eqv dedup C g o = UB -> needs_nonempty o = true ->
    mg_step_s E lt eqv dedup C M g o = UB.
  Proof.
    intros Hp Ho Hn. destruct o; try discriminate Hn; auto. cbn [mg_step_s]. unfold mg_decreaseTop_s. cbn [mg_step] in Hp.
    destruct (mg_pop E lt eqv dedup C g) as [[g' y]| | |]; try discriminate Hp. reflexivity.
  Qed.
End Wrapped.

Section Bounded.
  Context {E : Type}.
  Variable lt eqv : E -> E -> bool.
  Variable dedup : E -> E -> E.
  Variable C : config.
  Variable M : nat.
  Hypothesis Hgood : good_config lt eqv dedup C.
  Notation step := (mg_step E lt eqv dedup C).
  Notation step_w := (mg_step_s E lt eqv dedup C M).
  Notation bound N := (Nat.max (minBucketSize C) (geoBase C * N)).
  Notation temporary := (if premerge C then 1 else 2).
  Notation areas n := (match bucketStorage C with Plain => 2 + temporary | DoubleBuffer => 4 + temporary | SameSizeBuffer => S n + temporary end).
  Notation api := (range_calls lt (negb (trackFront C))).

  Lemma run_same g0 ops N : mg_new E C = Ok g0 -> forallb api ops = true ->
    (forall pre o post s rs, ops = pre ++ o :: post -> run step g0 pre = Ok (s, rs) -> demand C (length (mg_held s)) o <= N) ->
    (forall n, minBucketSize C * geoBase C ^ n <= bound N -> areas n * bound N < M) ->
    mg_new_s E C M = Ok g0 /\ run step_w g0 ops = run step g0 ops.
  Proof.
    intros Hn Ha HN HM. destruct Hgood as (H1 & H2 & H3 & H4 & H5 & H6).
    assert (Hlt : N < M).
    { assert (H0 : minBucketSize C * geoBase C ^ 0 <= bound N) by (rewrite Nat.pow_0_r; lia). specialize (HM 0 H0).
      assert (HN' : N <= geoBase C * N) by (clear - H2; nia). assert (1 <= areas 0) by (destruct (bucketStorage C), (premerge C); lia). nia. }
    (* a history that ends well *)
    assert (Hok : forall pre post g rs, ops = pre ++ post -> run step g0 pre = Ok (g, rs) ->
      Forall (fits C M) pre /\ length (m_cells E (mg_mem E g)) < M).
    { intros pre post g rs He Hr. split.
      - apply Forall_forall. intros o Ho. apply in_split in Ho as (p & q & Hp). subst pre. rewrite run_app in Hr.
        destruct (run step g0 p) as [[s rs1]| | |] eqn:Hs; try discriminate Hr.
        assert (Hd : demand C (length (mg_held s)) o <= N) by (apply (HN p o (q ++ post) s rs1); [rewrite He, <- app_assoc; reflexivity|exact Hs]).
        unfold demand in Hd. unfold fits. destruct o; auto. lia.
      - destruct (memory_bound lt eqv dedup C H1 H5 H6 H2 H3 H4 g0 pre g rs N Hn) as (n & _ & Hc & Hb); auto.
        + rewrite He, forallb_app in Ha. now apply andb_prop in Ha.
        + intros p o q s rs1 Hp. apply (HN p o (q ++ post)). rewrite He, Hp, <- app_assoc. reflexivity.
        + specialize (HM n Hc). destruct (bucketStorage C); lia. }
    assert (H0 : length (m_cells E (mg_mem E g0)) < M) by (apply (Hok [] ops g0 []); reflexivity).
    split; [now apply new_s|].
    pose proof (memory_correct lt eqv dedup C (Nat.le_trans _ _ _ (Nat.le_succ_diag_r 1) H2) H3 _ _ (gb_pq_correct lt eqv dedup C H1 H5 H6 H2 H3 H4)) as (g0' & Hn' & Hpq).
    assert (g0' = g0) by congruence. subst g0'. specialize (Hpq ops Ha).
    destruct (run step g0 ops) as [[g rs]| | |] eqn:Hr; try contradiction.
    - destruct (Hok ops [] g rs (eq_sym (app_nil_r ops)) Hr) as (Hf & Hm). exact (proj2 (run_s lt eqv dedup C M ops Hf g0 (g, rs) Hr) Hm).
    - destruct Hpq as (pre & o & post & s & rs & He & Ho & Hp & Hh & _). destruct (Hok pre (o :: post) s rs He Hp) as (Hf & Hm).
      rewrite He, run_app. rewrite (proj2 (run_s lt eqv dedup C M pre Hf g0 (s, rs) Hp) Hm). cbn [bind run].
      destruct (reached lt eqv dedup C H1 H5 H6 H2 H3 H4 g0 pre s rs Hn) as (l & _ & R & _).
      { rewrite He, forallb_app in Ha. now apply andb_prop in Ha. } { exact Hp. }
      assert (Hz : forall mb, In mb (mg_bs E s) -> mb_size E mb = 0).
      { apply (all_empty C s l R). unfold mg_held in Hh. now rewrite (forAll_ok C _ _ R) in Hh. }
      rewrite (empty_s lt eqv dedup C M s o); auto.
      + apply step_empty; auto.
      + apply step_empty; auto.
  Qed.
End Bounded.

(** ** Sizes that do wrap around *)
Section Overrun.
  Notation step_w C M := (mg_step_s nat Nat.ltb Nat.eqb (fun a _ => a) C M).
  Variable h : nat.
  Hypothesis Hh : 3 <= h.

  Lemma nat_good C : 2 <= geoBase C -> 1 <= minBucketSize C -> 1 <= insertFactor C -> supportDeduplication C = false ->
    good_config Nat.ltb Nat.eqb (fun a _ => a) C.
  Proof. intros H1 H2 H3 H4. split; [exact (proj1 same_good)|]. rewrite H4. repeat split; auto; discriminate. Qed.
  Lemma wrap_even : wrap (2 * h) (2 * h) = 0.
  Proof. apply Nat.mod_same. lia. Qed.

  (** The second bucket gets the capacity 0 *)
  Definition base_conf : config := mk_config h 2 1 false false true true false Plain.
  Lemma base_overrun : exists g0, mg_new_s nat base_conf (2 * h) = Ok g0 /\ run (step_w base_conf (2 * h)) g0 [Push 1; Push 2; Push 3] = UB.
  Proof.
    destruct (mg_new nat base_conf) as [g0| | |] eqn:Hn; try discriminate Hn. exists g0.
    assert (Hm : length (m_cells nat (mg_mem nat g0)) = 4) by (injection Hn as <-; reflexivity).
    split; [apply new_s; auto; lia|].
    destruct (run (mg_step nat Nat.ltb Nat.eqb (fun a _ => a) base_conf) g0 [Push 1; Push 2]) as [[g rs]| | |] eqn:Hr;
      try (injection Hn as <-; vm_compute in Hr; discriminate Hr).
    assert (Hg : length (m_cells nat (mg_mem nat g)) = 4 /\ exists b, mg_bs nat g = [b] /\ mb_size nat b = 2 /\ mb_cap nat b = 2).
    { injection Hn as <-. vm_compute in Hr. injection Hr as <- _. split; [reflexivity|]. eexists. repeat split. }
    destruct Hg as (Hc & b & Hb & Hs & Hcap). change [Push 1; Push 2; Push 3] with ([Push 1; Push 2] ++ [Push 3]). rewrite run_app.
    assert (Hf : Forall (fits (E := nat) base_conf (2 * h)) [Push 1; Push 2]) by (repeat constructor).
    rewrite (proj2 (run_s Nat.ltb Nat.eqb (fun a _ => a) base_conf (2 * h) _ Hf g0 (g, rs) Hr)) by (cbn [fst]; lia).
    cbn [bind run mg_step_s]. unfold mg_push_s. rewrite Hb. cbn [vget nth_error of_option bind]. rewrite Hs, Hcap. cbn [Nat.eqb].
    unfold mg_insert_s. cbn [premerge base_conf]. unfold mg_insert_premerge_s. cbn [mg_bs length mpre_range_s vget nth_error of_option bind].
    rewrite Hs, Hcap. cbn [length Nat.add Nat.leb Nat.eqb]. unfold mg_addBucket_s. cbn [mg_bs mg_mem]. unfold mlargest. cbn [rev app].
    rewrite Hcap. cbn [base_conf geoBase premerge]. rewrite wrap_even. cbn [required_loop_s]. unfold double, stride. cbn [base_conf bucketStorage]. rewrite Hcap, Hc.
    rewrite (wrap_small (2 * h) (0 + 2)) by lia. cbn [Nat.add]. change (2 + 0) with 2. repeat (rewrite (wrap_small (2 * h) 2) by lia; change (2 + 0) with 2). reflexivity.
  Qed.

  (** The range goes into a bucket that has no room for it *)
  Definition factor_conf : config := mk_config 2 1 h false false true true false Plain.
  Lemma factor_overrun : exists g0 g, mg_new_s nat factor_conf (2 * h) = Ok g0 /\
    run (step_w factor_conf (2 * h)) g0 [Push 1; PushRange [5; 4]; ForAll; Pop; Pop; Pop] =
      Ok (g, [ONone; ONone; OList [4; 5; 5]; OEntry 5; OEntry 5; OEntry 4]).
  Proof.
    destruct (mg_new nat factor_conf) as [g0| | |] eqn:Hn; try discriminate Hn.
    assert (Hm : length (m_cells nat (mg_mem nat g0)) = 2) by (injection Hn as <-; reflexivity).
    destruct (run (mg_step nat Nat.ltb Nat.eqb (fun a _ => a) factor_conf) g0 [Push 1]) as [[g1 rs1]| | |] eqn:Hr;
      try (injection Hn as <-; vm_compute in Hr; discriminate Hr).
    assert (Hg : length (m_cells nat (mg_mem nat g1)) = 2 /\ rs1 = [ONone]) by (injection Hn as <-; vm_compute in Hr; injection Hr as <- <-; split; reflexivity).
    destruct (mg_insert nat Nat.ltb Nat.eqb (fun a _ => a) factor_conf
      (mk_mgb nat (mg_mem nat g1) (mg_bs nat g1) (mg_tmp nat g1) (mg_tmpNP nat g1) (mg_count nat g1 + 2) (mg_front nat g1)) 0 [4; 5]) as [g2| | |] eqn:Hi;
      try (injection Hn as <-; vm_compute in Hr; injection Hr as <- <-; vm_compute in Hi; discriminate Hi).
    assert (Hg2 : length (m_cells nat (mg_mem nat g2)) = 5).
    { injection Hn as <-. vm_compute in Hr. injection Hr as <- <-. vm_compute in Hi. injection Hi as <-. reflexivity. }
    assert (Hg3 : exists g, run (mg_step nat Nat.ltb Nat.eqb (fun a _ => a) factor_conf) g2 [ForAll; Pop; Pop; Pop] =
      Ok (g, [OList [4; 5; 5]; OEntry 5; OEntry 5; OEntry 4]) /\ length (m_cells nat (mg_mem nat g)) = 5).
    { injection Hn as <-. vm_compute in Hr. injection Hr as <- <-. vm_compute in Hi. injection Hi as <-. eexists. split; vm_compute; reflexivity. }
    destruct Hg3 as (g & H3 & Hm3). exists g0, g. split; [apply new_s; auto; lia|].
    change [Push 1; PushRange [5; 4]; ForAll; Pop; Pop; Pop] with ([Push 1] ++ [PushRange [5; 4]] ++ [ForAll; Pop; Pop; Pop]). rewrite run_app.
    rewrite (proj2 (run_s Nat.ltb Nat.eqb (fun a _ => a) factor_conf (2 * h) [Push 1] ltac:(repeat constructor) g0 (g1, rs1) Hr)) by (cbn [fst]; lia).
    destruct Hg as (Hm1 & ->). cbn [bind]. rewrite run_app.
    assert (Hp : mg_pushRange_s nat Nat.ltb Nat.eqb (fun a _ => a) factor_conf (2 * h) g1 [5; 4] = Ok g2).
    { unfold mg_pushRange_s. cbn [length factor_conf insertFactor]. rewrite wrap_even. cbn [madd_loop_s]. cbn [Nat.ltb Nat.leb]. cbn [bind mg_bs].
      assert (Hfb : mfind_bucket nat (mg_bs nat g1) 0 0 = Ok 0) by (injection Hn as <-; vm_compute in Hr; injection Hr as <-; reflexivity).
      rewrite Hfb. cbn [bind rev app]. apply (insert_s Nat.ltb Nat.eqb (fun a _ => a) factor_conf (2 * h)) in Hi. apply Hi. lia. }
    assert (H2 : run (step_w factor_conf (2 * h)) g1 [PushRange [5; 4]] = Ok (g2, [ONone])) by (cbn [run mg_step_s]; rewrite Hp; reflexivity).
    rewrite H2. cbn [bind].
    rewrite (proj2 (run_s Nat.ltb Nat.eqb (fun a _ => a) factor_conf (2 * h) [ForAll; Pop; Pop; Pop] ltac:(repeat constructor) g2 _ H3)) by (cbn [fst]; lia). reflexivity.
  Qed.
End Overrun.
