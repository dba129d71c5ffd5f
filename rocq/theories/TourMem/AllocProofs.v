(** Proofs about TourMem/Alloc.v. *)
From Coq Require Import List Arith Bool Lia Permutation.
From Verif.Base Require Import Res Arr Order Fault.
From Verif.Spec Require Import PQ Refused.
From Verif.Heap Require Import Model.
From Verif.TourTree Require Import Model Proofs.
From Verif.TourMem Require Import Model Alloc Proofs.
Import ListNotations.

Section TourAlloc.
  Context {E : Type}.
  Variable lt : E -> E -> bool.
  Hypothesis Hsw : strict_weak lt.
  Notation inv := (TourTree.Proofs.inv lt).
  Notation contents := (@TourTree.Proofs.contents E).

  (** The tree with another capacity of the players. *)
  Definition widen (t : tourtree E) (p : nat) : tourtree E := mk_tt (tt_tree t) (tt_cap t) (tt_players t) p.
  Definition widen2 {A} (p : nat) (r : tourtree E * A) : tourtree E * A := (widen (fst r) p, snd r).
  (** A tree that is as it should be but for the capacity of the players, which is large enough for those there are. *)
  Definition sound (t : tourtree E) : Prop := length (tt_players t) <= tt_pcap t /\ exists p, tt_pcap t <= p /\ inv (widen t p).

  Lemma sound_tidy t : sound t -> tt_players t = [] -> tt_tree t = [].
  Proof. intros (_ & p & _ & Hi) Hn. exact (inv_tidy lt (widen t p) Hi Hn). Qed.
  Lemma sound_len t : sound t -> length (tt_tree t) <= tt_cap t /\ 16 <= tt_cap t /\ (tt_players t = [] \/ length (tt_tree t) + 1 = 2 * length (tt_players t)).
  Proof.
    intros (_ & p & _ & ((B1 & B2) & _ & Hs)). cbn in *. split; auto. split; auto. destruct Hs as [[_ ->]|(_ & Hs & _)]; [now left|]. right.
    pose proof (sh_len _ _ Hs) as Hl. rewrite map_length in Hl. lia.
  Qed.
  Lemma inv_sound t : inv t -> sound t.
  Proof.
    intros Hi. assert (Hw : inv (widen t (tt_pcap t))) by exact Hi. split; [|exists (tt_pcap t); auto].
    destruct Hi as ((B1 & B2) & B3 & Hs). destruct Hs as [[_ ->]|(_ & Hs & _)]; [cbn; lia|].
    pose proof (sh_len _ _ Hs) as Hl. rewrite map_length in Hl. pose proof (Nat.div_mod (tt_cap t) 2 ltac:(lia)). pose proof (Nat.mod_upper_bound (tt_cap t) 2 ltac:(lia)). lia.
  Qed.
  Lemma sound_inv t : sound t -> tt_cap t / 2 + 2 <= tt_pcap t -> inv t.
  Proof. intros (_ & p & _ & (B1 & _ & Hs)) Hp. cbn in *. split; auto. Qed.

  (** Calls that push nothing do not look at the capacity of the players. *)
  Lemma pop_widen t p : tt_pop E lt (widen t p) = rmap (widen2 p) (tt_pop E lt t).
  Proof.
    unfold tt_pop. cbn [widen tt_tree tt_players tt_cap tt_pcap].
    repeat match goal with
    | |- (let* _ := ?m in _) = _ => destruct m; cbn [bind rmap]; try reflexivity
    | |- (if ?b then _ else _) = _ => destruct b
    | |- (let (_, _) := ?q in _) = _ => destruct q
    end; reflexivity.
  Qed.
  Lemma decreaseTop_widen t p x : tt_decreaseTop E lt (widen t p) x = rmap (fun t' => widen t' p) (tt_decreaseTop E lt t x).
  Proof.
    unfold tt_decreaseTop. cbn [widen tt_tree tt_players tt_cap tt_pcap].
    repeat match goal with |- (let* _ := ?m in _) = _ => destruct m; cbn [bind rmap]; try reflexivity end; reflexivity.
  Qed.
  Lemma pop_pcap t t' x : tt_pop E lt t = Ok (t', x) -> tt_pcap t' = tt_pcap t /\ tt_cap t' = tt_cap t.
  Proof.
    unfold tt_pop. intros H.
    repeat match type of H with
    | (let* _ := ?m in _) = _ => destruct m; cbn [bind] in H; try discriminate
    | (if ?b then _ else _) = _ => destruct b; try discriminate
    | (let (_, _) := ?q in _) = _ => destruct q
    end; injection H as <- _; auto.
  Qed.
  Lemma decreaseTop_pcap t t' x : tt_decreaseTop E lt t x = Ok t' -> tt_pcap t' = tt_pcap t /\ tt_cap t' = tt_cap t.
  Proof.
    unfold tt_decreaseTop. intros H.
    repeat match type of H with (let* _ := ?m in _) = _ => destruct m; cbn [bind] in H; try discriminate end. injection H as <-; auto.
  Qed.
  (** Nor does a push when there is room. *)
  Lemma push_widen t p x : 2 <= tt_cap t - length (tt_tree t) -> length (tt_players t) < tt_pcap t -> tt_pcap t <= p ->
    tt_push E lt (widen t p) x = rmap (fun t' => widen t' p) (tt_push E lt t x).
  Proof.
    intros H1 H2 H3. unfold tt_push. cbn [widen tt_tree tt_players tt_cap tt_pcap]. destruct (Nat.leb_spec 2 (tt_cap t - length (tt_tree t))); [|lia].
    unfold tt_empty. cbn [widen tt_tree tt_players tt_cap tt_pcap]. destruct (tt_tree t) as [|i tr] eqn:Et.
    - unfold players_push. cbn [widen tt_tree tt_players tt_cap tt_pcap]. destruct (Nat.ltb_spec (length (tt_players t)) p); [|lia].
      destruct (Nat.ltb_spec (length (tt_players t)) (tt_pcap t)); [|lia]. cbn [bind]. unfold tree_push. cbn [tt_tree tt_players tt_cap tt_pcap widen].
      destruct (_ <? _); reflexivity.
    - destruct (tget _ _) as [d| | |]; cbn [bind rmap]; try reflexivity. unfold tree_push at 1 3. cbn [tt_tree tt_players tt_cap tt_pcap widen]. rewrite Et.
      destruct (_ <? tt_cap t); cbn [bind rmap]; try reflexivity. cbn [tt_tree tt_players tt_cap tt_pcap].
      destruct (set_leaf _ _ _ _) as [ps| | |] eqn:El; cbn [bind rmap]; try reflexivity.
      assert (Hl : length ps = length (tt_players t)).
      { unfold set_leaf in El. apply bind_ok in El as (q & _ & El). unfold vset in El. destruct (_ <? _); [|discriminate]. injection El as <-. apply upd_length. }
      unfold players_push. cbn [tt_tree tt_players tt_cap tt_pcap]. rewrite Hl. destruct (Nat.ltb_spec (length (tt_players t)) p); [|lia].
      destruct (Nat.ltb_spec (length (tt_players t)) (tt_pcap t)); [|lia]. cbn [bind]. unfold tree_push. cbn [tt_tree tt_players tt_cap tt_pcap].
      destruct (_ <? tt_cap t); cbn [bind rmap]; try reflexivity. cbn [tt_tree tt_players tt_cap tt_pcap].
      destruct (push_loop _ _ _ _ _ _); cbn [bind rmap]; reflexivity.
  Qed.
  Lemma push_caps t x t' : 2 <= tt_cap t - length (tt_tree t) -> tt_push E lt t x = Ok t' ->
    tt_cap t' = tt_cap t /\ tt_pcap t' = tt_pcap t.
  Proof.
    intros H1. unfold tt_push. destruct (Nat.leb_spec 2 (tt_cap t - length (tt_tree t))); [|lia]. unfold tt_empty, players_push, tree_push. intros H2.
    repeat match type of H2 with
    | (match ?q with [] => _ | _ => _ end) = _ => destruct q
    | (let* _ := ?m in _) = _ => let E1 := fresh in destruct m eqn:E1; cbn [bind] in H2; try discriminate
    | (if ?b then _ else _) = _ => destruct b; try discriminate
    end; try (injection H2 as <-); cbn;
    repeat match goal with
    | H : (if ?b then _ else _) = Ok _ |- _ => destruct b; try discriminate; injection H as <-
    end; cbn; auto.
    all: repeat match goal with
    | H : (if ?b then _ else _) = Ok _ |- _ => destruct b; try discriminate; injection H as <-
    end; cbn; auto.
  Qed.
  Lemma push_sound t x : sound t -> 2 <= tt_cap t - length (tt_tree t) -> length (tt_players t) < tt_pcap t ->
    exists t', tt_push E lt t x = Ok t' /\ sound t' /\ Permutation (contents t') (x :: contents t) /\ tt_cap t' = tt_cap t /\ tt_pcap t' = tt_pcap t.
  Proof.
    intros (Hn & p & Hp & Hi) H1 H2. destruct (push_spec lt Hsw (widen t p) x Hi) as (g & Hg & Hig & Hc & _). rewrite (push_widen t p x H1 H2 Hp) in Hg.
    destruct (tt_push E lt t x) as [t'| | |] eqn:Et; try discriminate. injection Hg as <-. destruct (push_caps t x t' H1 Et) as [C1 C2].
    exists t'. split; auto. split; [split; [|exists p; rewrite C2; auto]|auto].
    apply Permutation_length in Hc. unfold TourTree.Proofs.contents in Hc. cbn [widen tt_players length] in Hc. rewrite !map_length in Hc. lia.
  Qed.
  Lemma reallocate_sound t : sound t -> inv (tt_reallocate E t).
  Proof.
    intros Hs. pose proof (sound_len t Hs) as (L1 & L2 & _). destruct Hs as (_ & p & _ & (_ & _ & Hs)). cbn in Hs. unfold tt_reallocate. destruct (Nat.eqb_spec (tt_cap t) 0); [lia|].
    split; [cbn; lia|]. split; [apply Nat.le_max_r|exact Hs].
  Qed.
  (** The array of the tree is larger, the players' capacity is what it was. *)
  Definition stretched (t : tourtree E) : tourtree E := mk_tt (tt_tree t) (tt_cap t * 2) (tt_players t) (tt_pcap t).
  Lemma stretched_sound t : sound t -> sound (stretched t).
  Proof.
    intros Hs. pose proof (reallocate_sound t Hs) as Hi. pose proof (sound_len t Hs) as (_ & L & _). split; [apply Hs|]. unfold tt_reallocate in Hi. destruct (Nat.eqb_spec (tt_cap t) 0); [lia|].
    exists (Nat.max (tt_pcap t) (tt_cap t * 2 / 2 + 2)). split; [apply Nat.le_max_l|exact Hi].
  Qed.
  Lemma full_cramped t : sound t -> 2 <= tt_cap t - length (tt_tree t) -> tt_pcap t <= length (tt_players t) -> tt_pcap t < tt_cap t / 2 + 2.
  Proof.
    intros Hs H1 H2. pose proof (sound_len t Hs) as (L1 & L2 & L3).
    pose proof (Nat.div_mod (tt_cap t) 2 ltac:(lia)). pose proof (Nat.mod_upper_bound (tt_cap t) 2 ltac:(lia)).
    destruct L3 as [L3|L3]; [rewrite L3 in *; cbn in *; lia|lia].
  Qed.

  (** * The memory *)
  Definition at_mem (st : mem E * mtour) (t : tourtree E) : Prop := exists m b, b < length m /\ st = (with_players m b t, obj b t).
  Lemma at_held st t : at_mem st t -> m_held st = contents t.
  Proof. intros (m & b & Hb & ->). unfold m_held. cbn [fst snd obj m_vec]. unfold with_players. now rewrite elements_put. Qed.

  Lemma push_a_refines b st t x : at_mem st t -> sound t -> (tt_cap t / 2 + 2 <= tt_pcap t \/ length (tt_players t) < tt_pcap t) ->
    exists q t', m_push_a lt b (fst st) (snd st) x = Ok q /\ sound t' /\
      match q with
      | Fine _ st' => at_mem st' t' /\ Permutation (contents t') (x :: contents t) /\ tt_cap t <= tt_cap t' /\
          (tt_cap t' / 2 + 2 <= tt_pcap t' \/ tt_cap t' = tt_cap t /\ tt_pcap t' = tt_pcap t)
      | Left st' => at_mem st' t' /\ contents t' = contents t
      end.
  Proof.
    intros (m & k & Hk & ->) Hs Hroom. cbn [fst snd]. pose proof (sound_len t Hs) as (L1 & L2 & L3). unfold m_push_a.
    (* a push into a tree with room *)
    assert (Hpush : forall m1 k1 t1 b1, k1 < length m1 -> sound t1 -> 2 <= tt_cap t1 - length (tt_tree t1) -> length (tt_players t1) < tt_pcap t1 ->
      exists st' t', (let* ps := v_elements (with_players m1 k1 t1) (m_vec (obj k1 t1)) in
         if length ps <? v_cap (m_vec (obj k1 t1)) then let* r := m_push lt (with_players m1 k1 t1) (obj k1 t1) x in Ok (Fine b1 r)
         else let* moved := m_moved_down (with_players m1 k1 t1) (obj k1 t1) in
              client b1 moved (fun b => let* r := m_push lt (with_players m1 k1 t1) (obj k1 t1) x in Ok (Fine b r))) = Ok (Fine b1 st') /\
      at_mem st' t' /\ sound t' /\ Permutation (contents t') (x :: contents t1) /\ tt_cap t' = tt_cap t1 /\ tt_pcap t' = tt_pcap t1).
    { intros m1 k1 t1 b1 Hk1 Hs1 R1 R2. unfold with_players at 1. cbn [obj m_vec v_cap]. rewrite elements_put by auto. cbn [bind].
      destruct (Nat.ltb_spec (length (tt_players t1)) (tt_pcap t1)); [|lia].
      destruct (push_sound t1 x Hs1 R1 R2) as (t' & Ht & Hs' & Hc & C1 & C2).
      destruct (push_refines lt m1 k1 t1 x t' Hk1 (sound_tidy t1 Hs1) Ht) as (m' & k' & Hg & Hm). fold (obj k1 t1). rewrite Hm. cbn [bind].
      eexists; exists t'. split; [reflexivity|]. split; [exists m', k'; split; [eapply grown_lt; eauto|reflexivity]|auto]. }
    cbn [obj m_cap m_tree]. rewrite map_length. destruct (Nat.leb_spec 2 (tt_cap t - length (tt_tree t))) as [R|R].
    - assert (Hf : length (tt_players t) < tt_pcap t).
      { destruct Hroom as [Hr|Hr]; auto. destruct (Nat.lt_ge_cases (length (tt_players t)) (tt_pcap t)) as [|G]; auto. pose proof (full_cramped t Hs R G). lia. }
      cbn [fbind bind]. fold (obj k t). destruct (Hpush m k t b Hk Hs R Hf) as (st' & t' & He & Ha & Hs' & Hc & C1 & C2).
      exists (Fine b st'), t'. split; [exact He|]. split; auto. split; auto. split; auto. split; [lia|]. right; auto.
    - fold (obj k t). unfold m_reallocate_a. destruct b as [|b]; cbn [client fbind bind].
      { eexists; exists t. split; [reflexivity|]. split; [exact Hs|]. split; [exists m, k; auto|reflexivity]. }
      cbn [obj m_cap m_vec v_cap m_tree]. destruct (Nat.eqb_spec (tt_cap t) 0) as [|_]; [lia|].
      destruct (reallocate_refines m k t Hk (sound_tidy t Hs)) as (m1 & k1 & Hg & Hm). fold (obj k t).
      pose proof (reallocate_sound t Hs) as Hi. pose proof (inv_sound _ Hi) as Hs1. pose proof (sound_len _ Hs1) as (_ & _ & M3). set (t1 := tt_reallocate E t) in *.
      assert (Hc1 : tt_cap t1 = tt_cap t * 2). { unfold t1, tt_reallocate. destruct (Nat.eqb_spec (tt_cap t) 0); [lia|reflexivity]. }
      assert (R1 : 2 <= tt_cap t1 - length (tt_tree t1)). { rewrite Hc1. change (tt_tree t1) with (tt_tree t). lia. }
      assert (P1 : tt_cap t1 / 2 + 2 <= tt_pcap t1) by apply Hi.
      assert (R2 : length (tt_players t1) < tt_pcap t1). { destruct (Nat.lt_ge_cases (length (tt_players t1)) (tt_pcap t1)) as [|G]; auto. pose proof (full_cramped t1 Hs1 R1 G). lia. }
      assert (Hgo : forall b', exists q t', fbind (let* r := m_reallocate (with_players m k t) (obj k t) in Ok (Fine b' r)) (fun b st => let (m, s) := st in
        let* ps := v_elements m (m_vec s) in
        if length ps <? v_cap (m_vec s) then let* r := m_push lt m s x in Ok (Fine b r)
        else let* moved := m_moved_down m s in client b moved (fun b => let* r := m_push lt m s x in Ok (Fine b r))) = Ok q /\ sound t' /\
        match q with
        | Fine _ st' => at_mem st' t' /\ Permutation (contents t') (x :: contents t) /\ tt_cap t <= tt_cap t' /\
            (tt_cap t' / 2 + 2 <= tt_pcap t' \/ tt_cap t' = tt_cap t /\ tt_pcap t' = tt_pcap t)
        | Left st' => at_mem st' t' /\ contents t' = contents t
        end).
      { intros b'. rewrite Hm. cbn [bind fbind]. destruct (Hpush m1 k1 t1 b' (grown_lt _ _ _ _ Hk Hg) Hs1 R1 R2) as (st' & t' & He & Ha & Hs' & Hc & C1 & C2).
        exists (Fine b' st'), t'. split; [exact He|]. split; auto. split; auto. split; [exact Hc|]. split; [lia|]. left. rewrite C1, C2. exact P1. }
      destruct (_ <=? tt_pcap t); [apply Hgo|]. destruct b as [|b]; cbn [client]; [|apply Hgo]. cbn [fbind bind].
      eexists; exists (stretched t). split; [reflexivity|]. split; [now apply stretched_sound|]. split; [exists m, k; auto|reflexivity].
  Qed.
  Lemma push_range_a_refines xs : forall b st t, at_mem st t -> sound t ->
    (tt_cap t / 2 + 2 <= tt_pcap t \/ length (tt_players t) + length xs <= tt_pcap t) ->
    exists q t', m_push_range_a lt b (fst st) (snd st) xs = Ok q /\ sound t' /\
      match q with
      | Fine _ st' => at_mem st' t' /\ Permutation (contents t') (xs ++ contents t) /\ (tt_cap t / 2 + 2 <= tt_pcap t -> tt_cap t' / 2 + 2 <= tt_pcap t')
      | Left st' => at_mem st' t' /\ exists ys y zs, xs = ys ++ y :: zs /\ Permutation (contents t') (ys ++ contents t)
      end.
  Proof.
    induction xs as [|x xs IH]; intros b st t Ha Hs Hr; cbn [m_push_range_a].
    - destruct st as [m s]. exists (Fine b (m, s)), t. repeat split; auto. apply Hs. apply Hs.
    - destruct (push_a_refines b st t x Ha Hs) as (q & t1 & Hq & Hs1 & H1). { cbn [length] in Hr. lia. }
      rewrite Hq. cbn [fbind bind]. destruct q as [b1 st1|st1].
      + destruct H1 as (Ha1 & Hp1 & Hc & Hor).
        assert (Hl : length (tt_players t1) = S (length (tt_players t))). { apply Permutation_length in Hp1. unfold TourTree.Proofs.contents in Hp1. cbn [length] in Hp1. now rewrite !map_length in Hp1. }
        destruct (IH b1 st1 t1 Ha1 Hs1) as (q & t2 & Hq2 & Hs2 & H2). { cbn [length] in Hr. destruct Hor as [?|[-> ->]]; [auto|]. lia. }
        exists q, t2. split; [exact Hq2|]. split; [exact Hs2|]. destruct q as [b2 st2|st2].
        * destruct H2 as (Ha2 & Hp2 & Hk). split; auto. split.
          -- rewrite Hp2, Hp1. cbn [app]. now rewrite <- Permutation_middle.
          -- intros Hx. apply Hk. destruct Hor as [?|[-> ->]]; auto.
        * destruct H2 as (Ha2 & ys & y & zs & -> & Hp2). split; auto. exists (x :: ys), y, zs. split; auto. rewrite Hp2, Hp1. cbn [app]. now rewrite <- Permutation_middle.
      + destruct H1 as [Ha1 Hc1]. exists (Left st1), t1. split; auto. split; auto. split; auto. exists [], x, xs. split; auto. now rewrite Hc1.
  Qed.

  (** What the entries a call pushes need. *)
  Definition pushes_of (o : op E) : list E := match o with Push x => [x] | PushRange xs => xs | _ => [] end.
  Definition cramped (st : mem E * mtour) (o : op E) : Prop :=
    v_cap (m_vec (snd st)) < m_cap (snd st) / 2 + 2 /\ v_cap (m_vec (snd st)) < length (m_held st) + length (pushes_of o).

  Lemma catch_step st t o b : at_mem st t -> sound t -> tt_api E o = true ->
    needs_nonempty o = true /\ m_held st = [] \/ cramped st o \/
    exists st' t' r, m_catch lt st (o, b) = Ok (st', r) /\ at_mem st' t' /\ sound t' /\ mstep lt no_dd (m_held st) o r (m_held st') /\
      (tt_cap t / 2 + 2 <= tt_pcap t -> r = None \/ tt_cap t' / 2 + 2 <= tt_pcap t').
  Proof.
    intros Ha Hs Hapi.
    assert (Hcr : cramped st o \/ (tt_cap t / 2 + 2 <= tt_pcap t \/ length (tt_players t) + length (pushes_of o) <= tt_pcap t)).
    { unfold cramped. rewrite (at_held st t Ha). destruct Ha as (m & k & Hk & ->). cbn [snd obj m_cap m_vec v_cap]. unfold TourTree.Proofs.contents. rewrite map_length. lia. }
    destruct Hcr as [Hcr|Hr]; [right; left; exact Hcr|].
    assert (Hold : match o with Push _ | PushRange _ => False | _ => True end ->
      (exists m k t' r, k < length m /\ m_call lt (fst st) (snd st) o = Ok (with_players m k t', obj k t', r) /\ tt_step E lt t o = Ok (t', r)) \/
      tt_step E lt t o = UB /\ needs_nonempty o = true /\ m_held st = []).
    { intros Ho. rewrite (at_held st t Ha). destruct Ha as (m & k & Hk & ->). destruct Hs as (Hn & p & Hp & Hi).
      pose proof (tt_step_correct lt Hsw (widen t p) o Hi Hapi) as Hc. cbn [fst snd]. destruct o as [x|xs| | |x| | | |]; try contradiction; cbn [tt_step m_call needs_nonempty] in *.
      - rewrite pop_widen in Hc. destruct (tt_pop E lt t) as [[t' x]| | |] eqn:Ep; cbn [rmap bind widen2 fst snd] in Hc; try contradiction.
        + left. exists m, k, t', (OEntry x). split; auto. rewrite (pop_refines lt m k t t' x Hk Ep). cbn [bind]. auto.
        + right. cbn [bind]. tauto.
      - change (tt_top E (widen t p)) with (tt_top E t) in Hc. rewrite top_refines by auto. destruct (tt_top E t) as [x| | |] eqn:Ep; cbn [bind] in *; try contradiction.
        + left. exists m, k, t, (OEntry x). auto.
        + right. tauto.
      - rewrite decreaseTop_widen in Hc. rewrite decreaseTop_refines by auto. destruct (tt_decreaseTop E lt t x) as [t'| | |] eqn:Ep; cbn [rmap bind] in *; try contradiction.
        + left. exists m, k, t', ONone. auto.
        + right. tauto.
      - left. rewrite clear_refines by auto. exists m, k, (tt_clear E t), ONone. auto.
      - discriminate.
      - left. rewrite empty_refines. exists m, k, t, (OBool (tt_empty E t)). auto.
      - left. rewrite forAll_refines by auto. exists m, k, t, (OList (tt_forAll E t)). auto. }
    assert (Hdone : match o with Push _ | PushRange _ => False | _ => True end -> needs_nonempty o = true /\ m_held st = [] \/
      exists st' t' r, (let* (m, s, r) := m_call lt (fst st) (snd st) o in Ok ((m, s), Some r)) = Ok (st', r) /\ at_mem st' t' /\ sound t' /\ mstep lt no_dd (m_held st) o r (m_held st') /\
        (tt_cap t / 2 + 2 <= tt_pcap t -> r = None \/ tt_cap t' / 2 + 2 <= tt_pcap t')).
    { intros Ho. destruct (Hold Ho) as [(m & k & t' & r & Hk & Hm & Ht)|(_ & ? & ?)]; [|left; auto]. right. rewrite Hm. cbn [bind]. exists (with_players m k t', obj k t'), t', (Some r).
      assert (Ha' : at_mem (with_players m k t', obj k t') t') by (exists m, k; auto). split; auto. split; auto. rewrite (at_held _ _ Ha), (at_held _ _ Ha').
      destruct Hs as (Hn & p & Hp & Hi). pose proof (tt_step_correct lt Hsw (widen t p) o Hi Hapi) as Hc.
      assert (Hw : tt_step E lt (widen t p) o = Ok (widen t' p, r) /\ tt_pcap t' = tt_pcap t /\ tt_cap t' = tt_cap t).
      { destruct o as [x|xs| | |x| | | |]; try contradiction; cbn [tt_step] in *.
        - rewrite pop_widen. apply bind_ok in Ht as ([t1 x] & Ht1 & Ht). injection Ht as <- <-. rewrite Ht1. split; [reflexivity|]. now apply (pop_pcap t t1 x).
        - apply bind_ok in Ht as (x & Ht1 & Ht). injection Ht as <- <-. change (tt_top E (widen t p)) with (tt_top E t). rewrite Ht1. auto.
        - rewrite decreaseTop_widen. apply bind_ok in Ht as (t1 & Ht1 & Ht). injection Ht as <- <-. rewrite Ht1. split; [reflexivity|]. now apply (decreaseTop_pcap t t1 x).
        - injection Ht as <- <-. auto.
        - discriminate.
        - injection Ht as <- <-. auto.
        - injection Ht as <- <-. auto. }
      destruct Hw as (Hw & C1 & C2). rewrite Hw in Hc. destruct Hc as [Hi' Hst]. split; [|split].
      - split; [|exists p; rewrite C1; auto]. rewrite C1. transitivity (length (tt_players t)); auto. apply (fun H => H) in Hst. change (contents (widen t p)) with (contents t) in Hst.
        change (contents (widen t' p)) with (contents t') in Hst.
        assert (Hl : length (contents t') <= length (contents t)); [|unfold TourTree.Proofs.contents in Hl; now rewrite !map_length in Hl].
        clear - Hst Ho. assert (G : forall a c : list E, merges no_dd a c -> length a = length c).
        { intros a c Hm. destruct Hm as [a c Hm|? ? ? ? ? ? _ []]. now apply Permutation_length. }
        revert Hst. generalize (contents t) as l, (contents t') as l'. intros l l' Hst. inversion Hst; subst; try contradiction; repeat match goal with H : merges no_dd _ _ |- _ => apply G in H; cbn [length] in H end;
        repeat match goal with H : Permutation _ _ |- _ => apply Permutation_length in H; cbn [length] in H end; cbn [length]; lia.
      - constructor. exact Hst.
      - intros Hx. right. now rewrite C1, C2. }
    destruct o as [x|xs| | |x| | | |]; cbn [m_catch fst snd].
    - destruct (push_a_refines b st t x Ha Hs) as (q & t' & Hq & Hs' & H1). { cbn [pushes_of length] in Hr. lia. } rewrite Hq. cbn [bind]. right; right. destruct q as [b' st'|st'].
      + destruct H1 as (Ha' & Hp & _ & Hor). exists st', t', (Some ONone). split; auto. split; auto. split; auto. rewrite (at_held _ _ Ha), (at_held _ _ Ha'). split.
        * do 2 constructor. constructor. now symmetry.
        * intros Hx. right. destruct Hor as [?|[-> ->]]; auto.
      + destruct H1 as (Ha' & Hp). exists st', t', None. split; auto. split; auto. split; auto. rewrite (at_held _ _ Ha), (at_held _ _ Ha'), Hp. split; [constructor|auto].
    - destruct (push_range_a_refines xs b st t Ha Hs Hr) as (q & t' & Hq & Hs' & H1). rewrite Hq. cbn [bind]. right; right. destruct q as [b' st'|st'].
      + destruct H1 as (Ha' & Hp & Hk). exists st', t', (Some ONone). split; auto. split; auto. split; auto. rewrite (at_held _ _ Ha), (at_held _ _ Ha'). split.
        * do 2 constructor. constructor. now symmetry.
        * intros Hx. right. auto.
      + destruct H1 as (Ha' & ys & y & zs & -> & Hp). exists st', t', None. split; auto. split; auto. split; auto. rewrite (at_held _ _ Ha), (at_held _ _ Ha'). split; [|auto].
        constructor. constructor. now symmetry.
    - destruct (Hdone I) as [?|?]; auto.
    - destruct (Hdone I) as [?|?]; auto.
    - destruct (Hdone I) as [?|?]; auto.
    - destruct (Hdone I) as [?|?]; auto.
    - discriminate.
    - destruct (Hdone I) as [?|?]; auto.
    - destruct (Hdone I) as [?|?]; auto.
  Qed.
  Lemma catch_run ops : forall st t, at_mem st t -> sound t -> forallb (fun o => tt_api E (fst o)) ops = true ->
    (exists st' rs, run (m_catch lt) st ops = Ok (st', rs) /\ mtrace lt no_dd (m_held st) (map fst ops) rs (m_held st')) \/
    (exists pre o post st' rs, ops = pre ++ o :: post /\ run (m_catch lt) st pre = Ok (st', rs) /\ mtrace lt no_dd (m_held st) (map fst pre) rs (m_held st') /\
       (needs_nonempty (fst o) = true /\ m_held st' = [] \/ cramped st' (fst o) /\ (tt_cap t / 2 + 2 <= tt_pcap t -> In None rs))).
  Proof.
    induction ops as [|[o b] ops IH]; intros st t Ha Hs Hapi.
    - left. exists st, []. split; [reflexivity|constructor].
    - cbn [forallb fst] in Hapi. apply andb_prop in Hapi as [Ho Hops]. destruct (catch_step st t o b Ha Hs Ho) as [Hn|[Hc|(st1 & t1 & r & Hq & Ha1 & Hs1 & Hm & Hk)]].
      + right. exists [], (o, b), ops, st, []. split; auto. split; [reflexivity|]. split; [constructor|]. left. exact Hn.
      + right. exists [], (o, b), ops, st, []. split; auto. split; [reflexivity|]. split; [constructor|]. right. split; [exact Hc|]. intros Hx. exfalso.
        destruct Hc as [Hc _]. destruct Ha as (m & k & Hb & ->). cbn [snd obj m_cap m_vec v_cap] in Hc. lia.
      + destruct (IH st1 t1 Ha1 Hs1 Hops) as [(st' & rs & Hr & Ht)|(pre & o' & post & st' & rs & -> & Hr & Ht & Hw)].
        * left. exists st', (r :: rs). cbn [run]. rewrite Hq. cbn [bind]. rewrite Hr. split; [reflexivity|]. cbn [map fst]. econstructor; eauto.
        * right. exists ((o, b) :: pre), o', post, st', (r :: rs). split; [reflexivity|]. cbn [run]. rewrite Hq. cbn [bind]. rewrite Hr. split; [reflexivity|]. split.
          -- cbn [map fst]. econstructor; eauto.
          -- destruct Hw as [Hw|[Hw Hx]]; [left; auto|]. right. split; auto. intros Hy. destruct (Hk Hy) as [->|Hz]; [left; reflexivity|right; auto].
  Qed.
  Lemma start_at : exists st, m_start = Ok st /\ at_mem st (tt_new E) /\ m_held st = [].
  Proof.
    unfold m_start. rewrite (new_refines []). eexists. split; [reflexivity|]. assert (Ha : at_mem (with_players ([] ++ [None; Some []]) 1 (tt_new E), obj 1 (tt_new E)) (tt_new E)).
    { eexists; eexists. split; [|reflexivity]. cbn. lia. }
    split; [exact Ha|]. exact (at_held _ _ Ha).
  Qed.

  (** * Enough memory *)
  Lemma push_again m s x m1 s1 : m_reallocate m s = Ok (m1, s1) -> (2 <=? m_cap s - length (m_tree s)) = false -> (2 <=? m_cap s1 - length (m_tree s1)) = true ->
    m_push lt m s x = m_push lt m1 s1 x.
  Proof. intros H1 H2 H3. unfold m_push. now rewrite H2, H3, H1. Qed.
  Lemma push_a_enough b m k t x : k < length m -> inv t -> 2 <= b ->
    exists b', b <= b' + 2 /\ m_push_a lt b (with_players m k t) (obj k t) x = (let* r := m_push lt (with_players m k t) (obj k t) x in Ok (Fine b' r)).
  Proof.
    intros Hk Hi Hb. pose proof (inv_sound t Hi) as Hs. pose proof (sound_len t Hs) as (L1 & L2 & L3). unfold m_push_a.
    assert (Hgo : forall m1 k1 t1 b1, k1 < length m1 -> inv t1 -> 2 <= tt_cap t1 - length (tt_tree t1) ->
      (let* ps := v_elements (with_players m1 k1 t1) (m_vec (obj k1 t1)) in
         if length ps <? v_cap (m_vec (obj k1 t1)) then let* r := m_push lt (with_players m1 k1 t1) (obj k1 t1) x in Ok (Fine b1 r)
         else let* moved := m_moved_down (with_players m1 k1 t1) (obj k1 t1) in
              client b1 moved (fun b => let* r := m_push lt (with_players m1 k1 t1) (obj k1 t1) x in Ok (Fine b r))) =
      (let* r := m_push lt (with_players m1 k1 t1) (obj k1 t1) x in Ok (Fine b1 r))).
    { intros m1 k1 t1 b1 Hk1 Hi1 R1. unfold with_players at 1. cbn [obj m_vec v_cap]. rewrite elements_put by auto. cbn [bind].
      destruct (Nat.ltb_spec (length (tt_players t1)) (tt_pcap t1)) as [_|G]; [reflexivity|]. pose proof (full_cramped t1 (inv_sound t1 Hi1) R1 G) as Hx. destruct Hi1 as (_ & Hi1 & _). lia. }
    destruct (Nat.leb 2 (m_cap (obj k t) - length (m_tree (obj k t)))) eqn:R.
    - exists b. split; [lia|]. cbn [fbind bind]. apply Hgo; auto. apply Nat.leb_le in R. cbn [obj m_cap m_tree] in R. now rewrite map_length in R.
    - destruct (reallocate_refines m k t Hk (sound_tidy t Hs)) as (m1 & k1 & Hg & Hm). pose proof (reallocate_sound t Hs) as Hi1. set (t1 := tt_reallocate E t) in *.
      assert (Hc1 : tt_cap t1 = tt_cap t * 2). { unfold t1, tt_reallocate. destruct (Nat.eqb_spec (tt_cap t) 0); [lia|reflexivity]. }
      assert (R1 : 2 <= tt_cap t1 - length (tt_tree t1)). { rewrite Hc1. change (tt_tree t1) with (tt_tree t). lia. }
      assert (Hp : m_push lt (with_players m k t) (obj k t) x = m_push lt (with_players m1 k1 t1) (obj k1 t1) x).
      { apply push_again; auto. apply Nat.leb_le. cbn [obj m_cap m_tree]. now rewrite map_length. }
      rewrite Hp. destruct b as [|[|b]]; [lia|lia|]. unfold m_reallocate_a. cbn [client]. rewrite Hm. cbn [bind].
      destruct (_ <=? v_cap _); cbn [client fbind bind]; [exists (S b)|exists b]; (split; [lia|]); apply Hgo; auto; eapply grown_lt; eauto.
  Qed.
  Lemma push_range_a_enough xs : forall b m k t, k < length m -> inv t -> 2 * length xs <= b ->
    exists b', m_push_range_a lt b (with_players m k t) (obj k t) xs = (let* r := m_push_range lt (with_players m k t) (obj k t) xs in Ok (Fine b' r)).
  Proof.
    induction xs as [|x xs IH]; intros b m k t Hk Hi Hb; cbn [m_push_range_a m_push_range length] in *.
    - exists b. reflexivity.
    - destruct (push_a_enough b m k t x Hk Hi ltac:(lia)) as (b1 & Hb1 & ->). destruct (push_spec lt Hsw t x Hi) as (t1 & Ht & Hi1 & _).
      destruct (push_refines lt m k t x t1 Hk (inv_tidy lt t Hi) Ht) as (m1 & k1 & Hg & ->). cbn [bind fbind fst snd].
      apply IH; auto; [eapply grown_lt; eauto|lia].
  Qed.
  Definition call_step (st : mem E * mtour) (o : op E) : res (mem E * mtour * out E) := m_call lt (fst st) (snd st) o.
  Lemma catch_enough st t o b : at_mem st t -> inv t -> 2 * length (pushes_of o) <= b ->
    m_catch lt st (o, b) = (let* (st', r) := call_step st o in Ok (st', Some r)).
  Proof.
    intros (m & k & Hk & ->) Hi Hb. unfold call_step. destruct o as [x|xs| | |x| | | |]; cbn [m_catch m_call fst snd pushes_of length] in *.
    1: destruct (push_a_enough b m k t x Hk Hi ltac:(lia)) as (b' & _ & ->).
    2: destruct (push_range_a_enough xs b m k t Hk Hi Hb) as (b' & ->).
    - destruct (m_push lt _ _ x) as [[? ?]| | |]; reflexivity.
    - destruct (m_push_range lt _ _ xs) as [[? ?]| | |]; reflexivity.
    - destruct (m_pop lt _ _) as [[[? ?] ?]| | |]; reflexivity.
    - destruct (m_top _ _) as [?| | |]; reflexivity.
    - destruct (m_decreaseTop lt _ _ x) as [[? ?]| | |]; reflexivity.
    - destruct (m_clear _ _) as [[? ?]| | |]; reflexivity.
    - reflexivity.
    - reflexivity.
    - destruct (m_forAll _ _) as [?| | |]; reflexivity.
  Qed.
  Lemma catch_enough_run b ops : forall st t, at_mem st t -> inv t -> forallb (tt_api E) ops = true -> (forall o, In o ops -> 2 * length (pushes_of o) <= b) ->
    run (m_catch lt) st (map (fun o => (o, b)) ops) = rmap (fun r => (fst r, map Some (snd r))) (run call_step st ops).
  Proof.
    induction ops as [|o ops IH]; intros st t Ha Hi Hapi Hb; cbn [run map]; [reflexivity|].
    cbn [forallb] in Hapi. apply andb_prop in Hapi as [Ho Hops]. rewrite (catch_enough st t o b Ha Hi) by (apply Hb; now left).
    assert (Hc : call_step st o = UB \/ exists st1 t1 r, call_step st o = Ok (st1, r) /\ at_mem st1 t1 /\ inv t1).
    { destruct Ha as (m & k & Hk & ->). pose proof (call_refines lt Hsw m k t o Hk Hi Ho) as Hc. unfold call_step. cbn [fst snd]. destruct (tt_step E lt t o) as [[t1 r]| | |]; try contradiction.
      - right. destruct Hc as (Hi1 & m1 & k1 & Hl & ->). exists (with_players m1 k1 t1, obj k1 t1), t1, r. split; auto. split; auto. exists m1, k1. split; auto. apply Hl.
      - left. tauto. }
    destruct Hc as [->|(st1 & t1 & r & -> & Ha1 & Hi1)]; [reflexivity|]. cbn [bind]. rewrite (IH st1 t1 Ha1 Hi1 Hops) by (intros; apply Hb; now right).
    destruct (run call_step st1 ops) as [[st2 rs]| | |]; reflexivity.
  Qed.
End TourAlloc.
