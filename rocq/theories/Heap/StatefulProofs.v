From Coq Require Import List Arith ZArith Bool Lia Permutation.
From Coq Require Import ZifyBool ZifyNat.
From Verif.Base Require Import Res Arr Order.
From Verif.Spec Require Import PQ PQFacts PQState PQStateFacts.
From Verif.Heap Require Import Model Proofs Stateful.
Import ListNotations.
Ltac Zify.zify_post_hook ::= Z.div_mod_to_equations.

Section Stateful.
  Context {E P : Type}.
  Variable lt : E -> E -> bool.
  Variable eqv : E -> E -> bool.
  Variable supportDedup : bool.
  Variable dedup : P -> E -> E -> E * P.
  Hypothesis Hsw : strict_weak lt.
  Hypothesis Hdedup : supportDedup = true -> forall p a b, lt a b = false -> eqv a b = true -> equivalent lt (fst (dedup p a b)) a.

  Notation dd := (state_dd supportDedup eqv dedup).
  Implicit Types (t : list E) (c : P).

  Notation valid := (valid lt).
  Notation valid_except := (valid_except lt).

  (** The lemmas of Heap/Proofs.v about the functions that do not call deduplicate *)
  Lemma Hd0 : supportDedup = true -> forall a b : E, lt a b = false -> eqv a b = true -> equivalent lt ((fun x _ => x) a b) a.
  Proof. intros _ a b _ _. now apply equivalent_refl. Qed.
  Let up_loop_spec := Proofs.up_loop_spec lt eqv supportDedup.
  Let back_loop_spec := @Proofs.back_loop_spec E.
  Let moveHoleDown_spec := Proofs.moveHoleDown_spec lt eqv supportDedup (fun x _ => x) Hsw Hd0.
  Let place_valid := Proofs.place_valid lt eqv supportDedup (fun x _ => x) Hsw Hd0.
  Let valid_is_max := Proofs.valid_is_max lt eqv supportDedup (fun x _ => x) Hsw Hd0.
  Let equivalent_edge_l := Proofs.equivalent_edge_l lt Hsw.
  Let equivalent_edge_r := Proofs.equivalent_edge_r lt Hsw.

  Lemma moveValueUp_s_spec fuel : forall t c p v R h,
    length t < fuel -> 1 <= p <= length t -> length t < 2 * p -> valid_except t p ->
    tat t p = Some h -> Permutation t (h :: R) ->
    exists t' c', moveValueUp_s E P lt eqv supportDedup dedup fuel t c p v = Ok (t', c') /\ valid t' /\ smerges dd c (v :: R) c' t'.
  Proof.
    induction fuel as [|f IH]; intros t c p v R h Hf Hp Hleaf Hve Hh Hperm; [lia|].
    cbn [moveValueUp_s].
    destruct (up_loop_spec t p v R h Hp Hh Hperm p t p h)
      as (t1 & pos & dup & h1 & Hup & Ha & Hpos & Hs & Hh1 & Hp1 & Hless & Hend); auto; try lia.
    { constructor. } { apply shifted_refl. } { intros i y Hi Hge Hne _. apply anc_le in Hi; lia. }
    rewrite Hup. cbn [bind]. pose proof Hs as (Hlen & Hs1 & Hs2). pose proof (anc_le _ _ Ha) as Hple.
    destruct dup.
    - destruct Hend as (Hpos2 & Hsd & u & Hu & Huv & Heq).
      assert (Ht1u : tat t1 (pos / 2) = Some u). { rewrite Hs2; auto. intros [_ ?]; lia. }
      rewrite tget_tat, Ht1u. cbn [of_option bind]. destruct (dedup c u v) as [d c1] eqn:Hd. rewrite tset_tupd by lia. cbn [bind].
      set (t2 := tupd t1 (pos / 2) d).
      assert (Hlen2 : length t2 = length t) by (unfold t2; now rewrite tupd_length).
      (* after moving back, all nodes but p are those of t with d at pos/2 *)
      set (t0' := tupd t (pos / 2) d).
      assert (Hl0 : length t0' = length t) by (unfold t0'; now rewrite tupd_length).
      assert (Hback : exists t3 h3, (if Nat.eqb pos p then Ok t2
                      else let* tmp := tget t2 p in back_loop _ p t2 (p / 2) pos tmp) = Ok t3 /\
                      length t3 = length t /\ (forall i, i <> p -> tat t3 i = tat t0' i) /\ tat t3 p = Some h3).
      { destruct (Nat.eqb_spec pos p) as [->|Hpp].
        - exists t2, h. repeat split; auto.
          + intros i Hi. unfold t2, t0'. destruct (Nat.eq_dec (p / 2) i) as [<-|Hni].
            * rewrite !tat_tupd_same by lia. auto.
            * rewrite !tat_tupd_other by auto. apply Hs2. intros [Hai ?]. apply anc_le in Hai; lia.
          + unfold t2. rewrite tat_tupd_other by lia. rewrite Hs2; auto. intros [_ ?]; lia.
        - assert (Hge2 : pos <= p / 2) by (apply (anc_chain p); auto; [constructor|lia]).
          destruct (tat_some t (p / 2)) as [tmp Htmp]; [lia|].
          assert (Ht2p : tat t2 p = Some tmp).
          { unfold t2. rewrite tat_tupd_other by lia. rewrite Hs1; auto; [constructor|lia]. }
          rewrite tget_tat, Ht2p. cbn [of_option bind].
          destruct (back_loop_spec t0' p pos) with (fuel := p) (t := t2) (q := p / 2) (tmp := tmp)
            as (t3 & Hb & Hl3 & Hr & Hrp); auto; try lia.
          + apply anc_up; [constructor|lia].
          + unfold t0'. rewrite tat_tupd_other by lia. auto.
          + intros i Hi Hgt Hil. unfold t2, t0'. rewrite tat_tupd_other by lia.
            pose proof (anc_chain p i pos Hi Ha Hgt).
            rewrite tat_tupd_other by lia. apply Hs1; auto.
          + intros i Hip Hni. unfold t2, t0'. destruct (Nat.eq_dec (pos / 2) i) as [<-|Hne].
            * rewrite !tat_tupd_same by lia. auto.
            * rewrite !tat_tupd_other by auto. apply Hs2. intros [Hai Hgt]. apply Hni. repeat split; auto.
              pose proof (anc_le _ _ Hai). apply (anc_chain p); auto; [constructor|lia].
          + exists t3, tmp. repeat split; auto; try lia. congruence. }
      destruct Hback as (t3 & h3 & Hb & Hl3 & Hr3 & Hh3). rewrite Hb. cbn [bind].
      destruct (tat_some t3 (length t3)) as [w Hw]; [lia|].
      rewrite tget_tat, Hw. cbn [of_option bind].
      (* contents *)
      assert (Ht3 : t3 = tupd t0' p h3).
      { apply tat_ext. intros i. destruct (Nat.eq_dec p i) as [<-|Hne].
        - rewrite tat_tupd_same by lia. auto.
        - rewrite tat_tupd_other by auto. apply Hr3; auto. }
      destruct (tat_two_perm t p (pos / 2) h u) as [R0 HR0]; auto; try lia.
      assert (HRu : Permutation R (u :: R0)). { apply Permutation_cons_inv with h. now rewrite <- Hperm. }
      assert (Hp0 : Permutation t0' (h :: d :: R0)).
      { apply Permutation_cons_inv with u. unfold t0'. rewrite (tupd_perm t (pos / 2) u d Hu), HR0.
        rewrite (perm_swap h d). rewrite (perm_swap h u). rewrite (perm_swap u d). apply perm_skip. reflexivity. }
      assert (Hp3 : Permutation t3 (h3 :: d :: R0)).
      { rewrite Ht3. apply Permutation_cons_inv with h. rewrite (tupd_perm t0' p h h3).
        - rewrite Hp0. apply perm_swap.
        - unfold t0'. rewrite tat_tupd_other by lia. auto. }
      (* order *)
      assert (Hdu : equivalent lt d u) by (pose proof (Hdedup Hsd c u v Huv Heq) as H0; now rewrite Hd in H0).
      assert (Hve3 : valid_except t3 p).
      { intros i Hi Hip a b Hpa Hpb.
        assert (Hip2 : i / 2 <> p) by lia.
        rewrite Hr3 in Hpa by auto. rewrite Hr3 in Hpb by auto. unfold t0' in Hpa, Hpb.
        destruct (Nat.eq_dec (pos / 2) i) as [<-|Hne].
        - rewrite tat_tupd_same in Hpb by lia. injection Hpb as <-. rewrite tat_tupd_other in Hpa by lia.
          apply (equivalent_edge_r d u); auto. eapply (Hve (pos / 2)); eauto; lia.
        - rewrite tat_tupd_other in Hpb by auto.
          destruct (Nat.eq_dec (pos / 2) (i / 2)) as [He|Hne2].
          + rewrite <- He in Hpa. rewrite tat_tupd_same in Hpa by lia. injection Hpa as <-.
            apply (equivalent_edge_l d u); auto. eapply (Hve i); eauto; try lia. now rewrite <- He.
          + rewrite tat_tupd_other in Hpa by auto. eapply (Hve i); eauto; lia. }
      assert (Hmg : smerges dd c (v :: R) c1 (d :: R0)).
      { apply (sm_dd dd c _ u v d c1 R0).
        - rewrite HRu. apply perm_swap.
        - repeat split; auto.
        - apply smerges_refl. }
      assert (Hl4 : length (removelast t3) = length t - 1) by (rewrite removelast_length; lia).
      pose proof (tat_last_perm t3 w Hw) as Hpl.
      rewrite Hl4. destruct (Nat.eqb_spec p (length t - 1 + 1)) as [Hlast|Hnl].
      + exists (removelast t3), c1. repeat split; auto.
        * intros i Hi a b Hpa Hpb. rewrite Hl4 in Hi. rewrite tat_removelast in Hpa, Hpb by lia.
          eapply (Hve3 i); eauto; lia.
        * eapply smerges_trans; [exact Hmg|]. apply sm_perm.
          apply Permutation_cons_inv with w. rewrite <- Hpl, Hp3.
          replace (length t3) with p in Hw by lia. rewrite Hh3 in Hw. injection Hw as ->. reflexivity.
      + destruct (tat_two_perm t3 (length t3) p w h3) as [R1 HR1]; auto; try lia.
        assert (Hp4 : Permutation (removelast t3) (h3 :: R1)).
        { apply Permutation_cons_inv with w. now rewrite <- Hpl. }
        destruct (IH (removelast t3) c1 p w R1 h3) as (t' & c' & Hm & Hv' & Hmg'); try lia; auto.
        * intros i Hi Hip a b Hpa Hpb. rewrite Hl4 in Hi. rewrite tat_removelast in Hpa, Hpb by lia.
          eapply (Hve3 i); eauto; lia.
        * rewrite tat_removelast by lia. auto.
        * exists t', c'. repeat split; auto. eapply smerges_trans; [exact Hmg|].
          eapply smerges_perm_l; [|exact Hmg'].
          apply Permutation_cons_inv with h3. rewrite <- Hp3, HR1. apply perm_swap.
    - rewrite tset_tupd by lia. cbn [bind].
      exists (tupd t1 pos v), c. repeat split; auto.
      + eapply place_valid; eauto.
      + apply sm_perm. symmetry. apply Permutation_cons_inv with h1.
        rewrite (tupd_perm t1 pos h1 v Hh1), Hp1. apply perm_swap.
  Qed.

  Notation step := (heap_step_s E P lt eqv supportDedup dedup).

  Lemma heap_push_s_spec t c x : valid t ->
    exists t' c', heap_push_s E P lt eqv supportDedup dedup t c x = Ok (t', c') /\ valid t' /\ smerges dd c (x :: t) c' t'.
  Proof.
    intros Hv. unfold heap_push_s. set (t1 := t ++ [x]).
    assert (Hl : length t1 = S (length t)) by (unfold t1; rewrite app_length; simpl; lia).
    apply (moveValueUp_s_spec (length t1 + 1) t1 c (length t1) x t x); try lia.
    - intros i Hi Hne u y Hu Hy. unfold t1 in Hu, Hy. rewrite tat_app_l in Hu by lia. rewrite tat_app_l in Hy by lia.
      eapply (Hv i); eauto; lia.
    - rewrite Hl. unfold t1. apply tat_snoc.
    - unfold t1. symmetry; apply Permutation_cons_append.
  Qed.

  Lemma heap_push_range_s_spec xs : forall t c, valid t ->
    exists t' c', heap_push_range_s E P lt eqv supportDedup dedup t c xs = Ok (t', c') /\ valid t' /\ smerges dd c (xs ++ t) c' t'.
  Proof.
    induction xs as [|x xs IH]; intros t c Hv; cbn [heap_push_range_s].
    - exists t, c; repeat split; auto. apply smerges_refl.
    - destruct (heap_push_s_spec t c x Hv) as (t1 & c1 & H1 & Hv1 & Hm1). rewrite H1. cbn [bind].
      destruct (IH t1 c1 Hv1) as (t2 & c2 & H2 & Hv2 & Hm2). exists t2, c2; repeat split; auto.
      eapply smerges_trans; [|exact Hm2]. simpl.
      eapply smerges_perm_l; [apply Permutation_middle|]. now apply smerges_app_l.
  Qed.

  Lemma heap_decreaseTop_s_spec t c h R x : valid t -> tat t 1 = Some h -> Permutation t (h :: R) ->
    exists t' c', heap_decreaseTop_s E P lt eqv supportDedup dedup t c x = Ok (t', c') /\ valid t' /\ smerges dd c (x :: R) c' t'.
  Proof.
    intros Hv Hh Hp. unfold heap_decreaseTop_s.
    destruct (moveHoleDown_spec t h R Hv Hh Hp) as (t1 & hole & h1 & Hm & Hv1 & Hl & Hb & Hleaf & Hh1 & Hp1).
    rewrite Hm. cbn [bind]. apply (moveValueUp_s_spec (length t1 + 1) t1 c hole x R h1); auto; try lia.
    intros i Hi _. apply Hv1; auto.
  Qed.

  Lemma heap_pop_s_spec t c h : valid t -> tat t 1 = Some h ->
    exists t' c' R, heap_pop_s E P lt eqv supportDedup dedup t c = Ok (t', c', h) /\ valid t' /\
                 Permutation t (h :: R) /\ smerges dd c R c' t'.
  Proof.
    intros Hv Hh. unfold heap_pop_s. rewrite tget_tat, Hh. cbn [of_option bind].
    pose proof (tat_bound _ _ _ Hh) as Hb.
    destruct (tat_some t (length t)) as [w Hw]; [lia|]. rewrite tget_tat, Hw. cbn [of_option bind].
    pose proof (tat_last_perm t w Hw) as Hpl.
    assert (Hl : length (removelast t) = length t - 1) by apply removelast_length.
    destruct (removelast t) as [|a r] eqn:Hr.
    - exists [], c, []. repeat split; auto.
      + intros i Hi; simpl in Hi; lia.
      + simpl in Hl. destruct t as [|b [|b2 t]]; simpl in *; try lia. now injection Hh as ->.
      + apply smerges_refl.
    - rewrite <- Hr in *. 
      assert (Hv1 : valid (removelast t)).
      { intros i Hi u x Hu Hx. rewrite Hl in Hi. rewrite tat_removelast in Hu, Hx by lia. eapply (Hv i); eauto; lia. }
      assert (Hgt : 1 < length t) by (rewrite Hr in Hl; simpl in Hl; lia).
      assert (Hh1 : tat (removelast t) 1 = Some h) by (rewrite tat_removelast by lia; auto).
      destruct (tat1_perm _ _ Hh1) as [R HR].
      destruct (moveHoleDown_spec _ h R Hv1 Hh1 HR) as (t1 & hole & h1 & Hm & Hvm & Hlm & Hbm & Hleaf & Hhm & Hpm).
      rewrite Hm. cbn [bind].
      destruct (moveValueUp_s_spec (length t1 + 1) t1 c hole w R h1) as (t3 & c3 & Hu & Hv3 & Hmg); auto; try lia.
      { intros i Hi _. apply Hvm; auto. }
      rewrite Hu. cbn [bind]. exists t3, c3, (w :: R). repeat split; auto.
      rewrite Hpl, HR. apply perm_swap.
  Qed.

  Lemma heap_step_s_correct t c o : valid t ->
    match step (t, c) o with
    | Ok ((t', c'), r) => valid t' /\ pstep lt dd c t o r c' t'
    | UB => t = [] /\ needs_nonempty o = true
    | Throw _ => False
    | NoFuel => False
    end.
  Proof.
    intros Hv. destruct o as [x|xs| | |x| | | |]; cbn [heap_step_s].
    - destruct (heap_push_s_spec t c x Hv) as (t' & c' & -> & Hv' & Hm). cbn [bind]. split; auto. now constructor.
    - destruct (heap_push_range_s_spec xs t c Hv) as (t' & c' & -> & Hv' & Hm). cbn [bind]. split; auto. now constructor.
    - destruct t as [|a t0] eqn:Ht; [simpl; auto|]. rewrite <- Ht in *.
      assert (Ha : tat t 1 = Some a) by (subst; auto).
      destruct (heap_pop_s_spec t c a Hv Ha) as (t' & c' & R & -> & Hv' & Hp & Hm). cbn [bind]. split; auto.
      econstructor; [apply sm_perm; exact Hp| |exact Hm].
      eapply is_max_perm; [exact Hp|]. now apply valid_is_max.
    - destruct t as [|a t0] eqn:Ht; [simpl; auto|]. rewrite <- Ht in *.
      assert (Ha : tat t 1 = Some a) by (subst; auto).
      unfold heap_top. rewrite tget_tat, Ha. cbn [of_option bind]. split; auto.
      constructor; [apply smerges_refl|]. now apply valid_is_max.
    - destruct t as [|a t0] eqn:Ht; [simpl; auto|]. rewrite <- Ht in *.
      assert (Ha : tat t 1 = Some a) by (subst; auto).
      destruct (tat1_perm _ _ Ha) as [R HR].
      destruct (heap_decreaseTop_s_spec t c a R x Hv Ha HR) as (t' & c' & -> & Hv' & Hm). cbn [bind]. split; auto.
      econstructor; [apply sm_perm; exact HR| |exact Hm].
      eapply is_max_perm; [exact HR|]. now apply valid_is_max.
    - split; [|constructor]. intros i Hi; simpl in Hi; lia.
    - split; auto. unfold heap_size. constructor. reflexivity.
    - split; auto. constructor. reflexivity.
    - split; auto. constructor; reflexivity.
  Qed.

  Lemma heap_spq_correct : spq_correct lt dd step [] (fun t => t) (fun _ => true).
  Proof.
    apply (spq_correct_lift lt dd step (fun t => t) valid (fun _ => true)); auto.
    - intros t c o Hv _. apply heap_step_s_correct; auto.
    - intros i Hi; simpl in Hi; lia.
  Qed.
End Stateful.
