(** Heap with a comparison that need not be an order: the entries are still kept (C73). *)
From Coq Require Import List Arith ZArith Bool Lia Permutation Wf_nat.
From Coq Require Import ZifyBool ZifyNat.
From Verif.Base Require Import Res Arr.
From Verif.Spec Require Import PQ PQFacts.
From Verif.Heap Require Import Model Proofs.
Import ListNotations.
Ltac Zify.zify_post_hook ::= Z.div_mod_to_equations.

Section Heap.
  Context {E : Type}.
  Variable lt : E -> E -> bool.
  Variable eqv : E -> E -> bool.
  Variable supportDedup : bool.
  Variable dedup : E -> E -> E.

  Notation dd := (dedup_dd supportDedup eqv dedup).
  Notation never := (fun _ _ : E => false).
  Implicit Types (t : list E).

  Lemma hole_loop_any fuel : forall t hole h R,
    1 <= hole <= length t -> tat t hole = Some h -> Permutation t (h :: R) ->
    length t + 1 - hole <= fuel ->
    exists t' hole' h', hole_loop _ lt fuel t hole ((length t + 1) / 2) = Ok (t', hole') /\
      length t' = length t /\ (length t + 1) / 2 <= hole' <= length t /\
      tat t' hole' = Some h' /\ Permutation t' (h' :: R).
  Proof.
    induction fuel as [|f IH]; intros t hole h R Hb Hh Hp Hf.
    - lia.
    - cbn [hole_loop]. destruct (Nat.ltb_spec hole ((length t + 1) / 2)) as [Hlt|Hge].
      + destruct (tat_some t (2 * hole)) as [a Ha]; [lia|].
        destruct (tat_some t (2 * hole + 1)) as [b Hbb]; [lia|].
        rewrite !tget_tat, Ha, Hbb. cbn [of_option bind].
        set (c := if lt a b then 2 * hole + 1 else 2 * hole).
        assert (Hc : exists v, tat t c = Some v /\ c / 2 = hole /\ 2 * hole <= c <= length t).
        { unfold c. destruct (lt a b); [exists b|exists a]; repeat split; auto; lia. }
        destruct Hc as (v & Hcv & Hc2 & Hcb).
        rewrite tget_tat, Hcv. cbn [of_option bind].
        rewrite tset_tupd by lia. cbn [bind].
        assert (Hlen : length t = length (tupd t hole v)) by (now rewrite tupd_length).
        rewrite Hlen.
        apply (IH (tupd t hole v) c v R); try (rewrite tupd_length; lia).
        * rewrite tat_tupd_other by lia. exact Hcv.
        * eapply hole_perm; eauto. lia.
      + exists t, hole, h. repeat split; auto; lia.
  Qed.

  Lemma moveHoleDown_any t h R :
    tat t 1 = Some h -> Permutation t (h :: R) ->
    exists t' hole h', moveHoleDown _ lt t 1 = Ok (t', hole) /\
      length t' = length t /\ 1 <= hole <= length t /\ length t < 2 * hole /\
      tat t' hole = Some h' /\ Permutation t' (h' :: R).
  Proof.
    intros Hh Hp. pose proof (tat_bound _ _ _ Hh) as Hb.
    unfold moveHoleDown.
    destruct (hole_loop_any (length t) t 1 h R) as (t1 & hole & h1 & Hl & Hlen & Hhb & Hh1 & Hp1); auto; try lia.
    rewrite Hl. cbn [bind]. rewrite Hlen.
    destruct (Nat.eqb_spec hole ((length t + 1) / 2)) as [He|He]; cbn [andb].
    - destruct (Nat.even (length t)) eqn:Hev.
      + apply Nat.even_spec in Hev as [m Hm].
        destruct (tat_some t1 (2 * hole)) as [v Hv2]; [lia|].
        rewrite tget_tat, Hv2. cbn [of_option bind]. rewrite tset_tupd by lia. cbn [bind].
        exists (tupd t1 hole v), (2 * hole), v. split; [reflexivity|].
        rewrite tupd_length. repeat split; auto; try lia.
        * rewrite tat_tupd_other by lia. auto.
        * eapply (hole_perm t1 hole (2 * hole)); eauto. lia.
      + exists t1, hole, h1. repeat split; auto; try lia.
        assert (Hodd : Nat.odd (length t) = true) by (unfold Nat.odd; now rewrite Hev).
        apply Nat.odd_spec in Hodd as [m Hm]. lia.
    - exists t1, hole, h1. repeat split; auto; try lia.
  Qed.

  Lemma moveValueUp_any fuel : forall t p v R h,
    length t < fuel -> 1 <= p <= length t -> length t < 2 * p ->
    tat t p = Some h -> Permutation t (h :: R) ->
    exists t', moveValueUp _ lt eqv supportDedup dedup fuel t p v = Ok t' /\ merges dd (v :: R) t'.
  Proof.
    induction fuel as [|f IH]; intros t p v R h Hf Hp Hleaf Hh Hperm; [lia|].
    cbn [moveValueUp].
    destruct (up_loop_spec lt eqv supportDedup t p v R h Hp Hh Hperm p t p h)
      as (t1 & pos & dup & h1 & Hup & Ha & Hpos & Hs & Hh1 & Hp1 & Hless & Hend); auto; try lia.
    { constructor. } { apply shifted_refl. } { intros i y Hi Hge Hne _. apply anc_le in Hi; lia. }
    rewrite Hup. cbn [bind]. pose proof Hs as (Hlen & Hs1 & Hs2). pose proof (anc_le _ _ Ha) as Hple.
    destruct dup.
    - destruct Hend as (Hpos2 & Hsd & u & Hu & Huv & Heq).
      assert (Ht1u : tat t1 (pos / 2) = Some u). { rewrite Hs2; auto. intros [_ ?]; lia. }
      rewrite tget_tat, Ht1u. cbn [of_option bind]. rewrite tset_tupd by lia. cbn [bind].
      set (d := dedup u v). set (t2 := tupd t1 (pos / 2) d).
      assert (Hlen2 : length t2 = length t) by (unfold t2; now rewrite tupd_length).
      (* after moving back, all nodes but p are those of t with d at pos/2 *)
      set (t0' := tupd t (pos / 2) d).
      assert (Hl0 : length t0' = length t) by (unfold t0'; now rewrite tupd_length).
      assert (Hback : exists t3 h3, (if Nat.eqb pos p then Ok t2
                      else let* tmp := tget t2 p in back_loop _ p t2 (p / 2) pos tmp) = Ok t3 /\
                      length t3 = length t /\ (forall i, i <> p -> tat t3 i = tat t0' i) /\ tat t3 p = Some h3).
      { destruct (Nat.eqb_spec pos p) as [->|Hpp].
        - exists t2, h. repeat split; auto.
          + intros i Hi. unfold t2, t0'. destruct (Nat.eq_dec (p / 2) i) as [<-|Hni].
            * rewrite !tat_tupd_same by lia. auto.
            * rewrite !tat_tupd_other by auto. apply Hs2. intros [Hai ?]. apply anc_le in Hai; lia.
          + unfold t2. rewrite tat_tupd_other by lia. rewrite Hs2; auto. intros [_ ?]; lia.
        - assert (Hge2 : pos <= p / 2) by (apply (anc_chain p); auto; [constructor|lia]).
          destruct (tat_some t (p / 2)) as [tmp Htmp]; [lia|].
          assert (Ht2p : tat t2 p = Some tmp).
          { unfold t2. rewrite tat_tupd_other by lia. rewrite Hs1; auto; [constructor|lia]. }
          rewrite tget_tat, Ht2p. cbn [of_option bind].
          destruct (back_loop_spec t0' p pos) with (fuel := p) (t := t2) (q := p / 2) (tmp := tmp)
            as (t3 & Hb & Hl3 & Hr & Hrp); auto; try lia.
          + apply anc_up; [constructor|lia].
          + unfold t0'. rewrite tat_tupd_other by lia. auto.
          + intros i Hi Hgt Hil. unfold t2, t0'. rewrite tat_tupd_other by lia.
            pose proof (anc_chain p i pos Hi Ha Hgt).
            rewrite tat_tupd_other by lia. apply Hs1; auto.
          + intros i Hip Hni. unfold t2, t0'. destruct (Nat.eq_dec (pos / 2) i) as [<-|Hne].
            * rewrite !tat_tupd_same by lia. auto.
            * rewrite !tat_tupd_other by auto. apply Hs2. intros [Hai Hgt]. apply Hni. repeat split; auto.
              pose proof (anc_le _ _ Hai). apply (anc_chain p); auto; [constructor|lia].
          + exists t3, tmp. repeat split; auto; try lia. congruence. }
      destruct Hback as (t3 & h3 & Hb & Hl3 & Hr3 & Hh3). rewrite Hb. cbn [bind].
      destruct (tat_some t3 (length t3)) as [w Hw]; [lia|].
      rewrite tget_tat, Hw. cbn [of_option bind].
      (* contents *)
      assert (Ht3 : t3 = tupd t0' p h3).
      { apply tat_ext. intros i. destruct (Nat.eq_dec p i) as [<-|Hne].
        - rewrite tat_tupd_same by lia. auto.
        - rewrite tat_tupd_other by auto. apply Hr3; auto. }
      destruct (tat_two_perm t p (pos / 2) h u) as [R0 HR0]; auto; try lia.
      assert (HRu : Permutation R (u :: R0)). { apply Permutation_cons_inv with h. now rewrite <- Hperm. }
      assert (Hp0 : Permutation t0' (h :: d :: R0)).
      { apply Permutation_cons_inv with u. unfold t0'. rewrite (tupd_perm t (pos / 2) u d Hu), HR0.
        rewrite (perm_swap h d). rewrite (perm_swap h u). rewrite (perm_swap u d). apply perm_skip. reflexivity. }
      assert (Hp3 : Permutation t3 (h3 :: d :: R0)).
      { rewrite Ht3. apply Permutation_cons_inv with h. rewrite (tupd_perm t0' p h h3).
        - rewrite Hp0. apply perm_swap.
        - unfold t0'. rewrite tat_tupd_other by lia. auto. }
      assert (Hmg : merges dd (v :: R) (d :: R0)).
      { apply (merges_dd dd _ u v d R0).
        - rewrite HRu. apply perm_swap.
        - repeat split; auto.
        - apply merges_refl. }
      assert (Hl4 : length (removelast t3) = length t - 1) by (rewrite removelast_length; lia).
      pose proof (tat_last_perm t3 w Hw) as Hpl.
      rewrite Hl4. destruct (Nat.eqb_spec p (length t - 1 + 1)) as [Hlast|Hnl].
      + exists (removelast t3). repeat split; auto.
        eapply merges_trans; [exact Hmg|]. apply merges_perm.
          apply Permutation_cons_inv with w. rewrite <- Hpl, Hp3.
          replace (length t3) with p in Hw by lia. rewrite Hh3 in Hw. injection Hw as ->. reflexivity.
      + destruct (tat_two_perm t3 (length t3) p w h3) as [R1 HR1]; auto; try lia.
        assert (Hp4 : Permutation (removelast t3) (h3 :: R1)).
        { apply Permutation_cons_inv with w. now rewrite <- Hpl. }
        destruct (IH (removelast t3) p w R1 h3) as (t' & Hm & Hmg'); try lia; auto.
        * rewrite tat_removelast by lia. auto.
        * exists t'. repeat split; auto. eapply merges_trans; [exact Hmg|].
          eapply merges_perm_l; [|exact Hmg'].
          apply Permutation_cons_inv with h3. rewrite <- Hp3, HR1. apply perm_swap.
    - rewrite tset_tupd by lia.
      exists (tupd t1 pos v). repeat split; auto.
      apply merges_perm. symmetry. apply Permutation_cons_inv with h1.
        rewrite (tupd_perm t1 pos h1 v Hh1), Hp1. apply perm_swap.
  Qed.

  Notation step := (heap_step _ lt eqv supportDedup dedup).

  Lemma heap_push_any t x :
    exists t', heap_push _ lt eqv supportDedup dedup t x = Ok t' /\ merges dd (x :: t) t'.
  Proof.
    unfold heap_push. set (t1 := t ++ [x]).
    assert (Hl : length t1 = S (length t)) by (unfold t1; rewrite app_length; simpl; lia).
    apply (moveValueUp_any (length t1 + 1) t1 (length t1) x t x); try lia.
    - rewrite Hl. unfold t1. apply tat_snoc.
    - unfold t1. symmetry; apply Permutation_cons_append.
  Qed.

  Lemma heap_push_range_any xs : forall t,
    exists t', heap_push_range _ lt eqv supportDedup dedup t xs = Ok t' /\ merges dd (xs ++ t) t'.
  Proof.
    induction xs as [|x xs IH]; intros t; cbn [heap_push_range].
    - exists t; split; auto. apply merges_refl.
    - destruct (heap_push_any t x) as (t1 & H1 & Hm1). rewrite H1. cbn [bind].
      destruct (IH t1) as (t2 & H2 & Hm2). exists t2; split; auto.
      eapply merges_trans; [|exact Hm2]. simpl.
      eapply merges_perm_l; [apply Permutation_middle|]. apply merges_app_both; auto. apply merges_refl.
  Qed.

  Lemma heap_decreaseTop_any t h R x : tat t 1 = Some h -> Permutation t (h :: R) ->
    exists t', heap_decreaseTop _ lt eqv supportDedup dedup t x = Ok t' /\ merges dd (x :: R) t'.
  Proof.
    intros Hh Hp. unfold heap_decreaseTop.
    destruct (moveHoleDown_any t h R Hh Hp) as (t1 & hole & h1 & Hm & Hl & Hb & Hleaf & Hh1 & Hp1).
    rewrite Hm. cbn [bind]. apply (moveValueUp_any (length t1 + 1) t1 hole x R h1); auto; lia.
  Qed.

  Lemma heap_pop_any t h : tat t 1 = Some h ->
    exists t' R, heap_pop _ lt eqv supportDedup dedup t = Ok (t', h) /\ Permutation t (h :: R) /\ merges dd R t'.
  Proof.
    intros Hh. unfold heap_pop. rewrite tget_tat, Hh. cbn [of_option bind].
    pose proof (tat_bound _ _ _ Hh) as Hb.
    destruct (tat_some t (length t)) as [w Hw]; [lia|]. rewrite tget_tat, Hw. cbn [of_option bind].
    pose proof (tat_last_perm t w Hw) as Hpl.
    assert (Hl : length (removelast t) = length t - 1) by apply removelast_length.
    destruct (removelast t) as [|a r] eqn:Hr.
    - exists [], []. repeat split; auto.
      + simpl in Hl. destruct t as [|b [|c t]]; simpl in *; try lia. now injection Hh as ->.
      + apply merges_refl.
    - rewrite <- Hr in *.
      assert (Hgt : 1 < length t) by (rewrite Hr in Hl; simpl in Hl; lia).
      assert (Hh1 : tat (removelast t) 1 = Some h) by (rewrite tat_removelast by lia; auto).
      destruct (tat1_perm _ _ Hh1) as [R HR].
      destruct (moveHoleDown_any _ h R Hh1 HR) as (t1 & hole & h1 & Hm & Hlm & Hbm & Hleaf & Hhm & Hpm).
      rewrite Hm. cbn [bind].
      destruct (moveValueUp_any (length t1 + 1) t1 hole w R h1) as (t3 & Hu & Hmg); auto; try lia.
      rewrite Hu. cbn [bind]. exists t3, (w :: R). repeat split; auto.
      rewrite Hpl, HR. apply perm_swap.
  Qed.

  Lemma never_max x (l : list E) : In x l -> is_max never x l.
  Proof. split; auto. Qed.

  Lemma heap_step_any t o :
    match step t o with
    | Ok (t', r) => sstep never dd t o r t'
    | UB => t = [] /\ needs_nonempty o = true
    | Throw _ => False
    | NoFuel => False
    end.
  Proof.
    destruct o as [x|xs| | |x| | | |]; cbn [heap_step].
    - destruct (heap_push_any t x) as (t' & -> & Hm). cbn [bind]. now constructor.
    - destruct (heap_push_range_any xs t) as (t' & -> & Hm). cbn [bind]. now constructor.
    - destruct t as [|a t0] eqn:Ht; [simpl; auto|]. rewrite <- Ht in *.
      assert (Ha : tat t 1 = Some a) by (subst; auto).
      destruct (heap_pop_any t a Ha) as (t' & R & -> & Hp & Hm). cbn [bind].
      econstructor; [apply merges_perm; exact Hp| |exact Hm]. apply never_max. now left.
    - destruct t as [|a t0] eqn:Ht; [simpl; auto|]. cbn [heap_top tget vget nth_error of_option bind].
      constructor; [apply merges_refl|]. apply never_max. now left.
    - destruct t as [|a t0] eqn:Ht; [simpl; auto|]. rewrite <- Ht in *.
      assert (Ha : tat t 1 = Some a) by (subst; auto).
      destruct (tat1_perm _ _ Ha) as [R HR].
      destruct (heap_decreaseTop_any t a R x Ha HR) as (t' & -> & Hm). cbn [bind].
      econstructor; [apply merges_perm; exact HR| |exact Hm]. apply never_max. now left.
    - constructor.
    - unfold heap_size. constructor. reflexivity.
    - constructor. reflexivity.
    - constructor; reflexivity.
  Qed.

  Lemma heap_any : pq_correct never dd step [] (fun t => t) (fun _ => true).
  Proof.
    apply (pq_correct_lift never dd _ step (fun t => t) (fun _ => True) (fun _ => true)); auto.
    intros t o _ _. pose proof (heap_step_any t o) as H. destruct (step t o) as [[t' r]| | |]; auto.
  Qed.
End Heap.
