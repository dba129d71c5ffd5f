(** Heap with client functions that throw (C74). *)
From Coq Require Import List Arith ZArith Bool Lia Permutation.
From Coq Require Import ZifyBool ZifyNat.
From Verif.Base Require Import Res Arr Order Fault.
From Verif.Spec Require Import PQ PQFacts.
From Verif.Heap Require Import Model Proofs AnyOrderProofs Faults.
Import ListNotations.
Ltac Zify.zify_post_hook ::= Z.div_mod_to_equations.

(** The outcome of a call that may throw: a normal return gives what the plain call gives, and an exception leaves something with [P]. *)
Definition faulty {S A : Type} (x : res (fout S A)) (plain : res A) (P : S -> Prop) : Prop :=
  match x with
  | Ok (Fine _ a) => plain = Ok a
  | Ok (Left s) => P s
  | _ => False
  end.
Lemma faulty_mono {S A : Type} (x : res (fout S A)) plain (P Q : S -> Prop) : (forall s, P s -> Q s) -> faulty x plain P -> faulty x plain Q.
Proof. destruct x as [[|]| | |]; simpl; auto. Qed.
Lemma faulty_bind {S A B : Type} (x : res (fout S A)) (plain : res A) (f : nat -> A -> res (fout S B)) (g : A -> res B) (P : S -> Prop) :
  faulty x plain P -> (forall b a, plain = Ok a -> faulty (f b a) (g a) P) -> faulty (fbind x f) (bind plain g) P.
Proof. destruct x as [[b a|s]| | |]; simpl; auto; try tauto. intros -> H. cbn [bind]. now apply H. Qed.

Section Heap.
  Context {E : Type}.
  Variable lt : E -> E -> bool.
  Variable eqv : E -> E -> bool.
  Variable supportDedup : bool.
  Variable dedup : E -> E -> E.
  Notation dd := (dedup_dd supportDedup eqv dedup).
  Implicit Types (t : list E).

  Lemma hole_loop_x_any fuel : forall b t hole h R,
    1 <= hole <= length t -> tat t hole = Some h -> Permutation t (h :: R) ->
    length t + 1 - hole <= fuel ->
    faulty (hole_loop_x _ lt fuel b t hole ((length t + 1) / 2)) (hole_loop _ lt fuel t hole ((length t + 1) / 2))
      (fun t' => exists hole' h', tat t' hole' = Some h' /\ Permutation t' (h' :: R) /\ In h' t).
  Proof.
    induction fuel as [|f IH]; intros b t hole h R Hb Hh Hp Hf.
    - lia.
    - cbn [hole_loop hole_loop_x]. destruct (Nat.ltb_spec hole ((length t + 1) / 2)) as [Hlt|Hge]; [|reflexivity].
      destruct (tat_some t (2 * hole)) as [x Ha]; [lia|].
      destruct (tat_some t (2 * hole + 1)) as [y Hbb]; [lia|].
      rewrite !tget_tat, Ha, Hbb. cbn [of_option bind]. destruct b as [|b].
      { cbn [client faulty]. exists hole, h. repeat split; auto. eapply tat_In; eauto. }
      cbn [client].
      set (c := if lt x y then 2 * hole + 1 else 2 * hole).
      assert (Hc : exists v, tat t c = Some v /\ c / 2 = hole /\ 2 * hole <= c <= length t).
      { unfold c. destruct (lt x y); [exists y|exists x]; repeat split; auto; lia. }
      destruct Hc as (v & Hcv & Hc2 & Hcb).
      rewrite tget_tat, Hcv. cbn [of_option bind].
      rewrite tset_tupd by lia. cbn [bind].
      assert (Hlen : length t = length (tupd t hole v)) by (now rewrite tupd_length).
      rewrite Hlen. eapply faulty_mono; [|apply (IH b (tupd t hole v) c v R); try (rewrite tupd_length; lia)].
      * intros s (h1 & h' & H1 & H2 & H3). exists h1, h'. repeat split; auto.
        apply In_tat in H3 as [n Hn]. destruct (Nat.eq_dec n hole) as [->|Hne].
        -- rewrite tat_tupd_same in Hn by lia. injection Hn as <-. eapply tat_In; eauto.
        -- rewrite tat_tupd_other in Hn by auto. eapply tat_In; eauto.
      * rewrite tat_tupd_other by lia. exact Hcv.
      * eapply hole_perm; eauto. lia.
  Qed.

  Lemma tupd_incl t n v : In v t -> incl (tupd t n v) t.
  Proof.
    intros Hv z Hz. apply In_tat in Hz as [m Hm]. destruct (Nat.eq_dec n m) as [<-|Hne].
    - pose proof (tat_bound _ _ _ Hm) as Hb. rewrite tupd_length in Hb. rewrite tat_tupd_same in Hm by lia. congruence.
    - rewrite tat_tupd_other in Hm by auto. eapply tat_In; eauto.
  Qed.
  Lemma tget_In t n v : tget t n = Ok v -> In v t.
  Proof. rewrite tget_tat. destruct (tat t n) eqn:H; [|discriminate]. intros [= <-]. eapply tat_In; eauto. Qed.
  Lemma tset_is t n v t' : tset t n v = Ok t' -> t' = tupd t n v.
  Proof. destruct n as [|n]; [discriminate|]. simpl. unfold vset. destruct (n <? length t); [|discriminate]. now intros [= <-]. Qed.
  Lemma hole_loop_incl fw fuel : forall t hole t' hole', hole_loop _ lt fuel t hole fw = Ok (t', hole') -> incl t' t.
  Proof.
    induction fuel as [|f IH]; intros t hole t' hole'; cbn [hole_loop]; destruct (hole <? fw); try discriminate.
    1, 3: intros [= <- <-]; apply incl_refl.
    destruct (tget t (2 * hole)) as [x| | |]; try discriminate. destruct (tget t (2 * hole + 1)) as [y| | |]; try discriminate. cbn [bind].
    destruct (tget t (if lt x y then 2 * hole + 1 else 2 * hole)) as [v| | |] eqn:Hv; try discriminate. cbn [bind].
    destruct (tset t hole v) as [t1| | |] eqn:Ht1; try discriminate. cbn [bind]. intros H. apply IH in H.
    apply tset_is in Ht1 as ->. eapply incl_tran; [exact H|]. apply tupd_incl. eapply tget_In; eauto.
  Qed.
  Lemma moveHoleDown_incl t hole t' hole' : moveHoleDown _ lt t hole = Ok (t', hole') -> incl t' t.
  Proof.
    unfold moveHoleDown. destruct (hole_loop _ lt (length t) t hole _) as [[t1 h1]| | |] eqn:Hl; try discriminate. cbn [bind]. apply hole_loop_incl in Hl.
    destruct (_ && _); [|now intros [= <- <-]].
    destruct (tget t1 (2 * h1)) as [v| | |] eqn:Hv; try discriminate. cbn [bind].
    destruct (tset t1 h1 v) as [t2| | |] eqn:Ht1; try discriminate. cbn [bind]. intros [= <- <-].
    apply tset_is in Ht1 as ->. eapply incl_tran; [|exact Hl]. apply tupd_incl. eapply tget_In; eauto.
  Qed.

  Lemma moveHoleDown_x_any b t h R : tat t 1 = Some h -> Permutation t (h :: R) ->
    faulty (moveHoleDown_x _ lt b t 1) (moveHoleDown _ lt t 1) (fun t' => exists y, Permutation t' (y :: R) /\ In y t).
  Proof.
    intros Hh Hp. pose proof (tat_bound _ _ _ Hh) as Hb. unfold moveHoleDown_x, moveHoleDown.
    apply faulty_bind.
    - eapply faulty_mono; [|apply (hole_loop_x_any (length t) b t 1 h R); auto; lia]. intros s (hole & h' & _ & H1 & H2). eauto.
    - intros b' [t1 hole] Hl.
      destruct (hole_loop_any lt eqv dedup (length t) t 1 h R) as (t1' & hole' & h1 & Hl' & Hlen & Hhb & Hh1 & Hp1); auto; try lia.
      rewrite Hl in Hl'. injection Hl' as <- <-. rewrite Hlen.
      destruct (Nat.eqb_spec hole ((length t + 1) / 2)) as [He|He]; cbn [andb]; [|reflexivity].
      destruct (Nat.even (length t)) eqn:Hev; [|reflexivity].
      apply Nat.even_spec in Hev as [m Hm]. destruct (tat_some t1 (2 * hole)) as [v Hv2]; [lia|].
      rewrite tget_tat, Hv2. cbn [of_option bind]. rewrite tset_tupd by lia. reflexivity.
  Qed.

  Lemma up_loop_x_any v R fuel : forall b t pos h,
    pos <= fuel -> 1 <= pos <= length t -> tat t pos = Some h -> Permutation t (h :: R) ->
    faulty (up_loop_x _ lt eqv supportDedup fuel b t pos v) (up_loop _ lt eqv supportDedup fuel t pos v)
      (fun t' => exists y, Permutation t' (y :: R) /\ In y t).
  Proof.
    induction fuel as [|f IH]; intros b t pos h Hf Hpos Hh Hperm; [lia|].
    cbn [up_loop up_loop_x]. destruct (Nat.eqb_spec pos 1) as [->|Hne]; [reflexivity|].
    destruct (tat_some t (pos / 2)) as [u Hu]; [lia|]. rewrite tget_tat, Hu. cbn [of_option bind].
    destruct b as [|b]. { cbn [client faulty]. exists h. split; auto. eapply tat_In; eauto. }
    cbn [client]. destruct (lt u v).
    - rewrite tset_tupd by lia. cbn [bind]. eapply faulty_mono; [|apply (IH b (tupd t pos u) (pos / 2) u); try (rewrite ?tupd_length; lia)].
      + intros s (y & H1 & H2). exists y. split; auto.
        apply In_tat in H2 as [n Hn]. destruct (Nat.eq_dec n pos) as [->|Hnp].
        * rewrite tat_tupd_same in Hn by lia. injection Hn as <-. eapply tat_In; eauto.
        * rewrite tat_tupd_other in Hn by auto. eapply tat_In; eauto.
      + rewrite tat_tupd_other by lia. exact Hu.
      + eapply (hole_perm t pos (pos / 2)); eauto; lia.
    - destruct (supportDedup && eqv u v); reflexivity.
  Qed.

  Lemma moveValueUp_x_any fuel : forall b t p v R h,
    length t < fuel -> 1 <= p <= length t -> length t < 2 * p ->
    tat t p = Some h -> Permutation t (h :: R) ->
    faulty (moveValueUp_x _ lt eqv supportDedup dedup fuel b t p v) (moveValueUp _ lt eqv supportDedup dedup fuel t p v)
      (fun t' => exists v' R' y, merges dd (v :: R) (v' :: R') /\ Permutation t' (y :: R') /\ (supportDedup = false -> v' = v /\ R' = R /\ In y t)).
  Proof.
    induction fuel as [|f IH]; intros b t p v R h Hf Hp Hleaf Hh Hperm; [lia|].
    cbn [moveValueUp moveValueUp_x]. apply faulty_bind.
    { eapply faulty_mono; [|eapply up_loop_x_any; eauto; lia]. intros s (y & H1 & H2). exists v, R, y. repeat split; auto. apply merges_refl. }
    intros b' [[t1 pos] dup] Hup0.
    destruct (up_loop_spec lt eqv supportDedup t p v R h Hp Hh Hperm p t p h)
      as (t1' & pos' & dup' & h1 & Hup & Ha & Hpos & Hs & Hh1 & Hp1 & Hless & Hend); auto; try lia.
    { constructor. } { apply shifted_refl. } { intros i y Hi Hge Hne _. apply anc_le in Hi; lia. }
    rewrite Hup0 in Hup. injection Hup as <- <- <-. pose proof Hs as (Hlen & Hs1 & Hs2). pose proof (anc_le _ _ Ha) as Hple.
    destruct dup.
    - destruct Hend as (Hpos2 & Hsd & u & Hu & Huv & Heq).
      assert (Ht1u : tat t1 (pos / 2) = Some u). { rewrite Hs2; auto. intros [_ ?]; lia. }
      rewrite tget_tat, Ht1u. cbn [of_option bind]. destruct b' as [|b'].
      { cbn [client faulty]. exists v, R, h1. repeat split; auto; [apply merges_refl|congruence]. }
      cbn [client]. rewrite tset_tupd by lia. cbn [bind].
      set (d := dedup u v). set (t2 := tupd t1 (pos / 2) d).
      assert (Hlen2 : length t2 = length t) by (unfold t2; now rewrite tupd_length).
      set (t0' := tupd t (pos / 2) d).
      assert (Hl0 : length t0' = length t) by (unfold t0'; now rewrite tupd_length).
      assert (Hback : exists t3 h3, (if Nat.eqb pos p then Ok t2
                      else let* tmp := tget t2 p in back_loop _ p t2 (p / 2) pos tmp) = Ok t3 /\
                      length t3 = length t /\ (forall i, i <> p -> tat t3 i = tat t0' i) /\ tat t3 p = Some h3).
      { destruct (Nat.eqb_spec pos p) as [->|Hpp].
        - exists t2, h. repeat split; auto.
          + intros i Hi. unfold t2, t0'. destruct (Nat.eq_dec (p / 2) i) as [<-|Hni].
            * rewrite !tat_tupd_same by lia. auto.
            * rewrite !tat_tupd_other by auto. apply Hs2. intros [Hai ?]. apply anc_le in Hai; lia.
          + unfold t2. rewrite tat_tupd_other by lia. rewrite Hs2; auto. intros [_ ?]; lia.
        - assert (Hge2 : pos <= p / 2) by (apply (anc_chain p); auto; [constructor|lia]).
          destruct (tat_some t (p / 2)) as [tmp Htmp]; [lia|].
          assert (Ht2p : tat t2 p = Some tmp).
          { unfold t2. rewrite tat_tupd_other by lia. rewrite Hs1; auto; [constructor|lia]. }
          rewrite tget_tat, Ht2p. cbn [of_option bind].
          destruct (back_loop_spec t0' p pos) with (fuel := p) (t := t2) (q := p / 2) (tmp := tmp)
            as (t3 & Hb & Hl3 & Hr & Hrp); auto; try lia.
          + apply anc_up; [constructor|lia].
          + unfold t0'. rewrite tat_tupd_other by lia. auto.
          + intros i Hi Hgt Hil. unfold t2, t0'. rewrite tat_tupd_other by lia.
            pose proof (anc_chain p i pos Hi Ha Hgt).
            rewrite tat_tupd_other by lia. apply Hs1; auto.
          + intros i Hip Hni. unfold t2, t0'. destruct (Nat.eq_dec (pos / 2) i) as [<-|Hne].
            * rewrite !tat_tupd_same by lia. auto.
            * rewrite !tat_tupd_other by auto. apply Hs2. intros [Hai Hgt]. apply Hni. repeat split; auto.
              pose proof (anc_le _ _ Hai). apply (anc_chain p); auto; [constructor|lia].
          + exists t3, tmp. repeat split; auto; try lia. congruence. }
      destruct Hback as (t3 & h3 & Hb & Hl3 & Hr3 & Hh3). rewrite Hb. cbn [bind].
      destruct (tat_some t3 (length t3)) as [w Hw]; [lia|].
      rewrite tget_tat, Hw. cbn [of_option bind].
      assert (Ht3 : t3 = tupd t0' p h3).
      { apply tat_ext. intros i. destruct (Nat.eq_dec p i) as [<-|Hne].
        - rewrite tat_tupd_same by lia. auto.
        - rewrite tat_tupd_other by auto. apply Hr3; auto. }
      destruct (tat_two_perm t p (pos / 2) h u) as [R0 HR0]; auto; try lia.
      assert (HRu : Permutation R (u :: R0)). { apply Permutation_cons_inv with h. now rewrite <- Hperm. }
      assert (Hp0 : Permutation t0' (h :: d :: R0)).
      { apply Permutation_cons_inv with u. unfold t0'. rewrite (tupd_perm t (pos / 2) u d Hu), HR0.
        rewrite (perm_swap h d). rewrite (perm_swap h u). rewrite (perm_swap u d). apply perm_skip. reflexivity. }
      assert (Hp3 : Permutation t3 (h3 :: d :: R0)).
      { rewrite Ht3. apply Permutation_cons_inv with h. rewrite (tupd_perm t0' p h h3).
        - rewrite Hp0. apply perm_swap.
        - unfold t0'. rewrite tat_tupd_other by lia. auto. }
      assert (Hmg : merges dd (v :: R) (d :: R0)).
      { apply (merges_dd dd _ u v d R0).
        - rewrite HRu. apply perm_swap.
        - repeat split; auto.
        - apply merges_refl. }
      assert (Hl4 : length (removelast t3) = length t - 1) by (rewrite removelast_length; lia).
      pose proof (tat_last_perm t3 w Hw) as Hpl.
      rewrite Hl4. destruct (Nat.eqb_spec p (length t - 1 + 1)) as [Hlast|Hnl]; [reflexivity|].
      destruct (tat_two_perm t3 (length t3) p w h3) as [R1 HR1]; auto; try lia.
      assert (Hp4 : Permutation (removelast t3) (h3 :: R1)).
      { apply Permutation_cons_inv with w. now rewrite <- Hpl. }
      eapply faulty_mono; [|apply (IH b' (removelast t3) p w R1 h3); try lia; auto; rewrite tat_removelast by lia; auto].
      intros s (v' & R' & y & H1 & H2 & _). exists v', R', y. repeat split; auto; [|congruence..].
      eapply merges_trans; [exact Hmg|]. eapply merges_perm_l; [|exact H1].
      apply Permutation_cons_inv with h3. rewrite <- Hp3, HR1. apply perm_swap.
    - rewrite tset_tupd by lia. reflexivity.
  Qed.

  (** What an exception leaves of the entries [l]: they are merged as far as deduplicate was called, and one of them is replaced by [y]. *)
  Definition left_of (l : list E) t : Prop := exists v R y, merges dd l (v :: R) /\ Permutation t (y :: R).

  Lemma heap_push_x_any b t x :
    faulty (heap_push_x _ lt eqv supportDedup dedup b t x) (heap_push _ lt eqv supportDedup dedup t x)
      (fun t' => left_of (x :: t) t' /\ (supportDedup = false -> exists y, In y (x :: t) /\ Permutation t' (y :: t))).
  Proof.
    unfold heap_push, heap_push_x. set (t1 := t ++ [x]).
    assert (Hl : length t1 = S (length t)) by (unfold t1; rewrite app_length; simpl; lia).
    eapply faulty_mono; [|apply (moveValueUp_x_any (length t1 + 1) b t1 (length t1) x t x); try lia].
    - intros s (v' & R' & y & H1 & H2 & H3). split; [now exists v', R', y|]. intros Hs. destruct (H3 Hs) as (-> & -> & Hi). exists y. split; auto.
      unfold t1 in Hi. apply in_app_or in Hi. destruct Hi as [Hi|[->|[]]]; [right|left]; auto.
    - rewrite Hl. unfold t1. apply tat_snoc.
    - unfold t1. symmetry; apply Permutation_cons_append.
  Qed.

  Lemma heap_decreaseTop_x_any b t h R x : tat t 1 = Some h -> Permutation t (h :: R) ->
    faulty (heap_decreaseTop_x _ lt eqv supportDedup dedup b t x) (heap_decreaseTop _ lt eqv supportDedup dedup t x)
      (fun t' => left_of (x :: R) t' /\ (supportDedup = false -> exists y, In y t /\ Permutation t' (y :: R))).
  Proof.
    intros Hh Hp. unfold heap_decreaseTop, heap_decreaseTop_x. apply faulty_bind.
    - eapply faulty_mono; [|eapply moveHoleDown_x_any; eauto]. intros s (y & H1 & H2). split; [exists x, R, y; split; auto; apply merges_refl|]. eauto.
    - intros b' [t1 hole] Hm0. destruct (moveHoleDown_any lt eqv dedup t h R Hh Hp) as (t1' & hole' & h1 & Hm & Hl & Hb & Hleaf & Hh1 & Hp1).
      rewrite Hm0 in Hm. injection Hm as <- <-.
      eapply faulty_mono; [|apply (moveValueUp_x_any (length t1 + 1) b' t1 hole x R h1); auto; lia].
      intros s (v' & R' & y & H1 & H2 & H3). split; [now exists v', R', y|]. intros Hs. destruct (H3 Hs) as (-> & -> & Hi).
      exists y. split; auto. eapply moveHoleDown_incl; eauto.
  Qed.

  Lemma heap_push_range_x_any xs : forall b t,
    faulty (heap_push_range_x _ lt eqv supportDedup dedup b t xs) (heap_push_range _ lt eqv supportDedup dedup t xs)
      (fun t' => exists ys x zs m, xs = ys ++ x :: zs /\ merges dd (ys ++ t) m /\ left_of (x :: m) t').
  Proof.
    induction xs as [|x xs IH]; intros b t; cbn [heap_push_range heap_push_range_x]; [reflexivity|]. apply faulty_bind.
    - eapply faulty_mono; [|apply heap_push_x_any]. intros s [H _]. exists [], x, xs, t. repeat split; auto. apply merges_refl.
    - intros b' t1 H1. destruct (heap_push_any lt eqv supportDedup dedup t x) as (t1' & H1' & Hm). rewrite H1 in H1'. injection H1' as <-.
      eapply faulty_mono; [|apply IH]. intros s (ys & z & zs & m & -> & Hm' & Hl). exists (x :: ys), z, zs, m. repeat split; auto.
      eapply merges_trans; [|exact Hm']. simpl. eapply merges_perm_l; [apply Permutation_middle|]. apply merges_app_both; auto. apply merges_refl.
  Qed.

  Lemma heap_pop_x_any b t h : tat t 1 = Some h ->
    faulty (heap_pop_x _ lt eqv supportDedup dedup b t) (heap_pop _ lt eqv supportDedup dedup t)
      (fun t' => exists w R, Permutation t (h :: w :: R) /\ left_of (w :: R) t' /\ (supportDedup = false -> exists y, In y t /\ Permutation t' (y :: R))).
  Proof.
    intros Hh. unfold heap_pop, heap_pop_x. rewrite tget_tat, Hh. cbn [of_option bind].
    pose proof (tat_bound _ _ _ Hh) as Hb.
    destruct (tat_some t (length t)) as [w Hw]; [lia|]. rewrite tget_tat, Hw. cbn [of_option bind].
    pose proof (tat_last_perm t w Hw) as Hpl.
    assert (Hl : length (removelast t) = length t - 1) by apply removelast_length.
    destruct (removelast t) as [|a r] eqn:Hr; [reflexivity|]. rewrite <- Hr in *.
    assert (Hgt : 1 < length t) by (rewrite Hr in Hl; simpl in Hl; lia).
    assert (Hh1 : tat (removelast t) 1 = Some h) by (rewrite tat_removelast by lia; auto).
    destruct (tat1_perm _ _ Hh1) as [R HR].
    assert (Hperm : Permutation t (h :: w :: R)) by (rewrite Hpl, HR; apply perm_swap).
    assert (Hin : incl (removelast t) t). { intros z Hz. eapply Permutation_in; [symmetry; exact Hpl|]. now right. }
    apply faulty_bind.
    - eapply faulty_mono; [|eapply moveHoleDown_x_any; eauto]. intros s (y & H1 & H2). exists w, R. split; auto. split.
      + exists w, R, y. split; auto. apply merges_refl.
      + intros _. exists y. split; auto.
    - intros b' [t1 hole] Hm0. destruct (moveHoleDown_any lt eqv dedup _ h R Hh1 HR) as (t1' & hole' & h1 & Hm & Hlm & Hbm & Hleaf & Hhm & Hpm).
      rewrite Hm0 in Hm. injection Hm as <- <-. apply faulty_bind; [|reflexivity].
      eapply faulty_mono; [|apply (moveValueUp_x_any (length t1 + 1) b' t1 hole w R h1); auto; lia].
      intros s (v' & R' & y & H1 & H2 & H3). exists w, R. split; auto. split; [now exists v', R', y|].
      intros Hs. destruct (H3 Hs) as (-> & -> & Hi). exists y. split; auto. apply Hin. eapply moveHoleDown_incl; eauto.
  Qed.

  (** The entries that an exception leaves behind, call by call *)
  Definition heap_left t (o : op E) t' : Prop :=
    match o with
    | Push x => left_of (x :: t) t'
    | PushRange xs => exists ys x zs m, xs = ys ++ x :: zs /\ merges dd (ys ++ t) m /\ left_of (x :: m) t'
    | Pop => exists top R, tat t 1 = Some top /\ Permutation t (top :: R) /\ left_of R t'
    | DecreaseTop x => exists top R, tat t 1 = Some top /\ Permutation t (top :: R) /\ left_of (x :: R) t'
    | _ => False
    end.

  Lemma faulty_wrap {S A B} (x : res (fout S A)) plain (f : A -> B) (P : S -> Prop) :
    faulty x plain P -> faulty (fbind x (fun b a => Ok (Fine b (f a)))) (let* a := plain in Ok (f a)) P.
  Proof. intros H. apply faulty_bind; auto. intros b a _. reflexivity. Qed.

  Lemma heap_step_x_any b t o : t <> [] \/ needs_nonempty o = false ->
    faulty (heap_step_x _ lt eqv supportDedup dedup b t o) (heap_step _ lt eqv supportDedup dedup t o) (heap_left t o).
  Proof.
    intros Hne. assert (Hr : needs_nonempty o = true -> exists h, tat t 1 = Some h).
    { intros Hn. destruct t as [|h t']; [destruct Hne; congruence|]. now exists h. }
    destruct o as [x|xs| | |x| | | |]; cbn [heap_step_x heap_step needs_nonempty] in *; try reflexivity.
    - apply faulty_wrap. eapply faulty_mono; [|apply heap_push_x_any]. now intros s [H _].
    - apply faulty_wrap. apply heap_push_range_x_any.
    - destruct (Hr eq_refl) as [h Hh]. apply faulty_bind; [|intros b' [t' x] _; reflexivity]. eapply faulty_mono; [|eapply heap_pop_x_any; eauto].
      intros s (w & R & H1 & H2 & _). exists h, (w :: R). auto.
    - destruct (Hr eq_refl) as [h Hh]. unfold heap_top. rewrite tget_tat, Hh. reflexivity.
    - destruct (Hr eq_refl) as [h Hh]. destruct (tat1_perm _ _ Hh) as [R HR]. apply faulty_wrap. eapply faulty_mono; [|eapply heap_decreaseTop_x_any; eauto].
      intros s [H _]. exists h, R. auto.
  Qed.
End Heap.

(** The order of the entries, when compare is a strict weak order and there is no de-duplication *)
Section Order.
  Context {E : Type}.
  Variable lt eqv : E -> E -> bool.
  Variable dedup : E -> E -> E.
  Hypothesis Hsw : strict_weak lt.
  Implicit Types (t : list E).

  Let no_dedup : false = true -> forall a b, lt a b = false -> eqv a b = true -> equivalent lt (dedup a b) a.
  Proof. discriminate. Qed.

  Lemma hole_loop_x_valid fuel : forall b t hole, valid lt t -> 1 <= hole ->
    match hole_loop_x _ lt fuel b t hole ((length t + 1) / 2) with Ok (Left t') => valid lt t' | _ => True end.
  Proof.
    induction fuel as [|f IH]; intros b t hole Hv Hb; cbn [hole_loop_x]; destruct (Nat.ltb_spec hole ((length t + 1) / 2)) as [Hlt|Hge]; auto.
    destruct (tat_some t (2 * hole)) as [x Ha]; [lia|]. destruct (tat_some t (2 * hole + 1)) as [y Hbb]; [lia|].
    rewrite !tget_tat, Ha, Hbb. cbn [of_option bind]. destruct b as [|b]; cbn [client]; auto.
    set (c := if lt x y then 2 * hole + 1 else 2 * hole).
    assert (Hc : exists v, tat t c = Some v /\ c / 2 = hole /\ 2 * hole <= c <= length t /\
               (forall d z, d / 2 = hole -> tat t d = Some z -> lt v z = false)).
    { unfold c. destruct (lt x y) eqn:Hab.
      - exists y. repeat split; auto; try lia.
        intros d z Hd Hz. assert (d = 2 * hole \/ d = 2 * hole + 1) as [-> | ->] by lia.
        + rewrite Ha in Hz; injection Hz as <-. now apply (sw_asym lt Hsw).
        + rewrite Hbb in Hz; injection Hz as <-. apply (sw_irrefl lt Hsw).
      - exists x. repeat split; auto; try lia.
        intros d z Hd Hz. assert (d = 2 * hole \/ d = 2 * hole + 1) as [-> | ->] by lia.
        + rewrite Ha in Hz; injection Hz as <-. apply (sw_irrefl lt Hsw).
        + rewrite Hbb in Hz; injection Hz as <-. auto. }
    destruct Hc as (v & Hcv & Hc2 & Hcb & Hmax). rewrite tget_tat, Hcv. cbn [of_option bind]. rewrite tset_tupd by lia. cbn [bind].
    assert (Hlen : length t = length (tupd t hole v)) by (now rewrite tupd_length). rewrite Hlen. apply IH; [|lia].
    eapply (hole_step lt eqv false dedup Hsw no_dedup t hole c v); eauto; lia.
  Qed.

  (** Copying an entry over one of the entries below it *)
  Lemma up_step_valid t pos u : 2 <= pos <= length t -> valid_except lt t pos -> tat t (pos / 2) = Some u ->
    (forall i y, i / 2 = pos -> tat t i = Some y -> lt u y = false) -> valid lt (tupd t pos u).
  Proof.
    intros Hp Hv Hu Hd i Hi a x Ha Hx. rewrite tupd_length in Hi. destruct (Nat.eq_dec (i / 2) pos) as [He|Hne].
    - rewrite He, tat_tupd_same in Ha by lia. injection Ha as <-. rewrite tat_tupd_other in Hx by lia. eapply Hd; eauto.
    - rewrite tat_tupd_other in Ha by auto. destruct (Nat.eq_dec i pos) as [->|Hni].
      + rewrite tat_tupd_same in Hx by lia. injection Hx as <-. assert (a = u) as -> by congruence. apply (sw_irrefl lt Hsw).
      + rewrite tat_tupd_other in Hx by auto. eapply Hv; eauto.
  Qed.

  Lemma up_loop_x_valid v fuel : forall b t pos, valid lt t -> 1 <= pos <= length t ->
    match up_loop_x _ lt eqv false fuel b t pos v with Ok (Left t') => valid lt t' | _ => True end.
  Proof.
    induction fuel as [|f IH]; intros b t pos Hv Hb; cbn [up_loop_x]; destruct (Nat.eqb_spec pos 1) as [->|Hne]; auto.
    destruct (tat_some t (pos / 2)) as [u Hu]; [lia|]. rewrite tget_tat, Hu. cbn [of_option bind]. destruct b as [|b]; cbn [client]; auto.
    destruct (lt u v); [|exact I]. rewrite tset_tupd by lia. cbn [bind]. apply IH; [|rewrite tupd_length; lia].
    apply up_step_valid; auto; [lia| |].
    - intros i Hi _. now apply Hv.
    - intros i y Hi Hy. destruct (tat_some t pos) as [z Hz]; [lia|]. pose proof (tat_bound _ _ _ Hy) as Hib.
      apply (sw_neg_trans lt Hsw) with z; [apply (Hv pos); auto; lia|]. apply (Hv i); try lia; auto. now rewrite Hi.
  Qed.

  Lemma moveValueUp_x_valid fuel b t p v : valid lt t -> 1 <= p <= length t ->
    match moveValueUp_x _ lt eqv false dedup fuel b t p v with Ok (Left t') => valid lt t' | _ => True end.
  Proof.
    intros Hv Hp. destruct fuel as [|f]; [exact I|]. cbn [moveValueUp_x]. pose proof (up_loop_x_valid v p b t p Hv Hp) as Hl.
    assert (Hd : forall fuel b t pos, match up_loop_x _ lt eqv false fuel b t pos v with Ok (Fine _ (_, _, d)) => d = false | _ => True end).
    { clear. induction fuel as [|f IH]; intros b t pos; cbn [up_loop_x]; destruct (pos =? 1); auto.
      destruct (tget t (pos / 2)) as [u| | |]; cbn [bind]; auto. destruct b as [|b]; cbn [client]; auto. destruct (lt u v); [|reflexivity].
      destruct (tset t pos u) as [t1| | |]; cbn [bind]; try exact I. apply IH. }
    specialize (Hd p b t p). destruct (up_loop_x _ lt eqv false p b t p v) as [[b' [[t1 pos] d]|s]| | |]; cbn [fbind bind]; auto. rewrite Hd.
    destruct (tset t1 pos v); cbn [bind]; exact I.
  Qed.

  Lemma moveHoleDown_x_valid b t : valid lt t -> match moveHoleDown_x _ lt b t 1 with Ok (Left t') => valid lt t' | _ => True end.
  Proof.
    intros Hv. unfold moveHoleDown_x. pose proof (hole_loop_x_valid (length t) b t 1 Hv (le_n 1)) as H.
    destruct (hole_loop_x _ lt (length t) b t 1 _) as [[b' [t1 hole]|s]| | |]; cbn [fbind bind]; auto.
    destruct (_ && _); auto. destruct (tget t1 (2 * hole)); cbn [bind]; auto. destruct (tset t1 hole a); cbn [bind]; exact I.
  Qed.

  Lemma heap_down_up_valid b t x : valid lt t -> t <> [] ->
    match heap_decreaseTop_x _ lt eqv false dedup b t x with Ok (Left t') => valid lt t' | _ => True end.
  Proof.
    intros Hv Hne. destruct t as [|h t0] eqn:Ht; [congruence|]. rewrite <- Ht in *. assert (Hh : tat t 1 = Some h) by (subst; auto).
    destruct (tat1_perm _ _ Hh) as [R HR]. unfold heap_decreaseTop_x. pose proof (moveHoleDown_x_valid b t Hv) as H1.
    pose proof (moveHoleDown_x_any lt eqv dedup b t h R Hh HR) as H2.
    destruct (moveHoleDown_x _ lt b t 1) as [[b' [t1 hole]|s]| | |]; cbn [fbind bind faulty] in *; auto.
    destruct (moveHoleDown_spec lt eqv false dedup Hsw no_dedup t h R Hv Hh HR) as (t1' & hole' & h1 & Hm & Hv1 & Hl & Hb & _).
    rewrite H2 in Hm. injection Hm as <- <-. apply moveValueUp_x_valid; auto. lia.
  Qed.

  Lemma valid_removelast t : valid lt t -> valid lt (removelast t).
  Proof.
    intros Hv i Hi u x Hu Hx. rewrite removelast_length in Hi. rewrite tat_removelast in Hu, Hx by lia. eapply Hv; eauto. lia.
  Qed.

  Lemma heap_pop_x_valid b t : valid lt t ->
    match heap_pop_x _ lt eqv false dedup b t with Ok (Left t') => valid lt t' | _ => True end.
  Proof.
    intros Hv. unfold heap_pop_x. destruct (tget t 1) as [top| | |]; cbn [bind]; auto. destruct (tget t (length t)) as [w| | |]; cbn [bind]; auto.
    pose proof (valid_removelast t Hv) as Hv'. destruct (removelast t) as [|a r] eqn:Hr; auto. rewrite <- Hr in *.
    pose proof (heap_down_up_valid b (removelast t) w Hv' ltac:(rewrite Hr; discriminate)) as H. unfold heap_decreaseTop_x in H.
    destruct (moveHoleDown_x _ lt b (removelast t) 1) as [[b' [t1 hole]|s]| | |]; cbn [fbind bind] in *; auto.
    destruct (moveValueUp_x _ lt eqv false dedup (length t1 + 1) b' t1 hole w) as [[b2 t3|s]| | |]; cbn [fbind bind] in *; auto.
  Qed.

  Lemma heap_push_x_valid b t x : valid lt t ->
    match heap_push_x _ lt eqv false dedup b t x with Ok (Left t') => t' = t ++ [x] \/ valid lt t' | _ => True end.
  Proof.
    intros Hv. unfold heap_push_x. set (t1 := t ++ [x]). assert (Hl : length t1 = S (length t)) by (unfold t1; rewrite app_length; simpl; lia).
    assert (Hup : match up_loop_x _ lt eqv false (S (length t)) b t1 (length t1) x with
                  | Ok (Left t') => t' = t1 \/ valid lt t' | Ok (Fine _ (_, _, d)) => d = false | _ => True end).
    { cbn [up_loop_x]. destruct (Nat.eqb_spec (length t1) 1) as [H1|H1]; [reflexivity|].
      destruct (tat_some t1 (length t1 / 2)) as [u Hu]; [lia|]. rewrite tget_tat, Hu. cbn [of_option bind].
      destruct b as [|b]; cbn [client]; [now left|]. destruct (lt u x); [|reflexivity]. rewrite tset_tupd by lia. cbn [bind].
      assert (Hv1 : valid lt (tupd t1 (length t1) u)).
      { apply up_step_valid; auto; [lia| |].
        - intros i Hi Hne a c Ha Hc. unfold t1 in Ha, Hc. rewrite tat_app_l in Ha, Hc by lia. eapply Hv; eauto. lia.
        - intros i y Hi Hy. apply tat_bound in Hy. lia. }
      pose proof (up_loop_x_valid x (length t) b _ (length t1 / 2) Hv1 ltac:(rewrite tupd_length; lia)) as Hg.
      assert (Hd : forall fuel b t pos, match up_loop_x _ lt eqv false fuel b t pos x with Ok (Fine _ (_, _, d)) => d = false | _ => True end).
      { clear. induction fuel as [|f IH]; intros b t pos; cbn [up_loop_x]; destruct (pos =? 1); auto.
        destruct (tget t (pos / 2)) as [u| | |]; cbn [bind]; auto. destruct b as [|b]; cbn [client]; auto. destruct (lt u x); [|reflexivity].
        destruct (tset t pos u) as [t1| | |]; cbn [bind]; try exact I. apply IH. }
      specialize (Hd (length t) b (tupd t1 (length t1) u) (length t1 / 2)).
      destruct (up_loop_x _ lt eqv false (length t) b _ _ x) as [[b' [[t2 pos] d]|s]| | |]; auto. }
    rewrite <- Hl in Hup. replace (length t1 + 1) with (S (length t1)) by lia. cbn [moveValueUp_x].
    destruct (up_loop_x _ lt eqv false (length t1) b t1 (length t1) x) as [[b' [[t2 pos] d]|s]| | |]; cbn [fbind bind]; auto. subst d.
    destruct (tset t2 pos x); cbn [bind]; exact I.
  Qed.
End Order.

(** The heap order for places that start at 0 *)
Lemma valid_ordered {E : Type} (lt : E -> E -> bool) (t : list E) :
  valid lt t <-> forall i parent x, 1 <= i -> nth_error t ((i - 1) / 2) = Some parent -> nth_error t i = Some x -> lt parent x = false.
Proof.
  assert (Hd : forall i, 1 <= i -> tat t (S i / 2) = nth_error t ((i - 1) / 2)).
  { intros i Hi. replace (S i) with ((i - 1) + 1 * 2) by lia. rewrite Nat.div_add by lia. now rewrite Nat.add_1_r. }
  split.
  - intros H i u x Hi Hu Hx. assert (i < length t) by (apply nth_error_Some; congruence). apply (H (S i)); [lia| |assumption]. now rewrite Hd.
  - intros H i Hi u x Hu Hx. destruct i as [|i]; [lia|]. rewrite Hd in Hu by lia. apply (H i); auto. lia.
Qed.
