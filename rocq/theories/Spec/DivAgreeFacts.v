(** Two correct divisor finders answer alike. *)
From Coq Require Import List Arith Bool Permutation Lia.
From Verif.Base Require Import Res.
From Verif.Spec Require Import DivFinder DivFinderFacts DivAgree.
Import ListNotations.

Section Facts.
  Context {M : Type}.
  Variable divides : M -> M -> bool.
  Variable same : M -> M -> bool.
  Hypothesis same_refl : forall a, same a a = true.
  Hypothesis same_sym : forall a b, same a b = true -> same b a = true.
  Hypothesis same_trans : forall a b c, same a b = true -> same b c = true -> same a c = true.
  Notation alike := (alike same).
  Notation copies := (copies same).

  Lemma copies_cons a x l : copies a (x :: l) = (if same a x then 1 else 0) + copies a l.
  Proof. unfold DivFinder.copies. cbn [filter]. destruct (same a x); reflexivity. Qed.
  Lemma copies_app a l l' : copies a (l ++ l') = copies a l + copies a l'.
  Proof. unfold DivFinder.copies. now rewrite filter_app, app_length. Qed.
  Lemma copies_perm a l l' : Permutation l l' -> copies a l = copies a l'.
  Proof. apply filter_length_perm. Qed.
  Lemma same_class a b x : same a b = true -> same a x = same b x.
  Proof.
    intros H. destruct (same a x) eqn:H1, (same b x) eqn:H2; auto.
    - rewrite (same_trans b a x) in H2; auto.
    - rewrite (same_trans a b x) in H1; auto.
  Qed.
  Lemma copies_in a l : copies a l <> 0 <-> exists x, In x l /\ same a x = true.
  Proof.
    unfold DivFinder.copies. split.
    - destruct (filter (fun x => same a x) l) as [|x f] eqn:Hf; [cbn; congruence|]. intros _. exists x.
      assert (Hin : In x (filter (fun x => same a x) l)) by (rewrite Hf; now left). now apply filter_In in Hin.
    - intros (x & H1 & H2). assert (Hin : In x (filter (fun x => same a x) l)) by (apply filter_In; auto).
      destruct (filter (fun x => same a x) l); [destruct Hin|discriminate].
  Qed.

  Lemma alike_refl l : alike l l.
  Proof. intros a; reflexivity. Qed.
  Lemma alike_perm l l' m m' : Permutation l l' -> Permutation m m' -> alike l' m' -> alike l m.
  Proof. intros H1 H2 H a. rewrite (copies_perm a _ _ H1), (copies_perm a _ _ H2). apply H. Qed.
  Lemma alike_app l l' m m' : alike l l' -> alike m m' -> alike (l ++ m) (l' ++ m').
  Proof. intros H1 H2 a. rewrite !copies_app. now rewrite H1, H2. Qed.
  Lemma alike_cancel e e' l l' : same e e' = true -> alike (e :: l) (e' :: l') -> alike l l'.
  Proof.
    intros Hs H a. specialize (H a). rewrite !copies_cons in H. replace (same a e') with (same a e) in H; [lia|].
    destruct (same a e) eqn:H1; [symmetry; eapply same_trans; eauto|]. destruct (same a e') eqn:H2; auto.
    rewrite (same_trans a e' e) in H1; auto.
  Qed.
  Lemma alike_in l l' x : alike l l' -> In x l -> exists y, In y l' /\ same x y = true.
  Proof. intros H Hx. apply copies_in. rewrite <- (H x). apply copies_in. exists x. auto. Qed.
  Lemma alike_length l : forall l', alike l l' -> length l = length l'.
  Proof.
    induction l as [|x l IH]; intros l' H.
    - destruct l' as [|y l']; auto. specialize (H y). rewrite copies_cons, same_refl in H. discriminate.
    - destruct (alike_in _ _ x H) as (y & Hy & Hs); [now left|]. apply in_split in Hy as (l1 & l2 & ->).
      assert (H1 : alike l (l1 ++ l2)).
      { apply (alike_cancel x y); auto. eapply alike_perm; [apply Permutation_refl| |exact H]. apply Permutation_middle. }
      rewrite app_length. cbn [length]. apply IH in H1. rewrite app_length in H1. lia.
  Qed.
  Lemma copies_filter f a l : (forall x y, same x y = true -> f x = f y) -> copies a (filter f l) = if f a then copies a l else 0.
  Proof.
    intros Hf. induction l as [|x l IH]; cbn [filter]; [now destruct (f a)|]. rewrite copies_cons. destruct (f x) eqn:Hx; rewrite ?copies_cons, IH.
    - destruct (same a x) eqn:Hs; [|destruct (f a); reflexivity]. rewrite (Hf a x Hs), Hx. reflexivity.
    - destruct (same a x) eqn:Hs; [rewrite (Hf a x Hs), Hx; reflexivity|]. reflexivity.
  Qed.
  Lemma alike_filter f l l' : (forall x y, same x y = true -> f x = f y) -> alike l l' -> alike (filter f l) (filter f l').
  Proof. intros Hf H a. rewrite !copies_filter by auto. now rewrite H. Qed.

  Hypothesis resp_l : forall a b m, same a b = true -> divides a m = divides b m.
  Hypothesis resp_r : forall a b m, same a b = true -> divides m a = divides m b.

  Lemma dstep_agree l o r l1 m r' m1 : alike l m -> full o -> dstep divides same l o r l1 -> dstep divides same m o r' m1 ->
    answers_alike same r r' /\ alike l1 m1.
  Proof.
    intros Ha Hf H H'.
    assert (Hk : forall l2 m2, Permutation l2 l -> Permutation m2 m -> alike l2 m2) by (intros l2 m2 H1 H2; eapply alike_perm; eauto).
    assert (Hd : forall k a b, is_divisor divides k l a -> is_divisor divides k m b -> answers_alike same (DOFound a) (DOFound b)).
    { intros k [a|] [b|] H1 H2; cbn [is_divisor answers_alike] in *; auto.
      - destruct H1 as [H1 H3]. destruct (alike_in _ _ a Ha H1) as (y & Hy & Hs). rewrite (resp_l a y) in H3 by auto. rewrite H2 in H3 by auto. discriminate.
      - destruct H2 as [H2 H3]. destruct (alike_in m l b) as (y & Hy & Hs); [intros z; symmetry; apply Ha|auto|].
        rewrite (resp_l b y) in H3 by auto. rewrite H1 in H3 by auto. discriminate. }
    assert (Hr : forall cb all all' xs ys, (forall p, cb p = true) -> alike all all' -> reported cb all xs -> reported cb all' ys -> alike xs ys).
    { intros cb all all' xs ys Hc H1 H2 H3. apply reported_all in H2, H3; auto. eapply alike_perm; eauto. }
    destruct H; inversion H'; subst; clear H'; cbn [answers_alike full] in *.
    - split; auto. eapply alike_perm; eauto. now apply (alike_app [e] [e]).
    - split; auto. eapply alike_perm; eauto. now apply alike_app.
    - assert (A1 : alike xs xs0) by (eapply alike_perm; eauto; apply alike_filter; auto).
      split; [split; auto|].
      + apply alike_length in A1. destruct xs, xs0; cbn in A1; congruence.
      + eapply alike_perm; eauto. apply alike_filter; auto. intros x y Hs. now rewrite (resp_r x y).
    - split; auto. apply (alike_cancel e e0); [apply same_trans with m0; auto|]. eapply alike_perm; [symmetry; eauto|symmetry; eauto|auto].
    - exfalso. destruct (alike_in l m e Ha) as (y & Hy & Hs); [eapply Permutation_in; [symmetry; eauto|now left]|].
      match goal with Hn : forall z, In z m -> same m0 z = false |- _ => specialize (Hn y Hy); rewrite (same_trans m0 e y) in Hn; auto; discriminate end.
    - exfalso. destruct (alike_in m l e) as (y & Hy & Hs); [intros z; symmetry; apply Ha|eapply Permutation_in; [symmetry; eauto|now left]|].
      match goal with Hn : forall z, In z l -> same m0 z = false |- _ => specialize (Hn y Hy); rewrite (same_trans m0 e y) in Hn; auto; discriminate end.
    - split; auto.
    - split; [apply (Hd m0); auto|auto].
    - split; auto. eapply Hr; [exact Hf| |eassumption|eassumption]. apply alike_filter; auto.
    - split; auto. eapply Hr; [exact Hf| |eassumption|eassumption]. apply alike_filter; auto.
    - split; auto. eapply Hr; eauto.
    - split; [apply (Hd m0); auto|auto].
    - split; auto.
    - split; auto. now apply alike_length.
  Qed.
  Lemma dtrace_agree l ops rs l1 : dtrace divides same l ops rs l1 -> forall m rs' m1, alike l m -> Forall full ops ->
    dtrace divides same m ops rs' m1 -> Forall2 (answers_alike same) rs rs' /\ alike l1 m1.
  Proof.
    induction 1 as [l|l o r l1 ops rs l2 Hs Ht IH]; intros m rs' m1 Ha Hf H'; inversion H'; subst; clear H'; [auto|].
    inversion Hf; subst. destruct (dstep_agree l o r l1 m r0 l3 Ha) as [Hq Hw]; auto. edestruct IH as [Ha1 Ha2]; [exact Hw|eassumption|eassumption|]. auto.
  Qed.

  Theorem df_agree {A B : Type} (stepA : A -> dop M -> res (A * dout M)) initA absA preA (stepB : B -> dop M -> res (B * dout M)) initB absB preB ops :
    df_correct divides same stepA initA absA preA -> df_correct divides same stepB initB absB preB -> Forall full ops ->
    agree (answers_alike same) stepA initA absA preA stepB initB absB preB ops.
  Proof.
    intros (a0 & Ha0 & Ha) (b0 & Hb0 & Hb) Hf. exists a0, b0. split; auto. split; auto.
    destruct (Ha ops) as [(a & rs & H1 & H2)|(p & o & q & a & rs & H1 & H2 & _ & H3)]; [|right; left; exists p, o, q, a, rs; auto].
    destruct (Hb ops) as [(b & rs' & H3 & H4)|(p & o & q & b & rs' & H3 & H4 & _ & H5)]; [|right; right; exists p, o, q, b, rs'; auto].
    left. exists a, b, rs, rs'. split; auto. split; auto. eapply dtrace_agree; eauto. apply alike_refl.
  Qed.
End Facts.

(** If entries with equal exponents are equal, the agreement is exact. *)
Section Exact.
  Context {M : Type}.
  Variable divides : M -> M -> bool.
  Variable same : M -> M -> bool.
  Hypothesis same_eq : forall a b, same a b = true <-> a = b.

  Lemma alike_exact l l' : alike same l l' -> Permutation l l'.
  Proof.
    revert l'. induction l as [|x l IH]; intros l' H.
    - destruct l' as [|y l']; auto. specialize (H y). unfold copies in H. cbn [filter] in H. replace (same y y) with true in H by (symmetry; now apply same_eq). discriminate.
    - destruct (alike_in same (fun a => proj2 (same_eq a a) eq_refl) _ _ x H) as (y & Hy & Hs); [now left|]. apply same_eq in Hs as <-.
      apply in_split in Hy as (l1 & l2 & ->). rewrite <- Permutation_middle. constructor. apply IH.
      intros a. specialize (H a). rewrite copies_cons, copies_app, copies_cons in H. rewrite copies_app. lia.
  Qed.
  Lemma answers_exact r r' : answers_alike same r r' -> answers_same r r'.
  Proof.
    destruct r as [|b|b xs|[x|]|xs|n], r' as [|b'|b' xs'|[x'|]|xs'|n']; cbn; try tauto; try congruence.
    - intros [H1 H2]. split; auto. now apply alike_exact.
    - apply alike_exact.
  Qed.
End Exact.
