(** Two correct divisor finders with compatible preconditions answer alike, even if one of them is asked to rebuild now and then. *)
From Coq Require Import List Arith Bool Permutation Lia.
From Verif.Base Require Import Res.
From Verif.Spec Require Import Reach DivFinder DivFinderFacts DivAgree DivAgreeFacts.
Import ListNotations.

Lemma reached_run_length {St Op Out : Type} (step : St -> Op -> res (St * Out)) allowed s0 ops s rs :
  reached step allowed s0 ops s rs -> length rs = length ops.
Proof. induction 1 as [|ops s rs o s' r H IH Ha Hs]; auto. rewrite !app_length, IH. reflexivity. Qed.

Section Invisible.
  Context {M : Type}.
  Variable divides same : M -> M -> bool.
  Hypothesis same_refl : forall a, same a a = true.
  Hypothesis same_sym : forall a b, same a b = true -> same b a = true.
  Hypothesis same_trans : forall a b c, same a b = true -> same b c = true -> same a c = true.
  Hypothesis resp_l : forall a b m, same a b = true -> divides a m = divides b m.
  Hypothesis resp_r : forall a b m, same a b = true -> divides m a = divides m b.
  Context {A B : Type}.
  Variables (stepA : A -> dop M -> res (A * dout M)) (initA : res A) (absA : A -> list M) (preA : list M -> dop M -> bool).
  Variables (stepB : B -> dop M -> res (B * dout M)) (initB : res B) (absB : B -> list M) (preB : list M -> dop M -> bool).
  Hypothesis okA : df_steps divides same stepA initA absA preA.
  Hypothesis okB : df_steps divides same stepB initB absB preB.
  Hypothesis compatible : forall l l' o, alike same l l' -> preA l o = true -> preB l' o = true.

  Lemma combine_snoc {X Y : Type} (l : list X) (l' : list Y) x y : length l' = length l -> combine (l ++ [x]) (l' ++ [y]) = combine l l' ++ [(x, y)].
  Proof. revert l'. induction l as [|a l IH]; intros [|b l'] H; try discriminate; auto. cbn. f_equal. apply IH. now injection H. Qed.

  Lemma rebuilds_invisible a0 b0 : initA = Ok a0 -> initB = Ok b0 -> forall ops a rs,
    reached stepA (fun s o => preA (absA s) o = true) a0 ops a rs -> Forall full ops ->
    exists b rs', reached stepB (fun s o => preB (absB s) o = true) b0 (without_rebuilds ops) b rs' /\
      Forall2 (answers_alike same) (observed ops rs) rs' /\ alike same (absA a) (absB b).
  Proof.
    destruct okA as (a1 & Ha1 & Ha0 & HA), okB as (b1 & Hb1 & Hb0 & HB). intros Ea Eb. rewrite Ea in Ha1. injection Ha1 as <-. rewrite Eb in Hb1. injection Hb1 as <-.
    induction 1 as [|ops a rs o a' r Hr IH Hp Hs]; intros Hf.
    - exists b0, []. split; [constructor|]. split; [constructor|]. rewrite Ha0, Hb0. intros x. reflexivity.
    - apply Forall_app in Hf as [Hf1 Hf2]. inversion Hf2 as [|? ? Hfo _]; subst. destruct (IH Hf1) as (b & rs' & H1 & H2 & H3).
      destruct (HA ops a rs Hr o Hp) as (a2 & r2 & Hs2 & Hd). rewrite Hs in Hs2. injection Hs2 as <- <-.
      assert (Hl := reached_run_length _ _ _ _ _ _ Hr).
      unfold without_rebuilds, observed. rewrite filter_app, combine_snoc, filter_app, map_app by auto.
      cbn [filter fst]. destruct (is_rebuild o) eqn:Ho; cbn [negb map snd].
      + rewrite !app_nil_r. exists b, rs'. split; auto. split; auto. destruct o; try discriminate Ho. inversion Hd; subst.
        intros x. rewrite <- (H3 x). now apply copies_perm.
      + assert (Hq := compatible _ _ o H3 Hp). destruct (HB _ _ _ H1 o Hq) as (b' & r' & Hs' & Hd').
        destruct (dstep_agree divides same same_refl same_sym same_trans resp_l resp_r _ _ _ _ _ _ _ H3 Hfo Hd Hd') as [G1 G2].
        exists b', (rs' ++ [r']). split; [econstructor; eauto|]. split; auto. apply Forall2_app; auto.
  Qed.
End Invisible.
