(** Facts about the specification with a state of the configuration. *)
From Coq Require Import List Permutation Arith Lia Bool.
From Verif.Base Require Import Res Order.
From Verif.Spec Require Import PQ PQFacts PQState.
Import ListNotations.

Section Facts.
  Context {E P : Type}.
  Variable lt : E -> E -> bool.
  Variable dd : P -> E -> E -> E -> P -> Prop.
  Notation smerges := (smerges dd).

  Lemma smerges_refl p l : smerges p l p l.
  Proof. apply sm_perm; reflexivity. Qed.

  Lemma smerges_perm_l p l l0 p' l' : Permutation l l0 -> smerges p l0 p' l' -> smerges p l p' l'.
  Proof.
    intros Hp H; inversion H; subst.
    - apply sm_perm; etransitivity; eauto.
    - eapply sm_dd; [etransitivity|..]; eauto.
  Qed.

  Lemma smerges_trans p1 l1 p2 l2 p3 l3 : smerges p1 l1 p2 l2 -> smerges p2 l2 p3 l3 -> smerges p1 l1 p3 l3.
  Proof.
    intros H; induction H as [p l l' Hp|p l a b c q m p' l' Hp Hd H IH]; intros H3.
    - eapply smerges_perm_l; eauto.
    - eapply sm_dd; eauto.
  Qed.

  Lemma smerges_perm_r p l p' l' l0 : smerges p l p' l' -> Permutation l' l0 -> smerges p l p' l0.
  Proof. intros H Hp. eapply smerges_trans; [exact H|]. now apply sm_perm. Qed.

  Lemma smerges_app p l p' l' r : smerges p l p' l' -> smerges p (l ++ r) p' (l' ++ r).
  Proof.
    intros H; induction H as [p l l' Hp|p l a b c q m p' l' Hp Hd H IH].
    - apply sm_perm. now apply Permutation_app_tail.
    - eapply (sm_dd dd p _ a b c q (m ++ r)); eauto.
      change (a :: b :: m ++ r) with ((a :: b :: m) ++ r). now apply Permutation_app_tail.
  Qed.

  Lemma smerges_app_l p l p' l' r : smerges p l p' l' -> smerges p (r ++ l) p' (r ++ l').
  Proof.
    intros H. eapply smerges_perm_l; [apply Permutation_app_comm|]. eapply smerges_perm_r; [apply smerges_app; exact H|].
    apply Permutation_app_comm.
  Qed.

  Lemma ptrace_app p l pre rs p1 l1 post rs' p2 l2 :
    ptrace lt dd p l pre rs p1 l1 -> ptrace lt dd p1 l1 post rs' p2 l2 -> ptrace lt dd p l (pre ++ post) (rs ++ rs') p2 l2.
  Proof. intros H; induction H; simpl; auto. intros H2; econstructor; eauto. Qed.

  Section Lift.
    Context {St : Type}.
    Variable step : St * P -> op E -> res ((St * P) * out E).
    Variable abs : St -> list E.
    Variable Inv : St -> Prop.
    Variable api : op E -> bool.
    Hypothesis Hstep : forall s p o, Inv s -> api o = true ->
      match step (s, p) o with
      | Ok ((s', p'), r) => Inv s' /\ pstep lt dd p (abs s) o r p' (abs s')
      | UB => abs s = [] /\ needs_nonempty o = true
      | Throw _ => False
      | NoFuel => False
      end.

    Lemma slift_gen : forall ops s p, Inv s -> forallb api ops = true ->
      match run step (s, p) ops with
      | Ok ((s', p'), rs) => Inv s' /\ ptrace lt dd p (abs s) ops rs p' (abs s')
      | UB => exists pre o post s' p' rs,
                ops = pre ++ o :: post /\ needs_nonempty o = true /\
                run step (s, p) pre = Ok ((s', p'), rs) /\ abs s' = [] /\ ptrace lt dd p (abs s) pre rs p' []
      | Throw _ => False
      | NoFuel => False
      end.
    Proof.
      induction ops as [|o ops IH]; intros s p HI Hapi; simpl run.
      - split; auto; constructor.
      - simpl in Hapi; apply andb_true_iff in Hapi as [Ho Hops].
        specialize (Hstep s p o HI Ho).
        destruct (step (s, p) o) as [[[s1 p1] r]| | |] eqn:Hs; simpl; auto.
        + destruct Hstep as [HI1 Hss]. specialize (IH s1 p1 HI1 Hops).
          destruct (run step (s1, p1) ops) as [[[s2 p2] rs]| | |] eqn:Hr; simpl; auto.
          * destruct IH as [HI2 Ht]; split; auto. econstructor; eauto.
          * destruct IH as (pre & o' & post & s' & p' & rs & -> & Hn & Hrun & Habs & Ht).
            exists (o :: pre), o', post, s', p', (r :: rs). repeat split; auto.
            -- simpl run. rewrite Hs; simpl. rewrite Hrun; reflexivity.
            -- econstructor; eauto.
        + destruct Hstep as [Habs Hn]. exists [], o, ops, s, p, []. repeat split; auto.
          rewrite Habs; constructor.
    Qed.

    Lemma spq_correct_lift init : Inv init -> abs init = [] -> spq_correct lt dd step init abs api.
    Proof.
      intros HI Ha p ops Hapi. pose proof (slift_gen ops init p HI Hapi) as H.
      rewrite Ha in H. destruct (run step (init, p) ops) as [[[s p'] rs]| | |]; auto. apply H.
    Qed.
  End Lift.
End Facts.
