(** Facts about the specification of divisor finders. *)
From Coq Require Import List Permutation Arith Bool ZArith Lia.
From Verif.Base Require Import Res.
From Verif.Spec Require Import Reach DivFinder.
Import ListNotations.

Section Facts.
  Context {M : Type}.
  Variable divides : M -> M -> bool.
  Variable same : M -> M -> bool.

  (** A step-wise invariant argument. *)
  Lemma df_steps_by_inv {St : Type} (step : St -> dop M -> res (St * dout M)) (init : res St) (abs : St -> list M)
    (pre : list M -> dop M -> bool) (inv : St -> Prop) s0 :
    init = Ok s0 -> inv s0 -> abs s0 = [] ->
    (forall s o, inv s -> pre (abs s) o = true -> exists s' r, step s o = Ok (s', r) /\ inv s' /\ dstep divides same (abs s) o r (abs s')) ->
    df_steps divides same step init abs pre.
  Proof.
    intros Hi Hinv Habs Hstep. exists s0. split; auto. split; auto. intros ops s rs Hr o Hp.
    assert (Hs : inv s).
    { apply (reached_inv step _ s0 inv Hinv) in Hr; auto. intros s1 o1 s2 r H1 H2 H3.
      destruct (Hstep s1 o1 H1 H2) as (s3 & r3 & H4 & H5 & _). congruence. }
    destruct (Hstep s o Hs Hp) as (s' & r & H1 & _ & H2). eauto.
  Qed.
  Lemma df_steps_correct {St : Type} (step : St -> dop M -> res (St * dout M)) (init : res St) (abs : St -> list M) (pre : list M -> dop M -> bool) :
    df_steps divides same step init abs pre -> df_correct divides same step init abs pre.
  Proof.
    intros (s0 & Hi & Habs & Hs). exists s0. split; auto. intros ops. rewrite <- Habs. clear Habs Hi.
    assert (H : forall ops s ops0 rs0, reached step (fun s o => pre (abs s) o = true) s0 ops0 s rs0 ->
      (exists s1 rs, run step s ops = Ok (s1, rs) /\ dtrace divides same (abs s) ops rs (abs s1)) \/
      (exists ops1 o ops2 s1 rs, ops = ops1 ++ o :: ops2 /\ run step s ops1 = Ok (s1, rs) /\ dtrace divides same (abs s) ops1 rs (abs s1) /\ pre (abs s1) o = false)).
    { clear ops. induction ops as [|o ops IH]; intros s ops0 rs0 Hr.
      - left. exists s, []. split; auto. constructor.
      - destruct (pre (abs s) o) eqn:Hp.
        + destruct (Hs ops0 s rs0 Hr o Hp) as (s1 & r & H1 & H3).
          destruct (IH s1 (ops0 ++ [o]) (rs0 ++ [r])) as [(s2 & rs & H4 & H5)|(ops1 & o' & ops2 & s2 & rs & -> & H4 & H5 & H6)]; [econstructor; eauto| |].
          * left. exists s2, (r :: rs). cbn [run]. rewrite H1. cbn [bind]. rewrite H4. cbn [bind]. split; auto. econstructor; eauto.
          * right. exists (o :: ops1), o', ops2, s2, (r :: rs). cbn [run app]. rewrite H1. cbn [bind]. rewrite H4. cbn [bind].
            repeat split; auto. econstructor; eauto.
        + right. exists [], o, ops, s, []. repeat split; auto. constructor. }
    apply (H ops s0 [] []). constructor.
  Qed.
  Lemma df_correct_by_steps {St : Type} (step : St -> dop M -> res (St * dout M)) (init : res St) (abs : St -> list M)
    (pre : list M -> dop M -> bool) (inv : St -> Prop) s0 :
    init = Ok s0 -> inv s0 -> abs s0 = [] ->
    (forall s o, inv s -> pre (abs s) o = true -> exists s' r, step s o = Ok (s', r) /\ inv s' /\ dstep divides same (abs s) o r (abs s')) ->
    df_correct divides same step init abs pre.
  Proof. intros. apply df_steps_correct. eapply df_steps_by_inv; eauto. Qed.

  (** Under preconditions that depend on the call only, a history of good calls runs to its end. *)
  Lemma df_correct_total {St : Type} (step : St -> dop M -> res (St * dout M)) init (abs : St -> list M) (pre : list M -> dop M -> bool) ops :
    df_correct divides same step init abs pre -> (forall o l, In o ops -> pre l o = true) ->
    exists s0 s rs, init = Ok s0 /\ run step s0 ops = Ok (s, rs) /\ dtrace divides same [] ops rs (abs s).
  Proof.
    intros (s0 & Hi & H) Hp. destruct (H ops) as [(s & rs & H1 & H2)|(ops1 & o & ops2 & s & rs & -> & _ & _ & H1)].
    - eauto 10.
    - rewrite Hp in H1; [discriminate|]. apply in_or_app. right. now left.
  Qed.

  Lemma reported_intro (cb : callback M) all xs rest :
    Permutation (xs ++ rest) all -> (forall p q, xs = p ++ q -> p <> [] -> q <> [] -> cb p = true) ->
    (rest <> [] -> xs <> [] /\ cb xs = false) -> reported cb all xs.
  Proof. intros H1 H2 H3. exists rest. auto. Qed.
  Lemma reported_perm (cb : callback M) all all' xs : Permutation all all' -> reported cb all xs -> reported cb all' xs.
  Proof. intros Hp (rest & H1 & H2 & H3). exists rest. split; auto. now rewrite H1. Qed.

  (** A callback that never declines is told everything. *)
  Lemma reported_all (cb : callback M) all xs : (forall p, cb p = true) -> reported cb all xs -> Permutation xs all.
  Proof.
    intros Hc (rest & H1 & _ & H3). destruct rest as [|x rest]; [now rewrite app_nil_r in H1|].
    destruct H3 as [_ H3]; [discriminate|]. rewrite Hc in H3. discriminate.
  Qed.

  Lemma is_divisor_perm m l l' r : Permutation l l' -> is_divisor divides m l r -> is_divisor divides m l' r.
  Proof.
    intros Hp H. destruct r as [e|]; cbn [is_divisor] in *.
    - destruct H as [H1 H2]. split; auto. now apply (Permutation_in _ Hp).
    - intros e He. apply H. now apply (Permutation_in _ (Permutation_sym Hp)).
  Qed.
End Facts.

Lemma filter_perm {A} (f : A -> bool) l l' : Permutation l l' -> Permutation (filter f l) (filter f l').
Proof.
  induction 1 as [|x l l' Hp IH|x y l|l1 l2 l3 H1 IH1 H2 IH2]; cbn [filter]; auto.
  - destruct (f x); auto.
  - destruct (f x), (f y); auto. constructor.
  - now rewrite IH1.
Qed.
Lemma filter_length_perm {A} (f : A -> bool) l l' : Permutation l l' -> length (filter f l) = length (filter f l').
Proof. intros H. apply Permutation_length, filter_perm, H. Qed.
Lemma filter_all {A} (f : A -> bool) l : (forall x, In x l -> f x = true) -> filter f l = l.
Proof. induction l as [|a l IH]; intros H; cbn [filter]; auto. rewrite (H a) by now left. now rewrite IH by (intros x Hx; apply H; now right). Qed.
Lemma filter_none {A} (f : A -> bool) l : (forall x, In x l -> f x = false) -> filter f l = [].
Proof. induction l as [|a l IH]; intros H; cbn [filter]; auto. rewrite (H a) by now left. apply IH. intros x Hx. apply H. now right. Qed.
Lemma filter_split {A} (f : A -> bool) l : Permutation (filter f l ++ filter (fun x => negb (f x)) l) l.
Proof.
  induction l as [|a l IH]; cbn [filter]; auto. destruct (f a); cbn [negb app]; auto. rewrite <- Permutation_middle. auto.
Qed.
