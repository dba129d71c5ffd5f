(** Any two correct priority queues agree. *)
From Coq Require Import List Arith Bool Lia Permutation.
From Verif.Base Require Import Res Arr Order.
From Verif.Spec Require Import PQ PQFacts Agree.
Import ListNotations.

Section Facts.
  Context {E : Type}.
  Variable lt : E -> E -> bool.
  Hypothesis Hsw : strict_weak lt.

  Lemma occ_perm a l l' : Permutation l l' -> occurrences lt a l = occurrences lt a l'.
  Proof.
    intros H. unfold occurrences. induction H as [|x l l' Hp IH|x y l|l l1 l2 H1 IH1 H2 IH2]; simpl; auto.
    - destruct (negb (lt a x) && negb (lt x a)); simpl; auto.
    - destruct (negb (lt a x) && negb (lt x a)), (negb (lt a y) && negb (lt y a)); simpl; auto.
    - congruence.
  Qed.
  Lemma occ_app a l l' : occurrences lt a (l ++ l') = occurrences lt a l + occurrences lt a l'.
  Proof. unfold occurrences. now rewrite filter_app, app_length. Qed.
  Lemma occ_equiv a x y : equivalent lt x y -> occurrences lt a [x] = occurrences lt a [y].
  Proof.
    intros [Hxy Hyx]. unfold occurrences. simpl.
    assert (H1 : lt a x = lt a y).
    { destruct (lt a x) eqn:H, (lt a y) eqn:H'; auto; [rewrite (sw_neg_trans lt Hsw a y x H' Hyx) in H|rewrite (sw_neg_trans lt Hsw a x y H Hxy) in H'];
        discriminate. }
    assert (H2 : lt x a = lt y a).
    { destruct (lt x a) eqn:H, (lt y a) eqn:H'; auto; [rewrite (sw_neg_trans lt Hsw x y a Hxy H') in H|rewrite (sw_neg_trans lt Hsw y x a Hyx H) in H'];
        discriminate. }
    rewrite H1, H2. destruct (negb (lt a y) && negb (lt y a)); reflexivity.
  Qed.
  Lemma occ_cons a x l : occurrences lt a (x :: l) = occurrences lt a [x] + occurrences lt a l.
  Proof. apply (occ_app a [x] l). Qed.

  Lemma alike_refl l : alike lt l l.
  Proof. intros a. reflexivity. Qed.
  Lemma alike_sym l l' : alike lt l l' -> alike lt l' l.
  Proof. intros H a. now symmetry. Qed.
  Lemma alike_perm l l' : Permutation l l' -> alike lt l l'.
  Proof. intros H a. now apply occ_perm. Qed.
  Lemma alike_trans l1 l2 l3 : alike lt l1 l2 -> alike lt l2 l3 -> alike lt l1 l3.
  Proof. intros H1 H2 a. now rewrite H1. Qed.
  Lemma alike_app l l' m m' : alike lt l l' -> alike lt m m' -> alike lt (l ++ m) (l' ++ m').
  Proof. intros H1 H2 a. now rewrite !occ_app, H1, H2. Qed.
  Lemma alike_cons_inv x y l l' : equivalent lt x y -> alike lt (x :: l) (y :: l') -> alike lt l l'.
  Proof. intros He H a. specialize (H a). rewrite (occ_cons a x), (occ_cons a y), (occ_equiv a x y He) in H. lia. Qed.

  Lemma alike_in x l l' : alike lt l l' -> In x l -> exists y, In y l' /\ equivalent lt x y.
  Proof.
    intros H Hx. specialize (H x). unfold occurrences in H.
    destruct (filter (fun y => negb (lt x y) && negb (lt y x)) l') as [|y t] eqn:Hf.
    - exfalso. assert (Hin : In x (filter (fun y => negb (lt x y) && negb (lt y x)) l)).
      { apply filter_In. rewrite (sw_irrefl lt Hsw). auto. }
      destruct (filter _ l); [destruct Hin|discriminate].
    - assert (Hy : In y (y :: t)) by now left. rewrite <- Hf in Hy. apply filter_In in Hy as [Hy Hb].
      apply andb_true_iff in Hb as [Hb1 Hb2]. apply negb_true_iff in Hb1, Hb2. exists y. split; auto. split; auto.
  Qed.

  Lemma alike_nil l : alike lt [] l -> l = [].
  Proof.
    intros H. destruct l as [|x l]; auto. destruct (alike_in x (x :: l) [] (alike_sym _ _ H)) as (y & [] & _). now left.
  Qed.

  Lemma alike_split x l l' : alike lt (x :: l) l' -> exists y m, Permutation l' (y :: m) /\ equivalent lt x y /\ alike lt l m.
  Proof.
    intros H. destruct (alike_in x (x :: l) l' H) as (y & Hy & He); [now left|]. apply in_split in Hy as (l1 & l2 & ->).
    exists y, (l1 ++ l2). assert (Hp : Permutation (l1 ++ y :: l2) (y :: l1 ++ l2)) by (symmetry; apply Permutation_middle).
    split; auto. split; auto. apply (alike_cons_inv x y); auto. eapply alike_trans; eauto. now apply alike_perm.
  Qed.

  Lemma alike_length l : forall l', alike lt l l' -> length l = length l'.
  Proof.
    induction l as [|x l IH]; intros l' H.
    - now rewrite (alike_nil l' H).
    - destruct (alike_split _ _ _ H) as (y & m & Hp & _ & Hm). rewrite (Permutation_length Hp). simpl. f_equal. auto.
  Qed.

  Lemma alike_total : (forall a b, equivalent lt a b -> a = b) -> forall l l', alike lt l l' -> Permutation l l'.
  Proof.
    intros Ht. induction l as [|x l IH]; intros l' H.
    - now rewrite (alike_nil l' H).
    - destruct (alike_split _ _ _ H) as (y & m & Hp & He & Hm). rewrite Hp, <- (Ht _ _ He). constructor. auto.
  Qed.

  Lemma alike_max x y l l' : alike lt l l' -> is_max lt x l -> is_max lt y l' -> equivalent lt x y.
  Proof.
    intros H [Hx Hxm] [Hy Hym]. destruct (alike_in _ _ _ H Hx) as (z & Hz & Hxz & Hzx).
    destruct (alike_in _ _ _ (alike_sym _ _ H) Hy) as (v & Hv & Hyv & Hvy). split.
    - eapply (sw_neg_trans lt Hsw); [apply (Hxm v Hv)|exact Hvy].
    - eapply (sw_neg_trans lt Hsw); [apply (Hym z Hz)|exact Hzx].
  Qed.

  (** ** The specification is deterministic up to equivalence *)
  Lemma sstep_alike l l' o r r' m m' : alike lt l l' -> sstep lt no_dd l o r m -> sstep lt no_dd l' o r' m' ->
    answers_alike lt r r' /\ alike lt m m'.
  Proof.
    intros Ha H1 H2. destruct o as [x|xs| | |x| | | |]; inversion H1; inversion H2; subst; cbn [answers_alike];
      repeat match goal with H : merges no_dd _ _ |- _ => apply merges_no_dd in H end.
    - split; auto. eapply alike_trans; [apply alike_perm; symmetry; eassumption|]. eapply alike_trans; [|apply alike_perm; eassumption].
      now apply (alike_app [x] [x]); [apply alike_refl|].
    - split; auto. eapply alike_trans; [apply alike_perm; symmetry; eassumption|]. eapply alike_trans; [|apply alike_perm; eassumption].
      apply alike_app; [apply alike_refl|auto].
    - match goal with P : Permutation l (?x :: ?k), Q : Permutation l' (?y :: ?k') |- _ =>
        assert (Hxk : alike lt (x :: k) (y :: k')) by
          (eapply alike_trans; [apply alike_perm; symmetry; exact P|]; eapply alike_trans; [exact Ha|apply alike_perm; exact Q]);
        assert (He : equivalent lt x y) by (eapply alike_max; eauto) end.
      split; [exact He|]. eapply alike_trans; [apply alike_perm; symmetry; eassumption|]. eapply alike_trans; [|apply alike_perm; eassumption].
      eapply alike_cons_inv; eauto.
    - assert (Hm : alike lt m m').
      { eapply alike_trans; [apply alike_perm; symmetry; eassumption|]. eapply alike_trans; [exact Ha|apply alike_perm; eassumption]. }
      split; auto. eapply alike_max; eauto.
    - match goal with P : Permutation l (?y :: ?k), Q : Permutation l' (?z :: ?k') |- _ =>
        assert (Hxk : alike lt (y :: k) (z :: k')) by
          (eapply alike_trans; [apply alike_perm; symmetry; exact P|]; eapply alike_trans; [exact Ha|apply alike_perm; exact Q]);
        assert (He : equivalent lt y z) by (eapply alike_max; eauto) end.
      split; auto. eapply alike_trans; [apply alike_perm; symmetry; eassumption|]. eapply alike_trans; [|apply alike_perm; eassumption].
      apply (alike_app [x] [x]); [apply alike_refl|]. eapply alike_cons_inv; eauto.
    - split; auto. apply alike_refl.
    - split; [now apply alike_length|]. eapply alike_trans; [apply alike_perm; symmetry; eassumption|]. eapply alike_trans; [exact Ha|apply alike_perm; eassumption].
    - split.
      + pose proof (alike_length _ _ Ha) as Hl. destruct l, l'; simpl in Hl; auto; discriminate.
      + eapply alike_trans; [apply alike_perm; symmetry; eassumption|]. eapply alike_trans; [exact Ha|apply alike_perm; eassumption].
    - split; [eapply alike_trans; [apply alike_perm; eassumption|]; eapply alike_trans; [exact Ha|apply alike_perm; symmetry; eassumption]|].
      eapply alike_trans; [apply alike_perm; symmetry; eassumption|]. eapply alike_trans; [exact Ha|apply alike_perm; eassumption].
  Qed.

  Lemma trace_alike l ops rs m : trace lt no_dd l ops rs m -> forall l' rs' m', alike lt l l' -> trace lt no_dd l' ops rs' m' ->
    Forall2 (answers_alike lt) rs rs' /\ alike lt m m'.
  Proof.
    intros T. induction T as [l|l o r l1 ops rs l2 Hs T IH]; intros l' rs' m' Ha T'; inversion T' as [|? ? r' l1' ? rs1 ? Hs' T1]; subst; auto.
    destruct (sstep_alike _ _ _ _ _ _ _ Ha Hs Hs') as [Hr Hl]. destruct (IH _ _ _ Hl T1). split; auto.
  Qed.

  Lemma trace_app_inv dd ops1 : forall ops2 l rs m, trace lt dd l (ops1 ++ ops2) rs m ->
    exists rs1 rs2 l1, rs = rs1 ++ rs2 /\ trace lt dd l ops1 rs1 l1 /\ trace lt dd l1 ops2 rs2 m.
  Proof.
    induction ops1 as [|o ops1 IH]; intros ops2 l rs m H; simpl in H.
    - exists [], rs, l. split; auto. split; auto. constructor.
    - inversion H as [|? ? r l1 ? rs1 ? Hs Ht]; subst. destruct (IH _ _ _ _ Ht) as (r1 & r2 & l2 & -> & H1 & H2).
      exists (r :: r1), r2, l2. split; auto. split; auto. econstructor; eauto.
  Qed.

  Lemma merges_nil_cons (x : E) m : ~ merges no_dd [] (x :: m).
  Proof. intros H. apply merges_no_dd in H. apply Permutation_nil in H. discriminate. Qed.
  Lemma sstep_nil o r m : needs_nonempty o = true -> ~ sstep lt no_dd [] o r m.
  Proof.
    intros Hn H. destruct o; try discriminate; inversion H; subst; try (eapply merges_nil_cons; eassumption).
    match goal with M : is_max _ _ _, P : merges _ _ _ |- _ => destruct M as [Hin _]; apply merges_no_dd in P; apply Permutation_nil in P; subst; destruct Hin end.
  Qed.
  (** A history that some run leaves with an empty queue cannot be continued with such a call. *)
  Lemma trace_stuck pre rs o post rs' m : trace lt no_dd [] pre rs [] -> needs_nonempty o = true ->
    ~ trace lt no_dd [] (pre ++ o :: post) rs' m.
  Proof.
    intros T Hn T'. apply trace_app_inv in T' as (r1 & r2 & l1 & _ & T1 & T2).
    destruct (trace_alike _ _ _ _ T _ _ _ (alike_refl []) T1) as [_ Hl]. apply alike_nil in Hl. subst l1.
    inversion T2 as [|? ? ? ? ? ? ? Hs _]; subst. eapply sstep_nil; eauto.
  Qed.

  Lemma split_cases {A} (p1 : list A) : forall o1 q1 p2 o2 q2, p1 ++ o1 :: q1 = p2 ++ o2 :: q2 ->
    (p1 = p2 /\ o1 = o2 /\ q1 = q2) \/ (exists q, p2 = p1 ++ o1 :: q) \/ (exists q, p1 = p2 ++ o2 :: q).
  Proof.
    induction p1 as [|a p1 IH]; intros o1 q1 [|b p2] o2 q2 H; simpl in H.
    - injection H as -> ->. auto.
    - injection H as -> ->. right. left. now exists p2.
    - injection H as -> <-. right. right. now exists p1.
    - injection H as -> H. destruct (IH _ _ _ _ _ H) as [(-> & -> & ->)|[(q & ->)|(q & ->)]]; [left; auto|right; left; now exists q|right; right; now exists q].
  Qed.

  Lemma run_snoc {S} (step : S -> op E -> res (S * out E)) init pre s rs o post : run step init pre = Ok (s, rs) -> run step init (pre ++ o :: post) = UB ->
    step s o = UB \/ exists s' r, step s o = Ok (s', r) /\ run step s' post = UB.
  Proof.
    revert init s rs. induction pre as [|p pre IH]; intros init s rs Hr Hu; simpl in *.
    - injection Hr as -> _. destruct (step s o) as [[s' r]| | |] eqn:Hs; cbn [bind] in Hu; auto; try discriminate.
      right. exists s', r. split; auto. destruct (run step s' post) as [[? ?]| | |]; auto; discriminate.
    - destruct (step init p) as [[s1 r1]| | |]; cbn [bind] in *; try discriminate.
      destruct (run step s1 pre) as [[s2 rs2]| | |] eqn:H1; cbn [bind] in Hr; try discriminate. injection Hr as -> _.
      apply (IH s1 s rs2 H1). destruct (run step s1 (pre ++ o :: post)) as [[? ?]| | |]; auto; discriminate.
  Qed.

  Lemma run_prefix_ub {S} (step : S -> op E -> res (S * out E)) init pre s rs o : run step init pre = Ok (s, rs) -> step s o = UB ->
    run step init (pre ++ [o]) = UB.
  Proof.
    revert init s rs. induction pre as [|p pre IH]; intros init s rs Hr Hu; simpl in *.
    - injection Hr as -> _. now rewrite Hu.
    - destruct (step init p) as [[s1 r1]| | |]; cbn [bind] in *; try discriminate.
      destruct (run step s1 pre) as [[s2 rs2]| | |] eqn:H1; cbn [bind] in Hr; try discriminate. injection Hr as -> _.
      now rewrite (IH s1 s rs2 H1 Hu).
  Qed.

  (** On an empty queue such a call is undefined behaviour. *)
  Lemma pq_correct_stuck {S} (step : S -> op E -> res (S * out E)) init abs api pre o post s rs :
    pq_correct lt no_dd step init abs api -> forallb api (pre ++ o :: post) = true -> needs_nonempty o = true ->
    run step init pre = Ok (s, rs) -> trace lt no_dd [] pre rs [] -> step s o = UB.
  Proof.
    intros Hc Ha Hn Hr Ht. assert (Ha' : forallb api (pre ++ [o]) = true).
    { rewrite forallb_app in *. simpl in *. apply andb_true_iff in Ha as [-> Ha]. apply andb_true_iff in Ha as [-> _]. auto. }
    pose proof (Hc _ Ha') as H. destruct (run step init (pre ++ [o])) as [[s' rs']| | |] eqn:Hr'; try contradiction.
    - exfalso. eapply trace_stuck; eauto.
    - destruct (run_snoc step init pre s rs o [] Hr Hr') as [Hu|(s' & r & _ & Hu)]; auto. discriminate.
  Qed.

  Theorem correct_queues_agree {A B} (stepA : A -> op E -> res (A * out E)) initA absA apiA (stepB : B -> op E -> res (B * out E)) initB absB apiB :
    pq_correct lt no_dd stepA initA absA apiA -> pq_correct lt no_dd stepB initB absB apiB ->
    forall ops, forallb apiA ops = true -> forallb apiB ops = true -> agree (answers_alike lt) stepA initA stepB initB ops.
  Proof.
    intros HA HB ops Ha Hb. pose proof (HA ops Ha) as H1. pose proof (HB ops Hb) as H2. unfold agree.
    destruct (run stepA initA ops) as [[s rs]| | |] eqn:Hra; try contradiction; destruct (run stepB initB ops) as [[s' rs']| | |] eqn:Hrb; try contradiction.
    - eapply (trace_alike _ _ _ _ H1); eauto. apply alike_refl.
    - destruct H2 as (pre & o & post & s2 & rs2 & -> & Hn & _ & _ & Ht). eapply trace_stuck; eauto.
    - destruct H1 as (pre & o & post & s2 & rs2 & -> & Hn & _ & _ & Ht). eapply trace_stuck; eauto.
    - destruct H1 as (pre & o & post & s1 & rs1 & Hops & Hn & Hr1 & _ & Ht1). destruct H2 as (pre2 & o2 & post2 & s2 & rs2 & Hops2 & Hn2 & Hr2 & _ & Ht2).
      rewrite Hops in Hops2. destruct (split_cases _ _ _ _ _ _ Hops2) as [(<- & <- & <-)|[(q & ->)|(q & ->)]].
      + exists pre, o, post. split; auto. split; auto. exists s1, rs1, s2, rs2. split; auto. split; auto. subst ops.
        split; [eapply (trace_alike _ _ _ _ Ht1); eauto; apply alike_refl|]. split; eapply pq_correct_stuck; eauto.
      + exfalso. exact (trace_stuck pre rs1 o q _ _ Ht1 Hn Ht2).
      + exfalso. exact (trace_stuck pre2 rs2 o2 q _ _ Ht2 Hn2 Ht1).
  Qed.

  Lemma alike_same : (forall a b, equivalent lt a b -> a = b) -> forall r r', answers_alike lt r r' -> answers_same r r'.
  Proof.
    intros Ht r r' H. destruct r as [|x|n|b|l], r' as [|y|n'|b'|l']; simpl in *; try contradiction; subst; auto.
    - f_equal. now apply Ht.
    - now apply alike_total.
  Qed.

  Lemma agree_mono (R R' : out E -> out E -> Prop) {A B} (stepA : A -> op E -> res (A * out E)) initA (stepB : B -> op E -> res (B * out E)) initB ops :
    (forall r r', R r r' -> R' r r') -> agree R stepA initA stepB initB ops -> agree R' stepA initA stepB initB ops.
  Proof.
    intros HR. assert (HF : forall rs rs', Forall2 R rs rs' -> Forall2 R' rs rs') by (intros rs rs' H; induction H; auto).
    unfold agree. destruct (run stepA initA ops) as [[s rs]| | |]; auto; destruct (run stepB initB ops) as [[s' rs']| | |]; auto.
    intros (pre & o & post & H1 & H2 & s & rs & s' & rs' & H3 & H4 & H5 & H6 & H7).
    exists pre, o, post. split; auto. split; auto. exists s, rs, s', rs'. auto 10.
  Qed.
End Facts.
