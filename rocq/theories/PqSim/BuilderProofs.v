(** The builder makes simulations that every good queue passes. *)
From Coq Require Import List Arith NArith Bool Permutation Lia.
From Verif.Base Require Import Res Order.
From Verif.Spec Require Import PQ.
From Verif.PqSim Require Import Model Calls SubjectProofs.
Import ListNotations.
Local Open Scope N_scope.
Local Notation length := List.length.

(** * Runs *)
Definition same_set (l l' : list N) : Prop := forall z, In z l <-> In z l'.
Definition without (v : N) (l : list N) : list N := filter (fun z => negb (z =? v)) l.

(** The events in order lead from the set [live] to the set [live'], and each pop expects the largest value. *)
Inductive evs_ok (mem : list N) : list event -> list N -> list N -> Prop :=
| ev_nil live live' : same_set live live' -> evs_ok mem [] live live'
| ev_push e evs l live live' : e_size e <> 0 -> span mem (e_begin e) (e_size e) = Ok l -> non_increasing N.ltb l = true ->
    evs_ok mem evs (l ++ live) live' -> evs_ok mem (e :: evs) live live'
| ev_pop e v evs live live' : e_size e = 0 -> e_pop e = Some v -> In v live -> (forall z, In z live -> z <= v) ->
    evs_ok mem evs (without v live) live' -> evs_ok mem (e :: evs) live live'.

Definition sizes (evs : list event) : nat := list_sum (map (fun e => N.to_nat (e_size e)) evs).

Lemma same_refl l : same_set l l. Proof. intros z; tauto. Qed.
Lemma same_trans a b c : same_set a b -> same_set b c -> same_set a c. Proof. intros H1 H2 z. now rewrite (H1 z). Qed.
Lemma same_without v l l' : same_set l l' -> same_set (without v l) (without v l').
Proof. intros H z. unfold without. rewrite !filter_ne. now rewrite (H z). Qed.
Lemma same_app a l l' : same_set l l' -> same_set (a ++ l) (a ++ l').
Proof. intros H z. rewrite !in_app_iff. now rewrite (H z). Qed.

Lemma evs_same mem evs a b c d : evs_ok mem evs a b -> same_set a c -> same_set b d -> evs_ok mem evs c d.
Proof.
  intros H. revert c d. induction H as [live live' Hs|e evs l live live' H1 H2 H3 H4 IH|e v evs live live' H1 H2 H3 H4 H5 IH]; intros c d Hc Hd.
  - constructor. intros z. rewrite <- (Hc z), <- (Hd z). auto.
  - eapply ev_push; eauto. apply IH; auto. now apply same_app.
  - eapply ev_pop; eauto; [now apply Hc|intros z Hz; now apply H4, Hc|]. apply IH; auto. now apply same_without.
Qed.

Lemma evs_app mem e1 e2 a b c : evs_ok mem e1 a b -> evs_ok mem e2 b c -> evs_ok mem (e1 ++ e2) a c.
Proof.
  induction 1 as [live live' Hs|e evs l live live' H1 H2 H3 H4 IH|e v evs live live' H1 H2 H3 H4 H5 IH]; intros H; simpl.
  - eapply evs_same; eauto; [|apply same_refl]. intros z. symmetry. apply Hs.
  - eapply ev_push; eauto.
  - eapply ev_pop; eauto.
Qed.

Lemma span_app mem more b size l : span mem b size = Ok l -> span (mem ++ more) b size = Ok l.
Proof.
  unfold span. rewrite app_length. destruct (N.leb_spec (b + size) (N.of_nat (length mem))); [|discriminate].
  destruct (N.leb_spec (b + size) (N.of_nat (length mem + length more))); [|lia]. intros H1. injection H1 as <-. f_equal.
  rewrite skipn_app, firstn_app, skipn_length. replace (N.to_nat size - (length mem - N.to_nat b))%nat with 0%nat by lia. now rewrite app_nil_r.
Qed.

Lemma evs_mem mem more evs a b : evs_ok mem evs a b -> evs_ok (mem ++ more) evs a b.
Proof.
  induction 1 as [live live' Hs|e evs l live live' H1 H2 H3 H4 IH|e v evs live live' H1 H2 H3 H4 H5 IH].
  - now constructor.
  - eapply ev_push; eauto. now apply span_app.
  - eapply ev_pop; eauto.
Qed.

Lemma span_length mem b size l : span mem b size = Ok l -> length l = N.to_nat size.
Proof.
  unfold span. destruct (N.leb_spec (b + size) (N.of_nat (length mem))); [|discriminate]. intros H1. injection H1 as <-.
  rewrite firstn_length, skipn_length. lia.
Qed.

Section Run.
  Variable m : subject.
  Variable R : m_state m -> list N -> nat -> Prop.
  Hypothesis Hpush : forall s live n xs, R s live n -> xs <> [] -> non_increasing N.ltb xs = true ->
    exists s', m_push m s xs = Ok s' /\ R s' (xs ++ live) (length xs + n)%nat.
  Hypothesis Hpop : forall s live n fuel, R s live n -> live <> [] -> (2 * n <= fuel)%nat ->
    exists s' v, m_pop m fuel s = Ok (s', v) /\ In v live /\ (forall z, In z live -> z <= v) /\
      R s' (filter (fun z => negb (z =? v)) live) n.
  Hypothesis Hsame : forall s live live' n, R s live n -> (forall z, In z live <-> In z live') -> R s live' n.
  Hypothesis Hreset : forall s n, R s [] n -> R s [] 0%nat.

  Lemma run_turn_ok fuel mem evs live live' : evs_ok mem evs live live' ->
    forall s n, R s live n -> (2 * (n + sizes evs) <= fuel)%nat ->
    exists s', run_turn m fuel mem evs s = Ok (Some s') /\ R s' live' (n + sizes evs)%nat.
  Proof.
    induction 1 as [live live' Hs|e evs l live live' H1 H2 H3 H4 IH|e v evs live live' H1 H2 H3 H4 H5 IH]; intros s n HR Hf; simpl.
    - exists s. split; auto. unfold sizes; simpl. rewrite Nat.add_0_r. eapply Hsame; eauto.
    - destruct (N.eqb_spec (e_size e) 0); [congruence|]. rewrite H2. cbn [bind]. pose proof (span_length _ _ _ _ H2) as Hl.
      assert (Hne : l <> []) by (intros ->; simpl in Hl; lia).
      destruct (Hpush s live n l HR Hne H3) as (s1 & -> & HR1). cbn [bind].
      unfold sizes in *; simpl in *. destruct (IH s1 (length l + n)%nat HR1) as (s' & Hr & HR'); [lia|].
      exists s'. split; auto. replace (n + (N.to_nat (e_size e) + list_sum (map (fun e0 : event => N.to_nat (e_size e0)) evs)))%nat with
        (length l + n + list_sum (map (fun e0 : event => N.to_nat (e_size e0)) evs))%nat by lia. auto.
    - rewrite H1. simpl. assert (Hne : live <> []) by (intros ->; destruct H3).
      unfold sizes in *; simpl in *. rewrite H1 in *. simpl in *.
      destruct (Hpop s live n fuel HR Hne) as (s1 & w & -> & Hin & Hmax & HR1); [lia|]. cbn [bind]. rewrite H2. cbn [of_option bind].
      assert (w = v) by (specialize (Hmax v H3); specialize (H4 w Hin); lia). subst w. rewrite N.eqb_refl. apply IH; auto.
  Qed.

  Lemma run_turns_ok fuel mem evs : evs_ok mem evs [] [] -> (2 * sizes evs <= fuel)%nat ->
    forall turns s, R s [] 0%nat -> run_turns m fuel mem evs turns s = Ok true.
  Proof.
    intros He Hf. induction turns as [|k IH]; intros s HR; simpl; auto.
    destruct (run_turn_ok fuel mem evs [] [] He s 0%nat HR) as (s' & -> & HR'); [lia|]. cbn [bind]. apply IH. eapply Hreset; eauto.
  Qed.
End Run.

Lemma simulate_ok m fuel mem evs live : subject_ok m -> evs_ok mem evs [] live -> (2 * sizes evs <= fuel)%nat ->
  forall repeats, live = [] \/ (repeats <= 1)%nat -> simulate m fuel mem evs repeats = Ok true.
Proof.
  intros (R & Hnew & Hpush & Hpop & Hsame & Hreset) He Hf repeats [->|Hr].
  - unfold simulate. eapply run_turns_ok with (R := R); eauto.
  - unfold simulate. destruct repeats as [|[|k]]; [reflexivity| |lia]. simpl.
    destruct (run_turn_ok m R Hpush Hpop Hsame Hreset fuel mem evs [] live He (m_new m) 0%nat Hnew) as (s' & -> & _); [lia|]. reflexivity.
Qed.

(** * The builder *)
Fixpoint ascends (l : list N) : Prop := match l with [] => True | x :: l' => (forall y, In y l' -> x <= y) /\ ascends l' end.

Lemma insert_up_perm v l : Permutation (insert_up v l) (v :: l).
Proof. induction l as [|x l IH]; simpl; auto. destruct (v <? x); auto. rewrite IH. apply perm_swap. Qed.
Lemma insert_up_ascends v l : ascends l -> ascends (insert_up v l).
Proof.
  induction l as [|x l IH]; simpl; [intros _; split; [intros y []|auto]|]. intros [H1 H2]. destruct (N.ltb_spec v x); simpl.
  - split; [|split; auto]. intros y [->|Hy]; [lia|]. specialize (H1 y Hy). lia.
  - split; auto. intros y Hy. apply (Permutation_in _ (insert_up_perm v l)) in Hy as [->|Hy]; auto.
Qed.
Lemma insert_down_perm v l : Permutation (insert_down v l) (v :: l).
Proof. induction l as [|x l IH]; simpl; auto. destruct (x <=? v); auto. rewrite IH. apply perm_swap. Qed.
Lemma insert_down_desc v l : non_increasing N.ltb l = true -> non_increasing N.ltb (insert_down v l) = true.
Proof.
  induction l as [|x l IH]; [reflexivity|]. intros H. cbn [insert_down]. destruct (N.leb_spec x v).
  - cbn [non_increasing] in *. rewrite H. destruct (N.ltb_spec x v) as [|]; simpl; auto. 
    all: destruct (N.ltb_spec v x); simpl; auto; lia.
  - destruct l as [|y l].
    + cbn. destruct (N.ltb_spec x v); simpl; auto; lia.
    + assert (H2 : non_increasing N.ltb (y :: l) = true) by (cbn [non_increasing] in H; apply andb_true_iff in H as [_ H]; exact H).
      assert (H1 : x <? y = false) by (cbn [non_increasing] in H; apply andb_true_iff in H as [H _]; now apply negb_true_iff in H).
      specialize (IH H2). cbn [insert_down] in *. destruct (y <=? v).
      * cbn [non_increasing] in *. rewrite IH. destruct (N.ltb_spec x v); simpl; auto; lia.
      * cbn [non_increasing] in *. rewrite IH, H1. auto.
Qed.
Lemma sort_down_perm l : Permutation (sort_down l) l.
Proof. induction l as [|x l IH]; simpl; auto. rewrite insert_down_perm. now constructor. Qed.
Lemma sort_down_desc l : non_increasing N.ltb (sort_down l) = true.
Proof. induction l as [|x l IH]; [reflexivity|]. simpl. now apply insert_down_desc. Qed.

(** What addToPush does to the parts *)
Lemma added l : forall b, let b' := fold_left b_addToPush l b in
  b_popDuplicates b' = b_popDuplicates b /\ b_mem b' = b_mem b ++ l /\ b_events b' = b_events b /\
  Permutation (b_queue b') (l ++ b_queue b) /\ (ascends (b_queue b) -> ascends (b_queue b')) /\
  b_pushCount b' = b_pushCount b /\ b_pushSum b' = b_pushSum b /\ b_popCount b' = b_popCount b.
Proof.
  induction l as [|v l IH]; intros b; cbn [fold_left]; cbv zeta in *.
  - rewrite app_nil_r. repeat split; auto.
  - destruct (IH (b_addToPush b v)) as (H1 & H2 & H3 & H4 & H5 & H6 & H7 & H8). rewrite H1, H2, H3, H6, H7, H8. cbn.
    repeat split; auto.
    + now rewrite <- app_assoc.
    + rewrite H4. cbn. rewrite insert_up_perm. symmetry. apply Permutation_middle.
    + intros H. apply H5. cbn. now apply insert_up_ascends.
Qed.

(** ** The invariant between calls *)
Record BI (b : builder) : Prop := {
  bi_dup : b_popDuplicates b = true;
  bi_asc : ascends (b_queue b);
  bi_evs : evs_ok (b_mem b) (b_events b) [] (b_queue b);
  bi_size : sizes (b_events b) = length (b_mem b);
  bi_sum : b_pushSum b = N.of_nat (length (b_mem b));
  bi_count : b_pushCount b <> 0 \/ b_mem b = []
}.

Lemma bi_new : BI (b_new true).
Proof. split; simpl; auto. constructor. apply same_refl. Qed.

Lemma sizes_app a b : sizes (a ++ b) = (sizes a + sizes b)%nat.
Proof. unfold sizes. rewrite map_app. induction (map (fun e => N.to_nat (e_size e)) a); simpl; lia. Qed.

Lemma bi_push b l : BI b -> l <> [] -> exists b', b_endPush (fold_left b_addToPush l (b_beginPush b)) = Ok b' /\ BI b' /\
  b_mem b' = b_mem b ++ sort_down l /\ b_pushCount b' = b_pushCount b + 1 /\ b_queue b' <> [] /\ b_popCount b' = b_popCount b.
Proof.
  intros [Hd Ha He Hs Hm Hc] Hne. unfold b_endPush. destruct (added l (b_beginPush b)) as (H1 & H2 & H3 & H4 & H5 & H6 & H7 & H8).
  rewrite H3. cbn [b_beginPush b_events]. rewrite rev_app_distr. cbn [rev app]. cbn [e_begin e_pop].
  eexists. split; [reflexivity|]. cbn [b_mem b_pushCount b_queue b_popCount]. rewrite H1, H2, H6, H7, H8. cbn [b_beginPush b_mem b_popDuplicates b_pushCount b_pushSum b_popCount].
  rewrite Nnat.Nat2N.id, skipn_app, skipn_all, Nat.sub_diag, firstn_app, firstn_all, Nat.sub_diag. cbn [skipn firstn app]. rewrite app_nil_r.
  rewrite app_length. replace (N.of_nat (length (b_mem b) + length l) - N.of_nat (length (b_mem b))) with (N.of_nat (length l)) by lia.
  pose proof (sort_down_perm l) as Hp. pose proof (Permutation_length Hp) as Hpl.
  assert (Hl0 : length l <> 0%nat) by (destruct l; simpl; [congruence|lia]).
  split; [|split; [auto|split; [auto|split]]].
  - split; cbn [b_popDuplicates b_queue b_mem b_events b_pushSum b_pushCount].
    + exact Hd.
    + apply H5. exact Ha.
    + cbn [rev]. rewrite rev_involutive. eapply evs_app; [apply evs_mem; exact He|]. eapply ev_push with (l := sort_down l); cbn [e_size e_begin].
      * lia.
      * unfold span. rewrite app_length, Hpl. destruct (N.leb_spec (N.of_nat (length (b_mem b)) + N.of_nat (length l)) (N.of_nat (length (b_mem b) + length l))); [|lia].
        rewrite !Nnat.Nat2N.id, skipn_app, skipn_all, Nat.sub_diag. cbn [app skipn]. f_equal. rewrite <- Hpl. apply firstn_all.
      * apply sort_down_desc.
      * constructor. intros z. split; intros Hz.
        -- eapply Permutation_in; [symmetry; exact H4|]. cbn. apply in_app_iff in Hz as [Hz|Hz]; apply in_or_app; auto. left. eapply Permutation_in; eauto.
        -- eapply Permutation_in in Hz; [|exact H4]. cbn in Hz. apply in_app_iff in Hz as [Hz|Hz]; apply in_or_app; auto. left. eapply Permutation_in; [symmetry; exact Hp|auto].
    + cbn [rev]. rewrite rev_involutive, sizes_app, Hs, app_length, Hpl. unfold sizes. simpl. lia.
    + rewrite app_length, Hpl, Hm. lia.
    + left. lia.
  - intros H. rewrite H in H4. apply Permutation_nil in H4. cbn in H4. destruct l; [congruence|discriminate].
  - reflexivity.
Qed.

Lemma drop_top_filter top : forall r x, (forall z, In z r -> z <= top) -> non_increasing N.ltb r = true -> drop_top true top (x :: r) = without top r.
Proof.
  induction r as [|y r IH]; intros x Hle Hd; [reflexivity|].
  change (drop_top true top (x :: y :: r)) with (if true && (y =? top) then drop_top true top (y :: r) else y :: r). destruct (N.eqb_spec y top) as [->|Hne]; cbn [andb].
  - assert (Hr : non_increasing N.ltb r = true) by (cbn [non_increasing] in Hd; apply andb_true_iff in Hd as [_ Hd]; exact Hd).
    rewrite (IH top); auto; [|intros z Hz; apply Hle; now right]. unfold without. cbn [filter]. now rewrite N.eqb_refl.
  - symmetry. unfold without. assert (Hy : y < top) by (specialize (Hle y (or_introl eq_refl)); lia).
    assert (Hall : forall z, In z (y :: r) -> z < top).
    { intros z Hz. pose proof (desc_head y r Hd z Hz). lia. }
    clear - Hall. induction (y :: r) as [|z l IHl]; auto. cbn [filter]. destruct (N.eqb_spec z top); [specialize (Hall z (or_introl eq_refl)); lia|].
    cbn [negb]. f_equal. apply IHl. intros; apply Hall; now right.
Qed.

Lemma ascends_app_last l x : ascends (l ++ [x]) <-> ascends l /\ forall y, In y l -> y <= x.
Proof.
  induction l as [|a l IH]; simpl; [split; [intros _; split; auto; intros y []|intros _; split; auto; intros y []]|]. rewrite IH. split.
  - intros [H1 [H2 H3]]. repeat split; auto; [intros y Hy; apply H1, in_or_app; auto|]. intros y [<-|Hy]; auto. apply H1, in_or_app. right; now left.
  - intros [[H1 H2] H3]. repeat split; auto. intros y Hy. apply in_app_iff in Hy as [Hy|[<-|[]]]; auto.
Qed.
Lemma rev_desc l : ascends l -> non_increasing N.ltb (rev l) = true.
Proof.
  intros H. rewrite <- (rev_involutive l) in H. induction (rev l) as [|x r IH]; [reflexivity|]. simpl in H. apply ascends_app_last in H as [H1 H2].
  cbn [non_increasing]. rewrite (IH H1), andb_true_r. destruct r as [|y r]; auto. apply negb_true_iff, N.ltb_ge, H2. simpl. apply in_or_app. right; now left.
Qed.
Lemma filter_ascends f l : ascends l -> ascends (filter f l).
Proof.
  induction l as [|x l IH]; simpl; auto. intros [H1 H2]. destruct (f x); auto. split; auto. intros y Hy. apply filter_In in Hy as [Hy _]. auto.
Qed.
Lemma filter_rev {A} (f : A -> bool) l : filter f (rev l) = rev (filter f l).
Proof. induction l as [|x l IH]; simpl; auto. rewrite filter_app, IH. simpl. destruct (f x); simpl; auto. now rewrite app_nil_r. Qed.

Lemma bi_pop b : BI b -> b_queue b <> [] -> exists b', b_pop b = Ok b' /\ BI b' /\ b_mem b' = b_mem b /\ b_pushCount b' = b_pushCount b /\
  b_popCount b' = b_popCount b + 1 /\ (length (b_queue b') < length (b_queue b))%nat.
Proof.
  intros [Hd Ha He Hs Hm Hc] Hne. unfold b_pop. destruct (rev (b_queue b)) as [|top r] eqn:Hr.
  { apply (f_equal (@rev N)) in Hr. rewrite rev_involutive in Hr. contradiction. }
  assert (Hq : b_queue b = rev r ++ [top]) by (apply (f_equal (@rev N)) in Hr; rewrite rev_involutive in Hr; exact Hr).
  pose proof Ha as Ha'. rewrite Hq in Ha'. apply ascends_app_last in Ha' as [Ha1 Ha2].
  rewrite Hd. rewrite drop_top_filter.
  2:{ intros z Hz. apply Ha2. now apply -> in_rev. }
  2:{ apply rev_desc in Ha1. now rewrite rev_involutive in Ha1. }
  eexists. split; [reflexivity|]. cbn [b_mem b_pushCount b_queue b_popCount]. split; [|split; [auto|split; [auto|split; [auto|]]]].
  - split; cbn [b_popDuplicates b_queue b_mem b_events b_pushSum b_pushCount]; auto.
    + unfold without. rewrite <- filter_rev. now apply filter_ascends.
    + eapply evs_app; [exact He|]. eapply ev_pop with (v := top); cbn [e_size e_pop]; auto.
      * rewrite Hq. apply in_or_app. right; now left.
      * intros z Hz. rewrite Hq in Hz. apply in_app_iff in Hz as [Hz|[->|[]]]; auto. lia.
      * constructor. intros z. unfold without. rewrite <- in_rev, !filter_ne, Hq, in_app_iff, <- in_rev. simpl. split; [|tauto].
        intros [[H|[H|[]]] H0]; auto. congruence.
    + rewrite sizes_app, Hs. unfold sizes. simpl. lia.
  - rewrite rev_length, Hq, app_length, rev_length. simpl. unfold without.
    clear. induction r as [|x r IH]; simpl; [lia|]. destruct (negb (x =? top)); simpl; lia.
Qed.

(** ** Calls *)
Lemma builds_ok cs : forall b b', BI b -> forallb legal cs = true -> builds b cs = Ok b' -> BI b'.
Proof.
  induction cs as [|c cs IH]; intros b b' Hb Hl H; simpl in *; [congruence|]. apply andb_true_iff in Hl as [Hl1 Hl2].
  destruct c as [l|]; simpl in *.
  - destruct l as [|v l]; [discriminate|]. destruct (bi_push b (v :: l) Hb) as (b1 & H1 & Hb1 & _); [discriminate|].
    unfold b_pushRange in H. rewrite H1 in H. cbn [bind] in H. eauto.
  - destruct (b_queue b) as [|q qs] eqn:Hq.
    + unfold b_pop in H. rewrite Hq in H. discriminate.
    + destruct (bi_pop b Hb) as (b1 & H1 & Hb1 & _); [congruence|]. rewrite H1 in H. cbn [bind] in H. eauto.
Qed.

Lemma bi_simulate b m fuel : BI b -> subject_ok m -> (2 * length (b_mem b) <= fuel)%nat ->
  forall repeats, b_noLive b = true \/ (repeats <= 1)%nat -> simulate m fuel (b_mem b) (b_events b) repeats = Ok true.
Proof.
  intros Hb Hm Hf repeats Hr. destruct Hb as [Hd Ha He Hs _ _]. eapply simulate_ok; eauto; [lia|]. destruct Hr as [Hr|Hr]; auto. left.
  unfold b_noLive in Hr. destruct (b_queue b); congruence.
Qed.

(** * The simulations *)
Section Generate.
  Variable rnd : nat -> N.

  Lemma fill_dup_adds fuel dup : forall n b k b' k', fill_dup rnd fuel dup n b k = Ok (b', k') ->
    exists l, length l = n /\ b' = fold_left b_addToPush l b.
  Proof.
    induction n as [|n IH]; intros b k b' k' H; cbn [fill_dup] in H.
    - injection H as <- <-. exists []. auto.
    - destruct (if b_noLive b then (false, k) else (rnd k mod 100 <=? dup, S k)) as [d k1].
      destruct (if d then _ else _) as [[v k2]| | |]; try discriminate. cbn [bind] in H. apply IH in H as (l & Hl & ->).
      exists (v :: l). simpl. auto.
  Qed.

  Lemma dup_loop_ok goal avgSpan dev live dup fuel : dev < avgSpan ->
    forall f b k b', BI b -> dup_loop rnd f fuel goal avgSpan dev live dup b k = Ok b' ->
    BI b' /\ b_noLive b' = true /\ goal <= b_pushSum b'.
  Proof.
    intros Hdev. induction f as [|f IH]; intros b k b' Hb H; cbn [dup_loop] in H.
    - destruct (N.ltb_spec (b_pushSum b) goal); simpl in H; [discriminate|]. destruct (b_noLive b) eqn:Hn; simpl in H; [|discriminate].
      injection H as <-. auto.
    - destruct ((b_pushSum b <? goal) || negb (b_noLive b)) eqn:Hc.
      2:{ injection H as <-. apply orb_false_iff in Hc as [Hc1 Hc2]. apply N.ltb_ge in Hc1. apply negb_false_iff in Hc2. auto. }
      set (doPush := if b_pushSum b =? goal then false else if b_noLive b then true else b_avg b <? live) in H. destruct doPush.
      + destruct (dev =? 0); [discriminate|].
        destruct (fill_dup rnd fuel dup (N.to_nat (avgSpan - dev + rnd k mod (2 * dev))) (b_beginPush b) (S k)) as [[b1 k1]| | |] eqn:Hf; try discriminate.
        cbn [bind] in H. apply fill_dup_adds in Hf as (l & Hl & ->).
        destruct (bi_push b l Hb) as (b2 & H2 & Hb2 & _); [intros ->; simpl in Hl; lia|]. rewrite H2 in H. cbn [bind] in H. eauto.
      + destruct (b_queue b) as [|q qs] eqn:Hq.
        * unfold b_pop in H. rewrite Hq in H. discriminate.
        * destruct (bi_pop b Hb) as (b1 & H1 & Hb1 & _); [congruence|]. rewrite H1 in H. cbn [bind] in H. eauto.
  Qed.

  Lemma dup_dev avgSpan : avgSpan <> 0 -> (if avgSpan <=? 10 then avgSpan - 1 else 10) < avgSpan.
  Proof. intros H. destruct (N.leb_spec avgSpan 10); lia. Qed.

  Lemma dup_spans_ok fuel goal avgSpan live dup b : dup_spans rnd fuel goal avgSpan live dup = Ok b ->
    BI b /\ b_noLive b = true /\ goal <= b_pushSum b.
  Proof.
    unfold dup_spans. destruct (N.eqb_spec avgSpan 0); [discriminate|]. intros H.
    destruct (dup_loop _ _ _ _ _ _ _ _ _ _) as [b1| | |] eqn:Hl; try discriminate. cbn [bind] in H.
    destruct (description b1); try discriminate. cbn [bind] in H. injection H as <-. eapply dup_loop_ok; [|apply bi_new|exact Hl]. now apply dup_dev.
  Qed.

  (** dupSpans is defined if the average span is at least two and the goal is positive. *)
  Lemma draw_defined (bad : N -> bool) pick : forall fuel tries k, draw rnd fuel bad pick tries k <> UB.
  Proof. induction fuel as [|f IH]; intros tries k; simpl; [discriminate|]. destruct (bad _); auto. discriminate. Qed.
  Lemma fill_dup_defined fuel dup : forall n b k, fill_dup rnd fuel dup n b k <> UB.
  Proof.
    induction n as [|n IH]; intros b k; cbn [fill_dup]; [discriminate|].
    destruct (if b_noLive b then (false, k) else (rnd k mod 100 <=? dup, S k)) as [d k1].
    destruct d.
    - pose proof (draw_defined (b_isInPush b) (fun tries r => if Nat.ltb tries 20 then b_randomLive b r else r) fuel 0 k1) as Hd.
      destruct (draw _ _ _ _ _ _) as [[v k2]| | |]; cbn [bind]; solve [apply IH | congruence].
    - pose proof (draw_defined (fun v => b_isInPush b v || b_isLive b v) (fun _ r => r) fuel 0 k1) as Hd.
      destruct (draw _ _ _ _ _ _) as [[v k2]| | |]; cbn [bind]; solve [apply IH | congruence].
  Qed.
  Lemma dup_loop_defined goal avgSpan dev live dup fuel : dev < avgSpan -> dev <> 0 ->
    forall f b k, BI b -> dup_loop rnd f fuel goal avgSpan dev live dup b k <> UB.
  Proof.
    intros Hdev Hd0. induction f as [|f IH]; intros b k Hb; cbn [dup_loop].
    - destruct (_ || _); discriminate.
    - destruct ((b_pushSum b <? goal) || negb (b_noLive b)) eqn:Hc; [|discriminate].
      destruct (if b_pushSum b =? goal then false else if b_noLive b then true else b_avg b <? live) eqn:Hdo.
      + destruct (N.eqb_spec dev 0); [contradiction|].
        pose proof (fill_dup_defined fuel dup (N.to_nat (avgSpan - dev + rnd k mod (2 * dev))) (b_beginPush b) (S k)) as Hfd.
        destruct (fill_dup rnd fuel dup (N.to_nat (avgSpan - dev + rnd k mod (2 * dev))) (b_beginPush b) (S k)) as [[b1 k1]| | |] eqn:Hf; cbn [bind]; try congruence.
        apply fill_dup_adds in Hf as (l & Hl & ->).
        destruct (bi_push b l Hb) as (b2 & H2 & Hb2 & _); [intros ->; simpl in Hl; lia|]. rewrite H2. cbn [bind]. auto.
      + destruct (bi_pop b Hb) as (b1 & -> & Hb1 & _); [|cbn [bind]; auto]. intros Hq. unfold b_noLive in *. rewrite Hq in *.
        simpl in Hc. rewrite orb_false_r in Hc. destruct (N.eqb_spec (b_pushSum b) goal); [|discriminate]. apply N.ltb_lt in Hc. lia.
  Qed.
  Lemma description_defined b : BI b -> b_pushSum b <> 0 -> description b <> UB.
  Proof.
    intros Hb Hs. unfold description. destruct (N.eqb_spec (b_pushCount b) 0) as [H|H].
    - destruct (bi_count _ Hb) as [H0|H0]; [contradiction|]. rewrite (bi_sum _ Hb), H0 in Hs. simpl in Hs. congruence.
    - destruct (N.eqb_spec (b_pushSum b) 0); [contradiction|]. discriminate.
  Qed.
  Lemma dup_spans_defined fuel goal avgSpan live dup : 2 <= avgSpan -> 1 <= goal -> dup_spans rnd fuel goal avgSpan live dup <> UB.
  Proof.
    intros Ha Hg. unfold dup_spans. destruct (N.eqb_spec avgSpan 0); [lia|].
    assert (Hd0 : (if avgSpan <=? 10 then avgSpan - 1 else 10) <> 0) by (destruct (N.leb_spec avgSpan 10); lia).
    pose proof (dup_loop_defined goal avgSpan _ live dup fuel (dup_dev avgSpan n) Hd0 fuel (b_new true) 0 bi_new) as Hdef.
    destruct (dup_loop _ _ _ _ _ _ _ _ _ _) as [b1| | |] eqn:Hl; cbn [bind]; try congruence.
    destruct (dup_loop_ok goal avgSpan _ live dup fuel (dup_dev avgSpan n) fuel _ _ _ bi_new Hl) as (Hb & _ & Hs).
    pose proof (description_defined b1 Hb ltac:(lia)). destruct (description b1); cbn [bind]; congruence.
  Qed.

  Lemma fill_order_adds fuel avg : forall n ins b k b' ins' k', fill_order rnd fuel avg n ins b k = Ok (b', ins', k') ->
    exists l, length l = n /\ b' = fold_left b_addToPush l b.
  Proof.
    induction n as [|n IH]; intros ins b k b' ins' k' H; cbn [fill_order] in H.
    - injection H as <- <- <-. exists []. auto.
    - destruct (2 * avg =? 0); [discriminate|]. destruct (draw _ _ _ _ _ _) as [[v k1]| | |]; try discriminate. cbn [bind] in H.
      apply IH in H as (l & Hl & ->). exists (v :: l). simpl. auto.
  Qed.

  Lemma live_zero b : b_live b = 0 <-> b_queue b = [].
  Proof. unfold b_live. destruct (b_queue b); simpl; split; intros H; try discriminate; auto. Qed.

  Lemma order_loop_ok spanCount spanSize avgSize dev fuel : spanSize <> 0 ->
    forall f ins b k b', BI b -> order_loop rnd f fuel spanCount spanSize avgSize dev ins b k = Ok b' ->
    BI b' /\ b_noLive b' = true /\ spanCount <= b_pushCount b'.
  Proof.
    intros Hsz. assert (Hex : forall b, (0 <? b_live b) || (b_pushCount b <? spanCount) = false -> b_noLive b = true /\ spanCount <= b_pushCount b).
    { intros b Hc. apply orb_false_iff in Hc as [Hc1 Hc2]. apply N.ltb_ge in Hc1, Hc2. split; auto.
      assert (H0 : b_live b = 0) by lia. apply live_zero in H0. unfold b_noLive. now rewrite H0. }
    induction f as [|f IH]; intros ins b k b' Hb H; cbn [order_loop] in H.
    - destruct ((0 <? b_live b) || (b_pushCount b <? spanCount)) eqn:Hc; [discriminate|]. injection H as <-. split; auto.
    - destruct ((0 <? b_live b) || (b_pushCount b <? spanCount)) eqn:Hc; [|injection H as <-; split; auto].
      destruct ((b_live b =? 0) || _).
      + destruct (fill_order _ _ _ _ _ _ _) as [[[b1 i1] k1]| | |] eqn:Hf; try discriminate. cbn [bind] in H.
        apply fill_order_adds in Hf as (l & Hl & ->).
        destruct (bi_push b l Hb) as (b2 & H2 & Hb2 & _); [intros ->; simpl in Hl; lia|]. rewrite H2 in H. cbn [bind] in H. eauto.
      + destruct (b_queue b) as [|q qs] eqn:Hq.
        * unfold b_pop in H. rewrite Hq in H. discriminate.
        * destruct (bi_pop b Hb) as (b1 & H1 & Hb1 & _); [congruence|]. rewrite H1 in H. cbn [bind] in H. eauto.
  Qed.

  Lemma order_spans_ok fuel spanCount spanSize avgSize b : spanSize <> 0 -> order_spans rnd fuel spanCount spanSize avgSize = Ok b ->
    BI b /\ b_noLive b = true /\ spanCount <= b_pushCount b.
  Proof.
    unfold order_spans. intros Hs H. destruct (order_loop _ _ _ _ _ _ _ _ _ _) as [b1| | |] eqn:Hl; try discriminate. cbn [bind] in H.
    destruct (description b1); try discriminate. cbn [bind] in H. injection H as <-. eapply order_loop_ok; [exact Hs|apply bi_new|exact Hl].
  Qed.
End Generate.

Lemma simulate_all_ok ms fuel mem evs repeats : (forall m, In m ms -> simulate m fuel mem evs repeats = Ok true) ->
  simulate_all ms fuel mem evs repeats = Ok true.
Proof.
  induction ms as [|m ms IH]; intros H; [reflexivity|]. cbn [simulate_all]. rewrite (H m) by now left. cbn [bind]. apply IH. intros; apply H; now right.
Qed.

(** * Queues *)
Lemma maximum live : live <> [] -> In (fold_right N.max 0 live) live /\ forall z, In z live -> z <= fold_right N.max 0 live.
Proof.
  induction live as [|x l IH]; [congruence|]. intros _. simpl. destruct l as [|y l].
  - simpl. rewrite N.max_0_r. split; [now left|]. intros z [->|[]]; lia.
  - destruct IH as [H1 H2]; [discriminate|]. set (w := fold_right N.max 0 (y :: l)) in *. split.
    + destruct (N.max_spec x w) as [[_ ->]|[_ ->]]; auto.
    + intros z [->|Hz]; [lia|]. specialize (H2 z Hz). lia.
Qed.

Lemma drive_ok m fuel cs : subject_ok m -> forallb sorted_push cs = true -> (2 * pushes cs <= fuel)%nat ->
  forall vs, expected cs [] = Some vs -> drive m fuel cs (m_new m) = Ok vs.
Proof.
  intros (R & Hnew & Hpush & Hpop & Hsame & Hreset) Hs Hf.
  assert (H : forall s live n vs, R s live n -> (2 * (n + pushes cs) <= fuel)%nat -> expected cs live = Some vs -> drive m fuel cs s = Ok vs).
  { clear Hf. induction cs as [|c cs IH]; intros s live n vs HR Hf He; cbn [expected drive] in *; [congruence|].
    cbn [forallb] in Hs. apply andb_true_iff in Hs as [Hs1 Hs2]. specialize (IH Hs2). unfold pushes in *. cbn [fold_right] in Hf. destruct c as [l|].
    - assert (Hl : l <> []) by (intros ->; discriminate). assert (Hd : non_increasing N.ltb l = true) by (destruct l; auto).
      destruct (Hpush s live n l HR Hl Hd) as (s1 & -> & HR1). cbn [bind]. eapply IH; eauto. lia.
    - assert (Hne : live <> []) by (intros ->; discriminate). set (v := fold_right N.max 0 live) in *.
      assert (He' : match expected cs (filter (fun z => negb (z =? v)) live) with Some us => Some (v :: us) | None => None end = Some vs)
        by (destruct live; [congruence|exact He]).
      destruct (maximum live Hne) as [Hin Hmax].
      destruct (Hpop s live n fuel HR Hne) as (s1 & w & -> & Hw & Hwmax & HR1); [lia|]. cbn [bind].
      assert (w = v) by (specialize (Hwmax v Hin); specialize (Hmax w Hw); unfold v in *; lia). subst w.
      destruct (expected cs (filter (fun z => negb (z =? v)) live)) as [us|] eqn:Heq; [|discriminate]. injection He' as <-.
      rewrite (IH s1 _ n us HR1); auto. }
  intros vs. apply (H _ _ _ _ Hnew). lia.
Qed.
