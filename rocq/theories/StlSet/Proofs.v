From Coq Require Import List Bool Permutation Lia.
From Verif.Base Require Import Res Order.
From Verif.Spec Require Import PQ PQFacts Fifo.
From Verif.StlSet Require Import Model.
Import ListNotations.

Section StlSet.
  Context {E : Type}.
  Variable lt : E -> E -> bool.
  Hypothesis Hsw : strict_weak lt.

  Lemma ms_insert_perm x m : Permutation (ms_insert E lt x m) (x :: m).
  Proof.
    induction m as [|y m IH]; simpl; auto. destruct (stl_cmp E lt x y); auto.
    rewrite IH. apply perm_swap.
  Qed.

  Notation sorted := (descending lt).

  Lemma ms_insert_sorted x m : sorted m -> sorted (ms_insert E lt x m).
  Proof.
    induction m as [|y m IH]; simpl; [intros _; split; [intros y []|auto]|]. intros [Hy Hs].
    unfold stl_cmp. destruct (lt y x) eqn:Hyx; simpl.
    - split; [|split; auto]. intros z [<-|Hz]; [now apply (sw_asym lt Hsw)|].
      destruct (lt x z) eqn:Hxz; auto.
      specialize (Hy z Hz). rewrite (sw_trans lt Hsw y x z Hyx Hxz) in Hy; discriminate.
    - split; auto. intros z Hz. apply (Permutation_in _ (ms_insert_perm x m)) in Hz as [<-|Hz]; auto.
  Qed.

  (** [a] and [b] are equivalent. *)
  Definition eqvb (a b : E) : bool := negb (lt a b) && negb (lt b a).
  Lemma eqvb_true a b : eqvb a b = true <-> lt a b = false /\ lt b a = false.
  Proof. unfold eqvb. rewrite andb_true_iff, !negb_true_iff. tauto. Qed.

  Lemma ms_insert_filter e x m : sorted m -> filter (eqvb e) (ms_insert E lt x m) = filter (eqvb e) (m ++ [x]).
  Proof.
    induction m as [|y m IH]; intros Hs; [reflexivity|]. destruct Hs as [Hy Hs]. cbn [ms_insert].
    unfold stl_cmp. destruct (lt y x) eqn:Hyx.
    - rewrite filter_app. cbn [filter]. destruct (eqvb e x) eqn:Hex; [|now rewrite app_nil_r].
      apply eqvb_true in Hex as [H1 H2].
      assert (Hno : forall z, In z (y :: m) -> eqvb e z = false).
      { intros z Hz. destruct (eqvb e z) eqn:Hez; auto. apply eqvb_true in Hez as [H3 H4].
        assert (Hyz : lt y z = false) by (destruct Hz as [<-|Hz]; [apply (sw_irrefl lt Hsw)|auto]).
        assert (lt y x = false).
        { eapply (sw_neg_trans lt Hsw); [eapply (sw_neg_trans lt Hsw); eauto|]. auto. } congruence. }
      assert (Hf : forall l, (forall z, In z l -> eqvb e z = false) -> filter (eqvb e) l = []).
      { clear. induction l as [|a l IH]; intros H; simpl; auto. rewrite (H a (or_introl eq_refl)). apply IH. intros z Hz; apply H; now right. }
      change (if eqvb e y then y :: filter (eqvb e) m else filter (eqvb e) m) with (filter (eqvb e) (y :: m)).
      now rewrite (Hf (y :: m) Hno).
    - cbn [filter app]. rewrite IH by auto. destruct (eqvb e y); reflexivity.
  Qed.

  (** * StlSet as a priority queue *)
  Lemma push_range_perm xs : forall m, Permutation (stl_push_range E lt m xs) (xs ++ m).
  Proof.
    induction xs as [|x xs IH]; intros m; simpl; auto. rewrite IH. unfold stl_push. rewrite ms_insert_perm.
    symmetry. apply Permutation_middle.
  Qed.
  Lemma push_range_sorted xs : forall m, sorted m -> sorted (stl_push_range E lt m xs).
  Proof. induction xs as [|x xs IH]; intros m Hs; simpl; auto. apply IH. now apply ms_insert_sorted. Qed.
  Lemma push_range_filter e xs : forall m, sorted m -> filter (eqvb e) (stl_push_range E lt m xs) = filter (eqvb e) (m ++ xs).
  Proof.
    induction xs as [|x xs IH]; intros m Hs; simpl; [now rewrite app_nil_r|].
    rewrite IH by (now apply ms_insert_sorted). rewrite filter_app. unfold stl_push. rewrite ms_insert_filter by auto.
    rewrite !filter_app, <- app_assoc, <- filter_app. reflexivity.
  Qed.

  Lemma sorted_head_max x m : sorted (x :: m) -> is_max lt x (x :: m).
  Proof. intros [Hx _]. split; [now left|]. intros y [<-|Hy]; [apply (sw_irrefl lt Hsw)|auto]. Qed.

  Lemma stl_step_correct m o : sorted m -> stl_api E o = true ->
    match stl_step E lt m o with
    | Ok (m', r) => sorted m' /\ sstep lt no_dd m o r m'
    | UB => m = [] /\ needs_nonempty o = true
    | _ => False
    end.
  Proof.
    intros Hs Ha. destruct o as [x|xs| | |x| | | |]; try discriminate; cbn [stl_step].
    - split; [now apply ms_insert_sorted|]. constructor. apply merges_perm. symmetry. apply ms_insert_perm.
    - split; [now apply push_range_sorted|]. constructor. apply merges_perm. symmetry. apply push_range_perm.
    - destruct m as [|x m]; simpl; auto. split; [apply Hs|].
      econstructor; [apply merges_refl|now apply sorted_head_max|apply merges_refl].
    - destruct m as [|x m]; simpl; auto. split; auto. constructor; [apply merges_refl|now apply sorted_head_max].
    - split; auto. constructor. reflexivity.
    - split; auto. constructor; reflexivity.
  Qed.

  Lemma stl_pq_correct : pq_correct lt no_dd (stl_step E lt) [] (fun m => m) (stl_api E).
  Proof.
    apply (pq_correct_lift lt no_dd _ _ (fun m => m) sorted (stl_api E)); auto.
    - exact stl_step_correct.
    - exact I.
  Qed.

  (** * First come first served *)
  Definition fifo_inv (m l : list E) : Prop :=
    sorted m /\ Permutation m l /\ forall e, filter (eqvb e) m = filter (eqvb e) l.

  Lemma filter_first (f : E -> bool) l x r : filter f l = x :: r ->
    exists pre post, l = pre ++ x :: post /\ (forall y, In y pre -> f y = false) /\ filter f post = r /\ f x = true.
  Proof.
    induction l as [|a l IH]; simpl; [discriminate|]. destruct (f a) eqn:Ha.
    - intros H; injection H as -> <-. exists [], l. repeat split; auto. intros y [].
    - intros H. destruct (IH H) as (pre & post & -> & Hp & Hr & Hx). exists (a :: pre), post. repeat split; auto.
      intros y [<-|Hy]; auto.
  Qed.

  Lemma filter_none (f : E -> bool) l : (forall y, In y l -> f y = false) -> filter f l = [].
  Proof. induction l as [|a l IH]; simpl; auto. intros H. rewrite (H a) by auto. apply IH. auto. Qed.

  Lemma fifo_head x m l : fifo_inv (x :: m) l ->
    exists pre post, l = pre ++ x :: post /\ oldest_max lt pre x post /\ fifo_inv m (pre ++ post).
  Proof.
    intros (Hs & Hp & Hf). destruct Hs as [Hx Hs].
    assert (Hxx : eqvb x x = true) by (apply eqvb_true; split; apply (sw_irrefl lt Hsw)).
    pose proof (Hf x) as Hfx. cbn [filter] in Hfx. rewrite Hxx in Hfx. symmetry in Hfx.
    destruct (filter_first _ _ _ _ Hfx) as (pre & post & -> & Hpre & Hpost & _).
    exists pre, post. split; auto.
    assert (Hmax : forall y, In y (pre ++ x :: post) -> lt x y = false).
    { intros y Hy. apply (Permutation_in _ (Permutation_sym Hp)) in Hy as [<-|Hy]; auto. apply (sw_irrefl lt Hsw). }
    split; [split|].
    - intros y Hy. specialize (Hpre y Hy). destruct (lt y x) eqn:Hyx; auto.
      assert (eqvb x y = true); [|congruence]. apply eqvb_true; split; auto. apply Hmax. apply in_or_app; auto.
    - intros y Hy. apply Hmax. apply in_or_app; right; now right.
    - split; auto. split.
      + apply Permutation_cons_inv with x. rewrite Hp. symmetry. apply Permutation_middle.
      + intros e. specialize (Hf e). cbn [filter] in Hf. rewrite filter_app in Hf |- *. cbn [filter] in Hf.
        destruct (eqvb e x) eqn:Hex; auto.
        assert (Hnone : filter (eqvb e) pre = []).
        { apply filter_none. intros y Hy. specialize (Hpre y Hy). destruct (eqvb e y) eqn:Hey; auto.
          assert (eqvb x y = true); [|congruence].
          apply eqvb_true in Hex as [H1 H2]. apply eqvb_true in Hey as [H3 H4].
          apply eqvb_true; split; eapply (sw_neg_trans lt Hsw); eauto. }
        rewrite Hnone in Hf |- *. simpl in *. injection Hf; auto.
  Qed.

  Lemma filter_filter (f g : E -> bool) l : (forall z, f z = true -> g z = true) -> filter f (filter g l) = filter f l.
  Proof.
    intros H. induction l as [|a l IH]; simpl; auto. destruct (g a) eqn:Hg; simpl.
    - now rewrite IH.
    - destruct (f a) eqn:Hf; auto. rewrite (H a Hf) in Hg; discriminate.
  Qed.

  Lemma fifo_same_order m l : fifo_inv m l -> same_order_of_equivalents lt m l.
  Proof.
    intros (_ & Hp & Hf) p Hpe. destruct (filter p m) as [|y r] eqn:Hy.
    - symmetry. apply filter_none. intros z Hz. destruct (p z) eqn:Hpz; auto.
      assert (In z (filter p m)); [|rewrite Hy in *; contradiction].
      apply filter_In. split; auto. eapply Permutation_in; [symmetry|]; eauto.
    - assert (Hin : In y (filter p m)) by (rewrite Hy; now left). apply filter_In in Hin as [_ Hpy].
      rewrite <- Hy. rewrite <- (filter_filter p (eqvb y) m), <- (filter_filter p (eqvb y) l); [now rewrite Hf| |];
        intros z Hz; apply eqvb_true; split; auto.
  Qed.

  Lemma fifo_step_correct m l o m' r : fifo_inv m l -> stl_step E lt m o = Ok (m', r) ->
    exists l', fifo_step lt l o r l' /\ fifo_inv m' l'.
  Proof.
    intros Hi Hst. destruct o as [x|xs| | |x| | | |]; cbn [stl_step] in Hst; try discriminate.
    - injection Hst as <- <-. exists (l ++ [x]). split; [constructor|]. destruct Hi as (Hs & Hp & Hf). split; [now apply ms_insert_sorted|]. split.
      + unfold stl_push. rewrite ms_insert_perm, Hp. apply Permutation_cons_append.
      + intros e. unfold stl_push. rewrite ms_insert_filter by auto. rewrite !filter_app. now rewrite Hf.
    - injection Hst as <- <-. exists (l ++ xs). split; [constructor|]. destruct Hi as (Hs & Hp & Hf). split; [now apply push_range_sorted|]. split.
      + rewrite push_range_perm, Hp. apply Permutation_app_comm.
      + intros e. rewrite push_range_filter by auto. rewrite !filter_app. now rewrite Hf.
    - destruct m as [|x m]; [discriminate|]. cbn in Hst. injection Hst as <- <-.
      destruct (fifo_head x m l Hi) as (pre & post & Hl & Ho & Hi'). exists (pre ++ post). split; auto. econstructor; eauto.
    - destruct m as [|x m]; [discriminate|]. cbn in Hst. injection Hst as <- <-.
      destruct (fifo_head x m l Hi) as (pre & post & Hl & Ho & Hi'). exists l. split; auto. econstructor; eauto.
    - injection Hst as <- <-. exists l. split; auto. destruct Hi as (_ & Hp & _).
      assert (He : stl_empty E m = match l with [] => true | _ => false end).
      { destruct m, l; simpl; auto. apply Permutation_nil in Hp; discriminate. symmetry in Hp. apply Permutation_nil in Hp; discriminate. }
      rewrite He. constructor.
    - injection Hst as <- <-. exists l. split; auto. destruct (Hi) as (Hs & Hp & _).
      constructor; auto. now apply fifo_same_order.
  Qed.

  Lemma stl_fifo_gen ops : forall m l m' rs, fifo_inv m l -> run (stl_step E lt) m ops = Ok (m', rs) ->
    exists l', fifo_trace lt l ops rs l' /\ fifo_inv m' l'.
  Proof.
    induction ops as [|o ops IH]; intros m l m' rs Hi Hr; simpl in Hr.
    - injection Hr as <- <-. exists l. split; auto. constructor.
    - destruct (stl_step E lt m o) as [[m1 r]| | |] eqn:Hst; try discriminate. cbn [bind] in Hr.
      destruct (run (stl_step E lt) m1 ops) as [[m2 rs1]| | |] eqn:Hr1; try discriminate. cbn [bind] in Hr. injection Hr as <- <-.
      destruct (fifo_step_correct m l o m1 r Hi Hst) as (l1 & Hs1 & Hi1).
      destruct (IH m1 l1 m2 rs1 Hi1 Hr1) as (l2 & Ht2 & Hi2). exists l2. split; auto. econstructor; eauto.
  Qed.

  Lemma stl_fifo ops m rs : run (stl_step E lt) [] ops = Ok (m, rs) ->
    exists l, fifo_trace lt [] ops rs l /\ Permutation m l.
  Proof.
    intros Hr. destruct (stl_fifo_gen ops [] [] m rs) as (l & Ht & _ & Hp & _); auto.
    - split; [exact I|]. split; auto.
    - exists l; auto.
  Qed.

  Lemma stl_reachable_descending ops m rs : forallb (stl_api E) ops = true -> run (stl_step E lt) [] ops = Ok (m, rs) -> descending lt m.
  Proof.
    intros Ha Hr. eapply (inv_lift lt no_dd _ (stl_step E lt) (fun m => m) (descending lt) (stl_api E)); eauto.
    - exact stl_step_correct.
    - exact I.
  Qed.
End StlSet.
