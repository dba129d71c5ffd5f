(** Minimising insertion over any correct divisor finder. *)
From Coq Require Import List Arith Bool ZArith Lia Permutation.
From Verif.Base Require Import Res.
From Verif.Spec Require Import DivFinder DivFinderFacts DivAgree DivAgreeFacts.
From Verif.Finders Require Import Model.
Import ListNotations.

Section Min.
  Context {M : Type}.
  Variable divides same : M -> M -> bool.
  Hypothesis div_refl : forall a, divides a a = true.
  Hypothesis div_trans : forall a b c, divides a b = true -> divides b c = true -> divides a c = true.
  Hypothesis same_div : forall a b, same a b = true -> divides b a = true.

  (** No entry divides another one. *)
  Definition antichain (l : list M) : Prop := forall a l0, Permutation l (a :: l0) -> forall b, In b l0 -> divides a b = false.
  (** [l] is what remains of [es] when only minimal elements are kept. *)
  Definition min_of (es l : list M) : Prop :=
    incl l es /\ (forall x, In x es -> exists e, In e l /\ divides e x = true) /\ antichain l.

  Lemma antichain_perm l l' : Permutation l' l -> antichain l -> antichain l'.
  Proof. intros Hp H a l0 H1. apply H. now rewrite <- Hp. Qed.
  Lemma min_of_perm es l l' : Permutation l' l -> min_of es l -> min_of es l'.
  Proof.
    intros Hp (H1 & H2 & H3). split; [|split].
    - intros x Hx. apply H1. eapply Permutation_in; eauto.
    - intros x Hx. destruct (H2 x Hx) as (e & He & Hd). exists e. split; auto. eapply Permutation_in; [symmetry|]; eauto.
    - eapply antichain_perm; eauto.
  Qed.
  Lemma min_of_found es l d e : min_of es l -> In d l -> divides d e = true -> min_of (e :: es) l.
  Proof.
    intros (H1 & H2 & H3) Hd He. split; [intros x Hx; right; auto|]. split; auto. intros x [<-|Hx]; [eauto|auto].
  Qed.
  Lemma min_of_insert es l e l' : min_of es l -> (forall d, In d l -> divides d e = false) ->
    Permutation l' (e :: non_multiples divides e l) -> min_of (e :: es) l'.
  Proof.
    intros (H1 & H2 & H3) Hn Hp. apply (min_of_perm _ _ _ Hp). split; [|split].
    - intros x [<-|Hx]; [now left|]. apply filter_In in Hx as [Hx _]. right. auto.
    - intros x [<-|Hx]; [exists e; split; [now left|auto]|]. destruct (H2 x Hx) as (d & Hd & Hdx). destruct (divides e d) eqn:Hed.
      + exists e. split; [now left|eauto].
      + exists d. split; auto. right. apply filter_In. now rewrite Hed.
    - intros a l0 Ha b Hb. assert (Hin : In a (e :: non_multiples divides e l)) by (eapply Permutation_in; [symmetry; exact Ha|now left]). destruct Hin as [<-|Hin].
      + apply Permutation_cons_inv in Ha. eapply Permutation_in in Hb; [|symmetry; exact Ha]. apply filter_In in Hb as [_ Hb]. now apply negb_true_iff in Hb.
      + assert (Hal : In a l) by (apply filter_In in Hin; tauto). apply in_split in Hin as (n1 & n2 & Hs).
        assert (Hl0 : Permutation l0 (e :: n1 ++ n2)).
        { apply Permutation_cons_inv with (a := a). rewrite <- Ha, Hs. rewrite perm_swap. constructor. symmetry. apply Permutation_middle. }
        eapply Permutation_in in Hb; [|exact Hl0]. destruct Hb as [<-|Hb]; [auto|].
        eapply (H3 a ((n1 ++ n2) ++ multiples divides e l)); [|apply in_or_app; now left].
        etransitivity; [symmetry; apply (filter_split (fun x => divides e x) l)|]. change (filter (fun x => negb (divides e x)) l) with (non_multiples divides e l). rewrite Hs.
        change (filter (fun x => divides e x) l) with (multiples divides e l). generalize (multiples divides e l). intros k.
        rewrite (Permutation_app_comm k). rewrite <- !app_assoc. cbn [app]. rewrite <- Permutation_middle. reflexivity.
  Qed.

  (** What that means for the user. *)
  Definition minimal (es : list M) (x : M) : Prop := In x es /\ forall y, In y es -> divides y x = true -> divides x y = true.
  Definition exactly_minimal (es l : list M) : Prop :=
    Forall (minimal es) l /\
    (forall x, minimal es x -> length (filter (fun e => divides e x && divides x e) l) = 1) /\
    (forall m, (exists e, In e l /\ divides e m = true) <-> (exists x, In x es /\ divides x m = true)).
  Lemma exactly_minimal_members es es' l : (forall x, In x es <-> In x es') -> exactly_minimal es' l -> exactly_minimal es l.
  Proof.
    intros He (H1 & H2 & H3).
    assert (Hm : forall x, minimal es x <-> minimal es' x).
    { intros x. unfold minimal. rewrite He. split; intros [G1 G2]; (split; [exact G1|]); intros y Hy; apply G2; now apply He. }
    split; [|split].
    - eapply Forall_impl; [|exact H1]. intros x. apply Hm.
    - intros x Hx. apply H2. now apply Hm.
    - intros m. rewrite H3. split; intros (x & G1 & G2); exists x; (split; [now apply He|auto]).
  Qed.
  Lemma min_of_exactly es l : min_of es l -> exactly_minimal es l.
  Proof.
    intros (H1 & H2 & H3).
    assert (Hmin : forall e, In e l -> minimal es e).
    { intros e He. split; auto. intros y Hy Hye. destruct (H2 y Hy) as (d & Hd & Hdy). apply in_split in He as (l1 & l2 & ->).
      assert (Hp : Permutation (l1 ++ e :: l2) (e :: l1 ++ l2)) by (symmetry; apply Permutation_middle). eapply Permutation_in in Hd; [|exact Hp]. destruct Hd as [<-|Hd]; auto.
      exfalso. assert (Hde : divides d e = true) by eauto. apply in_split in Hd as (k1 & k2 & Hk).
      assert (divides d e = false); [|congruence]. apply (H3 d (e :: k1 ++ k2)); [|now left]. rewrite Hp, Hk. rewrite perm_swap. constructor. symmetry. apply Permutation_middle. }
    split; [now apply Forall_forall|]. split.
    - intros x [Hx Hm]. destruct (H2 x Hx) as (d & Hd & Hdx). assert (Hxd : divides x d = true) by (apply Hm; auto). apply in_split in Hd as (l1 & l2 & ->).
      rewrite (filter_length_perm _ _ _ (Permutation_sym (Permutation_middle l1 l2 d))). cbn [filter]. rewrite Hdx, Hxd. cbn [andb length]. f_equal.
      assert (Hn : forall y, In y (l1 ++ l2) -> divides y x && divides x y = false).
      { intros y Hy. destruct (divides x y) eqn:Hxy; [|apply andb_false_r]. exfalso.
        assert (divides d y = false) by (apply (H3 d (l1 ++ l2)); auto; symmetry; apply Permutation_middle). assert (divides d y = true) by eauto. congruence. }
      clear - Hn. induction (l1 ++ l2) as [|y k IH]; auto. cbn [filter]. rewrite Hn by (now left). apply IH. intros z Hz. apply Hn. now right.
    - intros m. split.
      + intros (e & He & Hd). exists e. auto.
      + intros (x & Hx & Hd). destruct (H2 x Hx) as (e & He & Hex). exists e. split; eauto.
  Qed.

  Context {St : Type}.
  Variable step : St -> dop M -> res (St * dout M).
  Variable abs : St -> list M.
  Variable pre : list M -> dop M -> bool.
  Variable inv : St -> Prop.
  Hypothesis step_ok : forall s o, inv s -> pre (abs s) o = true -> exists s' r, step s o = Ok (s', r) /\ inv s' /\ dstep divides same (abs s) o r (abs s').
  Variable find : M -> dop M.
  Variable after : St -> bool -> res St.
  Hypothesis find_pre : forall l m, pre l (find m) = true.
  Hypothesis find_ok : forall l m r l', dstep divides same l (find m) r l' -> exists x, r = DOFound x /\ is_divisor divides m l x /\ Permutation l' l.
  Hypothesis remove_pre : forall l m, pre l (DRemoveMultiples m) = true.
  Variable valid : M -> bool.
  Hypothesis insert_pre : forall l e, valid e = true -> copies same e l = 0 -> pre l (DInsert e) = true.
  Hypothesis after_ok : forall s b, inv s -> abs s <> [] -> exists s', after s b = Ok s' /\ inv s' /\ Permutation (abs s') (abs s).

  Lemma min_insert_ok s es e : inv s -> min_of es (abs s) -> valid e = true ->
    exists s' xs, min_insert step find after s e = Ok (s', DOList xs) /\ inv s' /\ min_of (e :: es) (abs s').
  Proof.
    intros Hi Hm Hv. unfold min_insert. destruct (step_ok s (find e) Hi (find_pre _ _)) as (s1 & r1 & -> & Hi1 & Hd1). cbn [bind].
    destruct (find_ok _ _ _ _ Hd1) as (x & -> & Hx & Hp1). destruct x as [d|].
    - exists s1, []. split; auto. split; auto. destruct Hx as [Hx1 Hx2]. apply (min_of_perm _ _ _ Hp1). eapply min_of_found; eauto.
    - cbn [is_divisor] in Hx. destruct (step_ok s1 (DRemoveMultiples e) Hi1 (remove_pre _ _)) as (s2 & r2 & -> & Hi2 & Hd2). cbn [bind].
      inversion Hd2 as [| |m xs l' Hxs Hl'| | | | | | | | |]; subst.
      assert (H2 : Permutation (abs s2) (non_multiples divides e (abs s))).
      { rewrite Hl'. unfold non_multiples. clear - Hp1. induction Hp1; cbn [filter]; try (destruct (negb (divides e x))); try (destruct (negb (divides e y))); auto; try constructor; auto. etransitivity; eauto. }
      assert (Hc : copies same e (abs s2) = 0).
      { unfold copies. assert (G : forall z, In z (abs s2) -> same e z = false).
        { intros z Hz. eapply Permutation_in in Hz; [|exact H2]. apply filter_In in Hz as [Hz _]. destruct (same e z) eqn:Hs; auto. apply same_div in Hs. apply Hx in Hz. congruence. }
        revert G. generalize (abs s2). intros k G. induction k as [|z k IH]; auto. cbn [filter]. rewrite G by (now left). apply IH. intros w Hw. apply G. now right. }
      destruct (step_ok s2 (DInsert e) Hi2 (insert_pre _ _ Hv Hc)) as (s3 & r3 & -> & Hi3 & Hd3). cbn [bind]. inversion Hd3 as [e0 l0 Hl0| | | | | | | | | | |]; subst.
      destruct (after_ok s3 (match xs with [] => false | _ => true end) Hi3) as (s4 & -> & Hi4 & Hp4).
      { intros E. rewrite E in Hl0. apply Permutation_nil in Hl0. discriminate. }
      cbn [bind]. exists s4, xs. split; auto. split; auto. apply (min_of_insert es (abs s)); auto. rewrite Hp4, Hl0. now constructor.
  Qed.

  Definition is_query (o : dop M) : bool :=
    match o with DFindDivisor _ | DAllDivisors _ _ | DAllMultiples _ _ | DForAll _ | DSize => true | _ => false end.
  Hypothesis query_pre : forall l o, is_query o = true -> pre l o = true.
  Definition inserted (ops : list (cop M)) : list M := flat_map (fun o => match o with CInsert e => [e] | CAsk _ => [] end) ops.
  Definition fine (o : cop M) : bool := match o with CInsert e => valid e | CAsk o => is_query o end.

  Lemma min_run ops : forall s es, inv s -> min_of es (abs s) -> forallb fine ops = true ->
    exists s' rs, run (min_step step find after) s ops = Ok (s', rs) /\ inv s' /\ min_of (rev (inserted ops) ++ es) (abs s').
  Proof.
    induction ops as [|o ops IH]; intros s es Hi Hm Hf; [exists s, []; auto|]. cbn [forallb] in Hf. apply andb_true_iff in Hf as [Ho Hf].
    assert (Hq : forall o, is_query o = true -> exists s1 r1, step s o = Ok (s1, r1) /\ inv s1 /\ Permutation (abs s1) (abs s)).
    { intros q Hq. destruct (step_ok s q Hi (query_pre _ _ Hq)) as (s1 & r1 & H1 & H2 & H3). exists s1, r1. split; auto. split; auto. inversion H3; subst; auto; discriminate Hq. }
    assert (G : exists s1 r1, min_step step find after s o = Ok (s1, r1) /\ inv s1 /\ min_of (match o with CInsert e => e :: es | CAsk _ => es end) (abs s1)).
    { destruct o as [e|o]; cbn [min_step fine] in *.
      - destruct (min_insert_ok s es e Hi Hm Ho) as (s1 & xs & H1 & H2 & H3). eauto.
      - assert (Hstep : exists s1 r1, (match o with DFindDivisor m => step s (find m) | _ => step s o end) = Ok (s1, r1) /\ inv s1 /\ Permutation (abs s1) (abs s)).
        { destruct o; auto; try discriminate Ho. destruct (step_ok s (find m) Hi (find_pre _ _)) as (s1 & r1 & H1 & H2 & H3). exists s1, r1. split; auto. split; auto.
          destruct (find_ok _ _ _ _ H3) as (x & _ & _ & Hp). exact Hp. }
        destruct Hstep as (s1 & r1 & H1 & H2 & H3). exists s1, r1. split; [destruct o; exact H1|]. split; auto. eapply min_of_perm; eauto. }
    destruct G as (s1 & r1 & H1 & H2 & H3). destruct (IH s1 _ H2 H3 Hf) as (s' & rs & H4 & H5 & H6).
    exists s', (r1 :: rs). cbn [run]. rewrite H1. cbn [bind]. rewrite H4. cbn [bind]. split; auto. split; auto.
    destruct o as [e|o]; cbn [inserted flat_map app] in *; auto. cbn [rev]. rewrite <- app_assoc. exact H6.
  Qed.
End Min.
