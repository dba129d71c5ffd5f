(** Facts about the priority queue specification, and the lifting from one call to histories. *)
From Coq Require Import List Permutation Arith Lia Bool.
From Verif.Base Require Import Res Order.
From Verif.Spec Require Import PQ.
Import ListNotations.

Section Facts.
  Context {E : Type}.
  Variable lt : E -> E -> bool.
  Variable dd : E -> E -> E -> Prop.

  Lemma merges_refl l : merges dd l l.
  Proof. apply merges_perm; reflexivity. Qed.

  Lemma merges_perm_l l l0 l' : Permutation l l0 -> merges dd l0 l' -> merges dd l l'.
  Proof.
    intros Hp H; inversion H; subst.
    - apply merges_perm; etransitivity; eauto.
    - eapply merges_dd; [etransitivity|..]; eauto.
  Qed.

  Lemma merges_trans l1 l2 l3 : merges dd l1 l2 -> merges dd l2 l3 -> merges dd l1 l3.
  Proof.
    intros H; induction H as [l l' Hp|l a b c m l' Hp Hd H IH]; intros H3.
    - eapply merges_perm_l; eauto.
    - eapply merges_dd; eauto.
  Qed.

  Lemma merges_app l l' r : merges dd l l' -> merges dd (l ++ r) (l' ++ r).
  Proof.
    intros H; induction H as [l l' Hp|l a b c m l' Hp Hd H IH].
    - apply merges_perm. now apply Permutation_app_tail.
    - eapply (merges_dd dd _ a b c (m ++ r)); eauto.
      change (a :: b :: m ++ r) with ((a :: b :: m) ++ r). now apply Permutation_app_tail.
  Qed.

  Lemma merges_cons x l l' : merges dd l l' -> merges dd (x :: l) (x :: l').
  Proof.
    intros H. eapply merges_perm_l; [apply Permutation_cons_append|].
    eapply merges_trans; [apply merges_app; eauto|].
    apply merges_perm. symmetry; apply Permutation_cons_append.
  Qed.

  Lemma merges_app_both a a' b b' : merges dd a a' -> merges dd b b' -> merges dd (a ++ b) (a' ++ b').
  Proof.
    intros Ha Hb. eapply merges_trans; [apply merges_app; eauto|].
    eapply merges_perm_l; [apply Permutation_app_comm|].
    eapply merges_trans; [apply merges_app; eauto|].
    apply merges_perm, Permutation_app_comm.
  Qed.

  Lemma merges_nil_l l : merges dd [] l -> l = [].
  Proof.
    intros H; inversion H as [? ? Hp|? ? ? ? ? ? Hp]; subst.
    - now apply Permutation_nil.
    - apply Permutation_nil in Hp; discriminate.
  Qed.

  Lemma merges_nil_r l : merges dd l [] -> l = [].
  Proof.
    intros H; remember (@nil E) as n eqn:Hn; induction H as [l l' Hp|l a b c m l' Hp Hd H IH]; subst.
    - symmetry in Hp; now apply Permutation_nil.
    - specialize (IH eq_refl); discriminate.
  Qed.

  Lemma is_max_perm x l l' : Permutation l l' -> is_max lt x l -> is_max lt x l'.
  Proof.
    intros Hp [Hin Hmax]; split.
    - eapply Permutation_in; eauto.
    - intros y Hy; apply Hmax. eapply Permutation_in; [symmetry|]; eauto.
  Qed.

  Lemma trace_app l pre rs l1 post rs' l2 :
    trace lt dd l pre rs l1 -> trace lt dd l1 post rs' l2 -> trace lt dd l (pre ++ post) (rs ++ rs') l2.
  Proof. intros H; induction H; simpl; auto. intros H2; econstructor; eauto. Qed.

  (** From single calls to histories. *)
  Section Lift.
    Variable St : Type.
    Variable step : St -> op E -> res (St * out E).
    Variable abs : St -> list E.
    Variable Inv : St -> Prop.
    Variable api : op E -> bool.
    Hypothesis Hstep : forall s o, Inv s -> api o = true ->
      match step s o with
      | Ok (s', r) => Inv s' /\ sstep lt dd (abs s) o r (abs s')
      | UB => abs s = [] /\ needs_nonempty o = true
      | Throw _ => False
      | NoFuel => False
      end.

    Lemma lift_gen : forall ops s, Inv s -> forallb api ops = true ->
      match run step s ops with
      | Ok (s', rs) => Inv s' /\ trace lt dd (abs s) ops rs (abs s')
      | UB => exists pre o post s' rs,
                ops = pre ++ o :: post /\ needs_nonempty o = true /\
                run step s pre = Ok (s', rs) /\ abs s' = [] /\ trace lt dd (abs s) pre rs []
      | Throw _ => False
      | NoFuel => False
      end.
    Proof.
      induction ops as [|o ops IH]; intros s HI Hapi; simpl run.
      - split; auto; constructor.
      - simpl in Hapi; apply andb_true_iff in Hapi as [Ho Hops].
        specialize (Hstep s o HI Ho).
        destruct (step s o) as [[s1 r]| | |] eqn:Hs; simpl; auto.
        + destruct Hstep as [HI1 Hss]. specialize (IH s1 HI1 Hops).
          destruct (run step s1 ops) as [[s2 rs]| | |] eqn:Hr; simpl; auto.
          * destruct IH as [HI2 Ht]; split; auto. econstructor; eauto.
          * destruct IH as (pre & o' & post & s' & rs & -> & Hn & Hrun & Habs & Ht).
            exists (o :: pre), o', post, s', (r :: rs). repeat split; auto.
            -- simpl run. rewrite Hs; simpl. rewrite Hrun; reflexivity.
            -- econstructor; eauto.
        + destruct Hstep as [Habs Hn]. exists [], o, ops, s, []. repeat split; auto.
          rewrite Habs; constructor.
    Qed.

    Lemma pq_correct_lift init : Inv init -> abs init = [] ->
      pq_correct lt dd step init abs api.
    Proof.
      intros HI Ha ops Hapi. pose proof (lift_gen ops init HI Hapi) as H.
      rewrite Ha in H. destruct (run step init ops) as [[s rs]| | |]; auto. apply H.
    Qed.

    Lemma inv_lift init ops s rs : Inv init -> forallb api ops = true ->
      run step init ops = Ok (s, rs) -> Inv s.
    Proof. intros HI Ha Hr. pose proof (lift_gen ops init HI Ha) as H. rewrite Hr in H. apply H. Qed.
  End Lift.

  (** Conservation: a client weight that de-duplication adds up is never lost or invented. *)
  Section Weight.
    Variable M : Type.
    Variable zero : M.
    Variable add : M -> M -> M.
    Hypothesis add_comm : forall x y, add x y = add y x.
    Hypothesis add_assoc : forall x y z, add x (add y z) = add (add x y) z.
    Variable w : E -> M.
    Hypothesis w_dd : forall a b c, dd a b c -> w c = add (w a) (w b).

    Definition total (l : list E) : M := fold_right (fun x acc => add (w x) acc) zero l.

    Lemma total_perm l l' : Permutation l l' -> total l = total l'.
    Proof.
      intros H; induction H as [|x l l' Hp IH|x y l|l l1 l2 H1 IH1 H2 IH2]; simpl; auto.
      - now rewrite IH.
      - rewrite !add_assoc. now rewrite (add_comm (w y)).
      - now rewrite IH1.
    Qed.

    Lemma total_merges l l' : merges dd l l' -> total l = total l'.
    Proof.
      intros H; induction H as [l l' Hp|l a b c m l' Hp Hd H IH].
      - now apply total_perm.
      - rewrite (total_perm _ _ Hp), <- IH. simpl. rewrite (w_dd a b c Hd). apply add_assoc.
    Qed.
  End Weight.

  Lemma merges_no_dd l l' : merges (@no_dd E) l l' <-> Permutation l l'.
  Proof.
    split; intros H.
    - inversion H as [|? ? ? ? ? ? ? Hd]; subst; auto. destruct Hd.
    - now apply merges_perm.
  Qed.
End Facts.

(** Fewer allowed replacements, fewer allowed answers. *)
Lemma merges_mono {E} (dd dd' : E -> E -> E -> Prop) l l' :
  (forall a b c, dd a b c -> dd' a b c) -> merges dd l l' -> merges dd' l l'.
Proof.
  intros Hd H; induction H as [l l' Hp|l a b c m l' Hp Hdd H IH].
  - now apply merges_perm.
  - eapply merges_dd; eauto.
Qed.

Lemma sstep_mono {E} lt (dd dd' : E -> E -> E -> Prop) l o r l' :
  (forall a b c, dd a b c -> dd' a b c) -> sstep lt dd l o r l' -> sstep lt dd' l o r l'.
Proof.
  intros Hd H; inversion H; subst; econstructor; eauto using merges_mono.
Qed.

(** * Consequences of the specification *)
Section Consequences.
  Context {E : Type}.
  Variable lt : E -> E -> bool.
  Variable dd : E -> E -> E -> Prop.

  Section Weight.
    Variable M : Type.
    Variable zero : M.
    Variable add : M -> M -> M.
    Hypothesis add_comm : forall x y, add x y = add y x.
    Hypothesis add_assoc : forall x y z, add x (add y z) = add (add x y) z.
    Hypothesis add_zero : forall x, add zero x = x.
    Variable w : E -> M.
    Hypothesis w_dd : forall a b c, dd a b c -> w c = add (w a) (w b).
    Notation W := (weigh add zero w).

    Lemma weigh_app l1 l2 : W (l1 ++ l2) = add (W l1) (W l2).
    Proof.
      induction l1 as [|x l1 IH]; simpl; [now rewrite add_zero|]. now rewrite IH, add_assoc.
    Qed.

    Lemma weigh_merges l l' : merges dd l l' -> W l = W l'.
    Proof. apply (total_merges dd M zero add add_comm add_assoc w w_dd). Qed.

    Lemma trace_conserves l ops rs l' : trace lt dd l ops rs l' -> forallb keeps ops = true ->
      add (W (pushed ops)) (W l) = add (W (popped ops rs)) (W l').
    Proof.
      intros H; induction H as [l|l o r l1 ops rs l2 Hs Ht IH]; intros Hk; auto.
      simpl in Hk; apply andb_true_iff in Hk as [Hk1 Hk2]. specialize (IH Hk2).
      destruct Hs; simpl in *; try discriminate;
        repeat match goal with H : merges _ _ _ |- _ => apply weigh_merges in H; simpl in H end;
        repeat match goal with H : Permutation _ _ |- _ => apply (merges_perm dd), weigh_merges in H end.
      - rewrite <- IH, <- H. rewrite !add_assoc. f_equal. apply add_comm.
      - rewrite <- IH, <- H, !weigh_app. rewrite !add_assoc. f_equal. apply add_comm.
      - rewrite H, H1, <- add_assoc, <- IH. rewrite !add_assoc. f_equal. apply add_comm.
      - rewrite H; auto.
      - rewrite H; auto.
      - rewrite H; auto.
      - rewrite H; auto.
    Qed.
  End Weight.

  Lemma trace_app_inv l ops1 ops2 rs l2 : trace lt dd l (ops1 ++ ops2) rs l2 ->
    exists rs1 rs2 l1, rs = rs1 ++ rs2 /\ trace lt dd l ops1 rs1 l1 /\ trace lt dd l1 ops2 rs2 l2.
  Proof.
    revert l rs; induction ops1 as [|o ops1 IH]; intros l rs H.
    - exists [], rs, l. repeat split; auto. constructor.
    - simpl in H. inversion H; subst. destruct (IH _ _ H6) as (rs1 & rs2 & l1' & -> & H1 & H2).
      exists (r :: rs1), rs2, l1'. repeat split; auto. econstructor; eauto.
  Qed.
End Consequences.

Lemma trace_length {E} lt (dd : E -> E -> E -> Prop) l ops rs l' : trace lt dd l ops rs l' -> length rs = length ops.
Proof. intros H; induction H; simpl; auto. Qed.

(** Push everything, pop everything: the pops return a non-increasing permutation of what was pushed. *)
Section Sort.
  Context {E : Type}.
  Variable lt : E -> E -> bool.

  Lemma trace_cons_inv dd l o ops rs l2 : trace lt dd l (o :: ops) rs l2 ->
    exists r rs1 l1, rs = r :: rs1 /\ sstep lt dd l o r l1 /\ trace lt dd l1 ops rs1 l2.
  Proof. intros H; inversion H; subst; eauto 6. Qed.

  Lemma trace_nil_inv dd l rs l2 : trace lt dd l [] rs l2 -> rs = [] /\ l2 = l.
  Proof. intros H; inversion H; subst; auto. Qed.

  Lemma sstep_push_inv dd l x r l1 : sstep lt dd l (Push x) r l1 -> r = ONone /\ merges dd (x :: l) l1.
  Proof. intros H; inversion H; subst; auto. Qed.

  Lemma sstep_pop_inv dd l r l1 : sstep lt dd l Pop r l1 ->
    exists x m, r = OEntry x /\ merges dd l (x :: m) /\ is_max lt x (x :: m) /\ merges dd m l1.
  Proof. intros H; inversion H; subst; eauto 7. Qed.

  Lemma trace_pushes xs : forall l rs l', trace lt no_dd l (map Push xs) rs l' ->
    Permutation l' (xs ++ l) /\ rs = repeat ONone (length xs).
  Proof.
    induction xs as [|x xs IH]; intros l rs l' H; simpl in H.
    - apply trace_nil_inv in H as [-> ->]. auto.
    - apply trace_cons_inv in H as (r & rs1 & l1 & -> & Hs & Ht).
      apply sstep_push_inv in Hs as [-> Hm]. apply merges_no_dd in Hm.
      destruct (IH _ _ _ Ht) as [Hp ->]. split; auto. rewrite Hp, <- Hm. simpl.
      symmetry. apply Permutation_middle.
  Qed.

  Lemma trace_pops n : forall l rs l', length l = n -> trace lt no_dd l (repeat Pop n) rs l' ->
    exists xs, rs = map OEntry xs /\ Permutation xs l /\ descending lt xs /\ l' = [].
  Proof.
    induction n as [|n IH]; intros l rs l' Hl H; simpl in H.
    - apply trace_nil_inv in H as [-> ->]. destruct l; [|discriminate]. exists []. repeat split; auto.
    - apply trace_cons_inv in H as (r & rs1 & l1 & -> & Hs & Ht).
      apply sstep_pop_inv in Hs as (x & m & -> & Hm1 & Hmax & Hm2).
      apply merges_no_dd in Hm1. apply merges_no_dd in Hm2.
      assert (Hl1 : length l1 = n).
      { rewrite <- (Permutation_length Hm2). apply Permutation_length in Hm1. simpl in Hm1. lia. }
      destruct (IH l1 rs1 l' Hl1 Ht) as (xs & -> & Hp & Hd & ->).
      exists (x :: xs). repeat split; auto.
      + rewrite Hm1. apply perm_skip. now rewrite Hp, Hm2.
      + intros y Hy. destruct Hmax as [_ Hmax]. apply Hmax. right.
        eapply Permutation_in; [|exact Hy]. now rewrite Hp, Hm2.
  Qed.

  Definition sorts {St : Type} (step : St -> op E -> res (St * out E)) (init : St) : Prop :=
    forall xs, exists s ys, run step init (map Push xs ++ repeat Pop (length xs)) = Ok (s, repeat ONone (length xs) ++ map OEntry ys) /\
      Permutation ys xs /\ descending lt ys.

  Lemma run_app {St Op Out} (step : St -> Op -> res (St * Out)) ops1 : forall s ops2,
    run step s (ops1 ++ ops2) =
    let* (s1, r1) := run step s ops1 in let* (s2, r2) := run step s1 ops2 in Ok (s2, r1 ++ r2).
  Proof.
    induction ops1 as [|o ops1 IH]; intros s ops2; simpl.
    - destruct (run step s ops2) as [[? ?]| | |]; auto.
    - destruct (step s o) as [[s1 r]| | |]; simpl; auto. rewrite IH.
      destruct (run step s1 ops1) as [[s2 rs]| | |]; simpl; auto.
      destruct (run step s2 ops2) as [[s3 rs']| | |]; simpl; auto.
  Qed.

  Lemma trace_pops_count k : forall l rs l', trace lt no_dd l (repeat Pop k) rs l' -> length l = k + length l'.
  Proof.
    induction k as [|k IH]; intros l rs l' H; simpl in H.
    - apply trace_nil_inv in H as [-> ->]; auto.
    - apply trace_cons_inv in H as (r & rs1 & l1 & -> & Hs & Ht).
      apply sstep_pop_inv in Hs as (x & m & -> & Hm1 & Hmax & Hm2).
      apply merges_no_dd in Hm1. apply merges_no_dd in Hm2.
      apply Permutation_length in Hm1. apply Permutation_length in Hm2. rewrite (IH _ _ _ Ht) in Hm2. simpl in *. lia.
  Qed.

  Lemma repeat_app_inv {A} (x : A) n l1 l2 : repeat x n = l1 ++ l2 -> l1 = repeat x (length l1) /\ l2 = repeat x (length l2).
  Proof.
    revert n; induction l1 as [|a l1 IH]; intros n H; simpl in *.
    - split; auto. subst. now rewrite repeat_length.
    - destruct n as [|n]; [discriminate|]. simpl in H. injection H as -> H. destruct (IH n H). split; auto. now f_equal.
  Qed.

  Lemma pq_correct_sorts {St} (step : St -> op E -> res (St * out E)) init abs api :
    pq_correct lt no_dd step init abs api -> (forall x, api (Push x) = true) -> api Pop = true -> sorts step init.
  Proof.
    intros H Hpush Hpop xs.
    assert (Hapi : forallb api (map Push xs ++ repeat Pop (length xs)) = true).
    { rewrite forallb_app. apply andb_true_iff; split; apply forallb_forall; intros o Ho.
      - apply in_map_iff in Ho as (x & <- & _); auto.
      - apply repeat_spec in Ho as ->; auto. }
    specialize (H _ Hapi).
    destruct (run step init (map Push xs ++ repeat Pop (length xs))) as [[s rs]| | |] eqn:Hr; try contradiction.
    - apply trace_app_inv in H as (rs1 & rs2 & l1 & -> & H1 & H2).
      destruct (trace_pushes _ _ _ _ H1) as [Hp1 ->]. rewrite app_nil_r in Hp1.
      destruct (trace_pops _ _ _ _ (Permutation_length Hp1) H2) as (ys & -> & Hp & Hd & _).
      exists s, ys. repeat split; auto. now rewrite Hp.
    - exfalso. destruct H as (pre & o & post & s & rs & Hops & Hn & Hrun & Habs & Ht).
      (* the prefix that ends empty pops everything, so no Pop is left *)
      destruct (le_lt_dec (length pre) (length xs)) as [Hle|Hgt].
      + assert (Hpre : exists k, pre = map Push (firstn k xs) /\ (pre = [] -> xs = [] \/ exists x, o = Push x) /\ (length pre = length xs -> pre = map Push xs)
                /\ (length pre < length xs -> exists x, o = Push x)).
        { exists (length pre).
          assert (Hf : pre = firstn (length pre) (map Push xs)).
          { assert (Hx : firstn (length pre) (pre ++ o :: post) = pre) by (rewrite firstn_app, firstn_all, Nat.sub_diag; simpl; apply app_nil_r).
            rewrite <- Hops, firstn_app in Hx. rewrite map_length in Hx.
            replace (length pre - length xs) with 0 in Hx by lia. simpl in Hx. now rewrite app_nil_r in Hx. }
          assert (Ho : length pre < length xs -> exists x, o = Push x).
          { intros Hlt. assert (Hnth : nth_error (map Push xs ++ repeat Pop (length xs)) (length pre) = Some o).
            { rewrite Hops, nth_error_app2, Nat.sub_diag; auto. }
            rewrite nth_error_app1 in Hnth by (rewrite map_length; lia).
            apply nth_error_In, in_map_iff in Hnth as (x & <- & _). eauto. }
          split; [|split; [|split]]; auto.
          - now rewrite <- firstn_map.
          - intros ->. destruct xs; auto. right. apply Ho; simpl; lia.
          - intros Heq. rewrite Hf, Heq, <- (map_length Push), firstn_all. reflexivity. }
        destruct Hpre as (k & Hk & _ & Heq & Hlt).
        destruct (Nat.eq_dec (length pre) (length xs)) as [He|Hne].
        * rewrite (Heq He) in Ht. apply trace_pushes in Ht as [Ht _]. apply Permutation_nil in Ht.
          apply app_eq_nil in Ht as [-> _]. simpl in Hops. symmetry in Hops. apply app_eq_nil in Hops as [_ Hx]; discriminate.
        * destruct Hlt as [x ->]; [lia|]. discriminate.
      + assert (Hpre : exists post1 post2, pre = map Push xs ++ post1 /\ repeat (@Pop E) (length xs) = post1 ++ post2 /\ post2 <> []).
        { exists (skipn (length xs) pre), (o :: post). repeat split; try discriminate.
          - rewrite <- (firstn_skipn (length xs) pre) at 1. f_equal.
            assert (Hx : firstn (length xs) (pre ++ o :: post) = firstn (length xs) pre).
            { rewrite firstn_app. replace (length xs - length pre) with 0 by lia. simpl. apply app_nil_r. }
            rewrite <- Hx, <- Hops, firstn_app, map_length, Nat.sub_diag. simpl.
            rewrite app_nil_r, <- (map_length Push), firstn_all. reflexivity.
          - assert (Hx : skipn (length xs) (pre ++ o :: post) = skipn (length xs) pre ++ o :: post).
            { rewrite skipn_app. replace (length xs - length pre) with 0 by lia. reflexivity. }
            rewrite <- Hx, <- Hops, skipn_app, map_length, Nat.sub_diag. simpl.
            rewrite <- (map_length Push xs) at 2. rewrite skipn_all. reflexivity. }
        destruct Hpre as (p1 & p2 & -> & Hrep & Hp2).
        apply trace_app_inv in Ht as (rs1 & rs2 & l1 & -> & H1 & H2).
        apply trace_pushes in H1 as [H1 _]. rewrite app_nil_r in H1.
        destruct (repeat_app_inv _ _ _ _ Hrep) as [Hrp1 _].
        rewrite Hrp1 in H2. apply trace_pops_count in H2. simpl in H2.
        apply Permutation_length in H1. apply (f_equal (@length _)) in Hrep.
        rewrite repeat_length, app_length in Hrep. destruct p2; [congruence|]. simpl in Hrep. lia.
  Qed.
End Sort.

Lemma forallb_true {A} (l : list A) : forallb (fun _ => true) l = true.
Proof. induction l; auto. Qed.

Lemma pq_correct_conserves {E} (lt : E -> E -> bool) (on : bool) eqv (dedup : E -> E -> E)
  (M : Type) (zero : M) (add : M -> M -> M) :
  (forall x y, add x y = add y x) -> (forall x y z, add x (add y z) = add (add x y) z) -> (forall x, add zero x = x) ->
  forall w : E -> M, (forall a b, eqv a b = true -> w (dedup a b) = add (w a) (w b)) ->
  forall St (step : St -> op E -> res (St * out E)) init abs api,
  pq_correct lt (dedup_dd on eqv dedup) step init abs api ->
  forall ops s rs, forallb api ops = true -> forallb keeps ops = true -> run step init ops = Ok (s, rs) ->
  weigh add zero w (pushed ops) = add (weigh add zero w (popped ops rs)) (weigh add zero w (abs s)).
Proof.
  intros Hc Ha Hz w Hw St step init abs api Hpq ops s rs Hapi Hk Hr.
  specialize (Hpq ops Hapi). rewrite Hr in Hpq.
  rewrite <- (trace_conserves lt (dedup_dd on eqv dedup) M zero add Hc Ha Hz w) with (l := []) (ops := ops) (l' := abs s) (rs := rs); auto.
  - simpl. now rewrite Hc, Hz.
  - intros a b c (_ & Heq & ->). auto.
Qed.

Lemma trace_snoc {E} (lt : E -> E -> bool) (dd : E -> E -> E -> Prop) (ops : list (op E)) : forall l o r rs l', trace lt dd l (ops ++ [o]) (rs ++ [r]) l' ->
  exists l1, trace lt dd l ops rs l1 /\ sstep lt dd l1 o r l'.
Proof.
  induction ops as [|o1 ops IH]; intros l o r rs l' H; simpl in H.
  - inversion H as [|? ? ? ? ? ? ? Hs Ht]; subst. inversion Ht; subst. destruct rs as [|r' rs]; [|destruct rs; discriminate].
    simpl in *. match goal with E : _ :: _ = _ |- _ => injection E as -> end. exists l. split; [constructor|auto].
  - inversion H as [|? ? r1 l1 ? rs1 ? Hs Ht Hl Ho Hr]; subst. destruct rs as [|r' rs].
    { simpl in *. match goal with E : _ :: _ = _ |- _ => injection E as -> -> end. inversion Ht. destruct ops; discriminate. }
    simpl in *. match goal with E : _ :: _ = _ |- _ => injection E as -> -> end. destruct (IH _ _ _ _ _ Ht) as (l2 & H1 & H2).
    exists l2. split; auto. econstructor; eauto.
Qed.

(** A queue whose top() answers a non-maximal entry is not correct. *)
Lemma not_correct_top {E} (lt : E -> E -> bool) (dd : E -> E -> E -> Prop) {St} (step : St -> op E -> res (St * out E)) init abs api ops s rs x y :
  forallb api (ops ++ [Top]) = true -> run step init (ops ++ [Top]) = Ok (s, rs ++ [OEntry x]) -> In y (abs s) -> lt x y = true ->
  ~ pq_correct lt dd step init abs api.
Proof.
  intros Ha Hr Hy Hxy H. specialize (H _ Ha). rewrite Hr in H. apply trace_snoc in H as (l1 & _ & H).
  inversion H as [| | |? ? Hm Hx| | | | |]; subst. destruct Hx as [_ Hx]. rewrite (Hx y Hy) in Hxy. discriminate.
Qed.

Lemma pq_correct_mono {E} (lt : E -> E -> bool) (dd dd' : E -> E -> E -> Prop) {St} (step : St -> op E -> res (St * out E)) init abs api :
  (forall a b c, dd a b c -> dd' a b c) -> pq_correct lt dd step init abs api -> pq_correct lt dd' step init abs api.
Proof.
  intros Hd H ops Ha. specialize (H ops Ha).
  assert (Ht : forall l os rs l', trace lt dd l os rs l' -> trace lt dd' l os rs l').
  { intros l os rs l' T. induction T; econstructor; eauto using sstep_mono. }
  destruct (run step init ops) as [[s rs]| | |]; auto. destruct H as (pre & o & post & s & rs & H1 & H2 & H3 & H4 & H5).
  exists pre, o, post, s, rs. auto 10.
Qed.
