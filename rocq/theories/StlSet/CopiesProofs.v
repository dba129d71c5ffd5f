From Coq Require Import List Bool Arith Lia.
From Verif.Base Require Import Res Arr.
From Verif.Spec Require Import PQ.
From Verif.StlSet Require Import Model Copies.
Import ListNotations.

Section Copies.
  Context {C E : Type}.
  Variable lt : C -> E -> E -> bool.
  Notation objects := (list (option (stl C E))).
  Implicit Types (w : objects) (s : stl C E).

  (** The value an object stands for *)
  Definition val s := (own_conf s, elements s).
  Definition vals w := map (option_map val) w.
  (** Every pointer leads to an object with the same configuration, unless that object is gone. *)
  Definition agrees w := forall i s, nth_error w i = Some (Some s) ->
    points_to s < length w /\ forall t, nth_error w (points_to s) = Some (Some t) -> own_conf t = own_conf s.

  Lemma object_ok w i s : object w i = Ok s <-> nth_error w i = Some (Some s).
  Proof. unfold object, vget. destruct (nth_error w i) as [[t|]|]; cbn; split; intros H; try discriminate; congruence. Qed.
  Lemma value_vals w i : value (vals w) i = (let* s := object w i in Ok (val s)).
  Proof. unfold value, vget, object, vals. rewrite nth_error_map. unfold vget. now destruct (nth_error w i) as [[t|]|]. Qed.
  Lemma vals_upd w i o : vals (upd w i o) = upd (vals w) i (option_map val o).
  Proof.
    apply nth_error_ext; unfold vals. intros j. rewrite nth_error_map. destruct (Nat.eq_dec i j) as [<-|Hn].
    - destruct (Nat.lt_ge_cases i (length w)) as [H|H].
      + rewrite !nth_upd_same by (rewrite ?map_length; auto). reflexivity.
      + rewrite !upd_oob by (rewrite ?map_length; auto). now rewrite nth_error_map.
    - rewrite !nth_upd_other by auto. now rewrite nth_error_map.
  Qed.
  Lemma vals_app w w' : vals (w ++ w') = vals w ++ vals w'.
  Proof. apply map_app. Qed.

  (** ** A call *)
  Lemma push_same w s x s' : (forall t, object w (points_to s) = Ok t -> own_conf t = own_conf s) -> o_push lt w s x = Ok s' ->
    s' = mk_stl (own_conf s) (points_to s) (stl_push E (lt (own_conf s)) (elements s) x).
  Proof.
    unfold o_push, cmp_conf. intros Ha H. destruct (elements s) as [|y m] eqn:He; [injection H as <-; reflexivity|].
    destruct (object w (points_to s)) as [t| | |]; try discriminate. cbn [bind] in H. rewrite (Ha t eq_refl) in H. injection H as <-. reflexivity.
  Qed.
  Lemma push_range_same w xs : forall s s', (forall t, object w (points_to s) = Ok t -> own_conf t = own_conf s) -> o_push_range lt w s xs = Ok s' ->
    s' = mk_stl (own_conf s) (points_to s) (stl_push_range E (lt (own_conf s)) (elements s) xs).
  Proof.
    induction xs as [|x xs IH]; intros s s' Ha; cbn; [intros H; injection H as <-; now destruct s|].
    destruct (o_push lt w s x) as [s1| | |] eqn:Hp; try discriminate. cbn [bind]. apply push_same in Hp; auto. subst s1. intros H.
    apply IH in H; auto.
  Qed.
  Lemma call_same w s o s' r : (forall t, object w (points_to s) = Ok t -> own_conf t = own_conf s) -> o_call lt w s o = Ok (s', r) ->
    own_conf s' = own_conf s /\ points_to s' = points_to s /\ stl_step E (lt (own_conf s)) (elements s) o = Ok (elements s', r).
  Proof.
    intros Ha H. destruct o as [x|xs| | |x| | | |]; cbn [o_call stl_step] in *; try discriminate.
    - destruct (o_push lt w s x) as [s1| | |] eqn:Hp; try discriminate. apply push_same in Hp; auto. injection H as <- <-. subst s1. auto.
    - destruct (o_push_range lt w s xs) as [s1| | |] eqn:Hp; try discriminate. apply push_range_same in Hp; auto. injection H as <- <-. subst s1. auto.
    - destruct (stl_pop E (elements s)) as [[m x]| | |]; try discriminate. injection H as <- <-. auto.
    - destruct (stl_top E (elements s)) as [x| | |]; try discriminate. injection H as <- <-. auto.
    - injection H as <- <-. auto.
    - injection H as <- <-. auto.
  Qed.
  Lemma push_defined w s x t : object w (points_to s) = Ok t -> exists s', o_push lt w s x = Ok s' /\ points_to s' = points_to s.
  Proof. unfold o_push, cmp_conf. intros ->. destruct (elements s); eexists; split; reflexivity. Qed.
  Lemma push_range_defined w xs : forall s t, object w (points_to s) = Ok t -> exists s', o_push_range lt w s xs = Ok s'.
  Proof.
    induction xs as [|x xs IH]; intros s t Ht; cbn; [eauto|]. destruct (push_defined w s x t Ht) as (s1 & -> & Hp). cbn [bind]. apply (IH s1 t). now rewrite Hp.
  Qed.
  Lemma call_defined w s t o m r : object w (points_to s) = Ok t -> stl_step E (lt (own_conf s)) (elements s) o = Ok (m, r) -> exists s' r', o_call lt w s o = Ok (s', r').
  Proof.
    intros Ht H. destruct o as [x|xs| | |x| | | |]; cbn [o_call stl_step] in *; try discriminate.
    - destruct (push_defined w s x t Ht) as (s' & -> & _). cbn. eauto.
    - destruct (push_range_defined w xs s t Ht) as (s' & ->). cbn. eauto.
    - destruct (stl_pop E (elements s)) as [[m' x]| | |]; try discriminate. cbn. eauto.
    - destruct (stl_top E (elements s)) as [x| | |]; try discriminate. cbn. eauto.
    - eauto.
    - eauto.
  Qed.

  (** ** Keeping the agreement *)
  Lemma agrees_upd w i s s' : agrees w -> nth_error w i = Some (Some s) -> own_conf s' = own_conf s -> points_to s' = points_to s -> agrees (upd w i (Some s')).
  Proof.
    intros Ha Hi Hc Hp. assert (Hl := nth_error_some_lt _ _ _ Hi).
    assert (Hat : forall k u, nth_error (upd w i (Some s')) k = Some (Some u) -> exists v, nth_error w k = Some (Some v) /\ own_conf v = own_conf u /\ points_to v = points_to u).
    { intros k u Hk. destruct (Nat.eq_dec i k) as [<-|Hn].
      - rewrite nth_upd_same in Hk by auto. injection Hk as <-. exists s. auto.
      - rewrite nth_upd_other in Hk by auto. eauto. }
    intros k u Hk. destruct (Hat k u Hk) as (v & Hv & Hvc & Hvp). rewrite upd_length, <- Hvp, <- Hvc. destruct (Ha k v Hv) as [H1 H2]. split; auto.
    intros t Ht. destruct (Hat _ t Ht) as (t' & Ht' & <- & _). auto.
  Qed.
  Lemma agrees_destroy w i : agrees w -> agrees (upd w i None).
  Proof.
    intros Ha. assert (Hat : forall k u, nth_error (upd w i None) k = Some (Some u) -> nth_error w k = Some (Some u)).
    { intros k u Hk. destruct (Nat.eq_dec i k) as [<-|Hn]; [|now rewrite nth_upd_other in Hk by auto].
      destruct (Nat.lt_ge_cases i (length w)); [rewrite nth_upd_same in Hk by auto; discriminate|now rewrite upd_oob in Hk by auto]. }
    intros k u Hk. rewrite upd_length. destruct (Ha k u (Hat _ _ Hk)) as [H1 H2]. split; auto.
  Qed.
  Lemma agrees_copy w i s : agrees w -> nth_error w i = Some (Some s) -> agrees (w ++ [Some s]).
  Proof.
    intros Ha Hi k u Hk. rewrite app_length. cbn [length].
    assert (exists i', nth_error w i' = Some (Some u)) as [i' Hi'].
    { destruct (Nat.lt_ge_cases k (length w)) as [H|H]; [rewrite nth_error_app1 in Hk by auto; eauto|]. rewrite nth_error_app2 in Hk by auto.
      destruct (k - length w) as [|[|?]]; try discriminate. injection Hk as <-. eauto. }
    destruct (Ha _ _ Hi') as [H1 H2]. split; [lia|]. intros t Ht. rewrite nth_error_app1 in Ht by auto. auto.
  Qed.
  Lemma agrees_new w c : agrees w -> agrees (w ++ [Some (mk_stl c (length w) [])]).
  Proof.
    intros Ha k u Hk. rewrite app_length. cbn [length]. destruct (Nat.lt_ge_cases k (length w)) as [H|H].
    - rewrite nth_error_app1 in Hk by auto. destruct (Ha _ _ Hk) as [H1 H2]. split; [lia|]. intros t Ht. rewrite nth_error_app1 in Ht by auto. auto.
    - rewrite nth_error_app2 in Hk by auto. destruct (k - length w) as [|[|?]]; try discriminate. injection Hk as <-. cbn [points_to own_conf]. split; [lia|].
      intros t Ht. rewrite nth_error_app2 in Ht by auto. rewrite Nat.sub_diag in Ht. injection Ht as <-. reflexivity.
  Qed.
  Lemma agrees_pointee w i s : agrees w -> nth_error w i = Some (Some s) -> forall t, object w (points_to s) = Ok t -> own_conf t = own_conf s.
  Proof. intros Ha Hi t Ht. apply object_ok in Ht. exact (proj2 (Ha i s Hi) t Ht). Qed.

  (** ** One step of the program *)
  Lemma step_values w o w' r : agrees w -> s_step lt w o = Ok (w', r) -> v_step lt (vals w) o = Ok (vals w', r) /\ agrees w'.
  Proof.
    intros Ha H. destruct o as [c|i|i o|i|i]; cbn [s_step v_step] in *; rewrite ?value_vals.
    - injection H as <- <-. rewrite vals_app. split; auto. now apply agrees_new.
    - destruct (object w i) as [s| | |] eqn:Ho; try discriminate. injection H as <- <-. cbn [bind]. rewrite vals_upd. split; auto. now apply agrees_destroy.
    - destruct (object w i) as [s| | |] eqn:Ho; try discriminate. cbn [bind] in *. apply object_ok in Ho.
      destruct (o_call lt w s o) as [[s' r']| | |] eqn:Hc; try discriminate. injection H as <- <-.
      destruct (call_same w s o s' r' (agrees_pointee w i s Ha Ho) Hc) as (H1 & H2 & H3).
      unfold val at 1. cbn [bind]. rewrite H3. cbn [bind]. rewrite vals_upd. split; [|now apply (agrees_upd w i s)]. cbn [option_map]. unfold val. now rewrite H1.
    - destruct (object w i) as [s| | |] eqn:Ho; try discriminate. injection H as <- <-. cbn [bind]. rewrite vals_app. split; auto. apply object_ok in Ho. now apply (agrees_copy w i).
    - destruct (object w i) as [s| | |] eqn:Ho; try discriminate. injection H as <- <-. unfold val at 1. cbn [bind]. apply object_ok in Ho. split.
      + rewrite vals_app, vals_upd. reflexivity.
      + intros k u Hk. rewrite app_length, upd_length. cbn [length].
        assert (Hat : forall k u, nth_error (upd w i (Some (mk_stl (own_conf s) (points_to s) [])) ++ [Some s]) k = Some (Some u) ->
          exists k' v, nth_error w k' = Some (Some v) /\ own_conf v = own_conf u /\ points_to v = points_to u /\ (k < length w -> k' = k)).
        { clear k u Hk. intros k u Hk. assert (Hl := nth_error_some_lt _ _ _ Ho). destruct (Nat.lt_ge_cases k (length w)) as [H|H].
          - rewrite nth_error_app1 in Hk by now rewrite upd_length. destruct (Nat.eq_dec i k) as [<-|Hn].
            + rewrite nth_upd_same in Hk by auto. injection Hk as <-. exists i, s. auto.
            + rewrite nth_upd_other in Hk by auto. exists k, u. auto.
          - rewrite nth_error_app2 in Hk by now rewrite upd_length. rewrite upd_length in Hk. destruct (k - length w) as [|[|?]]; try discriminate. injection Hk as <-.
            exists i, s. repeat split; auto. lia. }
        destruct (Hat k u Hk) as (k' & v & Hv & Hvc & Hvp & _). destruct (Ha k' v Hv) as [H1 H2]. rewrite <- Hvp, <- Hvc. split; [lia|].
        intros t Ht. destruct (Hat _ t Ht) as (k'' & t' & Ht' & <- & _ & Hk''). rewrite Hk'' in Ht' by auto. auto.
  Qed.
  Lemma run_values ops : forall w w' rs, agrees w -> run (s_step lt) w ops = Ok (w', rs) -> run (v_step lt) (vals w) ops = Ok (vals w', rs) /\ agrees w'.
  Proof.
    induction ops as [|o ops IH]; intros w w' rs Ha H; cbn [run] in *; [injection H as <- <-; auto|].
    destruct (s_step lt w o) as [[w1 r]| | |] eqn:Hs; try discriminate. cbn [bind] in H. destruct (step_values w o w1 r Ha Hs) as [Hv Ha1]. rewrite Hv. cbn [bind].
    destruct (run (s_step lt) w1 ops) as [[w2 rs']| | |] eqn:Hr; try discriminate. cbn [bind] in H. injection H as <- <-.
    destruct (IH w1 w2 rs' Ha1 Hr) as [-> Ha2]. auto.
  Qed.
  Lemma agrees_start : agrees [].
  Proof. intros [|i] s H; discriminate. Qed.

  (** ** Programs that destroy no object they copied or moved *)
  Definition keeps_sources (ops : list (sop C E)) := forall i, In (SDestroy i) ops -> ~ In (SCopy i) ops /\ ~ In (SMove i) ops.
  Definition traced (all : list (sop C E)) w := forall k,
    (nth_error w k = Some None -> In (SDestroy k) all) /\
    (forall s, nth_error w k = Some (Some s) -> points_to s <> k -> In (SCopy (points_to s)) all \/ In (SMove (points_to s)) all).

  Lemma pointee_alive all w i s : keeps_sources all -> agrees w -> traced all w -> nth_error w i = Some (Some s) -> exists t, object w (points_to s) = Ok t.
  Proof.
    intros Hk Ha Ht Hi. destruct (Nat.eq_dec (points_to s) i) as [->|Hn]; [exists s; now apply object_ok|].
    destruct (nth_error_lt w (points_to s) (proj1 (Ha i s Hi))) as [[t|] Hj]; [exists t; now apply object_ok|].
    destruct (Ht (points_to s)) as [Hd _]. apply Hd, Hk in Hj. destruct (proj2 (Ht i) s Hi Hn); tauto.
  Qed.
  Lemma step_traced all w o w' r : traced all w -> In o all -> s_step lt w o = Ok (w', r) -> agrees w -> traced all w'.
  Proof.
    intros Ht Ho H Ha. destruct o as [c|i|i o|i|i]; cbn [s_step] in H.
    - injection H as <- <-. intros k. destruct (Nat.lt_ge_cases k (length w)) as [Hl|Hl]; [rewrite nth_error_app1 by auto; apply Ht|].
      rewrite nth_error_app2 by auto. destruct (k - length w) as [|[|?]] eqn:Hd; cbn; split; try discriminate. intros s Hs. injection Hs as <-. cbn. lia.
    - destruct (object w i) as [s| | |] eqn:Hs; try discriminate. injection H as <- <-. intros k. apply object_ok in Hs. destruct (Nat.eq_dec i k) as [<-|Hn].
      + rewrite nth_upd_same by now apply nth_error_some_lt in Hs. split; [auto|discriminate].
      + rewrite nth_upd_other by auto. apply Ht.
    - destruct (object w i) as [s| | |] eqn:Hs; try discriminate. cbn [bind] in H. destruct (o_call lt w s o) as [[s' r']| | |] eqn:Hc; try discriminate.
      injection H as <- <-. apply object_ok in Hs. destruct (call_same w s o s' r' (agrees_pointee w i s Ha Hs) Hc) as (H1 & H2 & H3).
      intros k. destruct (Nat.eq_dec i k) as [<-|Hn]; [|rewrite nth_upd_other by auto; apply Ht].
      rewrite nth_upd_same by now apply nth_error_some_lt in Hs. split; [discriminate|]. intros u Hu. injection Hu as <-. rewrite H2. now apply Ht.
    - destruct (object w i) as [s| | |] eqn:Hs; try discriminate. injection H as <- <-. apply object_ok in Hs. intros k.
      destruct (Nat.lt_ge_cases k (length w)) as [Hl|Hl]; [rewrite nth_error_app1 by auto; apply Ht|].
      rewrite nth_error_app2 by auto. destruct (k - length w) as [|[|?]] eqn:Hd; cbn; split; try discriminate. intros u Hu Hn. injection Hu as <-.
      destruct (Nat.eq_dec (points_to s) i) as [->|Hn']; [now left|]. now apply (proj2 (Ht i) s Hs).
    - destruct (object w i) as [s| | |] eqn:Hs; try discriminate. injection H as <- <-. apply object_ok in Hs. intros k.
      destruct (Nat.lt_ge_cases k (length w)) as [Hl|Hl].
      + rewrite nth_error_app1 by now rewrite upd_length. destruct (Nat.eq_dec i k) as [<-|Hn]; [|rewrite nth_upd_other by auto; apply Ht].
        rewrite nth_upd_same by auto. split; [discriminate|]. intros u Hu. injection Hu as <-. cbn [points_to]. now apply Ht.
      + rewrite nth_error_app2 by now rewrite upd_length. rewrite upd_length. destruct (k - length w) as [|[|?]] eqn:Hd; cbn; split; try discriminate.
        intros u Hu Hn. injection Hu as <-. destruct (Nat.eq_dec (points_to s) i) as [->|Hn']; [now right|]. now apply (proj2 (Ht i) s Hs).
  Qed.
  Lemma step_defined all w o v r : keeps_sources all -> agrees w -> traced all w -> v_step lt (vals w) o = Ok (v, r) -> exists w' r', s_step lt w o = Ok (w', r').
  Proof.
    intros Hk Ha Ht H. destruct o as [c|i|i o|i|i]; cbn [s_step v_step] in *; rewrite ?value_vals in H; [eauto| | | |];
      destruct (object w i) as [s| | |] eqn:Hs; try discriminate; cbn [bind] in *; eauto.
    apply object_ok in Hs. destruct (pointee_alive all w i s Hk Ha Ht Hs) as [t Hp]. unfold val in H.
    destruct (stl_step E (lt (own_conf s)) (elements s) o) as [[m r']| | |] eqn:Hstep; try discriminate.
    destruct (call_defined w s t o m r' Hp Hstep) as (s' & r'' & ->). cbn [bind]. eauto.
  Qed.
  Lemma run_defined all : keeps_sources all -> forall ops w v rs, (forall o, In o ops -> In o all) -> agrees w -> traced all w ->
    run (v_step lt) (vals w) ops = Ok (v, rs) -> exists w', run (s_step lt) w ops = Ok (w', rs).
  Proof.
    intros Hk. induction ops as [|o ops IH]; intros w v rs Hin Ha Ht H; cbn [run] in *; [injection H as <- <-; eauto|].
    destruct (v_step lt (vals w) o) as [[v1 r]| | |] eqn:Hv; try discriminate. cbn [bind] in H.
    destruct (step_defined all w o v1 r Hk Ha Ht Hv) as (w1 & r1 & Hs). destruct (step_values w o w1 r1 Ha Hs) as [Hv1 Ha1]. rewrite Hv in Hv1. injection Hv1 as -> ->.
    destruct (run (v_step lt) (vals w1) ops) as [[v2 rs']| | |] eqn:Hr; try discriminate. cbn [bind] in H. injection H as <- <-.
    destruct (IH w1 v2 rs' ltac:(intros; apply Hin; now right) Ha1 (step_traced all w o w1 r1 Ht (Hin o (or_introl eq_refl)) Hs Ha) Hr) as [w2 Hw2].
    exists w2. rewrite Hs. cbn [bind]. now rewrite Hw2.
  Qed.
  Lemma traced_start all : traced all [].
  Proof. intros [|k]; split; try discriminate; intros s H; discriminate. Qed.

  (** ** A copy that outlives its original *)
  Lemma vals_length w : length (vals w) = length w.
  Proof. apply map_length. Qed.
  Lemma object_snoc w o s : o = Some s -> object (w ++ [o]) (length w) = Ok s.
  Proof. intros ->. apply object_ok. now rewrite nth_error_app2, Nat.sub_diag by auto. Qed.
  Lemma upd_snoc {A} (l : list A) a b : upd (l ++ [a]) (length l) b = l ++ [b].
  Proof. rewrite upd_app_r by auto. now rewrite Nat.sub_diag. Qed.
  Lemma outlives_ub mv w c x y : run (s_step lt) w [SNew c; SCall (length w) (Push x); if mv : bool then SMove (length w) else SCopy (length w); SDestroy (length w);
    SCall (length w + 1) (Push y)] = UB.
  Proof.
    cbn [run s_step bind]. rewrite (object_snoc w _ _ eq_refl). cbn [bind o_call o_push elements]. rewrite upd_snoc. set (s := mk_stl c (length w) [x]).
    assert (exists u, s_step lt (w ++ [Some s]) (if mv then SMove (length w) else SCopy (length w)) = Ok ((w ++ [Some u]) ++ [Some s], ONone)) as [u Hu].
    { destruct mv; cbn [s_step]; rewrite (object_snoc w _ _ eq_refl); cbn [bind]; [|eauto]. rewrite upd_snoc. eauto. }
    cbn [own_conf points_to]. fold s. rewrite Hu. cbn [bind].
    replace (object ((w ++ [Some u]) ++ [Some s]) (length w)) with (Ok u).
    2:{ symmetry. apply object_ok. rewrite nth_error_app1 by (rewrite app_length; cbn; lia). now rewrite nth_error_app2, Nat.sub_diag by auto. }
    cbn [bind]. rewrite upd_app_l by (rewrite app_length; cbn; lia). rewrite upd_snoc.
    replace (length w + 1) with (length (w ++ [@None (stl C E)])) by (now rewrite app_length). rewrite (object_snoc _ _ _ eq_refl). cbn [bind].
    unfold o_push, cmp_conf, object, vget, s. cbn [elements points_to]. rewrite nth_error_app1 by (rewrite app_length; cbn; lia).
    rewrite nth_error_app2, Nat.sub_diag by auto. reflexivity.
  Qed.
  Lemma value_snoc (v : list (option (C * list E))) o a : o = Some a -> value (v ++ [o]) (length v) = Ok a.
  Proof. intros ->. unfold value, vget. now rewrite nth_error_app2, Nat.sub_diag by auto. Qed.
  Lemma run_app (f : list (option (C * list E)) -> sop C E -> res (list (option (C * list E)) * out E)) a : forall z b,
    run f z (a ++ b) = (let* (z1, r1) := run f z a in let* (z2, r2) := run f z1 b in Ok (z2, r1 ++ r2)).
  Proof.
    induction a as [|o a IH]; intros z b; cbn [run app bind].
    - destruct (run f z b) as [[? ?]| | |]; reflexivity.
    - destruct (f z o) as [[z1 r]| | |]; cbn [bind]; auto. rewrite IH. destruct (run f z1 a) as [[z2 rs]| | |]; cbn [bind]; auto.
      destruct (run f z2 b) as [[? ?]| | |]; reflexivity.
  Qed.
  Lemma outlives_values mv ops (v : list (option (C * list E))) rs c x y n : length v = n -> run (v_step lt) [] ops = Ok (v, rs) ->
    exists v', run (v_step lt) [] (ops ++ [SNew c; SCall n (Push x); if mv : bool then SMove n else SCopy n; SDestroy n; SCall (n + 1) (Push y)]) =
      Ok (v', rs ++ repeat ONone 5).
  Proof.
    intros <- Hr. rewrite run_app, Hr. cbn [bind run v_step]. rewrite (value_snoc v _ _ eq_refl). cbn [bind stl_step]. rewrite upd_snoc.
    assert (exists u, v_step lt (v ++ [Some (c, stl_push E (lt c) [] x)]) (if mv then SMove (length v) else SCopy (length v)) =
      Ok ((v ++ [Some u]) ++ [Some (c, stl_push E (lt c) [] x)], ONone)) as [u Hu].
    { destruct mv; cbn [v_step]; rewrite (value_snoc v _ _ eq_refl); cbn [bind]; [|eauto]. rewrite upd_snoc. eauto. }
    rewrite Hu. cbn [bind].
    replace (value ((v ++ [Some u]) ++ [Some (c, stl_push E (lt c) [] x)]) (length v)) with (Ok u).
    2:{ symmetry. unfold value, vget. rewrite nth_error_app1 by (rewrite app_length; cbn; lia). now rewrite nth_error_app2, Nat.sub_diag by auto. }
    cbn [bind]. rewrite upd_app_l by (rewrite app_length; cbn; lia). rewrite upd_snoc.
    replace (length v + 1) with (length (v ++ [@None (C * list E)])) by (now rewrite app_length). rewrite (value_snoc _ _ _ eq_refl). cbn [bind]. eauto.
  Qed.
End Copies.
