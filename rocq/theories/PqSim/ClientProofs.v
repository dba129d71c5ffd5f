(** The clients of src/pqsim/Model.h over any data structure that meets Spec/PQState.v. *)
From Coq Require Import List Arith NArith Bool Permutation Lia.
From Verif.Base Require Import Res Order.
From Verif.Spec Require Import PQ PQFacts PQState PQStateFacts.
From Verif.PqSim Require Import Model.
Import ListNotations.
Local Open Scope N_scope.
Local Notation length := List.length.

Lemma flat_map_perm {A B} (f : A -> list B) l l' : Permutation l l' -> Permutation (flat_map f l) (flat_map f l').
Proof.
  induction 1; simpl; auto.
  - now apply Permutation_app_head.
  - rewrite !app_assoc. apply Permutation_app_tail, Permutation_app_comm.
  - etransitivity; eauto.
Qed.

Section Client.
  Context {E : Type}.
  (** The value of an entry, all the values it stands for, and what is left of it after its value *)
  Variable key : E -> N.
  Variable vs : E -> list N.
  Variable nexts : E -> list E.
  Variable good : E -> Prop.
  Hypothesis Hg1 : forall x, good x -> vs x = key x :: flat_map vs (nexts x).
  Hypothesis Hg2 : forall x, good x -> Forall good (nexts x).
  Hypothesis Hg3 : forall x z, good x -> In z (vs x) -> z <= key x.
  Hypothesis Hg4 : forall x, (length (nexts x) <= 1)%nat.

  Notation lt := (fun a b => key a <? key b).
  Variable dd : list E -> E -> E -> E -> list E -> Prop.
  Hypothesis Hdd : forall p a b c p', dd p a b c p' -> c = a /\ key a = key b /\ p' = p ++ nexts b.

  (** All values held, and how many *)
  Definition held (l p : list E) : list N := flat_map vs l ++ flat_map vs p.
  Definition total (l p : list E) : nat := length (held l p).
  Definition has_key (l : list E) (k : N) : Prop := exists x, In x l /\ key x = k.
  (** No pending value is above all values of the queue. *)
  Definition covered (l p : list E) : Prop := forall z, In z (flat_map vs p) -> exists x, In x l /\ z <= key x.

  Lemma good_vs_nil x : good x -> vs x <> [].
  Proof. intros H. rewrite Hg1 by auto. discriminate. Qed.

  Lemma goods_nil p : Forall good p -> flat_map vs p = [] -> p = [].
  Proof.
    destruct p as [|x p]; auto. intros H E0. inversion H; subst. simpl in E0. apply app_eq_nil in E0 as [E0 _].
    now apply good_vs_nil in E0.
  Qed.

  Lemma goods_count p : Forall good p -> (length p <= length (flat_map vs p))%nat.
  Proof.
    induction 1 as [|x p Hx _ IH]; simpl; auto. rewrite app_length. rewrite Hg1 by auto. simpl. lia.
  Qed.

  Lemma key_in x : good x -> In (key x) (vs x).
  Proof. intros H. rewrite Hg1 by auto. now left. Qed.

  Lemma smerges_goods p l p' l' : smerges dd p l p' l' -> Forall good l -> Forall good p -> Forall good l' /\ Forall good p'.
  Proof.
    induction 1 as [p l l' Hp|p l a b c p1 m p' l' Hp Hd H IH]; intros Hl Hpp.
    - split; auto. now rewrite <- Hp.
    - apply Hdd in Hd as (-> & _ & ->). rewrite Hp in Hl. inversion Hl as [|? ? Ha Hl1]; subst. inversion Hl1 as [|? ? Hb Hm]; subst.
      apply IH; [now constructor|]. apply Forall_app. auto.
  Qed.

  Lemma smerges_held p l p' l' : smerges dd p l p' l' -> Forall good l -> Forall good p ->
    forall z, In z (held l' p') <-> In z (held l p).
  Proof.
    unfold held. induction 1 as [p l l' Hp|p l a b c p1 m p' l' Hp Hd H IH]; intros Hl Hpp z.
    - rewrite !in_app_iff. pose proof (flat_map_perm vs _ _ Hp) as Hf. split; intros [Hz|Hz]; auto; left.
      + eapply Permutation_in; [symmetry; exact Hf|auto].
      + eapply Permutation_in; [exact Hf|auto].
    - apply Hdd in Hd as (-> & Hk & ->). pose proof (flat_map_perm vs _ _ Hp) as Hf.
      rewrite Hp in Hl. inversion Hl as [|? ? Ha Hl1]; subst. inversion Hl1 as [|? ? Hb Hm]; subst.
      rewrite IH; [|now constructor|apply Forall_app; auto].
      assert (Hbz : In z (vs b) <-> z = key a \/ In z (flat_map vs (nexts b))).
      { rewrite (Hg1 b) at 1 by auto. rewrite Hk. simpl. split; intros [?|?]; auto. }
      assert (Haz : z = key a -> In z (vs a)) by (intros ->; now apply key_in).
      assert (Hlz : In z (flat_map vs l) <-> In z (vs a) \/ In z (vs b) \/ In z (flat_map vs m)).
      { split; intros Hz.
        - apply (Permutation_in _ Hf) in Hz. simpl in Hz. rewrite !in_app_iff in Hz. auto.
        - apply (Permutation_in _ (Permutation_sym Hf)). simpl. rewrite !in_app_iff. auto. }
      simpl. rewrite flat_map_app, !in_app_iff, Hlz, Hbz. tauto.
  Qed.

  Lemma smerges_keys p l p' l' : smerges dd p l p' l' -> forall k, has_key l' k <-> has_key l k.
  Proof.
    induction 1 as [p l l' Hp|p l a b c p1 m p' l' Hp Hd H IH]; intros k.
    - split; intros (x & Hx & Hk); exists x; split; auto.
      + eapply Permutation_in; [symmetry; exact Hp|auto].
      + eapply Permutation_in; [exact Hp|auto].
    - apply Hdd in Hd as (-> & Hk & ->). rewrite IH. split; intros (x & Hx & Hxk).
      + exists x; split; auto. eapply Permutation_in; [symmetry; exact Hp|]. destruct Hx as [->|Hx]; [now left|right; now right].
      + apply (Permutation_in _ Hp) in Hx as [->|[->|Hx]].
        * exists x; split; auto. now left.
        * exists a; split; [now left|congruence].
        * exists x; split; auto. now right.
  Qed.

  Lemma smerges_covered p l p' l' : smerges dd p l p' l' -> Forall good l -> covered l p -> covered l' p'.
  Proof.
    induction 1 as [p l l' Hp|p l a b c p1 m p' l' Hp Hd H IH]; intros Hl Hc.
    - intros z Hz. destruct (Hc z Hz) as (x & Hx & Hle). exists x; split; auto. eapply Permutation_in; eauto.
    - apply Hdd in Hd as (-> & Hk & ->). rewrite Hp in Hl. inversion Hl as [|? ? Ha Hl1]; subst. inversion Hl1 as [|? ? Hb Hm]; subst.
      apply IH; [now constructor|]. intros z Hz. rewrite flat_map_app, in_app_iff in Hz. destruct Hz as [Hz|Hz].
      + destruct (Hc z Hz) as (x & Hx & Hle). apply (Permutation_in _ Hp) in Hx as [->|[->|Hx]].
        * exists x; split; auto. now left.
        * exists a; split; [now left|now rewrite Hk].
        * exists x; split; auto. now right.
      + exists a. split; [now left|]. rewrite Hk. apply Hg3; auto. rewrite Hg1 by auto. now right.
  Qed.

  Lemma smerges_total p l p' l' : smerges dd p l p' l' -> Forall good l ->
    (total l' p' + length p' <= total l p + length p)%nat /\ (total l' p' <= total l p)%nat.
  Proof.
    unfold total, held. induction 1 as [p l l' Hp|p l a b c p1 m p' l' Hp Hd H IH]; intros Hl.
    - rewrite !app_length, (Permutation_length (flat_map_perm vs _ _ Hp)). lia.
    - apply Hdd in Hd as (-> & Hk & ->). pose proof (Permutation_length (flat_map_perm vs _ _ Hp)) as Hf.
      rewrite Hp in Hl. inversion Hl as [|? ? Ha Hl1]; subst. inversion Hl1 as [|? ? Hb Hm]; subst.
      destruct IH as [H1 H2]; [now constructor|]. pose proof (f_equal (@length N) (Hg1 b Hb)) as Hvb. pose proof (Hg4 b) as H4.
      rewrite !app_length in *. simpl in *. rewrite flat_map_app, !app_length in *. lia.
  Qed.

  (** [np]: de-duplication never makes anything pending. *)
  Variable np : bool.
  Hypothesis Hnp : np = true -> forall p a b c p', dd p a b c p' -> p' = p.
  Lemma smerges_np p l p' l' : np = true -> smerges dd p l p' l' -> p' = p.
  Proof. intros Hn. induction 1 as [|p l a b c p1 m p' l' Hp Hd H IH]; auto. apply Hnp in Hd; auto. congruence. Qed.

  Variable St : Type.
  Variable step : St * list E -> op E -> res ((St * list E) * out E).
  Variable inv : St -> Prop.
  Variable abs : St -> list E.
  Variable api : op E -> bool.
  Hypothesis Hapi : (forall x, api (Push x) = true) /\ api Pop = true /\ api Top = true /\ api Empty = true.
  Hypothesis Hstep : forall s p o, inv s -> api o = true ->
    match step (s, p) o with
    | Ok ((s', p'), r) => inv s' /\ pstep lt dd p (abs s) o r p' (abs s')
    | UB => abs s = [] /\ needs_nonempty o = true
    | Throw _ => False
    | NoFuel => False
    end.

  Definition J (sp : St * list E) : Prop :=
    let '(s, p) := sp in
    inv s /\ Forall good (abs s) /\ Forall good p /\ covered (abs s) p /\ (np = true -> p = []).
  Definition V (sp : St * list E) : list N := held (abs (fst sp)) (snd sp).
  Definition T (sp : St * list E) : nat := total (abs (fst sp)) (snd sp).

  (** What any merging step does to the invariant *)
  Lemma J_smerges s p s' p' : J (s, p) -> inv s' -> smerges dd p (abs s) p' (abs s') ->
    J (s', p') /\ (forall z, In z (V (s', p')) <-> In z (V (s, p))) /\ (T (s', p') <= T (s, p))%nat /\
    (forall k, has_key (abs s') k <-> has_key (abs s) k).
  Proof.
    intros (Hi & Hl & Hp & Hc & Hn) Hi' Hm. destruct (smerges_goods _ _ _ _ Hm Hl Hp) as [Hl' Hp'].
    split; [|split; [|split]].
    - repeat split; auto.
      + eapply smerges_covered; eauto.
      + intros H. rewrite (smerges_np _ _ _ _ H Hm). auto.
    - apply smerges_held; auto.
    - apply smerges_total; auto.
    - eapply smerges_keys; eauto.
  Qed.

  Lemma push_ok s p x : inv s -> exists s' p', q_push St E step (s, p) x = Ok (s', p') /\ inv s' /\ smerges dd p (x :: abs s) p' (abs s').
  Proof.
    intros Hi. unfold q_push. pose proof (Hstep s p (Push x) Hi (proj1 Hapi x)) as H.
    destruct (step (s, p) (Push x)) as [[[s' p'] r]| | |]; try tauto.
    - destruct H as [Hi' Hs]. inversion Hs; subst. simpl. eauto.
    - destruct H as [_ H]; discriminate.
  Qed.

  Lemma empty_ok s p : inv s -> exists s' e, q_empty St E step (s, p) = Ok ((s', p), e) /\ inv s' /\ Permutation (abs s) (abs s') /\
    (e = true <-> abs s = []).
  Proof.
    intros Hi. unfold q_empty. pose proof (Hstep s p Empty Hi (proj2 (proj2 (proj2 Hapi)))) as H.
    destruct (step (s, p) Empty) as [[[s' p'] r]| | |]; try tauto.
    - destruct H as [Hi' Hs]. inversion Hs; subst. simpl. eexists; eexists. split; [reflexivity|]. repeat split; auto.
      + destruct (abs s); [auto|discriminate].
      + intros ->. reflexivity.
    - destruct H as [_ H]; discriminate.
  Qed.

  Lemma top_ok s p : inv s -> abs s <> [] -> exists s' p' x, q_top St E step (s, p) = Ok ((s', p'), x) /\ inv s' /\
    smerges dd p (abs s) p' (abs s') /\ is_max lt x (abs s') /\ step (s, p) Top = Ok ((s', p'), OEntry x).
  Proof.
    intros Hi Hne. unfold q_top. pose proof (Hstep s p Top Hi (proj1 (proj2 (proj2 Hapi)))) as H.
    destruct (step (s, p) Top) as [[[s' p'] r]| | |]; try tauto.
    destruct H as [Hi' Hs]. inversion Hs; subst. simpl. exists s', p', x. auto.
  Qed.

  Lemma pop_ok s p : inv s -> abs s <> [] -> exists s' p' x p1 m, q_pop St E step (s, p) = Ok ((s', p'), x) /\ inv s' /\
    smerges dd p (abs s) p1 (x :: m) /\ is_max lt x (x :: m) /\ smerges dd p1 m p' (abs s').
  Proof.
    intros Hi Hne. unfold q_pop. pose proof (Hstep s p Pop Hi (proj1 (proj2 Hapi))) as H.
    destruct (step (s, p) Pop) as [[[s' p'] r]| | |]; try tauto.
    destruct H as [Hi' Hs]. inversion Hs; subst. simpl. exists s', p', x, p1, m. auto.
  Qed.

  (** The greatest value held is the value of some entry of the queue. *)
  Definition top_is (s : St) (v : N) : Prop := has_key (abs s) v /\ forall k, has_key (abs s) k -> k <= v.

  Lemma top_max s p v : J (s, p) -> top_is s v -> In v (V (s, p)) /\ forall z, In z (V (s, p)) -> z <= v.
  Proof.
    intros (Hi & Hl & Hp & Hc & _) [(x & Hx & <-) Hmax]. unfold V, held; simpl. split.
    - apply in_or_app. left. apply in_flat_map. exists x. split; auto. apply key_in. rewrite Forall_forall in Hl; auto.
    - intros z Hz. apply in_app_or in Hz as [Hz|Hz].
      + apply in_flat_map in Hz as (y & Hy & Hz). rewrite Forall_forall in Hl. apply Hg3 in Hz; auto.
        specialize (Hmax (key y) (ex_intro _ y (conj Hy eq_refl))). lia.
      + destruct (Hc z Hz) as (y & Hy & Hz'). specialize (Hmax (key y) (ex_intro _ y (conj Hy eq_refl))). lia.
  Qed.

  Lemma max_top_is s x l : is_max lt x l -> (forall k, has_key l k <-> has_key (abs s) k) -> top_is s (key x).
  Proof.
    intros [Hin Hmax] Hk. split; [apply Hk; exists x; auto|]. intros k H. apply Hk in H as (y & Hy & <-).
    specialize (Hmax y Hy). apply N.ltb_ge in Hmax. auto.
  Qed.

  Lemma top_unique s v w : top_is s v -> top_is s w -> v = w.
  Proof. intros [H1 H2] [H3 H4]. specialize (H2 w H3). specialize (H4 v H1). lia. Qed.

  Lemma live_nonempty s p : J (s, p) -> V (s, p) <> [] -> abs s <> [].
  Proof.
    intros (Hi & Hl & Hp & Hc & _) HV Ha. apply HV. unfold V, held; simpl. rewrite Ha. simpl.
    destruct (flat_map vs p) as [|z r] eqn:Hz; auto. destruct (Hc z) as (x & Hx & _); [rewrite Hz; now left|].
    rewrite Ha in Hx. destruct Hx.
  Qed.

  (** ** The loops *)
  (** One pass of a loop body on a queue whose greatest value is [v], for at most [n] values *)
  Definition body_ok (body : St * list E -> res (St * list E)) (n : nat) : Prop :=
    forall s p v, J (s, p) -> top_is s v -> (T (s, p) <= n)%nat ->
    exists s' p', body (s, p) = Ok (s', p') /\ J (s', p') /\ (T (s', p') < T (s, p))%nat /\
      (forall z, In z (V (s', p')) -> In z (V (s, p))) /\
      (forall z, In z (V (s, p)) -> z = v \/ In z (V (s', p'))).

  Lemma do_loop_ok body n : body_ok body n -> forall fuel s p v, J (s, p) -> top_is s v -> (T (s, p) <= fuel)%nat -> (T (s, p) <= n)%nat ->
    exists s' p', do_loop St E step key body fuel v (s, p) = Ok (s', p') /\ J (s', p') /\ (T (s', p') <= T (s, p))%nat /\
      forall z, In z (V (s', p')) <-> In z (V (s, p)) /\ z <> v.
  Proof.
    intros Hb. induction fuel as [|f IH]; intros s p v HJ Ht Hf Hn.
    - exfalso. destruct (top_max _ _ _ HJ Ht) as [Hin _]. unfold T, total in Hf. change (held (abs (fst (s, p))) (snd (s, p))) with (V (s, p)) in Hf.
      destruct (V (s, p)); simpl in *; [auto|lia].
    - cbn [do_loop]. destruct (Hb s p v HJ Ht Hn) as (s1 & p1 & -> & HJ1 & HT1 & Hsub & Hsup). cbn [bind].
      destruct (top_max _ _ _ HJ Ht) as [_ Hvmax].
      unfold q_again. destruct (empty_ok s1 p1 (proj1 HJ1)) as (s2 & e & -> & Hi2 & Hperm & He). cbn [bind].
      destruct (J_smerges s1 p1 s2 p1 HJ1 Hi2 (sm_perm dd p1 _ _ Hperm)) as (HJ2 & HV2 & HT2 & Hk2).
      destruct e.
      + cbn [bind]. exists s2, p1. split; auto. split; auto. split; [lia|]. intros z. rewrite HV2. split.
        * intros Hz. exfalso. apply (live_nonempty s1 p1 HJ1); [|now apply He]. intros H0. now rewrite H0 in Hz.
        * intros [Hz Hzv]. destruct (Hsup z Hz); [congruence|auto].
      + assert (Hne : abs s2 <> []).
        { intros H0. rewrite H0 in Hperm. symmetry in Hperm. apply Permutation_nil in Hperm. apply He in Hperm. discriminate. }
        destruct (top_ok s2 p1 Hi2 Hne) as (s3 & p3 & x & -> & Hi3 & Hm3 & Hmax & _). cbn [bind].
        destruct (J_smerges s2 p1 s3 p3 HJ2 Hi3 Hm3) as (HJ3 & HV3 & HT3 & Hk3).
        assert (Htop3 : top_is s3 (key x)) by (apply (max_top_is s3 x (abs s3)); auto; tauto).
        assert (Hsub3 : forall z, In z (V (s3, p3)) <-> In z (V (s1, p1))) by (intros z; rewrite HV3; apply HV2).
        destruct (N.eqb_spec (key x) v) as [Hkv|Hkv].
        * rewrite Hkv in Htop3. destruct (IH s3 p3 v HJ3 Htop3) as (s' & p' & -> & HJ' & HT' & HV'); try lia.
          exists s', p'. split; auto. split; auto. split; [lia|]. intros z. rewrite HV', Hsub3. split.
          -- intros [Hz Hzv]; auto.
          -- intros [Hz Hzv]. destruct (Hsup z Hz); [congruence|auto].
        * exists s3, p3. split; auto. split; auto. split; [lia|]. intros z. rewrite Hsub3. split.
          -- intros Hz. split; auto. intros ->. destruct (top_max _ _ _ HJ3 Htop3) as [Hkin Hkmax].
             apply Hsub3 in Hz. specialize (Hkmax v Hz). apply Hsub3, Hsub, Hvmax in Hkin. lia.
          -- intros [Hz Hzv]. destruct (Hsup z Hz); [congruence|auto].
  Qed.

  Lemma flush_ok : forall fuel s p, inv s -> Forall good (abs s) -> Forall good p -> (T (s, p) + length p <= fuel)%nat ->
    exists s', flush St E step fuel (s, p) = Ok (s', []) /\ inv s' /\ Forall good (abs s') /\ (T (s', []) <= T (s, p))%nat /\
      forall z, In z (V (s', [])) <-> In z (V (s, p)).
  Proof.
    induction fuel as [|f IH]; intros s p Hi Hl Hp Hf; cbn [flush snd fst]; destruct (rev p) as [|x r] eqn:Hr.
    - apply (f_equal (@rev E)) in Hr. rewrite rev_involutive in Hr. simpl in Hr. subst p. exists s. repeat split; auto.
    - apply (f_equal (@rev E)) in Hr. rewrite rev_involutive in Hr. simpl in Hr. subst p. rewrite app_length in Hf. simpl in Hf. lia.
    - apply (f_equal (@rev E)) in Hr. rewrite rev_involutive in Hr. simpl in Hr. subst p. exists s. repeat split; auto.
    - apply (f_equal (@rev E)) in Hr. rewrite rev_involutive in Hr. simpl in Hr. subst p.
      apply Forall_app in Hp as [Hp Hx]. inversion Hx as [|? ? Hx1 _]; subst.
      destruct (push_ok s (rev r) x Hi) as (s1 & p1 & -> & Hi1 & Hm). cbn [bind].
      assert (Hl1 : Forall good (x :: abs s)) by now constructor.
      destruct (smerges_goods _ _ _ _ Hm Hl1 Hp) as [Hg Hgp]. destruct (smerges_total _ _ _ _ Hm Hl1) as [Ht1 Ht2].
      pose proof (smerges_held _ _ _ _ Hm Hl1 Hp) as HV.
      assert (Hsame : forall z, In z (held (x :: abs s) (rev r)) <-> In z (held (abs s) (rev r ++ [x]))).
      { intros z. unfold held. simpl. rewrite flat_map_app, !in_app_iff. simpl. rewrite app_nil_r. tauto. }
      assert (Htot : total (x :: abs s) (rev r) = total (abs s) (rev r ++ [x])).
      { unfold total, held. simpl. rewrite flat_map_app, !app_length. simpl. rewrite app_nil_r. lia. }
      unfold T in Hf. simpl in Hf. rewrite app_length in Hf. simpl in Hf.
      destruct (IH s1 p1) as (s' & -> & Hi' & Hg' & HT' & HV'); auto.
      { unfold T; simpl. lia. }
      exists s'. repeat split; auto.
      + unfold T in *; simpl in *. lia.
      + intros Hz. apply HV' in Hz. unfold V in *; simpl in *. now apply Hsame, HV.
      + intros Hz. apply HV'. unfold V in *; simpl in *. now apply HV, Hsame.
  Qed.

  (** A pass that removed the value [v] of the entry [x], put back what is left of it, and then flushed or had nothing to flush *)
  Lemma pass_ok s p v x p1 m s2 p2 :
    J (s, p) -> top_is s v -> key x = v -> smerges dd p (abs s) p1 (x :: m) -> inv s2 -> smerges dd p1 (nexts x ++ m) p2 (abs s2) ->
    Forall good (abs s2) /\ Forall good p2 /\ (np = true -> p2 = []) /\
    (T (s2, p2) < T (s, p))%nat /\ (forall z, In z (V (s2, p2)) -> In z (V (s, p))) /\
    (forall z, In z (V (s, p)) -> z = v \/ In z (V (s2, p2))).
  Proof.
    intros (Hi & Hl & Hp & Hc & Hn) Ht Hk H1 Hi2 H2.
    destruct (smerges_goods _ _ _ _ H1 Hl Hp) as [Hxm Hp1]. inversion Hxm as [|? ? Hx Hm]; subst.
    assert (Hnm : Forall good (nexts x ++ m)) by (apply Forall_app; auto).
    destruct (smerges_goods _ _ _ _ H2 Hnm Hp1) as [Hl2 Hp2].
    pose proof (smerges_held _ _ _ _ H1 Hl Hp) as HV1. pose proof (smerges_held _ _ _ _ H2 Hnm Hp1) as HV2.
    destruct (smerges_total _ _ _ _ H1 Hl) as [_ HT1]. destruct (smerges_total _ _ _ _ H2 Hnm) as [_ HT2].
    assert (HT : S (total (nexts x ++ m) p1) = total (x :: m) p1).
    { unfold total, held. simpl. rewrite flat_map_app, !app_length. rewrite (Hg1 x) by auto. simpl. rewrite ?app_length. lia. }
    assert (HV : forall z, In z (held (x :: m) p1) <-> z = key x \/ In z (held (nexts x ++ m) p1)).
    { intros z. unfold held. simpl. rewrite flat_map_app. rewrite (Hg1 x) by auto. simpl. rewrite ?in_app_iff.
      split; intros H; intuition auto. }
    split; [auto|]. split; [auto|]. split; [|split; [|split]].
    - intros H. rewrite (smerges_np _ _ _ _ H H2), (smerges_np _ _ _ _ H H1). auto.
    - unfold T; simpl. lia.
    - unfold V; simpl. intros z Hz. apply HV1, HV. right. now apply HV2.
    - unfold V; simpl. intros z Hz. apply HV1, HV in Hz as [Hz|Hz]; auto. right. now apply HV2.
  Qed.
End Client.
