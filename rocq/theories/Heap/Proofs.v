From Coq Require Import List Arith ZArith Bool Lia Permutation Wf_nat.
From Coq Require Import ZifyBool ZifyNat.
From Verif.Base Require Import Res Arr Order.
From Verif.Spec Require Import PQ PQFacts.
From Verif.Heap Require Import Model.
Import ListNotations.
Ltac Zify.zify_post_hook ::= Z.div_mod_to_equations.

(** * 1-based access *)
Definition tat {A} (t : list A) (n : nat) : option A := match n with 0 => None | S k => nth_error t k end.
Definition tupd {A} (t : list A) (n : nat) (v : A) : list A := match n with 0 => t | S k => upd t k v end.

Section TreeAccess.
  Context {A : Type}.
  Implicit Types (t : list A).

  Lemma tget_tat t n : tget t n = of_option (tat t n).
  Proof. destruct n; reflexivity. Qed.

  Lemma tat_some t n : 1 <= n <= length t -> exists v, tat t n = Some v.
  Proof. intros H; destruct n as [|k]; [lia|]. simpl. apply nth_error_lt; lia. Qed.

  Lemma tat_bound t n v : tat t n = Some v -> 1 <= n <= length t.
  Proof. destruct n as [|k]; simpl; [discriminate|]. intros H; apply nth_error_some_lt in H; lia. Qed.

  Lemma tset_tupd t n v : 1 <= n <= length t -> tset t n v = Ok (tupd t n v).
  Proof. intros H; destruct n as [|k]; [lia|]. simpl. apply vset_ok; lia. Qed.

  Lemma tupd_length t n v : length (tupd t n v) = length t.
  Proof. destruct n; simpl; auto using upd_length. Qed.

  Lemma tat_tupd_same t n v : 1 <= n <= length t -> tat (tupd t n v) n = Some v.
  Proof. intros H; destruct n as [|k]; [lia|]. simpl. apply nth_upd_same; lia. Qed.

  Lemma tat_tupd_other t n m v : n <> m -> tat (tupd t n v) m = tat t m.
  Proof.
    intros H; destruct n as [|n]; auto. destruct m as [|m]; auto. simpl. apply nth_upd_other; lia.
  Qed.

  Lemma tupd_perm t n x v : tat t n = Some x -> Permutation (x :: tupd t n v) (v :: t).
  Proof. destruct n as [|k]; simpl; [discriminate|]. apply upd_perm. Qed.

  Lemma tat_ext t t' : (forall n, tat t n = tat t' n) -> t = t'.
  Proof. intros H; apply nth_error_ext. intros i; exact (H (S i)). Qed.

  Lemma tat_removelast t n : n < length t -> tat (removelast t) n = tat t n.
  Proof. destruct n as [|k]; auto. intros H; simpl. apply nth_error_removelast; lia. Qed.

  Lemma tat_app_l t r n : n <= length t -> tat (t ++ r) n = tat t n.
  Proof. destruct n as [|k]; auto. simpl. intros; apply nth_error_app1; lia. Qed.

  Lemma tat_snoc t x : tat (t ++ [x]) (S (length t)) = Some x.
  Proof. simpl. rewrite nth_error_app2, Nat.sub_diag; auto. Qed.

  Lemma tat_last_perm t v : tat t (length t) = Some v -> Permutation t (v :: removelast t).
  Proof.
    intros H. apply removelast_perm. destruct (length t) as [|k]; [discriminate|].
    replace (S k - 1) with k by lia. exact H.
  Qed.

  Lemma tat_In t n v : tat t n = Some v -> In v t.
  Proof. destruct n; [discriminate|]. apply nth_error_In. Qed.

  Lemma In_tat t v : In v t -> exists n, tat t n = Some v.
  Proof. intros H; apply In_nth_error in H as [k Hk]. exists (S k); auto. Qed.

  Lemma nth_two_perm t i j a b : nth_error t i = Some a -> nth_error t j = Some b -> i <> j ->
    exists r, Permutation t (a :: b :: r).
  Proof.
    revert i j; induction t as [|x t IH]; intros [|i] [|j] Hi Hj Hne; simpl in *; try discriminate; try lia.
    - injection Hi as ->. apply nth_error_In, in_split in Hj as (l1 & l2 & ->).
      exists (l1 ++ l2). apply perm_skip. symmetry; apply Permutation_middle.
    - injection Hj as ->. apply nth_error_In, in_split in Hi as (l1 & l2 & ->).
      exists (l1 ++ l2). rewrite <- Permutation_middle. apply perm_swap.
    - destruct (IH i j Hi Hj ltac:(lia)) as [r Hr]. exists (x :: r).
      rewrite Hr. rewrite (perm_swap a x). apply perm_skip. apply perm_swap.
  Qed.

  Lemma tat_two_perm t p q a b : tat t p = Some a -> tat t q = Some b -> p <> q ->
    exists r, Permutation t (a :: b :: r).
  Proof.
    destruct p as [|p]; [discriminate|]. destruct q as [|q]; [discriminate|]. simpl.
    intros H1 H2 Hne. eapply nth_two_perm; eauto.
  Qed.
End TreeAccess.

(** * Ancestors of a node, itself included *)
Inductive anc (p : nat) : nat -> Prop :=
| anc_refl : anc p p
| anc_up i : anc p i -> 2 <= i -> anc p (i / 2).

Lemma anc_step p i : 2 <= p -> anc (p / 2) i -> anc p i.
Proof.
  intros Hp H; induction H as [|i H IH Hi].
  - apply anc_up; auto. constructor.
  - now apply anc_up.
Qed.

Lemma anc_inv p i : anc p i -> i = p \/ (2 <= p /\ anc (p / 2) i).
Proof.
  intros H; induction H as [|i H IH Hi]; auto.
  right. destruct IH as [->|[Hp IH]].
  - split; auto. constructor.
  - split; auto. now apply anc_up.
Qed.

Lemma anc_le p i : anc p i -> i <= p.
Proof. intros H; induction H as [|i H IH Hi]; auto. lia. Qed.

Lemma anc_pos p i : 1 <= p -> anc p i -> 1 <= i.
Proof. intros Hp H; induction H as [|i H IH Hi]; auto. lia. Qed.

Lemma anc_dec p : forall i, anc p i \/ ~ anc p i.
Proof.
  induction p as [p IH] using (well_founded_induction lt_wf); intros i.
  destruct (Nat.eq_dec i p) as [->|Hne]; [left; constructor|].
  destruct (le_lt_dec 2 p) as [Hp|Hp].
  - destruct (IH (p / 2) ltac:(lia) i) as [H|H].
    + left. now apply anc_step.
    + right. intros Ha. apply anc_inv in Ha as [|[_ Ha]]; tauto.
  - right. intros Ha. apply anc_inv in Ha as [|[Hp' _]]; lia.
Qed.

Lemma anc_chain p : forall i j, anc p i -> anc p j -> j < i -> j <= i / 2.
Proof.
  induction p as [p IH] using (well_founded_induction lt_wf); intros i j Hi Hj Hlt.
  pose proof (anc_le _ _ Hi) as Hip.
  apply anc_inv in Hj as [->|[Hp Hj]]; [lia|].
  apply anc_inv in Hi as [->|[_ Hi]].
  - now apply anc_le in Hj.
  - apply (IH (p / 2)); auto; lia.
Qed.

Section Heap.
  Context {E : Type}.
  Variable lt : E -> E -> bool.
  Variable eqv : E -> E -> bool.
  Variable supportDedup : bool.
  Variable dedup : E -> E -> E.
  Hypothesis Hsw : strict_weak lt.
  Hypothesis Hdedup : supportDedup = true -> forall a b, lt a b = false -> eqv a b = true -> equivalent lt (dedup a b) a.

  Notation dd := (dedup_dd supportDedup eqv dedup).
  Implicit Types (t : list E).

  Definition edge t i : Prop := forall u x, tat t (i / 2) = Some u -> tat t i = Some x -> lt u x = false.
  Definition valid_except t p : Prop := forall i, 2 <= i <= length t -> i <> p -> edge t i.
  Definition valid t : Prop := forall i, 2 <= i <= length t -> edge t i.

  Lemma valid_isValid t : valid t -> heap_isValid _ lt t = true.
  Proof.
    intros H. apply forallb_forall. intros i Hi. apply in_seq in Hi.
    assert (Hb : 2 <= i <= length t) by lia.
    rewrite !tget_tat.
    destruct (tat_some t (i / 2)) as [u Hu]; [lia|].
    destruct (tat_some t i) as [x Hx]; [lia|].
    rewrite Hu, Hx; simpl. now rewrite (H i Hb u x Hu Hx).
  Qed.

  (** * The root is maximal *)
  Lemma valid_root_max t r : valid t -> tat t 1 = Some r -> forall n x, tat t n = Some x -> lt r x = false.
  Proof.
    intros Hv Hr n. induction n as [n IH] using (well_founded_induction lt_wf); intros x Hx.
    pose proof (tat_bound _ _ _ Hx) as Hb.
    destruct (Nat.eq_dec n 1) as [->|Hn].
    - rewrite Hr in Hx; injection Hx as ->. apply (sw_irrefl lt Hsw).
    - destruct (tat_some t (n / 2)) as [u Hu]; [lia|].
      eapply (sw_neg_trans lt Hsw); [apply (IH (n / 2)); eauto; lia|].
      eapply (Hv n); eauto; lia.
  Qed.

  Lemma valid_is_max t r : valid t -> tat t 1 = Some r -> is_max lt r t.
  Proof.
    intros Hv Hr; split; [eapply tat_In; eauto|].
    intros y Hy. apply In_tat in Hy as [n Hn]. eapply valid_root_max; eauto.
  Qed.

  (** * moveHoleDown *)
  Lemma hole_step t hole c v : valid t -> 1 <= hole -> c / 2 = hole -> 2 <= c <= length t ->
    tat t c = Some v ->
    (forall d y, d / 2 = hole -> tat t d = Some y -> lt v y = false) ->
    valid (tupd t hole v).
  Proof.
    intros Hv Hh Hc Hcb Hat Hmax i Hi u x Hu Hx. rewrite tupd_length in Hi.
    destruct (Nat.eq_dec (i / 2) hole) as [He|Hne].
    - rewrite He in Hu. rewrite tat_tupd_same in Hu by lia. injection Hu as <-.
      rewrite tat_tupd_other in Hx by lia. eapply Hmax; eauto.
    - rewrite tat_tupd_other in Hu by lia.
      destruct (Nat.eq_dec i hole) as [->|Hni].
      + rewrite tat_tupd_same in Hx by lia. injection Hx as <-.
        destruct (tat_some t hole) as [h Hh']; [lia|].
        eapply (sw_neg_trans lt Hsw); [eapply (Hv hole); eauto; lia|].
        eapply (Hv c); eauto; try lia. now rewrite Hc.
      + rewrite tat_tupd_other in Hx by lia. eapply Hv; eauto.
  Qed.

  Lemma hole_perm t hole c h v R : tat t hole = Some h -> tat t c = Some v -> hole <> c ->
    Permutation t (h :: R) -> Permutation (tupd t hole v) (v :: R).
  Proof.
    intros Hh Hc Hne Hp. apply Permutation_cons_inv with h.
    rewrite (tupd_perm t hole h v Hh), Hp. apply perm_swap.
  Qed.

  Lemma hole_loop_spec fuel : forall t hole h R,
    valid t -> 1 <= hole <= length t -> tat t hole = Some h -> Permutation t (h :: R) ->
    length t + 1 - hole <= fuel ->
    exists t' hole' h', hole_loop _ lt fuel t hole ((length t + 1) / 2) = Ok (t', hole') /\
      valid t' /\ length t' = length t /\ (length t + 1) / 2 <= hole' <= length t /\
      tat t' hole' = Some h' /\ Permutation t' (h' :: R).
  Proof.
    induction fuel as [|f IH]; intros t hole h R Hv Hb Hh Hp Hf.
    - lia.
    - cbn [hole_loop]. destruct (Nat.ltb_spec hole ((length t + 1) / 2)) as [Hlt|Hge].
      + destruct (tat_some t (2 * hole)) as [a Ha]; [lia|].
        destruct (tat_some t (2 * hole + 1)) as [b Hbb]; [lia|].
        rewrite !tget_tat, Ha, Hbb. cbn [of_option bind].
        set (c := if lt a b then 2 * hole + 1 else 2 * hole).
        assert (Hc : exists v, tat t c = Some v /\ c / 2 = hole /\ 2 * hole <= c <= length t /\
                   (forall d y, d / 2 = hole -> tat t d = Some y -> lt v y = false)).
        { unfold c. destruct (lt a b) eqn:Hab.
          - exists b. repeat split; auto; try lia.
            intros d y Hd Hy. assert (d = 2 * hole \/ d = 2 * hole + 1) as [-> | ->] by lia.
            + rewrite Ha in Hy; injection Hy as <-. now apply (sw_asym lt Hsw).
            + rewrite Hbb in Hy; injection Hy as <-. apply (sw_irrefl lt Hsw).
          - exists a. repeat split; auto; try lia.
            intros d y Hd Hy. assert (d = 2 * hole \/ d = 2 * hole + 1) as [-> | ->] by lia.
            + rewrite Ha in Hy; injection Hy as <-. apply (sw_irrefl lt Hsw).
            + rewrite Hbb in Hy; injection Hy as <-. auto. }
        destruct Hc as (v & Hcv & Hc2 & Hcb & Hmax).
        rewrite tget_tat, Hcv. cbn [of_option bind].
        rewrite tset_tupd by lia. cbn [bind].
        assert (Hlen : length t = length (tupd t hole v)) by (now rewrite tupd_length).
        rewrite Hlen.
        apply (IH (tupd t hole v) c v R); try (rewrite tupd_length; lia).
        * eapply hole_step; eauto; lia.
        * rewrite tat_tupd_other by lia. exact Hcv.
        * eapply hole_perm; eauto. lia.
      + exists t, hole, h. repeat split; auto; lia.
  Qed.

  Lemma moveHoleDown_spec t h R :
    valid t -> tat t 1 = Some h -> Permutation t (h :: R) ->
    exists t' hole h', moveHoleDown _ lt t 1 = Ok (t', hole) /\
      valid t' /\ length t' = length t /\ 1 <= hole <= length t /\ length t < 2 * hole /\
      tat t' hole = Some h' /\ Permutation t' (h' :: R).
  Proof.
    intros Hv Hh Hp. pose proof (tat_bound _ _ _ Hh) as Hb.
    unfold moveHoleDown.
    destruct (hole_loop_spec (length t) t 1 h R) as (t1 & hole & h1 & Hl & Hv1 & Hlen & Hhb & Hh1 & Hp1); auto; try lia.
    rewrite Hl. cbn [bind]. rewrite Hlen.
    destruct (Nat.eqb_spec hole ((length t + 1) / 2)) as [He|He]; cbn [andb].
    - destruct (Nat.even (length t)) eqn:Hev.
      + apply Nat.even_spec in Hev as [m Hm].
        destruct (tat_some t1 (2 * hole)) as [v Hv2]; [lia|].
        rewrite tget_tat, Hv2. cbn [of_option bind]. rewrite tset_tupd by lia. cbn [bind].
        exists (tupd t1 hole v), (2 * hole), v. split; [reflexivity|].
        rewrite tupd_length. repeat split; auto; try lia.
        * eapply (hole_step t1 hole (2 * hole)); eauto; try lia.
          intros d y Hd Hy. pose proof (tat_bound _ _ _ Hy).
          assert (d = 2 * hole) as -> by lia. rewrite Hv2 in Hy; injection Hy as <-. apply (sw_irrefl lt Hsw).
        * rewrite tat_tupd_other by lia. auto.
        * eapply (hole_perm t1 hole (2 * hole)); eauto. lia.
      + exists t1, hole, h1. repeat split; auto; try lia.
        assert (Hodd : Nat.odd (length t) = true) by (unfold Nat.odd; now rewrite Hev).
        apply Nat.odd_spec in Hodd as [m Hm]. lia.
    - exists t1, hole, h1. repeat split; auto; try lia.
  Qed.

  (** * moveValueUp *)

  (** [t1] is [t0] with the entries on the path from [p] up to [pos] moved one node down. *)
  Definition shifted t0 t1 p pos : Prop :=
    length t1 = length t0 /\
    (forall i, anc p i -> pos < i -> tat t1 i = tat t0 (i / 2)) /\
    (forall i, ~ (anc p i /\ pos < i) -> tat t1 i = tat t0 i).

  Lemma up_loop_spec t0 p v R h0 :
    1 <= p <= length t0 -> tat t0 p = Some h0 -> Permutation t0 (h0 :: R) ->
    forall fuel t pos h,
    pos <= fuel -> anc p pos -> 1 <= pos ->
    shifted t0 t p pos -> tat t pos = Some h -> Permutation t (h :: R) ->
    (forall i y, anc p i -> pos <= i -> i <> p -> tat t0 i = Some y -> lt y v = true) ->
    exists t1 pos1 dup h1, up_loop _ lt eqv supportDedup fuel t pos v = Ok (t1, pos1, dup) /\
      anc p pos1 /\ 1 <= pos1 /\ shifted t0 t1 p pos1 /\
      tat t1 pos1 = Some h1 /\ Permutation t1 (h1 :: R) /\
      (forall i y, anc p i -> pos1 <= i -> i <> p -> tat t0 i = Some y -> lt y v = true) /\
      (if dup then 2 <= pos1 /\ supportDedup = true /\
                   exists u, tat t0 (pos1 / 2) = Some u /\ lt u v = false /\ eqv u v = true
       else pos1 = 1 \/ exists u, tat t0 (pos1 / 2) = Some u /\ lt u v = false).
  Proof using lt eqv supportDedup. clear Hdedup Hsw dedup.
    intros Hp Hh0 Hperm0. induction fuel as [|f IH]; intros t pos h Hf Ha Hpos Hs Hh Hperm Hless; [lia|].
    cbn [up_loop]. pose proof (anc_le _ _ Ha) as Hle. destruct Hs as (Hlen & Hs1 & Hs2).
    destruct (Nat.eqb_spec pos 1) as [->|Hne].
    - exists t, 1, false, h. repeat split; auto.
    - destruct (tat_some t0 (pos / 2)) as [u Hu]; [lia|].
      assert (Htu : tat t (pos / 2) = Some u). { rewrite Hs2; auto. intros [_ ?]; lia. }
      rewrite tget_tat, Htu. cbn [of_option bind].
      destruct (lt u v) eqn:Huv.
      + rewrite tset_tupd by lia. cbn [bind].
        apply (IH (tupd t pos u) (pos / 2) u); try lia.
        * now apply anc_up; try lia.
        * repeat split.
          -- now rewrite tupd_length.
          -- intros i Hi Hgt. destruct (Nat.eq_dec i pos) as [->|Hni].
             ++ rewrite tat_tupd_same by lia. now rewrite Hu.
             ++ rewrite tat_tupd_other by auto. apply Hs1; auto.
                destruct (le_lt_dec i pos); auto.
                assert (i <= pos / 2) by (apply (anc_chain p); auto; lia). lia.
          -- intros i Hni. destruct (Nat.eq_dec i pos) as [->|Hnp].
             ++ exfalso; apply Hni; split; auto. lia.
             ++ rewrite tat_tupd_other by auto. apply Hs2. intros [Hai Hgt]; apply Hni; split; auto; lia.
        * rewrite tat_tupd_other by lia. exact Htu.
        * eapply (hole_perm t pos (pos / 2)); eauto; lia.
        * intros i y Hai Hle2 Hnp Hy. destruct (le_lt_dec pos i) as [Hge|Hlt].
          -- eapply Hless; eauto.
          -- assert (i <= pos / 2) by (apply (anc_chain p); auto). assert (i = pos / 2) as -> by lia.
             congruence.
      + destruct (supportDedup && eqv u v) eqn:Hsd.
        * apply andb_true_iff in Hsd as [Hsd Heq]. exists t, pos, true, h. repeat split; auto; try lia. eauto.
        * exists t, pos, false, h. repeat split; auto. right; eauto.
  Qed.

  Lemma shifted_refl t p : shifted t t p p.
  Proof using E. clear Hdedup Hsw dedup supportDedup.
    repeat split; auto. intros i Hi Hlt. apply anc_le in Hi; lia.
  Qed.

  (** Placing the value at the end of the path gives a valid heap. *)
  Lemma place_valid t0 t1 p pos v :
    1 <= p <= length t0 -> length t0 < 2 * p -> valid_except t0 p ->
    anc p pos -> 1 <= pos -> shifted t0 t1 p pos ->
    (forall i y, anc p i -> pos <= i -> i <> p -> tat t0 i = Some y -> lt y v = true) ->
    (pos = 1 \/ exists u, tat t0 (pos / 2) = Some u /\ lt u v = false) ->
    valid (tupd t1 pos v).
  Proof.
    intros Hp Hleaf Hve Ha Hpos (Hlen & Hs1 & Hs2) Hless Hstop i Hi u x Hu Hx.
    rewrite tupd_length, Hlen in Hi. pose proof (anc_le _ _ Ha) as Hle.
    assert (Hdp : anc p (i / 2) -> i / 2 <> p) by lia.
    destruct (Nat.eq_dec i pos) as [->|Hip].
    - rewrite tat_tupd_same in Hx by lia. injection Hx as <-.
      rewrite tat_tupd_other in Hu by lia.
      destruct Hstop as [->|(u' & Hu' & Hlt)]; [lia|].
      rewrite Hs2 in Hu by (intros [_ ?]; lia). congruence.
    - rewrite (tat_tupd_other t1 pos i) in Hx by auto.
      destruct (Nat.eq_dec (i / 2) pos) as [He|Hne].
      + rewrite He in Hu. rewrite tat_tupd_same in Hu by lia. injection Hu as <-.
        assert (Hpp : pos <> p) by lia.
        destruct (tat_some t0 pos) as [y Hy]; [lia|].
        assert (Hyv : lt y v = true) by (eapply (Hless pos); eauto).
        destruct (anc_dec p i) as [Hai|Hnai].
        * rewrite Hs1 in Hx by (auto; lia). rewrite He, Hy in Hx. injection Hx as <-. now apply (sw_asym lt Hsw).
        * rewrite Hs2 in Hx by tauto.
          assert (Hyx : lt y x = false). { eapply (Hve i); eauto; try lia. intros ->. apply Hnai; constructor. now rewrite He. }
          apply (sw_asym lt Hsw). eapply (sw_le_lt lt Hsw); eauto.
      + rewrite tat_tupd_other in Hu by auto.
        destruct (anc_dec p i) as [Hai|Hnai].
        * assert (Hai2 : anc p (i / 2)) by (apply anc_up; auto; lia).
          destruct (le_lt_dec i pos) as [Hle2|Hgt].
          -- rewrite Hs2 in Hx by (intros [_ ?]; lia). rewrite Hs2 in Hu by (intros [_ ?]; lia).
             eapply (Hve i); eauto; lia.
          -- assert (pos <= i / 2) by (apply (anc_chain p); auto).
             rewrite Hs1 in Hx by auto. rewrite Hs1 in Hu by (auto; lia).
             eapply (Hve (i / 2)); eauto; lia.
        * rewrite Hs2 in Hx by tauto.
          assert (Hnp : i <> p) by (intros ->; apply Hnai; constructor).
          destruct (anc_dec p (i / 2)) as [Ha2|Hna2].
          -- destruct (le_lt_dec (i / 2) pos) as [Hle2|Hgt].
             ++ rewrite Hs2 in Hu by (intros [_ ?]; lia). eapply (Hve i); eauto.
             ++ rewrite Hs1 in Hu by auto.
                destruct (tat_some t0 (i / 2)) as [y Hy]; [lia|].
                eapply (sw_neg_trans lt Hsw).
                ** eapply (Hve (i / 2)); eauto; lia.
                ** eapply (Hve i); eauto.
          -- rewrite Hs2 in Hu by tauto. eapply (Hve i); eauto.
  Qed.

  (** Moving the elements back restores every node but [p]. *)
  Lemma back_loop_spec t0 p pos :
    1 <= p <= length t0 -> anc p pos -> 1 <= pos ->
    forall fuel t q tmp,
    q <= fuel -> anc p q -> pos <= q -> q <> p ->
    length t = length t0 -> tat t0 q = Some tmp ->
    (forall i, anc p i -> pos < i -> i <= q -> tat t i = tat t0 (i / 2)) ->
    (forall i, i <> p -> ~ (anc p i /\ pos < i /\ i <= q) -> tat t i = tat t0 i) ->
    exists t', back_loop _ fuel t q pos tmp = Ok t' /\ length t' = length t0 /\
      (forall i, i <> p -> tat t' i = tat t0 i) /\ tat t' p = tat t p.
  Proof using E. clear Hdedup Hsw dedup lt eqv.
    intros Hp Ha Hpos. induction fuel as [|f IH]; intros t q tmp Hf Haq Hle Hqp Hlen Htmp H1 H2; [lia|].
    cbn [back_loop]. destruct (Nat.eqb_spec q pos) as [->|Hne].
    - exists t. repeat split; auto. intros i Hi. apply H2; auto. intros (_ & ? & ?); lia.
    - pose proof (anc_le _ _ Haq) as Hqle.
      assert (Hq2 : pos <= q / 2) by (apply (anc_chain p); auto; lia).
      destruct (tat_some t0 (q / 2)) as [y Hy]; [lia|].
      assert (Htq : tat t q = Some y). { rewrite H1; auto; lia. }
      rewrite tget_tat, Htq. cbn [of_option bind]. rewrite tset_tupd by lia. cbn [bind].
      destruct (IH (tupd t q tmp) (q / 2) y) as (t' & Hb & Hl' & Hr & Hrp); try lia; auto.
      + apply anc_up; auto; lia.
      + now rewrite tupd_length.
      + intros i Hi Hgt Hil. rewrite tat_tupd_other by lia. apply H1; auto; lia.
      + intros i Hip Hni. destruct (Nat.eq_dec q i) as [->|Hqi].
        * rewrite tat_tupd_same by lia. auto.
        * rewrite tat_tupd_other by auto. apply H2; auto. intros (Hai & Hgt & Hil). apply Hni.
          repeat split; auto. apply (anc_chain p); auto; lia.
      + exists t'. repeat split; auto. rewrite Hrp. apply tat_tupd_other; auto.
  Qed.

  Lemma equivalent_edge_l a b c : equivalent lt a b -> lt b c = false -> lt a c = false.
  Proof. intros [H1 H2] H. eapply (sw_neg_trans lt Hsw); eauto. Qed.
  Lemma equivalent_edge_r a b c : equivalent lt a b -> lt c b = false -> lt c a = false.
  Proof. intros [H1 H2] H. eapply (sw_neg_trans lt Hsw); eauto. Qed.

  Lemma moveValueUp_spec fuel : forall t p v R h,
    length t < fuel -> 1 <= p <= length t -> length t < 2 * p -> valid_except t p ->
    tat t p = Some h -> Permutation t (h :: R) ->
    exists t', moveValueUp _ lt eqv supportDedup dedup fuel t p v = Ok t' /\ valid t' /\ merges dd (v :: R) t'.
  Proof.
    induction fuel as [|f IH]; intros t p v R h Hf Hp Hleaf Hve Hh Hperm; [lia|].
    cbn [moveValueUp].
    destruct (up_loop_spec t p v R h Hp Hh Hperm p t p h)
      as (t1 & pos & dup & h1 & Hup & Ha & Hpos & Hs & Hh1 & Hp1 & Hless & Hend); auto; try lia.
    { constructor. } { apply shifted_refl. } { intros i y Hi Hge Hne _. apply anc_le in Hi; lia. }
    rewrite Hup. cbn [bind]. pose proof Hs as (Hlen & Hs1 & Hs2). pose proof (anc_le _ _ Ha) as Hple.
    destruct dup.
    - destruct Hend as (Hpos2 & Hsd & u & Hu & Huv & Heq).
      assert (Ht1u : tat t1 (pos / 2) = Some u). { rewrite Hs2; auto. intros [_ ?]; lia. }
      rewrite tget_tat, Ht1u. cbn [of_option bind]. rewrite tset_tupd by lia. cbn [bind].
      set (d := dedup u v). set (t2 := tupd t1 (pos / 2) d).
      assert (Hlen2 : length t2 = length t) by (unfold t2; now rewrite tupd_length).
      (* after moving back, all nodes but p are those of t with d at pos/2 *)
      set (t0' := tupd t (pos / 2) d).
      assert (Hl0 : length t0' = length t) by (unfold t0'; now rewrite tupd_length).
      assert (Hback : exists t3 h3, (if Nat.eqb pos p then Ok t2
                      else let* tmp := tget t2 p in back_loop _ p t2 (p / 2) pos tmp) = Ok t3 /\
                      length t3 = length t /\ (forall i, i <> p -> tat t3 i = tat t0' i) /\ tat t3 p = Some h3).
      { destruct (Nat.eqb_spec pos p) as [->|Hpp].
        - exists t2, h. repeat split; auto.
          + intros i Hi. unfold t2, t0'. destruct (Nat.eq_dec (p / 2) i) as [<-|Hni].
            * rewrite !tat_tupd_same by lia. auto.
            * rewrite !tat_tupd_other by auto. apply Hs2. intros [Hai ?]. apply anc_le in Hai; lia.
          + unfold t2. rewrite tat_tupd_other by lia. rewrite Hs2; auto. intros [_ ?]; lia.
        - assert (Hge2 : pos <= p / 2) by (apply (anc_chain p); auto; [constructor|lia]).
          destruct (tat_some t (p / 2)) as [tmp Htmp]; [lia|].
          assert (Ht2p : tat t2 p = Some tmp).
          { unfold t2. rewrite tat_tupd_other by lia. rewrite Hs1; auto; [constructor|lia]. }
          rewrite tget_tat, Ht2p. cbn [of_option bind].
          destruct (back_loop_spec t0' p pos) with (fuel := p) (t := t2) (q := p / 2) (tmp := tmp)
            as (t3 & Hb & Hl3 & Hr & Hrp); auto; try lia.
          + apply anc_up; [constructor|lia].
          + unfold t0'. rewrite tat_tupd_other by lia. auto.
          + intros i Hi Hgt Hil. unfold t2, t0'. rewrite tat_tupd_other by lia.
            pose proof (anc_chain p i pos Hi Ha Hgt).
            rewrite tat_tupd_other by lia. apply Hs1; auto.
          + intros i Hip Hni. unfold t2, t0'. destruct (Nat.eq_dec (pos / 2) i) as [<-|Hne].
            * rewrite !tat_tupd_same by lia. auto.
            * rewrite !tat_tupd_other by auto. apply Hs2. intros [Hai Hgt]. apply Hni. repeat split; auto.
              pose proof (anc_le _ _ Hai). apply (anc_chain p); auto; [constructor|lia].
          + exists t3, tmp. repeat split; auto; try lia. congruence. }
      destruct Hback as (t3 & h3 & Hb & Hl3 & Hr3 & Hh3). rewrite Hb. cbn [bind].
      destruct (tat_some t3 (length t3)) as [w Hw]; [lia|].
      rewrite tget_tat, Hw. cbn [of_option bind].
      (* contents *)
      assert (Ht3 : t3 = tupd t0' p h3).
      { apply tat_ext. intros i. destruct (Nat.eq_dec p i) as [<-|Hne].
        - rewrite tat_tupd_same by lia. auto.
        - rewrite tat_tupd_other by auto. apply Hr3; auto. }
      destruct (tat_two_perm t p (pos / 2) h u) as [R0 HR0]; auto; try lia.
      assert (HRu : Permutation R (u :: R0)). { apply Permutation_cons_inv with h. now rewrite <- Hperm. }
      assert (Hp0 : Permutation t0' (h :: d :: R0)).
      { apply Permutation_cons_inv with u. unfold t0'. rewrite (tupd_perm t (pos / 2) u d Hu), HR0.
        rewrite (perm_swap h d). rewrite (perm_swap h u). rewrite (perm_swap u d). apply perm_skip. reflexivity. }
      assert (Hp3 : Permutation t3 (h3 :: d :: R0)).
      { rewrite Ht3. apply Permutation_cons_inv with h. rewrite (tupd_perm t0' p h h3).
        - rewrite Hp0. apply perm_swap.
        - unfold t0'. rewrite tat_tupd_other by lia. auto. }
      (* order *)
      assert (Hdu : equivalent lt d u) by (apply Hdedup; auto).
      assert (Hve3 : valid_except t3 p).
      { intros i Hi Hip a b Hpa Hpb.
        assert (Hip2 : i / 2 <> p) by lia.
        rewrite Hr3 in Hpa by auto. rewrite Hr3 in Hpb by auto. unfold t0' in Hpa, Hpb.
        destruct (Nat.eq_dec (pos / 2) i) as [<-|Hne].
        - rewrite tat_tupd_same in Hpb by lia. injection Hpb as <-. rewrite tat_tupd_other in Hpa by lia.
          apply (equivalent_edge_r d u); auto. eapply (Hve (pos / 2)); eauto; lia.
        - rewrite tat_tupd_other in Hpb by auto.
          destruct (Nat.eq_dec (pos / 2) (i / 2)) as [He|Hne2].
          + rewrite <- He in Hpa. rewrite tat_tupd_same in Hpa by lia. injection Hpa as <-.
            apply (equivalent_edge_l d u); auto. eapply (Hve i); eauto; try lia. now rewrite <- He.
          + rewrite tat_tupd_other in Hpa by auto. eapply (Hve i); eauto; lia. }
      assert (Hmg : merges dd (v :: R) (d :: R0)).
      { apply (merges_dd dd _ u v d R0).
        - rewrite HRu. apply perm_swap.
        - repeat split; auto.
        - apply merges_refl. }
      assert (Hl4 : length (removelast t3) = length t - 1) by (rewrite removelast_length; lia).
      pose proof (tat_last_perm t3 w Hw) as Hpl.
      rewrite Hl4. destruct (Nat.eqb_spec p (length t - 1 + 1)) as [Hlast|Hnl].
      + exists (removelast t3). repeat split; auto.
        * intros i Hi a b Hpa Hpb. rewrite Hl4 in Hi. rewrite tat_removelast in Hpa, Hpb by lia.
          eapply (Hve3 i); eauto; lia.
        * eapply merges_trans; [exact Hmg|]. apply merges_perm.
          apply Permutation_cons_inv with w. rewrite <- Hpl, Hp3.
          replace (length t3) with p in Hw by lia. rewrite Hh3 in Hw. injection Hw as ->. reflexivity.
      + destruct (tat_two_perm t3 (length t3) p w h3) as [R1 HR1]; auto; try lia.
        assert (Hp4 : Permutation (removelast t3) (h3 :: R1)).
        { apply Permutation_cons_inv with w. now rewrite <- Hpl. }
        destruct (IH (removelast t3) p w R1 h3) as (t' & Hm & Hv' & Hmg'); try lia; auto.
        * intros i Hi Hip a b Hpa Hpb. rewrite Hl4 in Hi. rewrite tat_removelast in Hpa, Hpb by lia.
          eapply (Hve3 i); eauto; lia.
        * rewrite tat_removelast by lia. auto.
        * exists t'. repeat split; auto. eapply merges_trans; [exact Hmg|].
          eapply merges_perm_l; [|exact Hmg'].
          apply Permutation_cons_inv with h3. rewrite <- Hp3, HR1. apply perm_swap.
    - rewrite tset_tupd by lia.
      exists (tupd t1 pos v). repeat split; auto.
      + eapply place_valid; eauto.
      + apply merges_perm. symmetry. apply Permutation_cons_inv with h1.
        rewrite (tupd_perm t1 pos h1 v Hh1), Hp1. apply perm_swap.
  Qed.

  Notation step := (heap_step _ lt eqv supportDedup dedup).

  Lemma heap_push_spec t x : valid t ->
    exists t', heap_push _ lt eqv supportDedup dedup t x = Ok t' /\ valid t' /\ merges dd (x :: t) t'.
  Proof.
    intros Hv. unfold heap_push. set (t1 := t ++ [x]).
    assert (Hl : length t1 = S (length t)) by (unfold t1; rewrite app_length; simpl; lia).
    apply (moveValueUp_spec (length t1 + 1) t1 (length t1) x t x); try lia.
    - intros i Hi Hne u y Hu Hy. unfold t1 in Hu, Hy. rewrite tat_app_l in Hu by lia. rewrite tat_app_l in Hy by lia.
      eapply (Hv i); eauto; lia.
    - rewrite Hl. unfold t1. apply tat_snoc.
    - unfold t1. symmetry; apply Permutation_cons_append.
  Qed.

  Lemma heap_push_range_spec xs : forall t, valid t ->
    exists t', heap_push_range _ lt eqv supportDedup dedup t xs = Ok t' /\ valid t' /\ merges dd (xs ++ t) t'.
  Proof.
    induction xs as [|x xs IH]; intros t Hv; cbn [heap_push_range].
    - exists t; repeat split; auto. apply merges_refl.
    - destruct (heap_push_spec t x Hv) as (t1 & H1 & Hv1 & Hm1). rewrite H1. cbn [bind].
      destruct (IH t1 Hv1) as (t2 & H2 & Hv2 & Hm2). exists t2; repeat split; auto.
      eapply merges_trans; [|exact Hm2]. simpl.
      eapply merges_perm_l; [apply Permutation_middle|]. apply merges_app_both; auto. apply merges_refl.
  Qed.

  Lemma heap_decreaseTop_spec t h R x : valid t -> tat t 1 = Some h -> Permutation t (h :: R) ->
    exists t', heap_decreaseTop _ lt eqv supportDedup dedup t x = Ok t' /\ valid t' /\ merges dd (x :: R) t'.
  Proof.
    intros Hv Hh Hp. unfold heap_decreaseTop.
    destruct (moveHoleDown_spec t h R Hv Hh Hp) as (t1 & hole & h1 & Hm & Hv1 & Hl & Hb & Hleaf & Hh1 & Hp1).
    rewrite Hm. cbn [bind]. apply (moveValueUp_spec (length t1 + 1) t1 hole x R h1); auto; try lia.
    intros i Hi _. apply Hv1; auto.
  Qed.

  Lemma tat1_perm t h : tat t 1 = Some h -> exists R, Permutation t (h :: R).
  Proof. destruct t as [|a R]; [discriminate|]. simpl. intros H; injection H as ->. eauto. Qed.

  Lemma heap_pop_spec t h : valid t -> tat t 1 = Some h ->
    exists t' R, heap_pop _ lt eqv supportDedup dedup t = Ok (t', h) /\ valid t' /\
                 Permutation t (h :: R) /\ merges dd R t'.
  Proof.
    intros Hv Hh. unfold heap_pop. rewrite tget_tat, Hh. cbn [of_option bind].
    pose proof (tat_bound _ _ _ Hh) as Hb.
    destruct (tat_some t (length t)) as [w Hw]; [lia|]. rewrite tget_tat, Hw. cbn [of_option bind].
    pose proof (tat_last_perm t w Hw) as Hpl.
    assert (Hl : length (removelast t) = length t - 1) by apply removelast_length.
    destruct (removelast t) as [|a r] eqn:Hr.
    - exists [], []. repeat split; auto.
      + intros i Hi; simpl in Hi; lia.
      + simpl in Hl. destruct t as [|b [|c t]]; simpl in *; try lia. now injection Hh as ->.
      + apply merges_refl.
    - rewrite <- Hr in *. 
      assert (Hv1 : valid (removelast t)).
      { intros i Hi u x Hu Hx. rewrite Hl in Hi. rewrite tat_removelast in Hu, Hx by lia. eapply (Hv i); eauto; lia. }
      assert (Hgt : 1 < length t) by (rewrite Hr in Hl; simpl in Hl; lia).
      assert (Hh1 : tat (removelast t) 1 = Some h) by (rewrite tat_removelast by lia; auto).
      destruct (tat1_perm _ _ Hh1) as [R HR].
      destruct (moveHoleDown_spec _ h R Hv1 Hh1 HR) as (t1 & hole & h1 & Hm & Hvm & Hlm & Hbm & Hleaf & Hhm & Hpm).
      rewrite Hm. cbn [bind].
      destruct (moveValueUp_spec (length t1 + 1) t1 hole w R h1) as (t3 & Hu & Hv3 & Hmg); auto; try lia.
      { intros i Hi _. apply Hvm; auto. }
      rewrite Hu. cbn [bind]. exists t3, (w :: R). repeat split; auto.
      rewrite Hpl, HR. apply perm_swap.
  Qed.

  Lemma heap_step_correct t o : valid t ->
    match step t o with
    | Ok (t', r) => valid t' /\ sstep lt dd t o r t'
    | UB => t = [] /\ needs_nonempty o = true
    | Throw _ => False
    | NoFuel => False
    end.
  Proof.
    intros Hv. destruct o as [x|xs| | |x| | | |]; cbn [heap_step].
    - destruct (heap_push_spec t x Hv) as (t' & -> & Hv' & Hm). cbn [bind]. split; auto. now constructor.
    - destruct (heap_push_range_spec xs t Hv) as (t' & -> & Hv' & Hm). cbn [bind]. split; auto. now constructor.
    - destruct t as [|a t0] eqn:Ht; [simpl; auto|]. rewrite <- Ht in *.
      assert (Ha : tat t 1 = Some a) by (subst; auto).
      destruct (heap_pop_spec t a Hv Ha) as (t' & R & -> & Hv' & Hp & Hm). cbn [bind]. split; auto.
      econstructor; [apply merges_perm; exact Hp| |exact Hm].
      eapply is_max_perm; [exact Hp|]. now apply valid_is_max.
    - destruct t as [|a t0] eqn:Ht; [simpl; auto|]. rewrite <- Ht in *.
      assert (Ha : tat t 1 = Some a) by (subst; auto).
      unfold heap_top. rewrite tget_tat, Ha. cbn [of_option bind]. split; auto.
      constructor; [apply merges_refl|]. now apply valid_is_max.
    - destruct t as [|a t0] eqn:Ht; [simpl; auto|]. rewrite <- Ht in *.
      assert (Ha : tat t 1 = Some a) by (subst; auto).
      destruct (tat1_perm _ _ Ha) as [R HR].
      destruct (heap_decreaseTop_spec t a R x Hv Ha HR) as (t' & -> & Hv' & Hm). cbn [bind]. split; auto.
      econstructor; [apply merges_perm; exact HR| |exact Hm].
      eapply is_max_perm; [exact HR|]. now apply valid_is_max.
    - split; [|constructor]. intros i Hi; simpl in Hi; lia.
    - split; auto. unfold heap_size. constructor. reflexivity.
    - split; auto. constructor. reflexivity.
    - split; auto. constructor; reflexivity.
  Qed.

  Lemma heap_pq_correct : pq_correct lt dd step [] (fun t => t) (fun _ => true).
  Proof.
    apply (pq_correct_lift lt dd _ step (fun t => t) valid (fun _ => true)); auto.
    - intros t o Hv _. apply heap_step_correct; auto.
    - intros i Hi; simpl in Hi; lia.
  Qed.

  Lemma heap_reachable_valid ops t rs : run step [] ops = Ok (t, rs) -> heap_isValid _ lt t = true.
  Proof.
    intros Hr. apply valid_isValid.
    eapply (inv_lift lt dd _ step (fun t => t) valid (fun _ => true)); eauto.
    - intros t' o Hv _. apply heap_step_correct; auto.
    - intros i Hi; simpl in Hi; lia.
    - clear. induction ops; auto.
  Qed.
End Heap.

(** Without de-duplication the specification with [dedup_dd false] is the one with [no_dd]. *)
Lemma heap_pq_correct_nodedup {E} (lt : E -> E -> bool) eqv dedup : strict_weak lt ->
  pq_correct lt no_dd (heap_step _ lt eqv false dedup) [] (fun t => t) (fun _ => true).
Proof.
  intros Hsw. 
  apply (pq_correct_lift lt no_dd _ _ (fun t => t) (valid lt) (fun _ => true)); auto.
  - intros t o Hv _.
    pose proof (heap_step_correct lt eqv false dedup Hsw ltac:(discriminate) t o Hv) as H.
    destruct (heap_step E lt eqv false dedup t o) as [[t' r]| | |]; auto.
    destruct H as [H1 H2]; split; auto. eapply sstep_mono; [|exact H2].
    intros a b c [Hf _]; discriminate.
  - intros i Hi; simpl in Hi; lia.
Qed.
