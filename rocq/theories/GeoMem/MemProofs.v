(** Proofs about GeoMem/Model.v: ranges of memory, std::copy and merge. *)
From Coq Require Import List Arith Bool Lia.
From Verif.Base Require Import Res Arr.
From Verif.Geobucket Require Import Model.
From Verif.GeoMem Require Import Model.
Import ListNotations.

Ltac binv H :=
  match type of H with
  | bind ?m _ = Ok _ =>
      let E := fresh "Eb" in
      destruct m eqn:E; cbn [bind] in H |- *; try discriminate H
  end.

Section MemProofs.
  Context {E : Type}.
  Variable lt eqv : E -> E -> bool.
  Variable dedup : E -> E -> E.
  Variable C : config.
  Notation mem := (mem E).
  Notation iter := (iter E).

  (** [p] points to [l] in [m] *)
  Definition holds (m : mem) (p : ptr) (l : list E) : Prop :=
    fst p = m_id E m /\ forall k x, nth_error l k = Some x -> nth_error (m_cells E m) (snd p + k) = Some (Some x).
  (** [m'] differs from [m] at most in the cells from [lo] to [hi] *)
  Record frame (lo hi : nat) (m m' : mem) : Prop := {
    fr_id : m_id E m' = m_id E m;
    fr_len : length (m_cells E m') = length (m_cells E m);
    fr_out : forall k, k < lo \/ hi <= k -> nth_error (m_cells E m') k = nth_error (m_cells E m) k
  }.
  (** [s] runs over [l] *)
  Definition denotes (m : mem) (s : iter) (l : list E) : Prop :=
    match s with Ext _ l' => l' = l | Int _ p q => holds m p l /\ q = padd p (length l) end.
  (** [s] does not touch the cells from [lo] to [hi] *)
  Definition clear_of (s : iter) (lo hi : nat) : Prop :=
    match s with Ext _ _ => True | Int _ p q => snd q <= lo \/ hi <= snd p end.

  Lemma frame_refl lo hi m : frame lo hi m m.
  Proof. now split. Qed.
  Lemma frame_trans lo hi m1 m2 m3 : frame lo hi m1 m2 -> frame lo hi m2 m3 -> frame lo hi m1 m3.
  Proof. intros [A1 A2 A3] [B1 B2 B3]. split; try congruence. intros k Hk. rewrite B3, A3; auto. Qed.
  Lemma frame_weaken lo hi lo' hi' m m' : lo' <= lo -> hi <= hi' -> frame lo hi m m' -> frame lo' hi' m m'.
  Proof. intros H1 H2 [A1 A2 A3]. split; auto. intros k Hk. apply A3. lia. Qed.

  Lemma holds_frame lo hi m m' p l : frame lo hi m m' -> snd p + length l <= lo \/ hi <= snd p -> holds m p l -> holds m' p l.
  Proof.
    intros [F1 F2 F3] Hd [H1 H2]. split; [congruence|]. intros k x Hk. pose proof (nth_error_some_lt _ _ _ Hk). rewrite F3; auto. lia.
  Qed.
  Lemma holds_nil m p : fst p = m_id E m -> holds m p [].
  Proof. intros H. split; auto. intros [|k] x; discriminate. Qed.
  Lemma holds_cons m p x l : holds m p (x :: l) <-> rd E m p = Ok x /\ holds m (padd p 1) l.
  Proof.
    unfold holds, rd, padd. simpl. split.
    - intros (H1 & H2). rewrite H1, Nat.eqb_refl. specialize (H2 0 x eq_refl) as H0. rewrite Nat.add_0_r in H0. unfold vget. rewrite H0.
      repeat split; auto. intros k y Hk. specialize (H2 (S k) y Hk). now replace (snd p + 1 + k) with (snd p + S k) by lia.
    - intros (H0 & H1 & H2). destruct (Nat.eqb_spec (fst p) (m_id E m)) as [Hp|]; [|discriminate].
      unfold vget in H0. destruct (nth_error (m_cells E m) (snd p)) as [[y|]|] eqn:Hc; simpl in H0; try discriminate. injection H0 as ->.
      split; auto. intros [|k] y Hk; simpl in Hk.
      + injection Hk as <-. now rewrite Nat.add_0_r.
      + specialize (H2 k y Hk). now replace (snd p + S k) with (snd p + 1 + k) by lia.
  Qed.
  Lemma holds_app m p l1 l2 : holds m p (l1 ++ l2) <-> holds m p l1 /\ holds m (padd p (length l1)) l2.
  Proof.
    unfold holds, padd. simpl. split.
    - intros (H1 & H2). repeat split; auto.
      + intros k x Hk. apply H2. rewrite nth_error_app1; auto. eapply nth_error_some_lt; eauto.
      + intros k x Hk. rewrite <- Nat.add_assoc. apply H2. rewrite nth_error_app2 by lia. now rewrite Nat.add_sub_swap, Nat.sub_diag by lia.
    - intros ((H1 & H2) & H3 & H4). split; auto. intros k x Hk. destruct (Nat.lt_ge_cases k (length l1)) as [Hl|Hl].
      + rewrite nth_error_app1 in Hk by auto. auto.
      + rewrite nth_error_app2 in Hk by auto. specialize (H4 _ _ Hk). now replace (snd p + k) with (snd p + length l1 + (k - length l1)) by lia.
  Qed.
  Lemma holds_rd m p l k x : holds m p l -> nth_error l k = Some x -> rd E m (padd p k) = Ok x.
  Proof.
    intros [H1 H2] Hk. unfold rd, padd, vget. simpl. rewrite H1, Nat.eqb_refl, (H2 _ _ Hk). reflexivity.
  Qed.
  Lemma holds_bound m p l : holds m p l -> l <> [] -> snd p + length l <= length (m_cells E m).
  Proof.
    intros [H1 H2] Hne. destruct (nth_error_lt l (length l - 1)) as (x & Hx); [destruct l; [congruence|simpl; lia]|].
    specialize (H2 _ _ Hx). apply nth_error_some_lt in H2. destruct l; [congruence|simpl in *; lia].
  Qed.

  Lemma wr_ok m p x : fst p = m_id E m -> snd p < length (m_cells E m) ->
    exists m', wr E m p x = Ok m' /\ frame (snd p) (S (snd p)) m m' /\ holds m' p [x].
  Proof.
    intros Hp Hl. unfold wr. rewrite Hp, Nat.eqb_refl, vset_ok by auto. cbn [bind]. eexists; split; [reflexivity|]. split.
    - split; simpl; auto; [apply upd_length|]. intros k Hk. apply nth_upd_other. lia.
    - split; simpl; auto. intros [|[|k]] y Hk; simpl in Hk; try discriminate. injection Hk as <-. rewrite Nat.add_0_r.
      now apply nth_upd_same.
  Qed.

  Lemma peq_spec p q : reflect (p = q) (peq p q).
  Proof.
    destruct p as [a i], q as [b j]. unfold peq. simpl. destruct (Nat.eqb_spec a b) as [->|H]; simpl.
    - destruct (Nat.eqb_spec i j) as [->|H]; constructor; congruence.
    - constructor; congruence.
  Qed.
  Lemma padd_0 p : padd p 0 = p.
  Proof. destruct p; unfold padd; simpl. now rewrite Nat.add_0_r. Qed.
  Lemma padd_padd p i j : padd (padd p i) j = padd p (i + j).
  Proof. unfold padd; simpl. now rewrite Nat.add_assoc. Qed.

  Lemma it_length_denotes m s l : denotes m s l -> it_length E s = length l.
  Proof. destruct s as [l'|p q]; simpl; [congruence|]. intros (_ & ->). simpl. lia. Qed.
  Lemma it_next_nil m s : denotes m s [] -> it_next E m s = Ok None.
  Proof.
    destruct s as [l'|p q]; simpl; [now intros ->|]. intros (_ & ->). rewrite padd_0.
    destruct (peq_spec p p); congruence.
  Qed.
  Lemma it_next_cons m s x l : denotes m s (x :: l) ->
    exists s', it_next E m s = Ok (Some (x, s')) /\ denotes m s' l /\ (forall lo hi, clear_of s lo hi -> clear_of s' lo hi).
  Proof.
    destruct s as [l'|p q]; simpl.
    - intros ->. eexists; split; [reflexivity|]. simpl. auto.
    - intros (H & ->). apply holds_cons in H as (H1 & H2). destruct (peq_spec p (padd p (S (length l)))) as [He|_].
      { exfalso. apply (f_equal snd) in He. simpl in He. lia. }
      rewrite H1. cbn [bind]. eexists; split; [reflexivity|]. simpl. split; [|lia]. split; auto. rewrite padd_padd. reflexivity.
  Qed.
  Lemma denotes_frame lo hi m m' s l : frame lo hi m m' -> clear_of s lo hi -> denotes m s l -> denotes m' s l.
  Proof.
    intros Hf Hc. destruct s as [l'|p q]; simpl in *; auto. intros (H & ->). split; auto. simpl in Hc. eapply holds_frame; eauto.
  Qed.
  Lemma clear_sub s lo hi lo' hi' : lo <= lo' -> hi' <= hi -> clear_of s lo hi -> clear_of s lo' hi'.
  Proof. destruct s; simpl; auto. lia. Qed.

  Lemma it_last_ok m s l x : denotes m s l -> last_entry E l = Some x -> it_last E m s = Ok x.
  Proof.
    intros Hs Hl. destruct s as [l'|p q]; simpl in *; [subst; now rewrite Hl|]. destruct Hs as (Hh & ->). unfold last_entry in Hl.
    pose proof (nth_error_some_lt _ _ _ Hl) as Hlt. simpl. destruct (Nat.eqb_spec (snd p + length l) 0); [lia|].
    replace (fst p, snd p + length l - 1) with (padd p (length l - 1)) by (unfold padd; f_equal; lia). eapply holds_rd; eauto.
  Qed.

  Lemma copy_loop_ok l : forall fuel m s d, length l < fuel -> denotes m s l -> fst d = m_id E m ->
    snd d + length l <= length (m_cells E m) -> clear_of s (snd d) (snd d + length l) ->
    exists m', copy_loop E fuel m s d = Ok (m', padd d (length l)) /\ frame (snd d) (snd d + length l) m m' /\ holds m' d l.
  Proof.
    induction l as [|x l IH]; intros [|fuel] m s d Hf Hs Hd Hb Hc; simpl in Hf; try lia; cbn [copy_loop].
    - rewrite (it_next_nil _ _ Hs). cbn [bind]. exists m. rewrite padd_0. split; auto. split; [apply frame_refl|]. now apply holds_nil.
    - destruct (it_next_cons _ _ _ _ Hs) as (s' & -> & Hs' & Hcl). cbn [bind]. simpl length in *.
      destruct (wr_ok m d x Hd ltac:(lia)) as (m1 & -> & F1 & H1). cbn [bind].
      assert (Hs1 : denotes m1 s' l) by (eapply denotes_frame; [exact F1| |exact Hs']; apply Hcl; eapply clear_sub; [| |exact Hc]; lia).
      destruct (IH fuel m1 s' (padd d 1) ltac:(lia) Hs1) as (m' & -> & F2 & H2).
      + simpl. now rewrite (fr_id _ _ _ _ F1).
      + simpl. rewrite (fr_len _ _ _ _ F1). lia.
      + apply Hcl. simpl. eapply clear_sub; [| |exact Hc]; lia.
      + exists m'. rewrite padd_padd. split; auto. simpl in F2. split.
        * eapply frame_trans; eapply frame_weaken; [| |exact F1| | |exact F2]; lia.
        * apply (holds_app m' d [x] l). split; auto. eapply holds_frame; [exact F2| |exact H1]. simpl. lia.
  Qed.
  Lemma copy_ok l m s d : denotes m s l -> fst d = m_id E m -> snd d + length l <= length (m_cells E m) ->
    clear_of s (snd d) (snd d + length l) ->
    exists m', copy E m s d = Ok (m', padd d (length l)) /\ frame (snd d) (snd d + length l) m m' /\ holds m' d l.
  Proof. intros Hs. unfold copy. rewrite (it_length_denotes _ _ _ Hs). apply copy_loop_ok; auto. Qed.

  Notation gb_merge := (gb_merge E lt eqv dedup C).
  Lemma gb_merge_nil_r l : gb_merge l [] = (l, 0).
  Proof. destruct l; reflexivity. Qed.
  Lemma gb_merge_cons a l1 b l2 : gb_merge (a :: l1) (b :: l2) =
    if lt a b then let (r, k) := gb_merge l1 (b :: l2) in (a :: r, k)
    else if negb (supportDeduplication C) || negb (eqv a b) then let (r, k) := gb_merge (a :: l1) l2 in (b :: r, k)
    else let (r, k) := gb_merge l1 l2 in (dedup a b :: r, S k).
  Proof. reflexivity. Qed.

  Lemma merge_loop_ok : forall fuel l1 l2 r k m s1 s2 d k0, length l1 + length l2 < fuel -> gb_merge l1 l2 = (r, k) ->
    denotes m s1 l1 -> denotes m s2 l2 -> fst d = m_id E m -> snd d + length r <= length (m_cells E m) ->
    clear_of s1 (snd d) (snd d + length r) -> clear_of s2 (snd d) (snd d + length r) ->
    exists m', merge_loop E lt eqv dedup C fuel m s1 s2 d k0 = Ok (m', padd d (length r), k0 + k) /\
      frame (snd d) (snd d + length r) m m' /\ holds m' d r.
  Proof.
    induction fuel as [|fuel IH]; intros l1 l2 r k m s1 s2 d k0 Hf Hg H1 H2 Hd Hb C1 C2; [lia|]. cbn [merge_loop].
    destruct l1 as [|a l1].
    { simpl in Hg. injection Hg as <- <-. rewrite (it_next_nil _ _ H1). cbn [bind].
      destruct (copy_ok l2 m s2 d H2 Hd Hb C2) as (m' & -> & F & H). cbn [bind]. rewrite Nat.add_0_r. eauto. }
    destruct (it_next_cons _ _ _ _ H1) as (s1' & -> & H1' & Hc1). cbn [bind].
    destruct l2 as [|b l2].
    { rewrite gb_merge_nil_r in Hg. injection Hg as <- <-. rewrite (it_next_nil _ _ H2). cbn [bind].
      destruct (copy_ok (a :: l1) m s1 d H1 Hd Hb C1) as (m' & -> & F & H). cbn [bind]. rewrite Nat.add_0_r. eauto. }
    destruct (it_next_cons _ _ _ _ H2) as (s2' & -> & H2' & Hc2). cbn [bind]. rewrite gb_merge_cons in Hg.
    assert (step : forall x r' k' l1' l2' t1 t2 k0', r = x :: r' -> gb_merge l1' l2' = (r', k') -> length l1' + length l2' < fuel ->
      denotes m t1 l1' -> denotes m t2 l2' -> clear_of t1 (snd d) (snd d + length r) -> clear_of t2 (snd d) (snd d + length r) ->
      exists m', (let* m' := wr E m d x in merge_loop E lt eqv dedup C fuel m' t1 t2 (padd d 1) k0') =
        Ok (m', padd d (length r), k0' + k') /\ frame (snd d) (snd d + length r) m m' /\ holds m' d r).
    { intros x r' k' l1' l2' t1 t2 k0' -> Hg' Hf' T1 T2 D1 D2. simpl length in *.
      destruct (wr_ok m d x Hd ltac:(lia)) as (m1 & -> & F1 & W1). cbn [bind].
      destruct (IH l1' l2' r' k' m1 t1 t2 (padd d 1) k0' Hf' Hg') as (m' & -> & F2 & W2).
      - eapply denotes_frame; [exact F1| |exact T1]. eapply clear_sub; [| |exact D1]; lia.
      - eapply denotes_frame; [exact F1| |exact T2]. eapply clear_sub; [| |exact D2]; lia.
      - simpl. now rewrite (fr_id _ _ _ _ F1).
      - simpl. rewrite (fr_len _ _ _ _ F1). lia.
      - simpl. eapply clear_sub; [| |exact D1]; lia.
      - simpl. eapply clear_sub; [| |exact D2]; lia.
      - exists m'. rewrite padd_padd. split; auto. simpl in F2. split.
        + eapply frame_trans; eapply frame_weaken; [| |exact F1| | |exact F2]; lia.
        + apply (holds_app m' d [x] r'). split; auto. eapply holds_frame; [exact F2| |exact W1]. simpl. lia. }
    simpl length in Hf. destruct (lt a b).
    - destruct (gb_merge l1 (b :: l2)) as [r' k'] eqn:Hg'. injection Hg as <- <-. eapply step; eauto. simpl. lia.
    - destruct (negb (supportDeduplication C) || negb (eqv a b)).
      + destruct (gb_merge (a :: l1) l2) as [r' k'] eqn:Hg'. injection Hg as <- <-. eapply step; eauto. simpl. lia.
      + destruct (gb_merge l1 l2) as [r' k'] eqn:Hg'. injection Hg as <- <-. rewrite <- Nat.add_succ_comm. eapply step; eauto. lia.
  Qed.
  Lemma merge_ok l1 l2 r k m s1 s2 d : gb_merge l1 l2 = (r, k) ->
    denotes m s1 l1 -> denotes m s2 l2 -> fst d = m_id E m -> snd d + length r <= length (m_cells E m) ->
    clear_of s1 (snd d) (snd d + length r) -> clear_of s2 (snd d) (snd d + length r) ->
    exists m', merge E lt eqv dedup C m s1 s2 d = Ok (m', padd d (length r), k) /\ frame (snd d) (snd d + length r) m m' /\ holds m' d r.
  Proof.
    intros Hg H1 H2. unfold merge. rewrite (it_length_denotes _ _ _ H1), (it_length_denotes _ _ _ H2).
    intros. eapply (merge_loop_ok _ l1 l2 r k m s1 s2 d 0); eauto.
  Qed.

  Lemma rd_range_ok m l : forall p, holds m p l -> rd_range E m p (length l) = Ok l.
  Proof.
    induction l as [|x l IH]; intros p H; auto. apply holds_cons in H as (H1 & H2). cbn [length rd_range]. rewrite H1. cbn [bind].
    rewrite IH by auto. reflexivity.
  Qed.
End MemProofs.
