(** Proofs about GeoMem/Model.v: the memory areas, and how the state with memory represents the state of Geobucket/Model.v. *)
From Coq Require Import List Arith Bool Lia.
From Verif.Base Require Import Res Arr.
From Verif.Geobucket Require Import Model.
From Verif.GeoMem Require Import Model MemProofs.
Import ListNotations.

Section RepProofs.
  Context {E : Type}.
  Variable lt eqv : E -> E -> bool.
  Variable dedup : E -> E -> E.
  Variable C : config.
  Notation mem := (mem E).
  Notation mbucket := (mbucket E).
  Notation bucket := (bucket E).
  Notation cells := (m_cells E).
  Notation mkey := (mkey E C).
  Notation key := (key E C).

  (** * Areas *)

  (** The memory areas by name: the buffer and the other buffer of a bucket, [_tmp] and [_tmpForNoPremerge] *)
  Inductive name : Type := Buf (i : nat) | Oth (i : nat) | Tmp | TmpN.
  Definition loc (bs : list mbucket) (tmp tmpN : ptr) (n : name) : option ptr :=
    match n with
    | Buf i => option_map (mb_begin E) (nth_error bs i)
    | Oth i => if double C then option_map (mb_other E) (nth_error bs i) else None
    | Tmp => Some tmp
    | TmpN => if premerge C then None else Some tmpN
    end.
  (** The number of cells of an area, given the capacities of the buckets *)
  Definition len (caps : list nat) (n : name) : nat :=
    match n with
    | Buf i => match bucketStorage C with SameSizeBuffer => last caps 0 | _ => nth i caps 0 end
    | Oth i => nth i caps 0
    | Tmp | TmpN => last caps 0
    end.
  Notation caps := (map (mb_cap E)).
  (** The cells a bucket of capacity [c] takes up if the largest has [nb] *)
  Definition need (nb c : nat) : nat :=
    match bucketStorage C with SameSizeBuffer => nb | DoubleBuffer => c + c | Plain => c end.
  Definition total (nb : nat) (cs : list nat) : nat := list_sum (map (need nb) cs).
  Definition tmps : nat := if premerge C then 1 else 2.

  Record lay (m : mem) (bs : list mbucket) (tmp tmpN : ptr) : Prop := {
    lay_in : forall n p, loc bs tmp tmpN n = Some p -> fst p = m_id E m /\ snd p + len (caps bs) n <= length (cells m);
    lay_dis : forall n n' p p', loc bs tmp tmpN n = Some p -> loc bs tmp tmpN n' = Some p' -> n <> n' ->
      snd p + len (caps bs) n <= snd p' \/ snd p' + len (caps bs) n' <= snd p;
    lay_len : length (cells m) = total (last (caps bs) 0) (caps bs) + tmps * last (caps bs) 0;
    lay_pos : forall c, In c (caps bs) -> 1 <= c
  }.

  (** Exchanging areas of the same size *)
  Lemma lay_tr m m' bs bs' tmp tmp' tmpN tmpN' (tr : name -> name) :
    lay m bs tmp tmpN -> m_id E m' = m_id E m -> length (cells m') = length (cells m) -> caps bs' = caps bs ->
    (forall n p, loc bs' tmp' tmpN' n = Some p -> loc bs tmp tmpN (tr n) = Some p /\ len (caps bs) (tr n) = len (caps bs) n) ->
    (forall n n', n <> n' -> tr n <> tr n') -> lay m' bs' tmp' tmpN'.
  Proof.
    intros [L1 L2 L3 L4] Hi Hl Hc Ht Hj. split; rewrite ?Hc, ?Hi, ?Hl; auto.
    - intros n p Hn. apply Ht in Hn as (Hn & He). rewrite <- He. eauto.
    - intros n n' p p' Hn Hn' Hne. apply Ht in Hn as (Hn & He). apply Ht in Hn' as (Hn' & He'). rewrite <- He, <- He'. eauto.
  Qed.
  Lemma lay_mem m m' bs tmp tmpN lo hi : lay m bs tmp tmpN -> frame lo hi m m' -> lay m' bs tmp tmpN.
  Proof. intros L [F1 F2 _]. eapply lay_tr with (tr := fun n => n); eauto. Qed.
  Lemma caps_upd bs i (mb mb' : mbucket) : nth_error bs i = Some mb -> mb_cap E mb' = mb_cap E mb -> caps (upd bs i mb') = caps bs.
  Proof.
    revert i; induction bs as [|b bs IH]; intros [|i] H Hc; simpl in *; try discriminate.
    - injection H as ->. congruence.
    - f_equal. eauto.
  Qed.
  Lemma nth_upd {A} (l : list A) i j x : i < length l -> nth_error (upd l i x) j = if j =? i then Some x else nth_error l j.
  Proof.
    intros Hi. destruct (Nat.eqb_spec j i) as [->|Hn]; [now rewrite nth_upd_same|]. now rewrite nth_upd_other by auto.
  Qed.
  Lemma lay_upd m bs tmp tmpN i mb mb' : lay m bs tmp tmpN -> nth_error bs i = Some mb -> mb_cap E mb' = mb_cap E mb ->
    mb_begin E mb' = mb_begin E mb -> mb_other E mb' = mb_other E mb -> lay m (upd bs i mb') tmp tmpN.
  Proof.
    intros L Hn Hc Hb Ho. pose proof (nth_error_some_lt _ _ _ Hn) as Hi. eapply lay_tr with (tr := fun n => n); eauto.
    { eapply caps_upd; eauto. }
    intros n p Hp. split; auto. rewrite <- Hp. destruct n as [j|j| |]; simpl; auto; rewrite nth_upd by auto; destruct (Nat.eqb_spec j i) as [->|];
      auto; rewrite Hn; simpl; now rewrite ?Hb, ?Ho.
  Qed.
  Lemma name_dec (a b : name) : {a = b} + {a <> b}.
  Proof. decide equality; apply Nat.eq_dec. Qed.
  Definition swap (n1 n2 n : name) : name := if name_dec n n1 then n2 else if name_dec n n2 then n1 else n.
  Lemma swap_l n1 n2 : swap n1 n2 n1 = n2.
  Proof. unfold swap. destruct (name_dec n1 n1); congruence. Qed.
  Lemma swap_r n1 n2 : swap n1 n2 n2 = n1.
  Proof. unfold swap. destruct (name_dec n2 n1); [congruence|]. destruct (name_dec n2 n2); congruence. Qed.
  Lemma swap_other n1 n2 n : n <> n1 -> n <> n2 -> swap n1 n2 n = n.
  Proof. intros. unfold swap. destruct (name_dec n n1); [congruence|]. destruct (name_dec n n2); congruence. Qed.
  Lemma swap_inj n1 n2 n n' : n <> n' -> swap n1 n2 n <> swap n1 n2 n'.
  Proof.
    intros Hne He. apply Hne. clear Hne.
    assert (Hinv : forall x, swap n1 n2 (swap n1 n2 x) = x).
    { intros x. destruct (name_dec x n1) as [->|H1]; [now rewrite swap_l, swap_r|].
      destruct (name_dec x n2) as [->|H2]; [now rewrite swap_r, swap_l|]. now rewrite !(swap_other n1 n2 x) by auto. }
    rewrite <- (Hinv n), <- (Hinv n'). now rewrite He.
  Qed.
  Lemma lay_swap m bs bs' tmp tmp' tmpN tmpN' n1 n2 :
    lay m bs tmp tmpN -> caps bs' = caps bs -> len (caps bs) n1 = len (caps bs) n2 ->
    (forall n, loc bs' tmp' tmpN' n = loc bs tmp tmpN (swap n1 n2 n)) -> lay m bs' tmp' tmpN'.
  Proof.
    intros L Hc Hl Ht. eapply lay_tr with (tr := swap n1 n2); eauto using swap_inj. intros n p Hp. rewrite <- Ht. split; auto.
    destruct (name_dec n n1) as [->|H1]; [now rewrite swap_l|]. destruct (name_dec n n2) as [->|H2]; [now rewrite swap_r|].
    now rewrite swap_other by auto.
  Qed.

  (** * Buckets *)
  Record brep (m : mem) (mb : mbucket) (b : bucket) : Prop := {
    br_cap : mb_cap E mb = b_cap b;
    br_size : mb_size E mb = length (b_ents b);
    br_back : mb_back E mb = b_back b;
    br_holds : holds m (mb_begin E mb) (b_ents b)
  }.
  Definition fit (bs : list bucket) : Prop := forall i b, nth_error bs i = Some b -> length (b_ents b) <= area E C bs b.

  Record Rep (m : mem) (mbs : list mbucket) (tmp tmpN : ptr) (bs : list bucket) : Prop := {
    r_bs : Forall2 (brep m) mbs bs;
    r_lay : lay m mbs tmp tmpN;
    r_fit : fit bs
  }.

  Lemma F2_nth {A B} (R : A -> B -> Prop) la lb : Forall2 R la lb -> forall i b, nth_error lb i = Some b ->
    exists a, nth_error la i = Some a /\ R a b.
  Proof.
    induction 1 as [|a b la lb HR H IH]; intros [|i] b' Hb; simpl in *; try discriminate; eauto. injection Hb as <-. eauto.
  Qed.
  Lemma F2_nth_l {A B} (R : A -> B -> Prop) la lb : Forall2 R la lb -> forall i a, nth_error la i = Some a ->
    exists b, nth_error lb i = Some b /\ R a b.
  Proof.
    induction 1 as [|a b la lb HR H IH]; intros [|i] b' Hb; simpl in *; try discriminate; eauto. injection Hb as <-. eauto.
  Qed.
  Lemma F2_intro {A B} (R : A -> B -> Prop) la : forall lb, length la = length lb ->
    (forall i a b, nth_error la i = Some a -> nth_error lb i = Some b -> R a b) -> Forall2 R la lb.
  Proof.
    induction la as [|a la IH]; intros [|b lb] Hl H; simpl in *; try discriminate; constructor.
    - apply (H 0); reflexivity.
    - apply IH; [lia|]. intros i. apply (H (S i)).
  Qed.
  Lemma F2_length {A B} (R : A -> B -> Prop) la lb : Forall2 R la lb -> length la = length lb.
  Proof. induction 1; simpl; congruence. Qed.
  Lemma F2_caps m mbs bs : Forall2 (brep m) mbs bs -> caps mbs = map (@b_cap E) bs.
  Proof. induction 1 as [|mb b mbs bs HR H IH]; simpl; auto. rewrite IH, (br_cap _ _ _ HR). reflexivity. Qed.
  Lemma last_largest (bs : list bucket) : last (map (@b_cap E) bs) 0 = largest E bs.
  Proof.
    destruct bs as [|b bs] using rev_ind; auto. unfold largest. rewrite map_app, rev_app_distr. simpl. apply last_last.
  Qed.
  Lemma last_mlargest (bs : list mbucket) : last (caps bs) 0 = mlargest E bs.
  Proof.
    destruct bs as [|b bs] using rev_ind; auto. unfold mlargest. rewrite map_app, rev_app_distr. simpl. apply last_last.
  Qed.
  Lemma F2_mlargest m mbs bs : Forall2 (brep m) mbs bs -> mlargest E mbs = largest E bs.
  Proof. intros H. now rewrite <- last_mlargest, <- last_largest, (F2_caps _ _ _ H). Qed.
  Lemma nth_caps (bs : list bucket) i b : nth_error bs i = Some b -> nth i (map (@b_cap E) bs) 0 = b_cap b.
  Proof. intros H. apply nth_error_nth. now apply map_nth_error. Qed.
  Lemma len_buf m mbs bs i b : Forall2 (brep m) mbs bs -> nth_error bs i = Some b -> len (caps mbs) (Buf i) = area E C bs b.
  Proof.
    intros H Hb. unfold len, area. rewrite (F2_caps _ _ _ H), last_largest, (nth_caps _ _ _ Hb). destruct (bucketStorage C); auto.
  Qed.
  Lemma len_tmp m mbs bs : Forall2 (brep m) mbs bs -> len (caps mbs) Tmp = largest E bs.
  Proof. intros H. unfold len. now rewrite (F2_caps _ _ _ H), last_largest. Qed.
  Lemma area_upd bs i (b b' : bucket) : nth_error bs i = Some b -> b_cap b' = b_cap b ->
    map (@b_cap E) (upd bs i b') = map (@b_cap E) bs.
  Proof.
    revert i; induction bs as [|c bs IH]; intros [|i] H Hc; simpl in *; try discriminate.
    - injection H as ->. congruence.
    - f_equal. eauto.
  Qed.
  Lemma area_same (bs bs' : list bucket) (b b' : bucket) : map (@b_cap E) bs' = map (@b_cap E) bs -> b_cap b' = b_cap b ->
    area E C bs' b' = area E C bs b.
  Proof. intros H Hc. unfold area. rewrite <- !last_largest, H, Hc. reflexivity. Qed.
  Lemma fit_upd bs i b b' : fit bs -> nth_error bs i = Some b -> b_cap b' = b_cap b -> length (b_ents b') <= area E C bs b ->
    fit (upd bs i b').
  Proof.
    intros Hf Hb Hc Hl j c Hj. pose proof (nth_error_some_lt _ _ _ Hb) as Hi. rewrite nth_upd in Hj by auto.
    destruct (Nat.eqb_spec j i) as [->|Hn].
    - injection Hj as <-. erewrite area_same; [exact Hl| |exact Hc]. eapply area_upd; eauto.
    - erewrite area_same; [eapply Hf; exact Hj| |reflexivity]. eapply area_upd; eauto.
  Qed.

  (** A write into the area [n0] *)
  Definition within (mbs : list mbucket) (tmp tmpN : ptr) (n0 : name) (lo hi : nat) : Prop :=
    exists p0, loc mbs tmp tmpN n0 = Some p0 /\ snd p0 <= lo /\ hi <= snd p0 + len (caps mbs) n0.

  Lemma brep_frame lo hi m m' mb b : frame lo hi m m' -> snd (mb_begin E mb) + length (b_ents b) <= lo \/ hi <= snd (mb_begin E mb) ->
    brep m mb b -> brep m' mb b.
  Proof. intros F Hd [B1 B2 B3 B4]. split; auto. eapply holds_frame; eauto. Qed.

  Lemma kept m mbs tmp tmpN bs n0 lo hi m' j mb b :
    Rep m mbs tmp tmpN bs -> frame lo hi m m' -> within mbs tmp tmpN n0 lo hi -> n0 <> Buf j ->
    nth_error mbs j = Some mb -> nth_error bs j = Some b -> brep m' mb b.
  Proof.
    intros [R1 R2 R3] F (p0 & Hp0 & H1 & H2) Hne Hmb Hb. destruct (F2_nth _ _ _ R1 _ _ Hb) as (mb' & Hmb' & Br).
    rewrite Hmb in Hmb'. injection Hmb' as <-. eapply brep_frame; eauto.
    assert (Hl : loc mbs tmp tmpN (Buf j) = Some (mb_begin E mb)) by (simpl; now rewrite Hmb).
    pose proof (lay_dis _ _ _ _ R2 _ _ _ _ Hp0 Hl Hne) as D. rewrite (len_buf _ _ _ _ _ R1 Hb) in D. specialize (R3 _ _ Hb). lia.
  Qed.

  (** A write outside the buckets *)
  Lemma Rep_scratch m mbs tmp tmpN bs n0 lo hi m' :
    Rep m mbs tmp tmpN bs -> frame lo hi m m' -> within mbs tmp tmpN n0 lo hi -> (forall j, n0 <> Buf j) -> Rep m' mbs tmp tmpN bs.
  Proof.
    intros R F W Hne. split.
    - apply F2_intro; [eapply F2_length; apply (r_bs _ _ _ _ _ R)|]. intros i mb b Hmb Hb. eapply kept; eauto.
    - eapply lay_mem; eauto. apply R.
    - apply R.
  Qed.

  (** A write, and a change of one bucket *)
  Lemma Rep_put m mbs tmp tmpN bs n0 lo hi m' i mb b mb' b' tmp' tmpN' :
    Rep m mbs tmp tmpN bs -> frame lo hi m m' -> within mbs tmp tmpN n0 lo hi -> (forall j, j <> i -> n0 <> Buf j) ->
    nth_error mbs i = Some mb -> nth_error bs i = Some b -> brep m' mb' b' -> b_cap b' = b_cap b ->
    length (b_ents b') <= area E C bs b -> lay m' (upd mbs i mb') tmp' tmpN' ->
    Rep m' (upd mbs i mb') tmp' tmpN' (upd bs i b').
  Proof.
    intros R F W Hne Hmb Hb Hbr Hc Hl L. split; auto.
    - pose proof (F2_length _ _ _ (r_bs _ _ _ _ _ R)) as Hlen. apply F2_intro; [now rewrite !upd_length|].
      intros j x y Hx Hy. pose proof (nth_error_some_lt _ _ _ Hb). rewrite nth_upd in Hx by lia; rewrite nth_upd in Hy by lia.
      destruct (Nat.eqb_spec j i) as [->|Hn]; [congruence|]. eapply kept; eauto.
    - eapply fit_upd; eauto. apply R.
  Qed.

  Lemma Rep_nth m mbs tmp tmpN bs i b : Rep m mbs tmp tmpN bs -> nth_error bs i = Some b ->
    exists mb, nth_error mbs i = Some mb /\ vget mbs i = Ok mb /\ brep m mb b /\
      within mbs tmp tmpN (Buf i) (snd (mb_begin E mb)) (snd (mb_begin E mb) + area E C bs b) /\
      fst (mb_begin E mb) = m_id E m /\ snd (mb_begin E mb) + area E C bs b <= length (cells m) /\ i < length mbs /\
      length (b_ents b) <= area E C bs b.
  Proof.
    intros [R1 R2 R3] Hb. destruct (F2_nth _ _ _ R1 _ _ Hb) as (mb & Hmb & Br). exists mb. split; auto.
    split; [now apply vget_ok|]. split; auto.
    assert (Hl : loc mbs tmp tmpN (Buf i) = Some (mb_begin E mb)) by (simpl; now rewrite Hmb).
    destruct (lay_in _ _ _ _ R2 _ _ Hl) as (Hf & Hs). rewrite (len_buf _ _ _ _ _ R1 Hb) in Hs.
    split; [exists (mb_begin E mb); rewrite (len_buf _ _ _ _ _ R1 Hb); auto|]. split; auto. split; auto.
    split; [eapply nth_error_some_lt; eauto|eauto].
  Qed.
  Lemma within_sub mbs tmp tmpN n lo hi lo' hi' : lo <= lo' -> hi' <= hi -> within mbs tmp tmpN n lo hi -> within mbs tmp tmpN n lo' hi'.
  Proof. intros H1 H2 (p & Hp & H3 & H4). exists p. split; auto. lia. Qed.
  (** Ranges in different areas *)
  Lemma within_dis m mbs tmp tmpN n n' lo hi lo' hi' : lay m mbs tmp tmpN -> within mbs tmp tmpN n lo hi -> within mbs tmp tmpN n' lo' hi' ->
    n <> n' -> hi <= lo' \/ hi' <= lo.
  Proof.
    intros L (p & Hp & H1 & H2) (p' & Hp' & H1' & H2') Hne. pose proof (lay_dis _ _ _ _ L _ _ _ _ Hp Hp' Hne). lia.
  Qed.

  (** ** Functions of a bucket *)
  Lemma mb_empty_ok m mb b : brep m mb b -> mb_empty E mb = b_empty E b.
  Proof. intros B. unfold mb_empty, b_empty. rewrite (br_size _ _ _ B). destruct (b_ents b); reflexivity. Qed.
  Lemma mb_last_ok m mb b x : brep m mb b -> last_entry E (b_ents b) = Some x -> mb_last E m mb = Ok x.
  Proof.
    intros B Hx. unfold mb_last. unfold last_entry in Hx. pose proof (nth_error_some_lt _ _ _ Hx). rewrite (br_size _ _ _ B).
    destruct (Nat.eqb_spec (length (b_ents b)) 0); [lia|]. eapply holds_rd; eauto. apply B.
  Qed.
  Lemma mb_back_ok m mb b x : brep m mb b -> bk_back E C b = Ok x -> mb_getBack E C m mb = Ok x.
  Proof.
    intros B. unfold bk_back, mb_getBack. rewrite (mb_empty_ok _ _ _ B). destruct (b_empty E b); [discriminate|].
    destruct (collectMax C); [now rewrite (br_back _ _ _ B)|]. intros H. eapply mb_last_ok; eauto.
    destruct (last_entry E (b_ents b)); simpl in H; [congruence|discriminate].
  Qed.
  (** [mb_setBack] on a bucket whose entries are [l] *)
  Lemma last_entry_nil_inv (l : list E) : last_entry E l = None -> l = [].
  Proof.
    intros H. destruct l as [|x l]; auto. unfold last_entry in H. apply nth_error_None in H. simpl in H. lia.
  Qed.
  Lemma mb_setBack_ok m mb l old : mb_size E mb = length l -> holds m (mb_begin E mb) l -> mb_back E mb = old ->
    exists mb', mb_setBack E m mb = Ok mb' /\ mb_cap E mb' = mb_cap E mb /\ mb_begin E mb' = mb_begin E mb /\
      mb_other E mb' = mb_other E mb /\ mb_size E mb' = length l /\ mb_back E mb' = new_back E l old.
  Proof.
    intros Hs Hh Ho. unfold mb_setBack. rewrite Hs. destruct (last_entry E l) as [x|] eqn:Hl.
    - pose proof Hl as Hl'. unfold last_entry in Hl'. pose proof (nth_error_some_lt _ _ _ Hl').
      destruct (Nat.eqb_spec (length l) 0); [lia|].
      rewrite (mb_last_ok m mb (mk_b (mb_cap E mb) l (mb_back E mb)) x); [|now split|exact Hl].
      cbn [bind]. eexists; split; [reflexivity|]. simpl. repeat split; auto. unfold new_back. now rewrite Hl.
    - rewrite (last_entry_nil_inv _ Hl). simpl. exists mb. repeat split; auto. rewrite Hs, (last_entry_nil_inv _ Hl). reflexivity.
  Qed.
  Lemma holds_removelast m p (l : list E) : holds m p l -> holds m p (removelast l).
  Proof.
    intros [H1 H2]. split; auto. intros k x Hk. pose proof (nth_error_some_lt _ _ _ Hk) as Hl. rewrite removelast_length in Hl.
    apply H2. now rewrite <- nth_error_removelast.
  Qed.
  Lemma mb_pop_ok m mb b b' : brep m mb b -> bk_pop_back E C b = Ok b' ->
    exists mb', mb_pop_back E C m mb = Ok mb' /\ brep m mb' b' /\ mb_begin E mb' = mb_begin E mb /\ mb_other E mb' = mb_other E mb /\
      b_cap b' = b_cap b /\ length (b_ents b') <= length (b_ents b).
  Proof.
    intros B. unfold bk_pop_back, mb_pop_back. rewrite <- (mb_empty_ok _ _ _ B). unfold mb_empty.
    destruct (Nat.eqb_spec (mb_size E mb) 0) as [|Hne]; [discriminate|]. destruct B as [B1 B2 B3 B4]. intros H. injection H as <-.
    assert (Hl : length (b_ents b) - 1 = length (removelast (b_ents b))) by (symmetry; apply removelast_length).
    rewrite B2, Hl.
    pose proof (holds_removelast _ _ _ B4) as Hh. destruct (collectMax C).
    - destruct (mb_setBack_ok m (mk_mb E (mb_cap E mb) (mb_begin E mb) (mb_other E mb) (length (removelast (b_ents b))) (mb_back E mb))
        (removelast (b_ents b)) (b_back b)) as (mb' & -> & P1 & P2 & P3 & P4 & P5); simpl; auto.
      exists mb'. split; auto. simpl in *. repeat split; simpl; auto; try congruence; try (rewrite P2; apply Hh). rewrite <- Hl. lia.
    - eexists; split; [reflexivity|]. repeat split; simpl; auto; try apply Hh. rewrite <- Hl; lia.
  Qed.

  Lemma holds_upd m m' p (l : list E) k x : holds m p l -> k < length l -> frame (snd p + k) (S (snd p + k)) m m' ->
    holds m' (padd p k) [x] -> holds m' p (upd l k x).
  Proof.
    intros [H1 H2] Hk [F1 F2 F3] [G1 G2]. split; [congruence|]. intros j y Hj. rewrite nth_upd in Hj by auto.
    destruct (Nat.eqb_spec j k) as [->|Hn].
    - injection Hj as <-. specialize (G2 0 x eq_refl). simpl in G2. now rewrite Nat.add_0_r in G2.
    - rewrite F3 by lia. auto.
  Qed.
  Lemma mb_setEntry_ok m mb b pos x b' : brep m mb b -> snd (mb_begin E mb) + length (b_ents b) <= length (cells m) ->
    bk_setEntry E C b pos x = Ok b' ->
    exists m' mb', mb_setEntry E C m mb pos x = Ok (m', mb') /\ brep m' mb' b' /\
      frame (snd (mb_begin E mb)) (snd (mb_begin E mb) + length (b_ents b)) m m' /\
      mb_begin E mb' = mb_begin E mb /\ mb_other E mb' = mb_other E mb /\ b_cap b' = b_cap b /\ length (b_ents b') = length (b_ents b).
  Proof.
    intros [B1 B2 B3 B4] Hb. unfold bk_setEntry, mb_setEntry, vset. rewrite B2.
    destruct (Nat.ltb_spec pos (length (b_ents b))) as [Hlt|]; [|discriminate]. cbn [bind]. rewrite upd_length. intros H. injection H as <-.
    destruct (wr_ok m (padd (mb_begin E mb) pos) x) as (m' & -> & F & Hh); simpl; [apply B4|lia|]. cbn [bind].
    pose proof (holds_upd _ _ _ _ _ _ B4 Hlt F Hh) as Hu. simpl in F.
    eexists; eexists; split; [reflexivity|]. rewrite upd_length.
    split; [|split; [eapply frame_weaken; [| |exact F]; lia|]].
    - destruct (collectMax C && _); split; simpl; rewrite ?upd_length; auto.
    - destruct (collectMax C && _); auto.
  Qed.

  Lemma mb_push_back_ok m mb b x fits b' : brep m mb b -> snd (mb_begin E mb) + fits <= length (cells m) ->
    bk_push_back E C fits b x = Ok b' ->
    exists m' mb', mb_push_back E C m mb x = Ok (m', mb') /\ brep m' mb' b' /\
      frame (snd (mb_begin E mb)) (snd (mb_begin E mb) + fits) m m' /\
      mb_begin E mb' = mb_begin E mb /\ mb_other E mb' = mb_other E mb /\ b_cap b' = b_cap b /\ length (b_ents b') <= fits.
  Proof.
    intros [B1 B2 B3 B4] Hb. unfold bk_push_back, mb_push_back, b_size. rewrite B2.
    destruct (Nat.ltb_spec (length (b_ents b)) fits) as [Hlt|]; [|discriminate]. intros H. injection H as <-.
    destruct (wr_ok m (padd (mb_begin E mb) (length (b_ents b))) x) as (m' & -> & F & Hh); simpl; [apply B4|lia|]. cbn [bind]. simpl in F.
    eexists; eexists; split; [reflexivity|].
    split; [|split; [eapply frame_weaken; [| |exact F]; lia|]].
    - split; simpl; auto; [rewrite app_length; simpl; lia|destruct (collectMax C); auto|].
      apply holds_app. split; auto. eapply holds_frame; [exact F| |exact B4]. lia.
    - simpl. rewrite app_length. simpl. repeat split; auto. lia.
  Qed.

  Lemma shift_loop_ok (l2 : list E) : forall m p l1, holds m p (l1 ++ l2) -> snd p + length (l1 ++ l2) < length (cells m) ->
    exists m', shift_loop E (length l2) m (padd p (length (l1 ++ l2))) = Ok m' /\
      frame (snd p + length l1 + 1) (snd p + length (l1 ++ l2) + 1) m m' /\ holds m' (padd p (length l1 + 1)) l2.
  Proof.
    induction l2 as [|x l2 IH] using rev_ind; intros m p l1 Hh Hb.
    - simpl. exists m. rewrite app_nil_r in *. split; auto. split; [apply frame_refl|]. apply holds_nil. apply Hh.
    - rewrite app_assoc in Hh. apply holds_app in Hh as (Hh & Hx).
      rewrite !app_assoc in *. rewrite (app_length (l1 ++ l2)) in *. rewrite app_length. simpl length in *.
      rewrite Nat.add_1_r. cbn [shift_loop].
      replace (fst (padd p (length (l1 ++ l2) + 1)), snd (padd p (length (l1 ++ l2) + 1)) - 1) with (padd p (length (l1 ++ l2)))
        by (unfold padd; simpl; f_equal; lia).
      apply holds_cons in Hx as (Hx & _). rewrite Hx. cbn [bind].
      destruct (wr_ok m (padd p (length (l1 ++ l2) + 1)) x) as (m1 & -> & F1 & H1); [apply Hh|simpl; lia|]. cbn [bind].
      simpl in F1.
      destruct (IH m1 p l1) as (m' & -> & F2 & H2).
      + eapply holds_frame; [exact F1| |exact Hh]. lia.
      + rewrite (fr_len _ _ _ _ F1). lia.
      + exists m'. split; auto. split.
        * eapply frame_trans; (eapply frame_weaken; [| |eassumption]); rewrite ?app_length in *; simpl; lia.
        * apply holds_app. split; auto. rewrite padd_padd. replace (length l1 + 1 + length l2) with (length (l1 ++ l2) + 1) by (rewrite app_length; lia).
          eapply holds_frame; [exact F2| |exact H1]. right. simpl. lia.
  Qed.
  Lemma mb_insert_ok m mb b pos x fits b' : brep m mb b -> snd (mb_begin E mb) + fits <= length (cells m) ->
    bk_insertAtNotEnd E fits b pos x = Ok b' ->
    exists m' mb', mb_insertAtNotEnd E m mb pos x = Ok (m', mb') /\ brep m' mb' b' /\
      frame (snd (mb_begin E mb)) (snd (mb_begin E mb) + fits) m m' /\
      mb_begin E mb' = mb_begin E mb /\ mb_other E mb' = mb_other E mb /\ b_cap b' = b_cap b /\ length (b_ents b') <= fits.
  Proof.
    intros [B1 B2 B3 B4] Hb. unfold bk_insertAtNotEnd, mb_insertAtNotEnd, b_size. rewrite B2.
    destruct (Nat.ltb_spec pos (length (b_ents b))) as [Hp|]; [|discriminate]. simpl.
    destruct (Nat.ltb_spec (length (b_ents b)) fits) as [Hlt|]; [|discriminate]. intros H. injection H as <-.
    set (l1 := firstn pos (b_ents b)). set (l2 := skipn pos (b_ents b)).
    assert (He : l1 ++ l2 = b_ents b) by apply firstn_skipn.
    assert (H1 : length l1 = pos) by (unfold l1; rewrite firstn_length; lia).
    assert (H2 : length (b_ents b) - pos = length l2) by (unfold l2; rewrite skipn_length; lia).
    rewrite H2. rewrite <- He in *. clearbody l1 l2.
    destruct (shift_loop_ok l2 m (mb_begin E mb) l1 B4 ltac:(lia)) as (m1 & -> & F1 & Hh1). cbn [bind].
    destruct (wr_ok m1 (padd (mb_begin E mb) pos) x) as (m2 & -> & F2 & Hh2); simpl.
    { rewrite (fr_id _ _ _ _ F1). apply B4. } { rewrite (fr_len _ _ _ _ F1). lia. }
    cbn [bind]. simpl in F2. apply holds_app in B4 as (B4 & _). rewrite app_length in *.
    eexists; eexists; split; [reflexivity|].
    split; [|split; [eapply frame_trans; (eapply frame_weaken; [| |eassumption]); lia|]].
    - split; simpl; auto; [rewrite !app_length; simpl; lia|].
      apply holds_app. split; [eapply holds_frame; [exact F2| |eapply holds_frame; [exact F1| |exact B4]]; lia|].
      apply (holds_app m2 _ [x] l2). rewrite H1. split; auto. eapply holds_frame; [exact F2| |rewrite padd_padd, <- H1; exact Hh1]. simpl. lia.
    - simpl. rewrite !app_length. simpl. repeat split; auto. lia.
  Qed.

  (** The bucket now holds [l], which has been written to the memory it points to *)
  Lemma bk_hold_inv fits b l b' : bk_hold E fits b l = Ok b' ->
    length l <= fits /\ b' = mk_b (b_cap b) l (new_back E l (b_back b)).
  Proof. unfold bk_hold. destruct (Nat.leb_spec (length l) fits); [|discriminate]. intros H0. injection H0 as <-. auto. Qed.
  Lemma setBack_brep m mb b l p q : brep m mb b -> holds m p l -> True ->
    exists mb', mb_setBack E m (mk_mb E (mb_cap E mb) p q (length l) (mb_back E mb)) = Ok mb' /\
      brep m mb' (mk_b (b_cap b) l (new_back E l (b_back b))) /\ mb_begin E mb' = p /\ mb_other E mb' = q /\ mb_cap E mb' = mb_cap E mb.
  Proof.
    intros [B1 B2 B3 B4] Hh _.
    destruct (mb_setBack_ok m (mk_mb E (mb_cap E mb) p q (length l) (mb_back E mb)) l (b_back b)) as (mb' & -> & P1 & P2 & P3 & P4 & P5); auto.
    simpl in *. exists mb'. split; auto. split; auto. split; simpl; auto; [congruence|now rewrite P2].
  Qed.
End RepProofs.
