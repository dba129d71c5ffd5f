(** The memory that the nodes of the KD trees take, over the histories of KDTree. *)
From Coq Require Import List Arith Bool ZArith NArith String Lia Permutation.
From Verif.Base Require Import Res Arr ResList StdAlg Lists FaultFacts.
From Verif.DivMask Require Import Model.
From Verif.Spec Require Import Reach DivFinder DivFinderFacts.
From Verif.KD Require Import EntryArray Tree Model Legal TreeProofs Proofs Properties Depth DepthProofs.
From Verif.KDMem Require Import Arena ArenaFacts Binary Packed Model Faithful Proofs Bytes BytesPacked.
From Verif.KDMem Require BinaryProofs BinaryInsert PackedProofs PackedInsert PackedReset.
Import ListNotations.
Local Notation length := List.length.

(** How many entries there were when the tree was last rebuilt, and how many were inserted since *)
Fixpoint load {M} (C : kconf M) (packed : bool) (then_ since : nat) (s : kd M) (ops : list (dop M)) : nat * nat :=
  match ops with
  | [] => (then_, since)
  | o :: ops' =>
      match step C packed s o with
      | Ok (s', _) => if k_rebuilds s' =? k_rebuilds s then load C packed then_ (match o with DInsert _ => S since | _ => since end) s' ops'
                      else load C packed (length (kcontents s')) 0 s' ops'
      | _ => (then_, since)
      end
  end.

(** ** The number of nodes *)
Section Leaves.
  Context {M : Type}.
  Variable C : kconf M.
  Variable valid : M -> bool.
  Hypothesis HL : klegal C valid.
  Variable packed : bool.
  Notation leaves := (PackedReset.leaves (M := M)).
  Definition lv (s : kd M) : nat := leaves (root_skeleton (k_tree s)).
  Lemma leaves_skeleton (t : tree M) : leaves (skeleton t) = leaves t.
  Proof. induction t as [a|v x m le IHl gt IHg]; cbn [skeleton PackedReset.leaves]; congruence. Qed.
  Lemma insert_leaves e : forall (t : tree M) var t', insert_tree C packed t e var = Ok t' -> leaves t' <= S (leaves t).
  Proof.
    assert (Hn : forall v x mask le gt t, split_node C v x mask le gt e = Ok t -> leaves t = 2).
    { intros v x mask le gt t H. unfold split_node in H. destruct (above C v x (x_t e)); apply bind_inv in H as (a & _ & H); now injection H as <-. }
    induction t as [a|v x m le IHl gt IHg]; intros var t' H; cbn [insert_tree] in H.
    - destruct (length (a_list a) =? c_leaf C); [|apply bind_inv in H as (a' & _ & H); injection H as <-; cbn; lia].
      assert (H2 : leaves t' = 2); [|cbn; lia]. destruct packed; unfold split_insert_packed, split_insert_binary in H;
        apply bind_inv in H as ([[[v x] l] g] & _ & H); apply bind_inv in H as (b & _ & H); eapply Hn; eauto.
    - destruct (above C v x (x_t e)); apply bind_inv in H as (t1 & E & H); injection H as <-; [apply IHg in E|apply IHl in E]; cbn [PackedReset.leaves]; lia.
  Qed.
  Lemma build_leaves bits : forall fuel l var (t : tree M), l <> [] -> (forall a, In a l -> valid a = true) -> (forall e, copies (ksame C) e l <= c_leaf C) ->
    build C fuel bits l var = Ok t -> leaves t <= length l.
  Proof using HL.
    induction fuel as [|f IH]; intros l var t Hn Hv Hc H; cbn [build] in H; [discriminate|]. destruct (Nat.leb_spec (length l) (c_leaf C)) as [Hl|Hl].
    - apply bind_inv in H as (a & _ & H). injection H as <-. destruct l; [congruence|]. cbn. lia.
    - destruct (split_range_ok C valid HL l var Hv Hc Hl) as (v & x & le & gt & E & H1 & H2 & H3 & H4 & H5 & H6). rewrite E in H. cbn [bind] in H.
      apply bind_inv in H as (tl & Bl & H). apply bind_inv in H as (tg & Bg & H). injection H as <-. cbn [PackedReset.leaves].
      assert (Hin : forall y, In y (le ++ gt) -> In y l) by (intros y; apply (Permutation_in _ H2)).
      assert (Hcc : forall e, copies (ksame C) e le + copies (ksame C) e gt <= c_leaf C).
      { intros e. unfold ksame. rewrite <- copies_app, (copies_perm C e _ _ H2). apply Hc. }
      apply IH in Bl; auto; [|intros y Hy; apply Hv, Hin, in_or_app; auto|intros e; specialize (Hcc e); lia].
      apply IH in Bg; auto; [|intros y Hy; apply Hv, Hin, in_or_app; auto|intros e; specialize (Hcc e); lia].
      apply Permutation_length in H2. rewrite app_length in H2. lia.
  Qed.
  Lemma step_leaves s o s' r : inv C valid false s -> tree_pre C valid (kcontents s) o = true -> step C packed s o = Ok (s', r) ->
    if k_rebuilds s' =? k_rebuilds s then lv s' <= match o with DInsert _ => S (lv s) | _ => lv s end else lv s' <= S (length (kcontents s')).
  Proof using HL.
    intros Hi Hp Hs. rewrite (tree_pre_kpre C valid packed) in Hp.
    destruct (step_nodes C valid HL packed s o s' r Hi Hp Hs) as [(H & _ & bits & l & H1 & H2 & H3 & H4)|[(H & H1 & _)|(e & root & -> & _ & H1 & (H & H2 & _))]];
      rewrite H.
    - rewrite (proj2 (Nat.eqb_neq _ _)) by lia. unfold lv. unfold tree_reset in H1. destruct l as [|x l]; [injection H1 as <-; cbn; lia|].
      apply bind_inv in H1 as (t & B & H1). injection H1 as <-. cbn [root_skeleton]. rewrite leaves_skeleton. apply build_leaves in B; auto; [|discriminate].
      rewrite <- (Permutation_length H2). lia.
    - rewrite Nat.eqb_refl. unfold lv. rewrite H1. destruct o; lia.
    - rewrite Nat.eqb_refl. unfold lv. rewrite H2. unfold tree_insert in H1. apply bind_inv in H1 as (t' & B & H1). injection H1 as <-. cbn [root_skeleton].
      apply insert_leaves in B. rewrite leaves_skeleton. destruct (k_tree s) as [t|]; cbn [root_skeleton]; [now rewrite leaves_skeleton|exact B].
  Qed.
End Leaves.

(** ** The binary tree *)
Section Binary.
  Import BinaryProofs BinaryInsert.
  Context {M : Type}.
  Variable z : sizes.
  Notation leaves := (PackedReset.leaves (M := M)).
  Notation memory := (arena (bnode M)).
  Definition cost (A : memory) (p : nat) : nat := match ar_get A p with Ok n => b_size z n | _ => 0 end.
  Lemma rep_cost (A : memory) : forall (t : tree M) p f, rep true A p t f -> list_sum (map (cost A) f) = leaves t * z_leaf z + (leaves t - 1) * z_interior z.
  Proof.
    induction t as [a|v x m le IHl gt IHg]; intros p f H.
    - destruct H as [H ->]. cbn [map]. unfold cost. rewrite H. cbn. lia.
    - destruct H as (pl & pg & fl & fg & H1 & H2 & H3 & ->). apply IHl in H2. apply IHg in H3. cbn [map]. change (cost A p + list_sum (map (cost A) (fl ++ fg)) = leaves (Split v x m le gt) * z_leaf z + (leaves (Split v x m le gt) - 1) * z_interior z).
      rewrite map_app, list_sum_app, H2, H3. unfold cost. rewrite H1. cbn [b_size PackedReset.leaves]. pose proof (PackedReset.leaves_pos le). pose proof (PackedReset.leaves_pos gt). nia.
  Qed.
  Lemma sum_perm (f g : list nat) (c : nat -> nat) : Permutation f g -> list_sum (map c f) = list_sum (map c g).
  Proof. induction 1 as [|x f g H IH|x y f|f g h H1 IH1 H2 IH2]; auto; unfold list_sum in *; cbn [map fold_right] in *; lia. Qed.
  Lemma live_cost (A : memory) : list_sum (map (cost A) (live A)) = list_sum (map (b_size z) (ar_cells A)).
  Proof.
    unfold live, size. assert (H : forall l k, (forall i n, nth_error l i = Some n -> nth_error (ar_cells A) (k + i) = Some n) ->
      map (cost A) (seq (ar_dead A + k) (length l)) = map (b_size z) l).
    { induction l as [|n l IH]; intros k Hk; auto. cbn [length seq map]. f_equal.
      - unfold cost, ar_get. rewrite (proj2 (Nat.ltb_ge _ _)) by lia. specialize (Hk 0 n eq_refl). rewrite Nat.add_0_r in Hk.
        replace (ar_dead A + k - ar_dead A) with k by lia. apply vget_ok in Hk. now rewrite Hk.
      - rewrite <- Nat.add_succ_r. apply IH. intros i n' Hi. rewrite Nat.add_succ_comm. now apply Hk. }
    rewrite <- (H (ar_cells A) 0); [now rewrite Nat.add_0_r|auto].
  Qed.
  Lemma binary_bytes (T : btree M) root : brel T root -> b_bytes z T <= leaves (root_skeleton root) * z_leaf z + (leaves (root_skeleton root) - 1) * z_interior z.
  Proof.
    unfold b_bytes. destruct root as [t|]; cbn [brel root_skeleton].
    - intros (p & f & _ & H & Hp). rewrite leaves_skeleton, <- live_cost, <- (sum_perm _ _ _ Hp), (rep_cost _ _ _ _ H); auto.
    - intros [_ H]. unfold live, size in H. destruct (ar_cells (b_arena T)); [cbn; lia|discriminate].
  Qed.
End Binary.

(** ** The packed tree *)
Section Packed.
  Import PackedProofs PackedInsert.
  Context {M : Type}.
  Variable C : kconf M.
  Notation leaves := (PackedReset.leaves (M := M)).
  Lemma packed_nodes (T : ptree M) root : prel C T root -> length (shape (p_arena T)) <= leaves (root_skeleton root).
  Proof.
    unfold shape. rewrite map_length. destruct root as [t|]; cbn [prel root_skeleton].
    - intros (p & f & _ & H & Hp). rewrite leaves_skeleton. apply Permutation_length in Hp. unfold live, size in Hp. rewrite seq_length in Hp. cbn [length] in Hp.
      apply chain_length in H. rewrite PackedReset.leaves_nodes in H. pose proof (PackedReset.leaves_pos t). lia.
    - intros [_ H]. unfold live, size in H. destruct (ar_cells (p_arena T)); [cbn; lia|discriminate].
  Qed.
  Notation mkd := (mkd (kd_impl C true)).
  Notation sh := (fun s : mkd => shape (p_arena (m_tree s : ptree M))).
  Definition mbalanced (s : mkd) : Prop := balanced (m_tree s : ptree M).
  Definition flat (s : mkd) : Prop := mbalanced s /\ extra (sh s) <= length (sh s) - 1.
  Lemma reset_changes_tree (s : mkd) : m_tree (m_reset_changes C true s) = m_tree s /\ m_rebuilds (m_reset_changes C true s) = m_rebuilds s.
  Proof. unfold m_reset_changes. destruct (negb (c_auto C)); auto. Qed.
  Lemma rebuild_flat (s s' : mkd) : m_rebuild C true s = Ok s' -> m_rebuilds s' = S (m_rebuilds s) /\ flat s'.
  Proof.
    unfold m_rebuild. intros H. apply bind_inv in H as (l & _ & H). apply bind_inv in H as (bits & _ & H). apply bind_inv in H as (t & Ht & H). injection H as <-.
    unfold flat, mbalanced. rewrite (proj2 (reset_changes_tree _)), (proj1 (reset_changes_tree _)). cbn [m_tree m_rebuilds]. split; auto. eapply reset_shape. exact Ht.
  Qed.
  Lemma report_flat (s s' : mkd) a r : m_report C true s a r = Ok s' ->
    m_rebuilds s' = m_rebuilds s /\ m_tree s' = m_tree s \/ m_rebuilds s' = S (m_rebuilds s) /\ flat s'.
  Proof.
    unfold m_report. destruct (m_size s + a <? r); [discriminate|]. destruct (negb (c_auto C)); [intros [= <-]; auto|].
    destruct (a + r <? m_left s); [intros [= <-]; auto|]. intros H. apply rebuild_flat in H. auto.
  Qed.
  Lemma p_remove_shape (T T' : ptree M) m out k : p_remove C T m = Ok (T', out, k) -> shape (p_arena T') = shape (p_arena T).
  Proof.
    unfold p_remove. intros Ht. destruct (p_root T) as [p|]; [|now injection Ht as <- _ _].
    apply bind_inv in Ht as ([[A o] k1] & Ht & E). injection E as <- _ _. cbn [p_arena]. eapply remove_shape; eauto.
  Qed.
  Lemma p_remove_element_shape (T T' : ptree M) m b : p_remove_element C T m = Ok (T', b) -> shape (p_arena T') = shape (p_arena T).
  Proof.
    unfold p_remove_element. intros Ht. destruct (p_root T) as [p|]; [|now injection Ht as <- _].
    apply bind_inv in Ht as (q & _ & Ht). apply bind_inv in Ht as (n & _ & Ht). apply bind_inv in Ht as ([a b2] & _ & Ht). apply bind_inv in Ht as (A & HA & E).
    injection E as <- _. cbn [p_arena]. eapply set_entries_shape; eauto.
  Qed.
  Lemma packed_step (s s' : mkd) o r : mbalanced s -> m_step C true s o = Ok (s', r) -> mbalanced s' /\
    if m_rebuilds s' =? m_rebuilds s then extra (sh s') <= extra (sh s) + match o with DInsert _ => length (sh s) - 1 | _ => 0 end
    else extra (sh s') <= length (sh s') - 1.
  Proof.
    intros HB H.
    assert (Hsame : forall s1 : mkd, m_rebuilds s1 = m_rebuilds s -> sh s1 = sh s -> mbalanced s1 /\
      if m_rebuilds s1 =? m_rebuilds s then extra (sh s1) <= extra (sh s) + match o with DInsert _ => length (sh s) - 1 | _ => 0 end else extra (sh s1) <= length (sh s1) - 1).
    { intros s1 E1 E2. rewrite E1, Nat.eqb_refl. unfold mbalanced, balanced in *. rewrite E2. split; auto. destruct o; lia. }
    assert (Hflat : forall s1 : mkd, m_rebuilds s1 = S (m_rebuilds s) /\ flat s1 -> mbalanced s1 /\
      if m_rebuilds s1 =? m_rebuilds s then extra (sh s1) <= extra (sh s) + match o with DInsert _ => length (sh s) - 1 | _ => 0 end else extra (sh s1) <= length (sh s1) - 1).
    { intros s1 (E1 & E2 & E3). rewrite E1, (proj2 (Nat.eqb_neq _ _)) by lia. auto. }
    destruct o as [e|es|m|m|m|m cb|m cb|cb|m| |]; cbn [m_step] in H; try discriminate.
    - apply bind_inv in H as (s1 & H & E). injection E as <- <-. unfold m_insert in H. apply bind_inv in H as (t & Ht & H).
      apply report_flat in H as [[E1 E2]|H]; [|now apply Hflat]. cbn [m_rebuilds m_tree] in E1, E2. apply insert_shape in Ht as [B1 B2]; [|exact HB].
      unfold mbalanced. rewrite E1, E2, Nat.eqb_refl. auto.
    - apply bind_inv in H as ([[s1 b] out] & H & E). injection E as <- <-. unfold m_remove_multiples in H. destruct (negb (c_removals C)); [discriminate|].
      apply bind_inv in H as ([[t out1] k] & Ht & H). apply bind_inv in H as (s2 & H & E). injection E as -> <- <-.
      apply report_flat in H as [[E1 E2]|H]; [|now apply Hflat]. cbn [m_rebuilds m_tree] in E1, E2. apply Hsame; auto. rewrite E2.
      exact (p_remove_shape _ _ _ _ _ Ht).
    - apply bind_inv in H as ([s1 b] & H & E). injection E as <- <-. unfold m_remove_element in H. destruct (negb (c_removals C)); [discriminate|].
      apply bind_inv in H as ([t b1] & Ht & H). injection H as <- <-. apply Hsame; auto. cbn [m_tree].
      exact (p_remove_element_shape _ _ _ _ Ht).
    - apply bind_inv in H as ([s1 q] & H & E).
      assert (Hs1 : m_rebuilds s1 = m_rebuilds s /\ m_tree s1 = m_tree s).
      { unfold m_find_divisor in H.
        assert (Hg : forall x, (let* r := i_find (kd_impl C true) (m_tree s) (kext C (m_bits s) m) in
          Ok (match r with Some _ => if c_cache C then mk_mkd (m_tree s) (m_bits s) (m_size s) (m_left s) r (m_rebuilds s) else s | None => s end, r)) = Ok x ->
          m_rebuilds (fst x) = m_rebuilds s /\ m_tree (fst x) = m_tree s).
        { intros x Hx. apply bind_inv in Hx as ([q0|] & _ & Hx); injection Hx as <-; cbn [fst]; auto. destruct (c_cache C); auto. }
        destruct (c_cache C); [|exact (Hg _ H)]. destruct (m_cache s) as [q1|]; [|exact (Hg _ H)]. apply bind_inv in H as (e & _ & H).
        destruct (c_divides C e m); [injection H as <- _; auto|exact (Hg _ H)]. }
      destruct Hs1 as [E1 E2]. assert (Es : s1 = s') by (destruct q; [apply bind_inv in E as (e & _ & E)|]; now injection E). subst s1. apply Hsame; auto. now rewrite E2.
    - apply bind_inv in H as (xs & _ & H). injection H as <- _. now apply Hsame.
    - apply bind_inv in H as (xs & _ & H). injection H as <- _. now apply Hsame.
    - apply bind_inv in H as (xs & _ & H). injection H as <- _. now apply Hsame.
    - apply bind_inv in H as (s1 & H & E). injection E as <- _. apply rebuild_flat in H. now apply Hflat.
    - injection H as <- _. now apply Hsame.
  Qed.
End Packed.

(** ** Histories *)
Section Histories.
  Context {M : Type}.
  Variable C : kconf M.
  Variable valid : M -> bool.
  Hypothesis HL : klegal C valid.
  Notation pre := (fun (s : kd M) o => tree_pre C valid (kcontents s) o = true).

  Lemma load_leaves packed : forall ops s s' rs n k, inv C valid false s -> lv s <= S (n + k) -> keeps (step C packed) pre s ops -> run (step C packed) s ops = Ok (s', rs) ->
    lv s' <= S (fst (load C packed n k s ops) + snd (load C packed n k s ops)).
  Proof using HL.
    induction ops as [|o ops IH]; intros s s' rs n k Hi Hn Hk Hr; cbn [run load keeps] in *; [now injection Hr as <- _|].
    destruct Hk as [Hp Hk]. destruct (step C packed s o) as [[s1 r]| | |] eqn:Hs; try contradiction. cbn [bind] in Hr.
    apply bind_inv in Hr as ([s2 rs2] & Hr & E). injection E as <- _.
    pose proof (step_leaves C valid HL packed s o s1 r Hi Hp Hs) as Hl.
    assert (Hi1 : inv C valid false s1).
    { rewrite (tree_pre_kpre C valid packed) in Hp. destruct (step_ok C valid HL packed false ltac:(discriminate) s o Hi Hp) as (s3 & r3 & E & Hi3 & _). congruence. }
    destruct (k_rebuilds s1 =? k_rebuilds s).
    - eapply IH; eauto. destruct o; lia.
    - eapply IH; eauto. lia.
  Qed.
  Lemma load_packed : forall ops s s' rs (m : mkd (kd_impl C true)) n k, inv C valid false s -> krel C true (PackedInsert.prel C) pplaced m s -> lv s <= S (n + k) ->
    mbalanced C m -> extra (shape (p_arena (m_tree m : ptree M))) <= n + k * (n + k) ->
    keeps (step C true) pre s ops -> run (step C true) s ops = Ok (s', rs) ->
    exists m', run (m_step C true) m ops = Ok (m', rs) /\ krel C true (PackedInsert.prel C) pplaced m' s' /\
      let (n', k') := load C true n k s ops in extra (shape (p_arena (m_tree m' : ptree M))) <= n' + k' * (n' + k').
  Proof using HL.
    induction ops as [|o ops IH]; intros s s' rs m n k Hi Hrel Hn Hb He Hk Hr; cbn [run load keeps] in *.
    { injection Hr as <- <-. exists m. auto. }
    destruct Hk as [Hp Hk]. destruct (step C true s o) as [[s1 r]| | |] eqn:Hs; try contradiction. cbn [bind] in Hr.
    apply bind_inv in Hr as ([s2 rs2] & Hr & E). injection E as <- <-.
    pose proof (step_leaves C valid HL true s o s1 r Hi Hp Hs) as Hl.
    assert (Hi1 : inv C valid false s1).
    { rewrite (tree_pre_kpre C valid true) in Hp. destruct (step_ok C valid HL true false ltac:(discriminate) s o Hi Hp) as (s3 & r3 & E & Hi3 & _). congruence. }
    destruct (step_rel C true _ _ (packed_faithful C) m s o s1 r Hrel Hs) as (m1 & Hm & Hrel1). destruct (packed_step C m m1 o r Hb Hm) as [Hb1 He1].
    pose proof (packed_nodes C _ _ (r_tree _ _ _ _ _ _ Hrel)) as N0. pose proof (packed_nodes C _ _ (r_tree _ _ _ _ _ _ Hrel1)) as N1. fold (lv s) in N0. fold (lv s1) in N1.
    rewrite (r_rebuilds _ _ _ _ _ _ Hrel), (r_rebuilds _ _ _ _ _ _ Hrel1) in He1. rewrite Hm. cbn [bind].
    destruct (k_rebuilds s1 =? k_rebuilds s).
    - destruct (IH s1 s2 rs2 m1 n (match o with DInsert _ => S k | _ => k end)) as (m' & G1 & G2 & G3); auto; [destruct o; lia|destruct o; nia|].
      rewrite G1. cbn [bind]. eauto.
    - destruct (IH s1 s2 rs2 m1 (length (kcontents s1)) 0) as (m' & G1 & G2 & G3); auto; [lia|lia|]. rewrite G1. cbn [bind]. eauto.
  Qed.

  Lemma binary_memory z s0 ops s rs : construct C = Ok s0 -> keeps (step C false) pre s0 ops -> run (step C false) s0 ops = Ok (s, rs) ->
    exists m0 m, m_construct C false = Ok m0 /\ run (m_step C false) m0 ops = Ok (m, rs) /\
      let (n, k) := load C false 0 0 s0 ops in i_bytes z C false (m_tree m) <= S (n + k) * z_leaf z + (n + k) * z_interior z.
  Proof using HL.
    intros H0 Hk Hr. destruct (construct_ok C valid HL false ltac:(discriminate)) as (s1 & H1 & Hi & Hc). rewrite H0 in H1. injection H1 as <-.
    destruct (construct_rel C false _ _ (binary_faithful C) s0 H0) as (m0 & Hm0 & Hrel).
    destruct (run_rel C false _ _ (binary_faithful C) ops _ _ _ _ Hrel Hr) as (m & Hm & Hrel'). exists m0, m. do 2 (split; auto).
    assert (Hl := load_leaves false ops s0 s rs 0 0 Hi). destruct (load C false 0 0 s0 ops) as [n k]. cbn [fst snd] in Hl.
    assert (Hl0 : lv s0 <= 1).
    { unfold construct in H0. apply bind_inv in H0 as (bits & _ & H0). injection H0 as <-. unfold lv, reset_changes. destruct (negb (c_auto C)); cbn; lia. }
    specialize (Hl Hl0 Hk Hr). cbn [i_bytes]. pose proof (binary_bytes z _ _ (r_tree _ _ _ _ _ _ Hrel')) as Hb. fold (lv s) in Hb.
    etransitivity; [exact Hb|]. apply Nat.add_le_mono; apply Nat.mul_le_mono_r; lia.
  Qed.
  Lemma packed_memory z s0 ops s rs : construct C = Ok s0 -> keeps (step C true) pre s0 ops -> run (step C true) s0 ops = Ok (s, rs) ->
    exists m0 m, m_construct C true = Ok m0 /\ run (m_step C true) m0 ops = Ok (m, rs) /\
      let (n, k) := load C true 0 0 s0 ops in i_bytes z C true (m_tree m) <= S (n + k) * z_node z + (n + k * (n + k)) * z_child z.
  Proof using HL.
    intros H0 Hk Hr. destruct (construct_ok C valid HL false ltac:(discriminate)) as (s1 & H1 & Hi & Hc). rewrite H0 in H1. injection H1 as <-.
    destruct (construct_rel C true _ _ (packed_faithful C) s0 H0) as (m0 & Hm0 & Hrel).
    assert (Hl0 : lv s0 <= 1).
    { unfold construct in H0. apply bind_inv in H0 as (bits & _ & H0). injection H0 as <-. unfold lv, reset_changes. destruct (negb (c_auto C)); cbn; lia. }
    assert (Hz : shape (p_arena (m_tree m0 : ptree M)) = []).
    { unfold m_construct in Hm0. apply bind_inv in Hm0 as (bits & _ & Hm0). injection Hm0 as <-. rewrite (proj1 (reset_changes_tree C _)). reflexivity. }
    destruct (load_packed ops s0 s rs m0 0 0) as (m & Hm & Hrel' & He); auto; [unfold mbalanced, balanced; rewrite Hz; cbn; lia|rewrite Hz; cbn; lia|].
    exists m0, m. do 2 (split; auto). assert (Hl := load_leaves true ops s0 s rs 0 0 Hi Hl0 Hk Hr). destruct (load C true 0 0 s0 ops) as [n k]. cbn [fst snd] in Hl.
    cbn [i_bytes]. rewrite bytes_shape. pose proof (packed_nodes C _ _ (r_tree _ _ _ _ _ _ Hrel')) as N. fold (lv s) in N. unfold shape in N. rewrite map_length in N.
    apply Nat.add_le_mono; apply Nat.mul_le_mono_r; [lia|exact He].
  Qed.
End Histories.

Lemma rebuilds_rebuild {M} (C : kconf M) packed s s' r : step C packed s DRebuild = Ok (s', r) -> k_rebuilds s' = S (k_rebuilds s).
Proof.
  cbn [step]. intros H. apply bind_inv in H as (s1 & H & E). injection E as <- _. unfold rebuild_kd in H. apply bind_inv in H as (l & _ & H). apply bind_inv in H as (bits & _ & H). apply bind_inv in H as (t & _ & H).
  unfold reset_changes in H. destruct (negb (c_auto C)); now injection H as <-.
Qed.
Lemma load_rebuild {M} (C : kconf M) packed : forall ops s s' rs n k, run (step C packed) s (ops ++ [DRebuild]) = Ok (s', rs) -> load C packed n k s (ops ++ [DRebuild]) = (length (kcontents s'), 0).
Proof.
  induction ops as [|o ops IH]; intros s s' rs n k; cbn [app run load].
  - destruct (step C packed s DRebuild) as [[s1 r]| | |] eqn:E; try discriminate. cbn [bind]. intros [= <- _]. rewrite (rebuilds_rebuild _ _ _ _ _ E), (proj2 (Nat.eqb_neq _ _)) by lia. reflexivity.
  - destruct (step C packed s o) as [[s1 r]| | |]; try discriminate. cbn [bind]. intros H. apply bind_inv in H as ([s2 rs2] & H & E). injection E as <- _.
    destruct (k_rebuilds s1 =? k_rebuilds s); eapply IH; eauto.
Qed.
