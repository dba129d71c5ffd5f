(** Insertions of ever smaller monomials into a packed tree: each one leaves a node behind, with the memory for all of its children. *)
From Coq Require Import List Arith Bool ZArith NArith String Lia Permutation.
From Verif.Base Require Import Res Arr ResList StdAlg Lists FaultFacts.
From Verif.DivMask Require Import Model Defined.
From Verif.Spec Require Import DivFinder DivFinderFacts Reach.
From Verif.DivList Require Import Properties.
From Verif.KD Require Import EntryArray Tree Model Legal Proofs Properties.
From Verif.KDMem Require Import Arena ArenaFacts Packed Model Faithful Proofs Bytes BytesPacked.
Import ListNotations.
Local Notation length := List.length.

Definition both (n : nat) : mono := (Z.of_nat n, Z.of_nat n).
(** Insertion of (n, n), ..., (1, 1) *)
Fixpoint falling (n : nat) : list (dop mono) := match n with 0 => [] | S k => DInsert (both n) :: falling k end.
(** One entry per leaf, no masks and no automatic rebuilds *)
Definition plain : kconf mono := mono_tree false false 1 true false false false.

Section Falling.
  Notation C := plain.
  Notation ptree := (ptree mono).
  (** After [S j] insertions, the last one of (z, z) *)
  Definition dug (j : nat) (z : Z) (T : ptree) : Prop :=
    exists cells n (e : ext mono), T = mk_ptree (mk_arena 0 (cells ++ [n])) (Some j) /\ length cells = j /\ p_used n = j /\ j <= length (p_slots n) /\
      a_list (p_entries n) = [e] /\ x_t e = (z, z) /\
      (forall i, i < j -> exists s v y, nth_error (p_slots n) i = Some s /\ s_var s = Some v /\ s_exp s = Some y /\ (z <= y)%Z) /\
      2 * extra (shape (p_arena T)) = j * (j - 1).

  Lemma ex_same z v : mono_ex (z, z) v = z.
  Proof. now destruct v. Qed.
  Lemma walk_past (A : arena (pnode mono)) p n (e : ext mono) w z : ar_get A p = Ok n -> x_t e = (w, w) -> (w < z)%Z -> p_used n <= length (p_slots n) ->
    (forall i, i < p_used n -> exists s v y, nth_error (p_slots n) i = Some s /\ s_var s = Some v /\ s_exp s = Some y /\ (z <= y)%Z) ->
    forall d i fuel, p_used n = i + d -> d < fuel -> p_walk C fuel A e None p i = Ok (A, None, p).
  Proof.
    intros Hn He Hw Hu Hs. induction d as [|d IH]; intros i [|f] Hd Hf; try lia; cbn [p_walk]; rewrite Hn; cbn [bind].
    - rewrite (proj2 (Nat.eqb_eq _ _)) by lia. reflexivity.
    - rewrite (proj2 (Nat.eqb_neq _ _)) by lia. destruct (Hs i ltac:(lia)) as (s & v & y & E & Ev & Ey & Hy). rewrite (proj2 (vget_ok _ _ _) E). cbn [bind lower_slot].
      change (lower_slot C s e) with (Ok s). cbn [bind].
      assert (Hset : set_slot A p i s = Ok A).
      { unfold set_slot. rewrite Hn. cbn [bind]. unfold vset. rewrite (proj2 (Nat.ltb_lt _ _)) by lia. cbn [bind]. rewrite (upd_same _ _ _ E).
        unfold ar_set. unfold ar_get in Hn. destruct (p <? ar_dead A); [discriminate|]. apply vget_ok in Hn. unfold vset.
        rewrite (proj2 (Nat.ltb_lt _ _)) by (apply nth_error_Some; congruence). cbn [bind]. rewrite upd_same; [destruct A; reflexivity|]. rewrite Hn. now destruct n. }
      rewrite Hset. cbn [bind]. unfold in_child. rewrite Ev, Ey. cbn [of_option bind]. unfold above. rewrite He. change (c_ex C) with mono_ex. rewrite ex_same.
      rewrite (proj2 (Z.ltb_ge _ _)) by lia. apply IH; lia.
  Qed.
  Lemma choose_below (e e0 : ext mono) w var : x_t e = (w, w) -> x_t e0 = (w + 1, w + 1)%Z -> (0 <= w <= 2 ^ 31 - 33)%Z ->
    exists v, split_for C e [e0] var = Ok (v, w, [], [e0]).
  Proof.
    intros He He0 Hw. unfold split_for. change (c_nvars C) with 2. cbn [choose map bounds fold_left]. unfold bounds. cbn [fold_left fst snd]. change (c_ex C) with mono_ex.
    rewrite He, He0, !ex_same. rewrite Z.min_l, Z.max_r by lia. rewrite (proj2 (Z.eqb_neq _ _)) by lia. change (c_type C) with (Signed 32).
    assert (Hn : forall x, (0 <= x <= 2 ^ 31 - 1)%Z -> norm (Signed 32) x = Ok x).
    { intros x Hx. unfold norm. cbn [Z.of_N]. change (32 - 1)%Z with 31%Z. destruct (Z.leb_spec (- 2 ^ 31) x); [|lia]. destruct (Z.ltb_spec x (2 ^ 31)); [reflexivity|lia]. }
    replace (w + 1 - w)%Z with 1%Z by lia. rewrite (Hn 1%Z) by lia. cbn [bind]. change (Z.quot 1 2) with 0%Z. rewrite Z.add_0_r, Hn by lia. cbn [bind].
    exists (next_var C var). change (c_part_ext C) with (@keep_order (ext mono)). unfold keep_order. cbn [filter].
    rewrite He0, ex_same. rewrite (proj2 (Z.ltb_lt _ _)) by lia. reflexivity.
  Qed.
  Lemma nth_error_firstn_lt {X} (l : list X) : forall k i, i < k -> nth_error (firstn k l) i = nth_error l i.
  Proof. induction l as [|x l IH]; intros [|k] [|i] H; try lia; auto. cbn. apply IH. lia. Qed.
  Lemma cells_get (cells : list (pnode mono)) n l : ar_get (mk_arena 0 (cells ++ n :: l)) (length cells) = Ok n.
  Proof. unfold ar_get. cbn [ar_dead ar_cells Nat.ltb Nat.leb]. rewrite Nat.sub_0_r. apply vget_ok. rewrite nth_error_app2 by lia. now rewrite Nat.sub_diag. Qed.
  Lemma cells_set (cells : list (pnode mono)) n l n' : ar_set (mk_arena 0 (cells ++ n :: l)) (length cells) n' = Ok (mk_arena 0 (cells ++ n' :: l)).
  Proof.
    unfold ar_set. cbn [ar_dead ar_cells Nat.ltb Nat.leb]. rewrite Nat.sub_0_r. unfold vset. rewrite (proj2 (Nat.ltb_lt _ _)) by (rewrite app_length; cbn [length]; lia).
    cbn [bind]. do 2 f_equal. induction cells as [|c cells IH]; [reflexivity|]. cbn [app length upd]. now rewrite IH.
  Qed.
  Lemma dug_first (e : ext mono) z : x_t e = (z, z) -> exists T, p_insert C p_empty e = Ok T /\ dug 0 z T.
  Proof.
    intros He. eexists. split; [reflexivity|]. exists [], (mk_pnode (mk_arr [e] max_mask) 0 [raw]), e. cbn [length p_used p_slots p_entries a_list]. repeat split; auto. intros i Hi. lia.
  Qed.
  Lemma dug_next j z T (e : ext mono) w : dug j z T -> x_t e = (w, w) -> z = (w + 1)%Z -> (0 <= w <= 2 ^ 31 - 33)%Z -> exists T', p_insert C T e = Ok T' /\ dug (S j) w T'.
  Proof.
    intros (cells & n & e0 & -> & Hc & Hu & Hl & Ha & He0 & Hs & Hx) He -> Hw. set (A := mk_arena 0 (cells ++ [n])) in *.
    assert (Hn : ar_get A j = Ok n) by (rewrite <- Hc; apply cells_get).
    unfold p_insert, p_approach, p_start. cbn [p_root p_arena]. rewrite (walk_past A j n e w (w + 1)%Z Hn He) with (d := j);
      [|lia|lia|now rewrite Hu|lia|unfold A; cbn [ar_cells]; rewrite app_length; cbn [length]; lia].
    cbn [bind]. unfold p_put. cbn [p_arena p_root]. rewrite Hn. cbn [bind]. rewrite Ha. change (length [e0] <? c_leaf C) with false. cbv iota.
    assert (Hsplit : exists n', p_split_insert C A j e None = Ok (mk_arena 0 (cells ++ [mk_pnode (mk_arr [e0] (a_mask (p_entries n))) 0 (p_slots n); n']), S j) /\
      p_used n' = S j /\ S j <= length (p_slots n') /\ a_list (p_entries n') = [e] /\
      (forall i, i < S j -> exists s v y, nth_error (p_slots n') i = Some s /\ s_var s = Some v /\ s_exp s = Some y /\ (w <= y)%Z)).
    { unfold p_split_insert. rewrite Hn. cbn [bind]. rewrite Hu.
      assert (Hv : exists var, (if negb (j =? 0) then (let* s := vget (p_slots n) (j - 1) in let* v := of_option (s_var s) in Ok (Some v)) else Ok None) = Ok var).
      { destruct (Nat.eqb_spec j 0) as [->|Hj]; cbn [negb]; [eauto|]. destruct (Hs (j - 1) ltac:(lia)) as (s & v & y & E & Ev & _). rewrite (proj2 (vget_ok _ _ _) E). cbn [bind].
        rewrite Ev. cbn [of_option bind]. eauto. }
      destruct Hv as (var & ->). cbn [bind]. rewrite Ha. destruct (choose_below e e0 w var He He0 Hw) as (v & ->). cbn [bind].
      change (arr_of C []) with (Ok (@arr_empty mono)). cbn [bind]. unfold children. rewrite Hu. rewrite (proj2 (Nat.ltb_ge _ _) Hl). cbn [bind].
      change (c_tree C) with false. cbv iota. unfold ar_new, A. cbn [ar_dead ar_cells]. rewrite app_length, Hc. cbn [length Nat.add]. rewrite Nat.add_1_r.
      set (n1 := mk_pnode arr_empty _ _). replace ((cells ++ [n]) ++ [n1]) with (cells ++ n :: [n1]) by (now rewrite <- app_assoc).
      cbn [bind]. assert (Hset : forall l k, ar_set (mk_arena 0 (cells ++ n :: l)) j k = Ok (mk_arena 0 (cells ++ k :: l))) by (intros l k; rewrite <- Hc; apply cells_set).
      rewrite Hset. cbn [bind]. assert (Hab : above C v w (x_t e) = false) by (unfold above; rewrite He; change (c_ex C) with mono_ex; rewrite ex_same; apply Z.ltb_irrefl).
      rewrite Hab.
      set (n0 := mk_pnode _ 0 (p_slots n)).
      assert (Hg : forall k l, ar_get (mk_arena 0 (cells ++ [n0; k] ++ l)) (S j) = Ok k).
      { intros k l. replace (cells ++ [n0; k] ++ l) with ((cells ++ [n0]) ++ k :: l) by (now rewrite <- app_assoc).
        replace (S j) with (length (cells ++ [n0])) by (rewrite app_length; cbn [length]; lia). apply cells_get. }
      change [n0; n1] with ([n0; n1] ++ []). rewrite Hg. cbn [bind]. change (arr_insert C (p_entries n1) e) with (Ok (mk_arr [e] (klower C max_mask (x_mask e)))). cbn [bind].
      unfold set_entries. rewrite Hg. cbn [bind]. rewrite app_nil_r.
      assert (Hset2 : forall k, ar_set (mk_arena 0 (cells ++ [n0; n1])) (S j) k = Ok (mk_arena 0 (cells ++ [n0; k]))).
      { intros k. replace (cells ++ [n0; n1]) with ((cells ++ [n0]) ++ [n1]) by (now rewrite <- app_assoc). replace (cells ++ [n0; k]) with ((cells ++ [n0]) ++ [k]) by (now rewrite <- app_assoc).
        replace (S j) with (length (cells ++ [n0])) by (rewrite app_length; cbn [length]; lia). apply cells_set. }
      rewrite Hset2. cbn [bind].
      eexists. split; [reflexivity|]. cbn [p_used p_slots p_entries a_list n1]. split; [auto|]. split; [rewrite app_length, firstn_length_le by lia; cbn [length]; lia|]. split; [auto|].
      intros i Hi. destruct (Nat.eq_dec i j) as [->|Hne].
      - exists (mk_slot (Some v) (Some w) None (Some j)), v, w. split; [|cbn; repeat split; auto; lia]. rewrite nth_error_app2; rewrite firstn_length_le by lia; auto. now rewrite Nat.sub_diag.
      - destruct (Hs i ltac:(lia)) as (s & v1 & y & E & Ev & Ey & Hy). exists s, v1, y. split; [|repeat split; auto; lia].
        rewrite nth_error_app1 by (rewrite firstn_length_le; lia). rewrite nth_error_firstn_lt by lia. exact E. }
    destruct Hsplit as (n' & Hp & Hu' & Hl' & Ha' & Hs'). rewrite Hp. cbn [bind]. eexists. split; [reflexivity|].
    exists (cells ++ [mk_pnode (mk_arr [e0] (a_mask (p_entries n))) 0 (p_slots n)]), n', e. split; [now rewrite <- app_assoc|]. rewrite app_length. cbn [length].
    split; [lia|]. do 5 (split; [auto|]). destruct (split_shape C _ _ _ _ _ _ Hp) as (n2 & Hn2 & _ & E & _). rewrite Hn in Hn2. injection Hn2 as <-. cbn [p_arena]. rewrite E, Hu.
    assert (Hnt : nth_error (shape A) (j - ar_dead A) = Some (p_used n, length (p_slots n))) by (apply (map_nth_error shape_of), get_nth, Hn).
    cbn [p_arena] in Hx. unfold extra in *. rewrite sum_snoc. pose proof (sum_upd (fun x => snd x - 1) _ _ _ (0, length (p_slots n)) Hnt) as H2. cbn [fst snd] in *. nia.
  Qed.

  Notation mkd := (mkd (kd_impl C true)).
  Lemma step_insert (s : mkd) e T' : p_insert C (m_tree s) (kext C (m_bits s) e) = Ok T' -> exists s', m_step C true s (DInsert e) = Ok (s', DONone) /\ m_tree s' = T'.
  Proof.
    intros H. cbn [m_step]. unfold m_insert. change (i_insert (kd_impl C true) (m_tree s) (kext C (m_bits s) e)) with (p_insert C (m_tree s) (kext C (m_bits s) e)). rewrite H.
    cbn [bind]. unfold m_report. cbn [m_size m_tree]. change (c_auto C) with false. replace (m_size s + 1 <? 0) with false by (symmetry; now apply Nat.ltb_ge, Nat.le_0_l).
    cbn [negb bind]. eexists. split; reflexivity.
  Qed.
  Lemma falling_on : forall n j (s : mkd), dug j (Z.of_nat (S n)) (m_tree s) -> (Z.of_nat n <= 2 ^ 31 - 33)%Z ->
    exists s' rs, run (m_step C true) s (falling n) = Ok (s', rs) /\ exists z, dug (j + n) z (m_tree s').
  Proof.
    induction n as [|n IH]; intros j s Hd Hn; cbn [falling run].
    - exists s, []. split; auto. rewrite Nat.add_0_r. eauto.
    - destruct (dug_next j _ (m_tree s) (kext C (m_bits s) (both (S n))) (Z.of_nat (S n)) Hd) as (T & HT & Hd'); [reflexivity|lia|lia|].
      destruct (step_insert s _ T HT) as (s1 & Hs & E). rewrite Hs. cbn [bind]. rewrite <- E in Hd'. destruct (IH (S j) s1 Hd' ltac:(lia)) as (s' & rs & Hr & z & Hz). rewrite Hr. cbn [bind].
      exists s', (DONone :: rs). split; auto. exists z. now rewrite Nat.add_succ_r.
  Qed.
  Lemma falling_bytes z n : (Z.of_nat n <= 2 ^ 31 - 33)%Z ->
    exists m0 m rs, m_construct C true = Ok m0 /\ run (m_step C true) m0 (falling (S n)) = Ok (m, rs) /\
      2 * i_bytes z C true (m_tree m) = 2 * S n * z_node z + n * (n - 1) * z_child z.
  Proof.
    intros Hn. destruct (m_construct C true) as [m0| | |] eqn:H0; try discriminate. exists m0. injection H0 as <-. cbn [falling run].
    match goal with |- context [m_step C true ?m (DInsert ?e)] => set (m0 := m); destruct (dug_first (kext C (m_bits m0) e) (Z.of_nat (S n)) eq_refl) as (T & HT & Hd); destruct (step_insert m0 e T HT) as (s1 & Hs & E) end.
    rewrite Hs. cbn [bind]. rewrite <- E in Hd. destruct (falling_on n 0 s1 Hd Hn) as (m & rs & Hr & w & Hw). rewrite Hr. cbn [bind]. exists m, (DONone :: rs). split; auto. split; auto.
    cbn [i_bytes]. rewrite bytes_shape. destruct Hw as (cells & k & e & -> & Hc & _ & _ & _ & _ & _ & Hx). cbn [p_arena] in *. cbn [ar_cells]. rewrite app_length, Hc. cbn [length Nat.add] in *. nia.
  Qed.

  Lemma falling_legal : forall n s, inv C int_mono false s -> (forall e, In e (kcontents s) -> (Z.of_nat n < fst e)%Z) -> (Z.of_nat n <= 2 ^ 31 - 32)%Z ->
    keeps (step C true) (fun s o => tree_pre C int_mono (kcontents s) o = true) s (falling n) /\ exists s' rs, run (step C true) s (falling n) = Ok (s', rs).
  Proof.
    assert (HL : klegal C int_mono) by (apply mono_tree_legal; [discriminate|auto]).
    induction n as [|n IH]; intros s Hi He Hn; [split; [exact I|exists s, []; reflexivity]|]. cbn [falling keeps run].
    assert (Hp : tree_pre C int_mono (kcontents s) (DInsert (both (S n))) = true).
    { cbn [tree_pre]. apply andb_true_iff. split.
      - unfold int_mono, int_exponents. cbn [seq forallb mono_ex both fst snd]. rewrite !andb_true_r. rewrite !(proj2 (Z.leb_le _ _)) by lia. reflexivity.
      - change (c_leaf C) with 1. apply Nat.ltb_lt. unfold copies. rewrite filter_none; [cbn; lia|]. intros x Hx. specialize (He x Hx). unfold ksame, same_exps. change (c_nvars C) with 2. change (c_ex C) with mono_ex.
        cbn [seq forallb mono_ex both fst snd]. rewrite (proj2 (Z.eqb_neq _ _)) by lia. reflexivity. }
    assert (Hs : exists s1, step C true s (DInsert (both (S n))) = Ok (s1, DONone) /\ inv C int_mono false s1 /\ Permutation (kcontents s1) (both (S n) :: kcontents s)).
    { rewrite (tree_pre_kpre C int_mono true) in Hp. destruct (step_ok C int_mono HL true false ltac:(discriminate) s _ Hi Hp) as (s1 & r & E & Hi1 & Hd). inversion Hd. subst. eauto. }
    destruct Hs as (s1 & Hs & Hi1 & Hc). rewrite Hs. cbn [bind]. destruct (IH s1 Hi1) as [Hk (s' & rs & Hr)].
    - intros e Hin. apply (Permutation_in _ Hc) in Hin as [<-|Hin]; [cbn [both fst]; lia|]. specialize (He e Hin). lia.
    - lia.
    - rewrite Hr. cbn [bind]. eauto.
  Qed.
  Lemma falling_reached n : (Z.of_nat n <= 2 ^ 31 - 32)%Z -> exists s rs, kreached C true int_mono (falling n) s rs.
  Proof.
    intros Hn. assert (HL : klegal C int_mono) by (apply mono_tree_legal; [discriminate|auto]).
    destruct (construct_ok C int_mono HL false ltac:(discriminate)) as (s0 & H0 & Hi & Hc). destruct (falling_legal n s0 Hi) as [Hk (s & rs & Hr)]; auto.
    - rewrite Hc. intros e [].
    - exists s, rs. eapply kreached_run; eauto.
  Qed.
  Lemma falling_map n : falling n = map DInsert (map both (rev (seq 1 n))).
  Proof. induction n as [|n IH]; [reflexivity|]. cbn [falling]. rewrite seq_S, rev_app_distr. cbn [rev app map]. now rewrite IH. Qed.
End Falling.
(** The answers are those of the trees that are values *)
Lemma packed_answers {M} (C : kconf M) valid ops s rs m0 m rs' : kreached C true valid ops s rs -> m_construct C true = Ok m0 -> run (m_step C true) m0 ops = Ok (m, rs') -> rs' = rs.
Proof.
  intros (s0 & H0 & Hr) Hm0 Hm. destruct (construct_rel C true _ _ (packed_faithful C) s0 H0) as (m1 & H1 & Hrel). rewrite Hm0 in H1. injection H1 as <-.
  apply reached_run in Hr. destruct (run_rel C true _ _ (packed_faithful C) ops _ _ _ _ Hrel Hr) as (m2 & H2 & _). congruence.
Qed.
