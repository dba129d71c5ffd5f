(** What copying and moving a tree does (C78). *)
From Coq Require Import List Arith Bool Lia.
From Verif.Base Require Import Res Arr Order.
From Verif.Spec Require Import PQ.
From Verif.Heap Require Import Model Proofs.
From Verif.TourTree Require Import Model Proofs.
From Verif.TourMem Require Import Model Proofs WorldProofs.
Import ListNotations.

Section Copies.
  Context {E : Type}.
  Variable lt : E -> E -> bool.

  Lemma snoc_at {A} (l : list A) x : nth_error (l ++ [x]) (length l) = Some x.
  Proof. rewrite nth_error_app2 by auto. now rewrite Nat.sub_diag. Qed.

  (** A copy of the tree [t] with its players in [b]: made when there were [n] pieces of memory *)
  Definition copied (b n : nat) (t : tourtree E) : mtour := mk_mt (map (pair b) (tt_tree t)) (length (tt_tree t)) (mk_vec n (length (tt_players t))) true.
  Lemma copy_step w ts i t : good lt w ts -> nth_error ts i = Some (Some t) -> exists b,
    nth_error (w_trees w) i = Some (Some (obj b t)) /\ nth_error (w_mem w) b = Some (Some (tt_players t)) /\
    w_step lt w (WCopy i) = Ok (mk_world (w_mem w ++ [Some (tt_players t)]) (w_trees w ++ [Some (copied b (length (w_mem w)) t)]), ONone).
  Proof.
    intros G Ht. destruct (g_tree _ _ _ G _ _ Ht) as (b & Hb & Hm). exists b. split; [auto|split; [auto|]]. cbn [w_step]. unfold tree_at, vget. rewrite Hb. cbn [of_option bind].
    unfold m_copy, v_elements, vget. cbn [obj m_vec v_block m_here m_tree negb andb]. rewrite Hm. cbn [of_option bind]. rewrite map_length. reflexivity.
  Qed.

  (** The calls that only read *)
  Definition reads (o : op E) : bool := match o with Top | Empty | ForAll => true | _ => false end.
  Lemma copy_reads w ts i t o r : good lt w ts -> nth_error ts i = Some (Some t) -> reads o = true -> tt_step E lt t o = Ok (t, r) ->
    exists w1 w2, w_step lt w (WCopy i) = Ok (w1, ONone) /\ w_step lt w1 (WCall (length (w_trees w)) o) = Ok (w2, r).
  Proof.
    intros G Ht Ho Hs. destruct (copy_step w ts i t G Ht) as (b & Hb & Hm & Hc). rewrite Hc. do 2 eexists. split; [reflexivity|]. cbn [w_step]. unfold tree_at, vget. cbn [w_trees w_mem].
    rewrite snoc_at. cbn [of_option bind]. pose proof (nth_error_some_lt _ _ _ Hm) as Hl. destruct o; try discriminate; cbn [m_call tt_step] in *.
    - unfold tt_top in Hs. unfold m_top, node, copied. cbn [m_here m_tree]. rewrite tget_map. destruct (tget (tt_tree t) 1) as [r0| | |]; cbn [rmap bind] in *; try discriminate.
      unfold load, vget. cbn [fst snd]. rewrite nth_error_app1 by auto. rewrite Hm. cbn [of_option bind]. unfold vget in Hs. destruct (nth_error (tt_players t) r0); cbn [of_option bind] in *; [|discriminate].
      injection Hs as <-. reflexivity.
    - injection Hs as <-. cbn [bind]. unfold m_empty, tt_empty, copied. cbn [m_tree]. destruct (tt_tree t); reflexivity.
    - injection Hs as <-. unfold m_forAll, v_elements, vget, copied. cbn [m_vec v_block]. rewrite snoc_at. reflexivity.
  Qed.

  Lemma rebase_other b b' c (tree : list nat) : b <> b' -> tree <> [] -> rebase b' c (map (pair b) tree) = UB.
  Proof. intros H Hn. destruct tree as [|i tree]; [congruence|]. cbn [map rebase fst]. destruct (Nat.eqb_spec b b'); [contradiction|reflexivity]. Qed.
  Lemma copy_push w ts i t x : good lt w ts -> nth_error ts i = Some (Some t) -> tt_players t <> [] ->
    exists w1, w_step lt w (WCopy i) = Ok (w1, ONone) /\ w_step lt w1 (WCall (length (w_trees w)) (Push x)) = UB.
  Proof.
    intros G Ht Hn. destruct (copy_step w ts i t G Ht) as (b & Hb & Hm & Hc). rewrite Hc. eexists. split; [reflexivity|]. cbn [w_step]. unfold tree_at, vget. cbn [w_trees w_mem].
    rewrite snoc_at. cbn [of_option bind m_call]. pose proof (nth_error_some_lt _ _ _ Hm) as Hl.
    assert (Htn : tt_tree t <> []). { intros H. apply Hn. now apply (inv_nil lt t (g_inv _ _ _ G _ _ Ht)). }
    unfold m_push. cbn [copied m_cap m_tree]. rewrite map_length, Nat.sub_diag. cbn [Nat.leb]. unfold m_reallocate. cbn [copied m_here m_tree m_vec m_cap negb andb].
    assert (He : forall c, v_elements (w_mem w ++ [Some (tt_players t)]) (mk_vec (length (w_mem w)) c) = Ok (tt_players t)).
    { intros c. unfold v_elements, vget. cbn [v_block]. now rewrite snoc_at. }
    rewrite He. cbn [bind]. unfold v_reserve. cbn [v_cap]. destruct (_ <=? _); cbn [bind].
    - destruct (tt_players t) eqn:Ep; [congruence|]. cbn [v_block]. rewrite rebase_other by (auto; lia). reflexivity.
    - rewrite He. cbn [bind]. unfold v_relocate, vset. cbn [v_block]. rewrite app_length. cbn [length]. destruct (Nat.ltb_spec (length (w_mem w)) (length (w_mem w) + 1)); [|lia].
      cbn [bind]. destruct (tt_players t) eqn:Ep; [congruence|]. cbn [v_block]. rewrite rebase_other by (auto; lia). reflexivity.
  Qed.
  Lemma copy_dangles w ts i t o : good lt w ts -> nth_error ts i = Some (Some t) -> tt_players t <> [] -> needs_nonempty o = true ->
    exists w1 w2, w_step lt w (WCopy i) = Ok (w1, ONone) /\ w_step lt w1 (WDestroy i) = Ok (w2, ONone) /\ w_step lt w2 (WCall (length (w_trees w)) o) = UB.
  Proof.
    intros G Ht Hn Ho. destruct (copy_step w ts i t G Ht) as (b & Hb & Hm & Hc). rewrite Hc. pose proof (nth_error_some_lt _ _ _ Hm) as Hl. pose proof (nth_error_some_lt _ _ _ Hb) as Hi.
    do 2 eexists. split; [reflexivity|]. split.
    - cbn [w_step]. unfold tree_at, vget. cbn [w_trees w_mem]. rewrite nth_error_app1 by auto. rewrite Hb. cbn [of_option bind]. unfold m_destroy, v_elements, vget, vset. cbn [obj m_vec v_block].
      rewrite nth_error_app1 by auto. rewrite Hm. cbn [of_option bind]. rewrite app_length. destruct (Nat.ltb_spec b (length (w_mem w) + length [Some (tt_players t)])); [|cbn in *; lia]. cbn [bind]. reflexivity.
    - cbn [w_step]. unfold tree_at, vget. cbn [w_trees w_mem]. rewrite nth_upd_other by lia. rewrite snoc_at. cbn [of_option bind].
      assert (Hroot : exists p, node (copied b (length (w_mem w)) t) 1 = Ok (b, p)).
      { unfold node, copied. cbn [m_here m_tree]. rewrite tget_map. destruct (tt_tree t) as [|p tr] eqn:Et; [exfalso; apply Hn; now apply (inv_nil lt t (g_inv _ _ _ G _ _ Ht))|]. exists p. reflexivity. }
      destruct Hroot as [p Hroot].
      assert (Hload : load (upd (w_mem w ++ [Some (tt_players t)]) b None) (b, p) = UB).
      { unfold load, vget. cbn [fst]. rewrite nth_upd_same by (rewrite app_length; lia). reflexivity. }
      destruct o; try discriminate; cbn [m_call]; unfold m_pop, m_top, m_decreaseTop, store_entry; rewrite Hroot; cbn [bind]; rewrite Hload; reflexivity.
  Qed.

  (** Moving *)
  Lemma move_step w ts i t : good lt w ts -> nth_error ts i = Some (Some t) -> tt_players t <> [] -> exists w1,
    w_step lt w (WMove i) = Ok (w1, ONone) /\
    (exists w2, w_step lt w1 (WCall (length (w_trees w)) Empty) = Ok (w2, OBool true)) /\
    (exists w2, w_step lt w1 (WCall (length (w_trees w)) ForAll) = Ok (w2, OList (map entry (tt_players t)))) /\
    (exists w2, w_step lt w1 (WCall i Empty) = Ok (w2, OBool false)) /\
    (forall o, needs_nonempty o = true -> w_step lt w1 (WCall (length (w_trees w)) o) = UB /\ w_step lt w1 (WCall i o) = UB).
  Proof.
    intros G Ht Hn. destruct (g_tree _ _ _ G _ _ Ht) as (b & Hb & Hm). pose proof (nth_error_some_lt _ _ _ Hm) as Hl. pose proof (nth_error_some_lt _ _ _ Hb) as Hi.
    assert (Htn : tt_tree t <> []). { intros H. apply Hn. now apply (inv_nil lt t (g_inv _ _ _ G _ _ Ht)). }
    eexists. split; [cbn [w_step]; unfold tree_at, vget; rewrite Hb; cbn [of_option bind m_move]; reflexivity|].
    assert (Hnew : forall x, nth_error (upd (w_trees w) i x ++ [Some (mk_mt [] 0 (m_vec (obj b t)) (m_here (obj b t)))]) (length (w_trees w)) = Some (Some (mk_mt [] 0 (m_vec (obj b t)) (m_here (obj b t))))).
    { intros x. rewrite <- (upd_length (w_trees w) i x). apply snoc_at. }
    assert (Hem : forall c v h, m_empty (mk_mt (map (pair b) (tt_tree t)) c v h) = false) by (intros; unfold m_empty; cbn [m_tree]; destruct (tt_tree t); [congruence|reflexivity]).
    split; [|split; [|split]].
    - eexists. cbn [w_step]. unfold tree_at, vget. cbn [w_trees w_mem]. rewrite Hnew. cbn [of_option bind m_call m_empty m_tree]. reflexivity.
    - eexists. cbn [w_step]. unfold tree_at, vget. cbn [w_trees w_mem]. rewrite Hnew. cbn [of_option bind m_call]. unfold m_forAll, v_elements, vget. cbn [m_vec obj v_block].
      rewrite nth_error_app1 by auto. rewrite Hm. cbn [of_option bind]. reflexivity.
    - eexists. cbn [w_step]. unfold tree_at, vget. cbn [w_trees w_mem]. rewrite nth_error_app1 by (rewrite upd_length; auto). rewrite nth_upd_same by auto.
      cbn [of_option bind m_call obj m_tree m_cap]. rewrite Hem. reflexivity.
    - intros o Ho. split; cbn [w_step]; unfold tree_at, vget; cbn [w_trees w_mem].
      + rewrite Hnew. cbn [of_option bind]. destruct o; try discriminate; reflexivity.
      + rewrite nth_error_app1 by (rewrite upd_length; auto). rewrite nth_upd_same by auto. cbn [of_option bind]. destruct o; try discriminate; reflexivity.
  Qed.
End Copies.

(** ** From the start *)
Section Reached.
  Context {E : Type}.
  Variable lt : E -> E -> bool.
  Hypothesis Hsw : strict_weak lt.
  Definition start : world E := mk_world [] [].
  Lemma reached_good ops w rs : forallb plain ops = true -> run (w_step lt) start ops = Ok (w, rs) -> exists ts, good lt w ts.
  Proof.
    intros Hp Hr. pose proof (worlds_run lt Hsw ops start [] (good_start lt) Hp) as H. rewrite Hr in H. destruct H as (ts & G & _). eauto.
  Qed.
  Lemma reached_tree w ts i o w' r : good lt w ts -> tt_api E o = true -> w_step lt w (WCall i o) = Ok (w', r) ->
    exists t t', nth_error ts i = Some (Some t) /\ tt_step E lt t o = Ok (t', r).
  Proof.
    intros G Ha Hs. pose proof (good_step lt Hsw w ts (WCall i o) G Ha) as H. cbn [next_state] in H. unfold vget in H. destruct (nth_error ts i) as [[t|]|]; cbn [of_option bind] in H; try congruence.
    destruct (tt_step E lt t o) as [[t' r']| | |] eqn:Et; cbn [bind] in H; try congruence; try contradiction. destruct H as (w1 & H & _). exists t, t'. split; congruence.
  Qed.
  Lemma nonempty_tree w ts i w' : good lt w ts -> w_step lt w (WCall i Empty) = Ok (w', OBool false) -> exists t, nth_error ts i = Some (Some t) /\ tt_players t <> [].
  Proof.
    intros G Hs. destruct (reached_tree w ts i Empty w' _ G eq_refl Hs) as (t & t' & Ht & He). exists t. split; auto. intros Hp. cbn [tt_step] in He.
    apply (inv_nil lt t (g_inv _ _ _ G _ _ Ht)) in Hp. unfold tt_empty in He. rewrite Hp in He. discriminate.
  Qed.
  Lemma reads_state t o (t' : tourtree E) r : reads o = true -> tt_step E lt t o = Ok (t', r) -> t' = t.
  Proof.
    destruct o; try discriminate; cbn [tt_step]; intros _ H; try congruence. destruct (tt_top E t); cbn [bind] in H; congruence.
  Qed.
End Reached.
