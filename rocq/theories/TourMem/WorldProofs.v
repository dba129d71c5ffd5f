(** Programs with many trees (C77), and what copying and moving a tree does (C78). *)
From Coq Require Import List Arith Bool Lia Permutation.
From Verif.Base Require Import Res Arr Order.
From Verif.Spec Require Import PQ PQFacts.
From Verif.Heap Require Import Model Proofs.
From Verif.TourTree Require Import Model Proofs.
From Verif.TourMem Require Import Model Proofs.
Import ListNotations.

Section Worlds.
  Context {E : Type}.
  Variable lt : E -> E -> bool.
  Hypothesis Hsw : strict_weak lt.
  Notation inv := (inv lt).

  (** ** Specification: queues as multisets, [None] for one that is gone *)
  Inductive qstep (qs : list (option (list E))) : wop E -> out E -> list (option (list E)) -> Prop :=
  | q_new : qstep qs WNew ONone (qs ++ [Some []])
  | q_destroy i l : nth_error qs i = Some (Some l) -> qstep qs (WDestroy i) ONone (upd qs i None)
  | q_call i l o r l' : nth_error qs i = Some (Some l) -> sstep lt no_dd l o r l' -> qstep qs (WCall i o) r (upd qs i (Some l')).
  Inductive qtrace : list (option (list E)) -> list (wop E) -> list (out E) -> list (option (list E)) -> Prop :=
  | qt_nil qs : qtrace qs [] [] qs
  | qt_cons qs o r qs1 ops rs qs2 : qstep qs o r qs1 -> qtrace qs1 ops rs qs2 -> qtrace qs (o :: ops) (r :: rs) qs2.
  (** A call on a queue that is not there, or one that needs an entry on an empty queue *)
  Definition misuse (qs : list (option (list E))) (o : wop E) : Prop :=
    match o with
    | WDestroy i => forall l, nth_error qs i <> Some (Some l)
    | WCall i o => (forall l, nth_error qs i <> Some (Some l)) \/ (nth_error qs i = Some (Some []) /\ needs_nonempty o = true)
    | _ => False
    end.

  Definition abs (ts : list (option (tourtree E))) : list (option (list E)) := map (option_map contents) ts.
  Lemma abs_at ts i : nth_error (abs ts) i = option_map (option_map contents) (nth_error ts i).
  Proof. apply nth_error_map. Qed.
  Lemma next_spec w ts o : good lt w ts -> plain o = true ->
    match next_state lt ts o with
    | Ok (ts', r) => qstep (abs ts) o r (abs ts')
    | UB => misuse (abs ts) o
    | _ => False
    end.
  Proof.
    intros G Hp. destruct o as [|i|i o|i|i]; cbn [next_state plain misuse] in *; try discriminate.
    - unfold abs. rewrite map_app. constructor.
    - unfold vget. destruct (nth_error ts i) as [[t|]|] eqn:Et; cbn [of_option bind].
      + unfold abs. rewrite <- (upd_map (option_map contents) ts i None). apply q_destroy with (l := contents t). fold (abs ts). now rewrite abs_at, Et.
      + intros l. rewrite abs_at, Et. discriminate.
      + intros l. rewrite abs_at, Et. discriminate.
    - unfold vget. destruct (nth_error ts i) as [[t|]|] eqn:Et; cbn [of_option bind].
      + pose proof (tt_step_correct lt Hsw t o (g_inv _ _ _ G _ _ Et) Hp) as Hc. destruct (tt_step E lt t o) as [[t' r]| | |]; cbn [bind]; auto.
        * unfold abs. rewrite <- (upd_map (option_map contents) ts i (Some t')). apply q_call with (l := contents t); [fold (abs ts); now rewrite abs_at, Et|]. apply Hc.
        * right. rewrite abs_at, Et. cbn. destruct Hc as [-> Hc]. auto.
      + left. intros l. rewrite abs_at, Et. discriminate.
      + left. intros l. rewrite abs_at, Et. discriminate.
  Qed.

  Lemma worlds_run ops : forall w ts, good lt w ts -> forallb plain ops = true ->
    match run (w_step lt) w ops with
    | Ok (w', rs) => exists ts', good lt w' ts' /\ qtrace (abs ts) ops rs (abs ts')
    | UB => exists pre o post w' rs qs, ops = pre ++ o :: post /\ run (w_step lt) w pre = Ok (w', rs) /\ qtrace (abs ts) pre rs qs /\ misuse qs o
    | _ => False
    end.
  Proof.
    induction ops as [|o ops IH]; intros w ts G Hp.
    - cbn [run]. exists ts. split; auto. constructor.
    - cbn [forallb] in Hp. apply andb_true_iff in Hp as [Hp Hps]. pose proof (good_step lt Hsw w ts o G Hp) as Hg. pose proof (next_spec w ts o G Hp) as Hn.
      cbn [run]. destruct (next_state lt ts o) as [[ts1 r]| | |] eqn:En; try contradiction.
      + destruct Hg as (w1 & Hw & G1). rewrite Hw. cbn [bind]. specialize (IH w1 ts1 G1 Hps). destruct (run (w_step lt) w1 ops) as [[w2 rs]| | |] eqn:Er; cbn [bind]; try contradiction.
        * destruct IH as (ts2 & G2 & Ht). exists ts2. split; auto. econstructor; eauto.
        * destruct IH as (pre & o' & post & w' & rs & qs & -> & Hr & Ht & Hm). exists (o :: pre), o', post, w', (r :: rs), qs.
          split; [reflexivity|]. split; [cbn [run]; rewrite Hw; cbn [bind]; now rewrite Hr|]. split; [econstructor; eauto|auto].
      + rewrite Hg. cbn [bind]. exists [], o, ops, w, [], (abs ts). repeat split; auto. constructor.
  Qed.

  (** ** Memory *)
  (** The pieces of memory that are allocated, and those that the living trees own *)
  Definition allocated (w : world E) : list nat := filter (fun b => match nth_error (w_mem w) b with Some (Some _) => true | _ => false end) (seq 0 (length (w_mem w))).
  Definition owned (w : world E) : list nat := flat_map (fun s => match s with Some s => [v_block (m_vec s)] | None => [] end) (w_trees w).
  Lemma allocated_in w b : In b (allocated w) <-> exists ps, nth_error (w_mem w) b = Some (Some ps).
  Proof.
    unfold allocated. rewrite filter_In, in_seq. split.
    - intros [_ H]. destruct (nth_error (w_mem w) b) as [[ps|]|]; try discriminate. eauto.
    - intros [ps H]. rewrite H. split; auto. apply nth_error_some_lt in H. lia.
  Qed.
  Lemma owned_in w b : In b (owned w) <-> exists i s, nth_error (w_trees w) i = Some (Some s) /\ v_block (m_vec s) = b.
  Proof.
    unfold owned. rewrite in_flat_map. split.
    - intros ([s|] & Hs & H); [|contradiction]. destruct H as [<-|[]]. apply In_nth_error in Hs as [i Hi]. eauto.
    - intros (i & s & Hs & <-). exists (Some s). split; [eapply nth_error_In; eauto|now left].
  Qed.
  Lemma owned_nodup (l : list (option mtour)) :
    (forall i j s s', nth_error l i = Some (Some s) -> nth_error l j = Some (Some s') -> v_block (m_vec s) = v_block (m_vec s') -> i = j) ->
    NoDup (flat_map (fun s => match s with Some s => [v_block (m_vec s)] | None => [] end) l).
  Proof.
    induction l as [|x l IH]; intros H; [constructor|]. cbn [flat_map].
    assert (IH' : NoDup (flat_map (fun s => match s with Some s => [v_block (m_vec s)] | None => [] end) l)).
    { apply IH. intros i j s s' Hi Hj Hv. specialize (H (S i) (S j) s s' Hi Hj Hv). lia. }
    destruct x as [s|]; auto. cbn [app]. constructor; auto. intros Hin. apply in_flat_map in Hin as ([s'|] & Hs & Hv); [|contradiction].
    destruct Hv as [Hv|[]]. apply In_nth_error in Hs as [j Hj]. specialize (H 0 (S j) s s' eq_refl Hj (eq_sym Hv)). discriminate.
  Qed.
  Lemma good_memory w ts : good lt w ts -> Permutation (allocated w) (owned w).
  Proof.
    intros G. apply NoDup_Permutation.
    - apply NoDup_filter, seq_NoDup.
    - apply owned_nodup. exact (g_sep _ _ _ G).
    - intros b. rewrite allocated_in, owned_in. split.
      + intros [ps H]. eapply (g_owned _ _ _ G); eauto.
      + intros (i & s & Hs & Hv). pose proof (nth_error_some_lt _ _ _ Hs) as Hi. rewrite (g_len _ _ _ G) in Hi. destruct (nth_error ts i) as [[t|]|] eqn:Et.
        * destruct (g_tree _ _ _ G _ _ Et) as (c & Hc & Hm). rewrite Hc in Hs. injection Hs as <-. cbn in Hv. subst c. eauto.
        * rewrite (g_dead _ _ _ G _ Et) in Hs. discriminate.
        * apply nth_error_None in Et. lia.
  Qed.
  Lemma good_pointers w ts i s p : good lt w ts -> nth_error (w_trees w) i = Some (Some s) -> In p (m_tree s) ->
    fst p = v_block (m_vec s) /\ exists x, load (w_mem w) p = Ok x.
  Proof.
    intros G Hs Hp. pose proof (nth_error_some_lt _ _ _ Hs) as Hi. rewrite (g_len _ _ _ G) in Hi. destruct (nth_error ts i) as [[t|]|] eqn:Et.
    - destruct (g_tree _ _ _ G _ _ Et) as (b & Hb & Hm). rewrite Hb in Hs. injection Hs as <-. cbn [obj m_tree m_vec v_block] in *.
      apply in_map_iff in Hp as (j & <- & Hj). split; auto. unfold load, vget. cbn [fst snd]. rewrite Hm. cbn [of_option bind].
      assert (Hl : j < length (tt_players t)).
      { destruct (g_inv _ _ _ G _ _ Et) as (_ & _ & [[H1 _]|(_ & Hsh & Hin)]); [rewrite H1 in Hj; contradiction|]. apply In_nth_error in Hj as [q Hq].
        pose proof (slots_bounded _ _ Hsh (inner_linked lt _ _ Hin) (S q) j Hq) as X. now rewrite map_length in X. }
      destruct (nth_error_lt _ _ Hl) as [x ->]. cbn. eauto.
    - rewrite (g_dead _ _ _ G _ Et) in Hs. discriminate.
    - apply nth_error_None in Et. lia.
  Qed.
End Worlds.
