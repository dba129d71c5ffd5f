From Coq Require Import String List Arith NArith Bool Lia Permutation.
From Verif.Base Require Import Res Arr Order.
From Verif.Spec Require Import PQ PQFacts Pairs PairsFacts Reach.
From Verif.TourTree Require Model Proofs.
From Verif.PairQueue Require Import Model.
Import TourTree.Model.
Import ListNotations.
Local Open Scope N_scope.

(** * Lifetimes of PairData objects, read off the log (latest call first) *)

(** The column [c] has a constructed and not yet destructed PairData. *)
Fixpoint held (log : list event) (c : N) : bool :=
  match log with
  | [] => false
  | EConstruct c' _ :: l => if c =? c' then true else held l c
  | EDestruct c' _ :: l => if c =? c' then false else held l c
  | ECompute _ _ :: l => held l c
  end.

(** Every construction is of a column that has no PairData, every other call is on a PairData that exists. *)
Fixpoint log_ok (log : list event) : Prop :=
  match log with
  | [] => True
  | EConstruct c _ :: l => held l c = false /\ log_ok l
  | ECompute c _ :: l | EDestruct c _ :: l => held l c = true /\ log_ok l
  end.

(** The pair for which an event computes pair data. *)
Definition computes (e : event) : option (N * N) :=
  match e with EConstruct c r | ECompute c r => Some (c, r) | EDestruct _ _ => None end.

Section PairQueue.
  Context {P : Type}.
  Variable pdata : N -> N -> P.
  Variable lt : N * N * P -> N * N * P -> bool.
  Variable sup : bool.
  Hypothesis Hsw : strict_weak lt.

  Notation clt := (col_lt P lt).
  Notation plt := (pair_lt pdata lt).
  Notation column := (column P).
  Notation contents := (@TourTree.Proofs.contents column).
  Notation tinv := (TourTree.Proofs.inv clt).

  Lemma col_lt_sw : strict_weak clt.
  Proof.
    destruct Hsw as [H1 H2 H3]. split; unfold col_lt; eauto.
  Qed.

  Lemma pair_lt_sw : strict_weak plt.
  Proof. destruct Hsw as [H1 H2 H3]. split; unfold pair_lt; eauto. Qed.

  (** * Columns *)
  Definition isdead (ret : list bool) (i : N) : bool := (sup && nth (N.to_nat i) ret false)%bool.

  Record good (cnt : N) (c : column) : Prop := {
    g_rows : c_rows c <> [];
    g_pd : c_pd c = pdata (c_col c) (hd 0 (c_rows c));
    g_desc : descending plt (map (pair (c_col c)) (c_rows c));
    g_col : c_col c < cnt;
    g_row : forall r, In r (c_rows c) -> r < c_col c
  }.

  Definition ret_ok (cnt : N) (ret : list bool) : Prop := sup = true -> length ret = N.to_nat cnt.

  Definition head_pair (c : column) : N * N := (c_col c, hd 0 (c_rows c)).
  Definition pair_dead ret (p : N * N) : bool := (isdead ret (fst p) || isdead ret (snd p))%bool.

  Definition all_pairs (c : column) : list (N * N) := map (pair (c_col c)) (c_rows c).
  Definition live_pairs ret (l : list column) : list (N * N) := filter (fun p => negb (pair_dead ret p)) (flat_map all_pairs l).

  Lemma retired_ok cnt ret i : ret_ok cnt ret -> i < cnt -> pq_retired sup ret i = Ok (isdead ret i).
  Proof.
    intros Hr Hi. unfold pq_retired, isdead. destruct sup eqn:Hs; simpl; auto.
    destruct (nth_error_lt ret (N.to_nat i)) as [b Hb]. { rewrite Hr by auto. lia. }
    unfold vget. rewrite Hb. cbn [of_option]. f_equal. symmetry. now apply nth_error_nth.
  Qed.

  Lemma descending_suffix {A} (l : A -> A -> bool) pre xs : descending l (pre ++ xs) -> descending l xs.
  Proof. induction pre as [|a pre IH]; simpl; auto. intros [_ H]; auto. Qed.

  Lemma skip_rows_spec cnt ret : ret_ok cnt ret -> forall rows prev, (forall r, In r rows -> r < cnt) ->
    exists dropped rows' prev', skip_rows sup ret prev rows = Ok (rows', prev') /\ rows = dropped ++ rows' /\
      (forall r, In r dropped -> isdead ret r = true) /\ (rows' = [] \/ isdead ret (hd 0 rows') = false).
  Proof.
    intros Hr. induction rows as [|r rows IH]; intros prev Hb; cbn [skip_rows].
    - exists [], [], prev. repeat split; auto.
    - assert (Hd : (if sup then pq_retired sup ret r else Ok false) = Ok (isdead ret r)).
      { pose proof (retired_ok cnt ret r Hr (Hb r (or_introl eq_refl))) as H. unfold isdead in *. destruct sup; auto. }
      rewrite Hd. cbn [bind]. destruct (isdead ret r) eqn:Hdr.
      + destruct (IH r) as (d & rows' & prev' & Hs & -> & Hdd & Hh). { intros x Hx; apply Hb; now right. }
        exists (r :: d), rows', prev'. repeat split; auto. intros x [<-|Hx]; auto.
      + exists [], (r :: rows), prev. repeat split; auto.
  Qed.

  Definition drop_dead ret (l : list (N * N)) : list (N * N) := filter (fun p => negb (pair_dead ret p)) l.

  Lemma drop_dead_app ret a b : drop_dead ret (a ++ b) = drop_dead ret a ++ drop_dead ret b.
  Proof. apply filter_app. Qed.

  Lemma drop_dead_perm ret a b : Permutation a b -> Permutation (drop_dead ret a) (drop_dead ret b).
  Proof.
    unfold drop_dead. induction 1; simpl; auto.
    - destruct (negb (pair_dead ret x)); auto.
    - destruct (negb (pair_dead ret x)), (negb (pair_dead ret y)); auto. apply perm_swap.
    - etransitivity; eauto.
  Qed.

  Lemma live_perm ret l l' : Permutation l l' -> Permutation (live_pairs ret l) (live_pairs ret l').
  Proof. intros H. apply drop_dead_perm. now apply Permutation_flat_map. Qed.

  (** * One increment *)
  Definition opt_list {A} (o : option A) : list A := match o with Some a => [a] | None => [] end.

  Lemma increment_spec cnt ret c : ret_ok cnt ret -> good cnt c -> isdead ret (c_col c) = false ->
    exists c' e, c_increment P pdata sup ret c = Ok (c', e) /\
      (forall d, c' = Some d -> good cnt d /\ c_col d = c_col c /\ (length (c_rows d) < length (c_rows c))%nat /\
          pair_dead ret (head_pair d) = false /\ e = ECompute (c_col c) (hd 0 (c_rows d))) /\
      (c' = None -> exists r, e = EDestruct (c_col c) r) /\
      live_pairs ret [c] = drop_dead ret [head_pair c] ++ live_pairs ret (opt_list c').
  Proof.
    intros Hr Hg Hnd. unfold c_increment. destruct Hg as [Hrows Hpd Hdesc Hcol Hrow].
    destruct (c_rows c) as [|r rows] eqn:Hc; [congruence|].
    destruct (skip_rows_spec cnt ret Hr rows r) as (d & rows' & prev' & -> & -> & Hd & Hh).
    { intros x Hx. specialize (Hrow x (or_intror Hx)). lia. }
    cbn [bind].
    assert (Hdd : drop_dead ret (map (pair (c_col c)) d) = []).
    { clear - Hd. induction d as [|x d IH]; simpl; auto. unfold pair_dead at 1; simpl. rewrite (Hd x) by now left.
      rewrite orb_true_r. simpl. apply IH. intros y Hy; apply Hd; now right. }
    assert (Hlive : live_pairs ret [c] = drop_dead ret [head_pair c] ++ drop_dead ret (map (pair (c_col c)) rows')).
    { unfold live_pairs. fold (drop_dead ret (flat_map all_pairs [c])). simpl. unfold all_pairs. rewrite Hc, app_nil_r.
      unfold head_pair. rewrite Hc. cbn [hd map]. rewrite map_app.
      change ((c_col c, r) :: map (pair (c_col c)) d ++ map (pair (c_col c)) rows') with ([(c_col c, r)] ++ map (pair (c_col c)) d ++ map (pair (c_col c)) rows').
      rewrite !drop_dead_app, Hdd. reflexivity. }
    destruct rows' as [|r' rows''].
    - exists None, (EDestruct (c_col c) prev'). split; auto. split; [discriminate|]. split; [eauto|]. exact Hlive.
    - eexists; eexists; split; [reflexivity|]. split; [|split; [discriminate|]].
      + intros x Hx. injection Hx as <-. cbn [c_col c_rows hd]. split; [|split; [auto|split; [|split; [|auto]]]].
        * split; cbn [c_col c_rows c_pd hd]; auto; try discriminate.
          -- rewrite app_comm_cons, map_app in Hdesc. now apply descending_suffix in Hdesc.
          -- intros x Hx. apply Hrow. right. apply in_or_app. now right.
        * simpl. rewrite app_length. simpl. lia.
        * unfold pair_dead, head_pair; cbn [fst snd c_col c_rows hd]. rewrite Hnd. destruct Hh as [Hh|Hh]; [discriminate|]. exact Hh.
      + rewrite Hlive. unfold live_pairs. fold (drop_dead ret (flat_map all_pairs (opt_list (Some (mk_col (c_col c) (r' :: rows'') (pdata (c_col c) r')))))).
        simpl. unfold all_pairs. cbn [c_col c_rows]. rewrite app_nil_r. reflexivity.
  Qed.

  (** * The state *)
  Record core (cnt : N) (ret : list bool) (q : tourtree column) (log : list event) : Prop := {
    k_inv : tinv q;
    k_good : forall c, In c (contents q) -> good cnt c;
    k_nodup : NoDup (map c_col (contents q));
    k_log : log_ok log;
    k_held : forall c, held log c = true <-> In c (map c_col (contents q))
  }.

  Definition total (l : list column) : nat := fold_left (fun sum c => (sum + length (c_rows c))%nat) l 0%nat.

  Lemma total_acc l : forall a, fold_left (fun sum (c : column) => (sum + length (c_rows c))%nat) l a = (a + length (flat_map all_pairs l))%nat.
  Proof.
    induction l as [|c l IH]; intros a; simpl; [lia|]. rewrite IH, app_length. unfold all_pairs at 2. rewrite map_length. lia.
  Qed.
  Lemma total_pairs l : total l = length (flat_map all_pairs l).
  Proof. apply total_acc. Qed.
  Lemma total_perm l l' : Permutation l l' -> total l = total l'.
  Proof. intros H. rewrite !total_pairs. apply Permutation_length. now apply Permutation_flat_map. Qed.
  Lemma total_cons c l : total (c :: l) = (length (c_rows c) + total l)%nat.
  Proof. rewrite !total_pairs. simpl. rewrite app_length. unfold all_pairs at 1. now rewrite map_length. Qed.

  Lemma live_cons ret c l : live_pairs ret (c :: l) = live_pairs ret [c] ++ live_pairs ret l.
  Proof. unfold live_pairs. simpl. rewrite app_nil_r, <- filter_app. reflexivity. Qed.

  Lemma top_in q t : tinv q -> tt_top _ q = Ok t -> tt_players q <> [] /\ In t (contents q).
  Proof.
    intros Hi Ht. destruct (TourTree.Proofs.list_eq_nil_dec (tt_players q)) as [He|Hne].
    - apply (TourTree.Proofs.inv_nil _ q Hi) in He. unfold tt_top in Ht. rewrite He in Ht. discriminate.
    - split; auto. destruct (TourTree.Proofs.pop_spec clt col_lt_sw q Hi Hne) as (q' & t' & _ & _ & [Hin _] & _ & Ht'). congruence.
  Qed.

  Lemma contents_nil (q : tourtree column) : contents q = [] <-> tt_players q = [].
  Proof. unfold TourTree.Proofs.contents. destruct (tt_players q); simpl; split; congruence. Qed.

  Lemma pop_round_spec cnt ret q log t : ret_ok cnt ret -> core cnt ret q log -> tt_top _ q = Ok t ->
    exists q' log' e, pop_round P pdata lt sup q ret log t = Ok (q', log') /\ core cnt ret q' log' /\
      Permutation (live_pairs ret (contents q)) (drop_dead ret [head_pair t] ++ live_pairs ret (contents q')) /\
      (total (contents q') < total (contents q))%nat /\ log' = e :: log /\
      (forall p, computes e = Some p -> pair_dead ret p = false).
  Proof.
    intros Hr [Hi Hg Hnd Hlog Hheld] Ht. destruct (top_in q t Hi Ht) as [Hne Hin].
    pose proof (Hg t Hin) as Hgt. unfold pop_round. rewrite (retired_ok cnt) by (auto; apply Hgt). cbn [bind].
    destruct (TourTree.Proofs.pop_spec clt col_lt_sw q Hi Hne) as (q1 & t1 & Hpop & Hi1 & _ & Hp1 & Ht1).
    assert (t1 = t) as -> by congruence.
    assert (Hndm : NoDup (c_col t :: map c_col (contents q1))).
    { change (c_col t :: map c_col (contents q1)) with (map c_col (t :: contents q1)). eapply Permutation_NoDup; [|exact Hnd]. now apply Permutation_map. }
    assert (Hheldt : held log (c_col t) = true) by (apply Hheld; now apply in_map).
    assert (Hpopc : forall r, core cnt ret q1 (EDestruct (c_col t) r :: log)).
    { intros r. inversion Hndm as [|? ? Hni Hnd1]; subst. split; auto.
      - intros c Hc. apply Hg. eapply Permutation_in; [symmetry; exact Hp1|]. now right.
      - split; auto.
      - intros c. cbn [held]. destruct (N.eqb_spec c (c_col t)) as [->|Hne2].
        + split; [discriminate|]. intros Hc; contradiction.
        + rewrite Hheld. split; intros Hc.
          * eapply Permutation_in in Hc; [|apply Permutation_map; exact Hp1]. destruct Hc as [Hc|Hc]; [congruence|auto].
          * eapply Permutation_in; [apply Permutation_map; symmetry; exact Hp1|]. now right. }
    assert (Htot1 : (total (contents q1) < total (contents q))%nat).
    { rewrite (total_perm _ _ Hp1), total_cons. destruct Hgt as [Hrows _ _ _ _]. destruct (c_rows t); [congruence|simpl; lia]. }
    destruct (negb sup || negb (isdead ret (c_col t)))%bool eqn:Hcond.
    - assert (Hnd0 : isdead ret (c_col t) = false).
      { unfold isdead in *. destruct sup; simpl in *; auto. now apply negb_true_iff in Hcond. }
      destruct (increment_spec cnt ret t Hr Hgt Hnd0) as (c' & e & -> & Hsome & Hnone & Hlive). cbn [bind].
      destruct c' as [d|].
      + destruct (Hsome d eq_refl) as (Hgd & Hcd & Hlen & Hhd & He).
        destruct (TourTree.Proofs.decreaseTop_spec clt col_lt_sw q d Hi Hne) as (q2 & t2 & m & Hdec & Hi2 & Hp2 & _ & Hp2' & Ht2).
        rewrite Hdec. cbn [bind]. assert (t2 = t) as -> by congruence.
        eexists q2, (e :: log), e. split; auto.
        assert (Hpm : Permutation (map c_col (contents q2)) (map c_col (contents q))).
        { rewrite (Permutation_map c_col Hp2), (Permutation_map c_col Hp2'). simpl. now rewrite Hcd. }
        split; [|split; [|split; [|split]]]; auto.
        * split; auto.
          -- intros c Hc. eapply Permutation_in in Hc; [|exact Hp2']. destruct Hc as [<-|Hc]; auto. apply Hg.
             eapply Permutation_in; [symmetry; exact Hp2|]. now right.
          -- eapply Permutation_NoDup; [symmetry; exact Hpm|auto].
          -- rewrite He. split; auto.
          -- rewrite He. intros c. cbn [held]. rewrite Hheld. split; intros Hc; (eapply Permutation_in; [|exact Hc]); auto. now symmetry.
        * rewrite (live_perm ret _ _ Hp2), (live_perm ret _ _ Hp2'), (live_cons ret t), (live_cons ret d), Hlive. simpl.
          rewrite <- app_assoc. reflexivity.
        * rewrite (total_perm _ _ Hp2), (total_perm _ _ Hp2'), !total_cons. lia.
        * intros p Hp. rewrite He in Hp. simpl in Hp. injection Hp as <-. rewrite <- Hcd. exact Hhd.
      + rewrite Hpop. cbn [bind]. destruct (Hnone eq_refl) as [r He].
        exists q1, (e :: log), e. split; auto. split; [|split; [|split; [|split]]]; auto.
        * rewrite He. apply Hpopc.
        * rewrite (live_perm ret _ _ Hp1), live_cons, Hlive. simpl. unfold live_pairs at 1. simpl. rewrite app_nil_r. reflexivity.
        * rewrite He. discriminate.
    - apply orb_false_iff in Hcond as [_ Hcond]. apply negb_false_iff in Hcond.
      assert (Hri : exists r, c_rowIndex P t = Ok r).
      { unfold c_rowIndex. destruct Hgt as [Hrows _ _ _ _]. destruct (c_rows t); [congruence|eauto]. }
      destruct Hri as [r ->]. cbn [bind]. rewrite Hpop. cbn [bind].
      eexists q1, _, _. split; [reflexivity|]. split; [|split; [|split; [|split]]]; auto.
      + rewrite (live_perm ret _ _ Hp1), live_cons.
        assert (Hno : forall l, drop_dead ret (map (pair (c_col t)) l) = []).
        { induction l as [|x l IH]; simpl; auto. unfold pair_dead at 1; simpl. rewrite Hcond. simpl. exact IH. }
        assert (Hl0 : live_pairs ret [t] = []).
        { unfold live_pairs. simpl. rewrite app_nil_r. apply (Hno (c_rows t)). }
        assert (Hh0 : drop_dead ret [head_pair t] = []) by (apply (Hno [hd 0 (c_rows t)])).
        rewrite Hl0, Hh0. reflexivity.
      + discriminate.
  Qed.

  Definition top_alive ret (q : tourtree column) : Prop := forall t, tt_top _ q = Ok t -> pair_dead ret (head_pair t) = false.

  Lemma head_row cnt c : good cnt c -> c_rowIndex P c = Ok (hd 0 (c_rows c)).
  Proof. intros [Hrows _ _ _ _]. unfold c_rowIndex. destruct (c_rows c); [congruence|auto]. Qed.

  Lemma head_row_lt cnt c : good cnt c -> hd 0 (c_rows c) < cnt.
  Proof.
    intros [Hrows _ _ Hc Hr]. destruct (c_rows c) as [|r rows]; [congruence|]. simpl.
    specialize (Hr r (or_introl eq_refl)). lia.
  Qed.

  Lemma pop_loop_spec cnt ret : ret_ok cnt ret -> forall fuel q log t, core cnt ret q log -> tt_top _ q = Ok t ->
    (total (contents q) <= fuel)%nat ->
    exists q' log' new, pop_loop P pdata lt sup fuel q ret log t = Ok (q', log') /\ core cnt ret q' log' /\
      Permutation (live_pairs ret (contents q)) (drop_dead ret [head_pair t] ++ live_pairs ret (contents q')) /\
      top_alive ret q' /\ log' = new ++ log /\
      (forall e p, In e new -> computes e = Some p -> pair_dead ret p = false).
  Proof.
    intros Hr. induction fuel as [|f IH]; intros q log t Hk Ht Hf.
    - destruct (top_in q t (k_inv _ _ _ _ Hk) Ht) as [_ Hin]. exfalso.
      destruct (in_split t _ Hin) as (a & b & Hab). destruct (k_good _ _ _ _ Hk t Hin) as [Hrows _ _ _ _].
      assert (Hp : Permutation (contents q) (t :: a ++ b)) by (rewrite Hab; symmetry; apply Permutation_middle).
      rewrite (total_perm _ _ Hp), total_cons in Hf. destruct (c_rows t); [congruence|simpl in Hf; lia].
    - cbn [pop_loop]. destruct (pop_round_spec cnt ret q log t Hr Hk Ht) as (q1 & log1 & e & -> & Hk1 & Hl1 & Ht1 & He & Hce). cbn [bind].
      destruct (negb sup || tt_empty _ q1)%bool eqn:Hend.
      + exists q1, log1, [e]. split; auto. split; auto. split; auto. split; [|split; auto].
        * intros t' Ht'. destruct sup eqn:Hs; simpl in Hend.
          -- unfold tt_empty in Hend. unfold tt_top in Ht'. destruct (tt_tree q1); [discriminate|discriminate].
          -- unfold pair_dead, isdead. rewrite Hs. reflexivity.
        * intros x p [<-|[]]; auto.
      + apply orb_false_iff in Hend as [Hsup Hemp]. apply negb_false_iff in Hsup.
        assert (Htop : exists t', tt_top _ q1 = Ok t').
        { destruct (TourTree.Proofs.list_eq_nil_dec (tt_players q1)) as [Hn|Hn].
          - apply (TourTree.Proofs.inv_nil _ q1 (k_inv _ _ _ _ Hk1)) in Hn. unfold tt_empty in Hemp. rewrite Hn in Hemp; discriminate.
          - destruct (TourTree.Proofs.pop_spec clt col_lt_sw q1 (k_inv _ _ _ _ Hk1) Hn) as (? & t' & _ & _ & _ & _ & Ht'). eauto. }
        destruct Htop as [t' Ht']. rewrite Ht'. cbn [bind].
        destruct (top_in q1 t' (k_inv _ _ _ _ Hk1) Ht') as [_ Hin'].
        pose proof (k_good _ _ _ _ Hk1 t' Hin') as Hg'.
        rewrite (retired_ok cnt) by (auto; apply Hg'). cbn [bind].
        assert (Hag : (if isdead ret (c_col t') then Ok true else let* r := c_rowIndex P t' in pq_retired sup ret r)
                      = Ok (pair_dead ret (head_pair t'))).
        { unfold pair_dead, head_pair; cbn [fst snd]. destruct (isdead ret (c_col t')); auto.
          rewrite (head_row cnt) by auto. cbn [bind]. rewrite (retired_ok cnt); auto. now apply head_row_lt. }
        rewrite Hag. cbn [bind]. destruct (pair_dead ret (head_pair t')) eqn:Hpd.
        * destruct (IH q1 log1 t' Hk1 Ht') as (q2 & log2 & new & Hpl & Hk2 & Hl2 & Hta & Hlog2 & Hcn); [lia|].
          rewrite Hpl. exists q2, log2, (new ++ [e]). split; auto. split; auto. split; [|split; [auto|split]].
          -- assert (Hz : drop_dead ret [head_pair t'] = []) by (unfold drop_dead; cbn [filter]; now rewrite Hpd).
             rewrite Hl1, Hl2, Hz. reflexivity.
          -- rewrite Hlog2, He, <- app_assoc. reflexivity.
          -- intros x p Hx Hc. apply in_app_or in Hx as [Hx|[<-|[]]]; eauto.
        * exists q1, log1, [e]. split; auto. split; auto. split; auto. split; [|split; auto].
          -- intros t'' Ht''. congruence.
          -- intros x p [<-|[]]; auto.
  Qed.

  Notation pairqueue := (pairqueue P).
  Notation step := (pq_step P pdata lt sup).
  Notation abs := (pq_abs sup).
  Notation allowed := (pallowed pdata lt sup).

  Record pinv (s : pairqueue) : Prop := {
    p_ret : ret_ok (pq_count s) (pq_ret s);
    p_core : core (pq_count s) (pq_ret s) (pq_queue s) (pq_log s);
    p_top : top_alive (pq_ret s) (pq_queue s);
    p_cnt : pq_count s <= index_max
  }.

  Lemma abs_live (s : pairqueue) : live (abs s) = live_pairs (pq_ret s) (contents (pq_queue s)).
  Proof. reflexivity. Qed.
  Lemma abs_dead (s : pairqueue) i : dead (abs s) i = isdead (pq_ret s) i.
  Proof. reflexivity. Qed.

  Lemma pinv_new : pinv (pq_new P).
  Proof.
    split; simpl.
    - intros _. reflexivity.
    - split; [apply TourTree.Proofs.tt_new_inv|intros c []|constructor|exact I|].
      intros c; split; [discriminate|intros []].
    - intros t Ht. discriminate Ht.
    - unfold index_max. lia.
  Qed.

  (** * The top *)
  Lemma top_exists (s : pairqueue) : pinv s -> contents (pq_queue s) <> [] -> exists t, tt_top _ (pq_queue s) = Ok t.
  Proof.
    intros Hi Hne. destruct (TourTree.Proofs.pop_spec clt col_lt_sw (pq_queue s)) as (? & t' & _ & _ & _ & _ & Ht').
    - apply (p_core _ Hi).
    - intros H. apply Hne. now apply contents_nil.
    - eauto.
  Qed.

  Lemma good_lt cnt a b : good cnt a -> good cnt b -> clt a b = plt (head_pair a) (head_pair b).
  Proof. intros Ha Hb. unfold col_lt, triple, pair_lt, head_pair. cbn [fst snd]. now rewrite (g_pd _ _ Ha), (g_pd _ _ Hb). Qed.

  Lemma head_in_pairs cnt c : good cnt c -> In (head_pair c) (all_pairs c).
  Proof. intros [Hr _ _ _ _]. unfold head_pair, all_pairs. destruct (c_rows c); [congruence|now left]. Qed.

  Lemma top_max (s : pairqueue) t : pinv s -> tt_top _ (pq_queue s) = Ok t -> is_max plt (head_pair t) (live (abs s)).
  Proof.
    intros Hi Ht. rewrite abs_live. destruct Hi as [Hr Hk Hta _]. destruct (top_in _ t (k_inv _ _ _ _ Hk) Ht) as [Hne Hin].
    pose proof (k_good _ _ _ _ Hk t Hin) as Hgt. split.
    - apply filter_In. split; [|now rewrite (Hta t Ht)]. apply in_flat_map. exists t. split; auto. eapply head_in_pairs; eauto.
    - intros p Hp. apply filter_In in Hp as [Hp _]. apply in_flat_map in Hp as (c & Hc & Hp).
      pose proof (k_good _ _ _ _ Hk c Hc) as Hgc.
      destruct (TourTree.Proofs.pop_spec clt col_lt_sw _ (k_inv _ _ _ _ Hk) Hne) as (q' & t' & _ & _ & [_ Hmax] & _ & Ht').
      assert (t' = t) as -> by congruence. specialize (Hmax c Hc). rewrite (good_lt (pq_count s)) in Hmax by auto.
      eapply (sw_neg_trans plt pair_lt_sw); [exact Hmax|].
      destruct Hgc as [Hrows _ Hdesc _ _]. unfold all_pairs in Hp. unfold head_pair.
      destruct (c_rows c) as [|r rows]; [congruence|]. cbn [map hd] in *. destruct Hdesc as [Hd _].
      destruct Hp as [<-|Hp]; [apply (sw_irrefl plt pair_lt_sw)|auto].
  Qed.

  Lemma live_nil_iff (s : pairqueue) : pinv s -> (live (abs s) = [] <-> contents (pq_queue s) = []).
  Proof.
    intros Hi. split; intros H.
    - destruct (TourTree.Proofs.list_eq_nil_dec (contents (pq_queue s))) as [He|He]; auto.
      destruct (top_exists s Hi He) as [t Ht]. destruct (top_max s t Hi Ht) as [Hin _]. rewrite H in Hin. contradiction.
    - rewrite abs_live, H. reflexivity.
  Qed.

  Lemma topPair_ok (s : pairqueue) t : pinv s -> tt_top _ (pq_queue s) = Ok t -> pq_topPair P s = Ok (head_pair t).
  Proof.
    intros Hi Ht. unfold pq_topPair. rewrite Ht. cbn [bind]. destruct Hi as [Hr Hk _ _].
    destruct (top_in _ t (k_inv _ _ _ _ Hk) Ht) as [_ Hin]. rewrite (head_row (pq_count s)) by (now apply (k_good _ _ _ _ Hk)).
    reflexivity.
  Qed.

  (** * Steps *)
  Lemma pop_ok cnt ret q log t : ret_ok cnt ret -> core cnt ret q log -> tt_top _ q = Ok t -> cnt <= index_max ->
    exists s' new, pq_pop P pdata lt sup (mk_pq q cnt ret log) = Ok s' /\ pinv s' /\ pq_count s' = cnt /\ pq_ret s' = ret /\
      Permutation (live_pairs ret (contents q)) (drop_dead ret [head_pair t] ++ live (abs s')) /\
      pq_log s' = new ++ log /\ (forall e p, In e new -> computes e = Some p -> pair_dead ret p = false).
  Proof.
    intros Hr Hk Ht Hc. unfold pq_pop. cbn [pq_queue pq_ret pq_log pq_count]. rewrite Ht. cbn [bind].
    destruct (pop_loop_spec cnt ret Hr (pq_pairCount P (mk_pq q cnt ret log)) q log t Hk Ht) as
      (q' & log' & new & -> & Hk' & Hl & Hta & Hlog & Hc'); [apply Nat.le_refl|].
    cbn [bind]. exists (mk_pq q' cnt ret log'), new. split; [reflexivity|].
    split; [split; auto|]. auto 10.
  Qed.

  Lemma to_small_id r col : r < col -> c_big col = false -> to_small r = r.
  Proof. unfold c_big, to_small, small_max. intros H1 H2. apply N.leb_gt in H2. apply N.mod_small. lia. Qed.
  Lemma to_index_id r : r <= index_max -> to_index r = r.
  Proof. unfold to_index, index_max. intros H. apply N.mod_small. lia. Qed.

  (** C16: what is stored is what was handed in. *)
  Lemma create_ok col rows : rows <> [] -> (forall r, In r rows -> r < col) -> col <= index_max ->
    c_create P pdata col rows = Ok (mk_col col rows (pdata col (hd 0 rows)), EConstruct col (hd 0 rows)).
  Proof.
    intros Hne Hb Hc. unfold c_create. destruct rows as [|r rows]; [congruence|]. cbn [hd].
    assert (Hm : (if c_big col then map to_index (r :: rows) else map to_small (r :: rows)) = r :: rows).
    { destruct (c_big col) eqn:Hbig; (rewrite <- (map_id (r :: rows)) at 2; apply map_ext_in; intros x Hx; specialize (Hb x Hx)).
      - apply to_index_id. lia.
      - eapply to_small_id; eauto. }
    rewrite Hm. rewrite to_index_id; auto. specialize (Hb r (or_introl eq_refl)). lia.
  Qed.

  Lemma isdead_snoc ret i : isdead (ret ++ [false]) i = isdead ret i.
  Proof.
    unfold isdead. f_equal. destruct (le_lt_dec (length ret) (N.to_nat i)) as [H|H].
    - rewrite (nth_overflow ret) by auto. rewrite app_nth2 by auto.
      destruct (N.to_nat i - length ret)%nat as [|[|n]]; reflexivity.
    - now apply app_nth1.
  Qed.

  Lemma filter_ext' {A} (f g : A -> bool) l : (forall a, f a = g a) -> filter f l = filter g l.
  Proof. intros H. induction l as [|a l IH]; simpl; auto. now rewrite H, IH. Qed.

  Lemma live_pairs_ext ret ret' l : (forall i, isdead ret' i = isdead ret i) -> live_pairs ret' l = live_pairs ret l.
  Proof. intros H. apply filter_ext'. intros p. unfold pair_dead. now rewrite !H. Qed.

  Lemma add_ok (s : pairqueue) rows : pinv s -> allowed (abs s) (PAdd rows) -> pq_count s < index_max ->
    exists s' new, pq_add P pdata lt sup s rows = Ok s' /\ pinv s' /\
      Permutation (live (abs s')) (map (pair (pq_count s)) rows ++ live (abs s)) /\ pq_count s' = pq_count s + 1 /\
      (forall i, dead (abs s') i = dead (abs s) i) /\
      pq_log s' = new ++ pq_log s /\ (forall e p, In e new -> computes e = Some p -> pair_dead (pq_ret s') p = false).
  Proof.
    intros Hi [Hrows Hdesc] Hcnt. cbn [cols abs pq_abs] in *.
    unfold pq_add. destruct (N.leb_spec index_max (pq_count s)); [lia|].
    rewrite (to_index_id (pq_count s)) by lia.
    set (ret' := if sup then pq_ret s ++ [false] else pq_ret s).
    assert (Hext : forall i, isdead ret' i = isdead (pq_ret s) i).
    { intros i. unfold ret'. destruct sup; [apply isdead_snoc|reflexivity]. }
    assert (Hret' : ret_ok (pq_count s + 1) ret').
    { intros Hs. unfold ret'. rewrite Hs, app_length; simpl. rewrite (p_ret _ Hi Hs). lia. }
    destruct rows as [|r0 rows0] eqn:Hr0.
    - eexists (mk_pq (pq_queue s) (pq_count s + 1) ret' (pq_log s)), []. split; [reflexivity|].
      destruct Hi as [Hr Hk Hta Hc]. split; [|split; [|split; [|split; [|split]]]]; auto.
      + split; cbn [pq_count pq_ret pq_queue pq_log]; auto; [| |lia].
        * destruct Hk as [H1 H2 H3 H4 H5]. split; auto. intros c Hc0. destruct (H2 c Hc0). split; auto. lia.
        * intros t Ht. specialize (Hta t Ht). unfold pair_dead in *. now rewrite !Hext.
      + cbn [map app]. rewrite !abs_live. cbn [pq_ret pq_queue]. rewrite (live_pairs_ext _ _ _ Hext). reflexivity.
      + intros e p [].
    - rewrite <- Hr0 in *. assert (Hne : rows <> []) by (rewrite Hr0; discriminate).
      rewrite create_ok; auto; [|intros r Hr; apply Hrows; auto|lia]. cbn [bind].
      set (c := mk_col (pq_count s) rows (pdata (pq_count s) (hd 0 rows))).
      destruct Hi as [Hr Hk Hta Hc].
      destruct (TourTree.Proofs.push_spec clt col_lt_sw (pq_queue s) c (k_inv _ _ _ _ Hk)) as (q & -> & Hqi & Hqp & Hqt). cbn [bind].
      eexists (mk_pq q (pq_count s + 1) ret' (EConstruct (pq_count s) (hd 0 rows) :: pq_log s)), [_]. split; [reflexivity|].
      assert (Hgc : good (pq_count s + 1) c).
      { split; cbn [c c_rows c_pd c_col]; auto; [lia|]. intros r Hr'. apply Hrows; auto. }
      assert (Hold : forall x, In x (contents (pq_queue s)) -> good (pq_count s + 1) x).
      { intros x Hx. destruct (k_good _ _ _ _ Hk x Hx). split; auto. lia. }
      assert (Hncol : ~ In (pq_count s) (map c_col (contents (pq_queue s)))).
      { intros Hin. apply in_map_iff in Hin as (x & Hx & Hin). destruct (k_good _ _ _ _ Hk x Hin). lia. }
      assert (Hdc : isdead ret' (pq_count s) = false).
      { rewrite Hext. unfold isdead. destruct sup eqn:Hs; auto. simpl. apply nth_overflow. rewrite Hr by auto. lia. }
      assert (Hnewlive : forall r, In r rows -> pair_dead ret' (pq_count s, r) = false).
      { intros r Hr'. unfold pair_dead; cbn [fst snd]. rewrite Hdc, Hext. destruct (Hrows r Hr') as [_ Hd]. exact Hd. }
      split; [|split; [|split; [|split; [|split]]]]; auto.
      + split; cbn [pq_count pq_ret pq_queue pq_log]; auto; [| |lia].
        * split; auto.
          -- intros x Hx. eapply Permutation_in in Hx; [|exact Hqp]. destruct Hx as [<-|Hx]; auto.
          -- eapply Permutation_NoDup; [apply Permutation_map; symmetry; exact Hqp|]. cbn [map c_col c]. constructor; auto. apply Hk.
          -- split; [|apply Hk]. destruct (held (pq_log s) (pq_count s)) eqn:Hh; auto. apply (k_held _ _ _ _ Hk) in Hh. contradiction.
          -- intros x. cbn [held]. rewrite (Permutation_map c_col Hqp). cbn [map c_col c In].
             destruct (N.eqb_spec x (pq_count s)) as [->|Hx]; [tauto|]. rewrite (k_held _ _ _ _ Hk). split; [auto|]. intros [Hx2|Hx2]; [congruence|auto].
        * intros t Ht. destruct Hqt as [Hqt|Hqt].
          -- assert (t = c) as -> by congruence. unfold head_pair; cbn [c c_col c_rows]. apply Hnewlive. rewrite Hr0. now left.
          -- rewrite Hqt in Ht. specialize (Hta t Ht). unfold pair_dead in *. now rewrite !Hext.
      + rewrite !abs_live. cbn [pq_ret pq_queue]. rewrite (live_perm ret' _ _ Hqp), live_cons.
        rewrite (live_pairs_ext (pq_ret s) ret' (contents (pq_queue s)) Hext). apply Permutation_app_tail.
        unfold live_pairs. simpl. rewrite app_nil_r. unfold all_pairs; cbn [c c_col c_rows].
        assert (Hall : forall l, (forall r, In r l -> In r rows) -> filter (fun p => negb (pair_dead ret' p)) (map (pair (pq_count s)) l) = map (pair (pq_count s)) l).
        { induction l as [|x l IH]; intros Hl; cbn [map filter]; auto. rewrite Hnewlive by (apply Hl; now left). cbn [negb]. f_equal. apply IH. intros y Hy; apply Hl; now right. }
        rewrite Hall; auto.
      + reflexivity.
      + intros e p [<-|[]] Hcp. simpl in Hcp. injection Hcp as <-. apply Hnewlive. rewrite Hr0. now left.
  Qed.

  Lemma isdead_upd ret i j : sup = true -> (N.to_nat i < length ret)%nat -> isdead (upd ret (N.to_nat i) true) j = ((j =? i) || isdead ret j)%bool.
  Proof.
    intros Hs Hi. unfold isdead. rewrite Hs. simpl. destruct (N.eqb_spec j i) as [->|Hne]; simpl.
    - apply nth_error_nth. now apply nth_upd_same.
    - assert (Hn : N.to_nat j <> N.to_nat i) by lia.
      destruct (nth_error ret (N.to_nat j)) as [b|] eqn:Hb.
      + rewrite (nth_error_nth _ _ _ Hb). apply nth_error_nth. rewrite nth_upd_other; auto.
      + apply nth_error_None in Hb. rewrite !nth_overflow; auto. now rewrite upd_length.
  Qed.

  Lemma filter_andb {A} (f g : A -> bool) l : filter f (filter g l) = filter (fun a => (f a && g a)%bool) l.
  Proof.
    induction l as [|a l IH]; simpl; auto. destruct (g a) eqn:Hg; simpl.
    - rewrite andb_true_r. now rewrite IH.
    - now rewrite andb_false_r.
  Qed.

  Lemma retire_ok (s : pairqueue) i : pinv s -> i < pq_count s -> sup = true ->
    exists s' new, pq_retireIndex P pdata lt sup s i = Ok s' /\ pinv s' /\ pq_count s' = pq_count s /\
      Permutation (live (abs s')) (filter (fun p => negb (involves i p)) (live (abs s))) /\
      (forall j, dead (abs s') j = ((j =? i) || dead (abs s) j)%bool) /\
      pq_log s' = new ++ pq_log s /\ (forall e p, In e new -> computes e = Some p -> pair_dead (pq_ret s') p = false).
  Proof.
    intros Hi Hlt Hs. unfold pq_retireIndex.
    assert (Hlen : (N.to_nat i < length (pq_ret s))%nat) by (rewrite (p_ret _ Hi Hs); lia).
    set (ret' := upd (pq_ret s) (N.to_nat i) true).
    assert (Hset : (if sup then vset (pq_ret s) (N.to_nat i) true else Ok (pq_ret s)) = Ok ret').
    { destruct sup; [|discriminate]. now apply vset_ok. }
    rewrite Hset. cbn [bind].
    assert (Hd : forall j, isdead ret' j = ((j =? i) || isdead (pq_ret s) j)%bool) by (intros j; now apply isdead_upd).
    assert (Hpd : forall p, pair_dead ret' p = (involves i p || pair_dead (pq_ret s) p)%bool).
    { intros p. unfold pair_dead, involves. rewrite !Hd. destruct (fst p =? i), (snd p =? i), (isdead (pq_ret s) (fst p)), (isdead (pq_ret s) (snd p)); reflexivity. }
    assert (Hr' : ret_ok (pq_count s) ret') by (intros _; unfold ret'; rewrite upd_length; now apply (p_ret _ Hi)).
    assert (Hlive : live_pairs ret' (contents (pq_queue s)) = filter (fun p => negb (involves i p)) (live (abs s))).
    { rewrite abs_live. unfold live_pairs. rewrite filter_andb. apply filter_ext'. intros p. rewrite Hpd. now rewrite negb_orb. }
    assert (Hk' : core (pq_count s) ret' (pq_queue s) (pq_log s)) by (destruct (p_core _ Hi); split; auto).
    unfold pq_empty. cbn [pq_queue].
    destruct (tt_empty _ (pq_queue s)) eqn:Hemp.
    - eexists (mk_pq (pq_queue s) (pq_count s) ret' (pq_log s)), []. split; [reflexivity|].
      split; [|split; [auto|split; [|split; [|split; [auto|intros e p []]]]]].
      + split; cbn [pq_count pq_ret pq_queue pq_log]; auto; [|apply Hi].
        intros t Ht. unfold tt_top in Ht. unfold tt_empty in Hemp. destruct (tt_tree (pq_queue s)); discriminate.
      + rewrite <- Hlive. reflexivity.
      + intros j. rewrite !abs_dead. cbn [pq_ret]. apply Hd.
    - assert (Hne : contents (pq_queue s) <> []).
      { intros Hn. apply contents_nil in Hn. apply (TourTree.Proofs.inv_nil _ _ (k_inv _ _ _ _ Hk')) in Hn. unfold tt_empty in Hemp.
        rewrite Hn in Hemp; discriminate. }
      destruct (top_exists s Hi Hne) as [t Ht].
      assert (Htp : pq_topPair P (mk_pq (pq_queue s) (pq_count s) ret' (pq_log s)) = Ok (head_pair t)).
      { pose proof (topPair_ok s t Hi Ht) as H. exact H. }
      rewrite Htp. cbn [bind]. pose proof (p_top _ Hi t Ht) as Hal.
      change ((fst (head_pair t) =? i) || (snd (head_pair t) =? i))%bool with (involves i (head_pair t)).
      destruct (involves i (head_pair t)) eqn:Hinv.
      + destruct (pop_ok (pq_count s) ret' (pq_queue s) (pq_log s) t Hr' Hk' Ht (p_cnt _ Hi)) as (s' & new & -> & Hi' & Hc' & Hret & Hl & Hlog & Hcomp).
        exists s', new. split; auto. split; auto. split; auto. split; [|split; [|split; auto]].
        * rewrite <- Hlive. rewrite Hl. unfold drop_dead. cbn [filter]. rewrite Hpd, Hinv. simpl. reflexivity.
        * intros j. rewrite abs_dead, Hret. apply Hd.
        * rewrite Hret. auto.
      + eexists (mk_pq (pq_queue s) (pq_count s) ret' (pq_log s)), []. split; [reflexivity|].
        split; [|split; [auto|split; [|split; [|split; [auto|intros e p []]]]]].
        * split; cbn [pq_count pq_ret pq_queue pq_log]; auto; [|apply Hi].
          intros t' Ht'. assert (t' = t) as -> by congruence. rewrite Hpd, Hinv, Hal. reflexivity.
        * rewrite <- Hlive. reflexivity.
        * intros j. rewrite !abs_dead. cbn [pq_ret]. apply Hd.
  Qed.

  (** One allowed call: it succeeds, or it is one column too many. *)
  Definition fresh_computations (s s' : pairqueue) : Prop :=
    exists new, pq_log s' = new ++ pq_log s /\
      forall e c r, In e new -> computes e = Some (c, r) -> dead (abs s') c = false /\ dead (abs s') r = false.

  Lemma fresh_refl (s : pairqueue) : fresh_computations s s.
  Proof. exists []. split; auto. intros e c r []. Qed.

  Lemma fresh_of_new (s s' : pairqueue) new : pq_log s' = new ++ pq_log s ->
    (forall e p, In e new -> computes e = Some p -> pair_dead (pq_ret s') p = false) -> fresh_computations s s'.
  Proof.
    intros Hl Hc. exists new. split; auto. intros e c r He Hcr. specialize (Hc e (c, r) He Hcr).
    unfold pair_dead in Hc. apply orb_false_iff in Hc. exact Hc.
  Qed.

  Lemma length_filter_le {A} (f : A -> bool) l : (length (filter f l) <= length l)%nat.
  Proof. induction l as [|a l IH]; simpl; auto. destruct (f a); simpl; lia. Qed.

  Lemma step_ok (s : pairqueue) o : pinv s -> allowed (abs s) o ->
    (exists s' r, step s o = Ok (s', r) /\ pinv s' /\ pstep pdata lt (abs s) o r (abs s') /\ fresh_computations s s') \/
    (exists rows, o = PAdd rows /\ pq_count s = index_max /\ step s o = Throw "Too large column index in PairQueue."%string).
  Proof.
    intros Hi Ha. destruct o as [rows| | |i|i| | |]; cbn [pq_step].
    - destruct (N.eq_dec (pq_count s) index_max) as [He|Hne].
      + right. exists rows. split; auto. split; auto. unfold pq_add. rewrite He, N.leb_refl. reflexivity.
      + left. pose proof (p_cnt _ Hi) as Hc.
        destruct (add_ok s rows Hi Ha) as (s' & new & -> & Hi' & Hl & Hcs & Hd & Hlog & Hcomp); [lia|]. cbn [bind].
        exists s', PNone. split; auto. split; auto. split; [|eapply fresh_of_new; eauto]. constructor; auto.
    - left. cbn [pallowed] in Ha. assert (Hne : contents (pq_queue s) <> []) by (intros H; apply Ha; now apply live_nil_iff).
      destruct (top_exists s Hi Hne) as [t Ht]. rewrite (topPair_ok s t Hi Ht). cbn [bind].
      destruct (pop_ok (pq_count s) (pq_ret s) (pq_queue s) (pq_log s) t (p_ret _ Hi) (p_core _ Hi) Ht (p_cnt _ Hi))
        as (s' & new & Hpop & Hi' & Hc' & Hret & Hl & Hlog & Hcomp).
      assert (Heta : mk_pq (pq_queue s) (pq_count s) (pq_ret s) (pq_log s) = s) by (destruct s; reflexivity).
      rewrite Heta in Hpop. rewrite Hpop. cbn [bind]. exists s', (PPair (head_pair t)). split; auto. split; auto.
      split; [|eapply fresh_of_new; eauto; rewrite Hret; auto]. constructor; auto.
      + now apply top_max.
      + rewrite abs_live at 1. rewrite Hl. unfold drop_dead. cbn [filter]. rewrite (p_top _ Hi t Ht). reflexivity.
      + intros i. rewrite !abs_dead. now rewrite Hret.
    - left. cbn [pallowed] in Ha. assert (Hne : contents (pq_queue s) <> []) by (intros H; apply Ha; now apply live_nil_iff).
      destruct (top_exists s Hi Hne) as [t Ht]. rewrite (topPair_ok s t Hi Ht). cbn [bind].
      unfold pq_topPairData. rewrite Ht. cbn [bind]. eexists; eexists; split; [reflexivity|]. split; auto. split; [|apply fresh_refl].
      destruct (top_in _ t (k_inv _ _ _ _ (p_core _ Hi)) Ht) as [_ Hin].
      rewrite (g_pd _ _ (k_good _ _ _ _ (p_core _ Hi) t Hin)).
      change (c_col t) with (fst (head_pair t)) at 1. change (hd 0 (c_rows t)) with (snd (head_pair t)). constructor. now apply top_max.
    - left. destruct Ha as [Ha Hs]. destruct (retire_ok s i Hi Ha Hs) as (s' & new & -> & Hi' & Hc & Hl & Hd & Hlog & Hcomp). cbn [bind].
      exists s', PNone. split; auto. split; auto. split; [|eapply fresh_of_new; eauto]. constructor; auto.
    - left. rewrite (retired_ok (pq_count s)) by (auto; apply Hi). cbn [bind]. eexists; eexists; split; [reflexivity|].
      split; auto. split; [|apply fresh_refl]. rewrite <- abs_dead. constructor.
    - left. eexists; eexists; split; [reflexivity|]. split; auto. split; [|apply fresh_refl].
      assert (He : pq_empty P s = match live (abs s) with [] => true | _ => false end).
      { pose proof (live_nil_iff s Hi) as Hn. rewrite contents_nil in Hn.
        pose proof (TourTree.Proofs.inv_nil _ _ (k_inv _ _ _ _ (p_core _ Hi))) as Hn2. unfold pq_empty, tt_empty.
        destruct (TourTree.Proofs.list_eq_nil_dec (tt_tree (pq_queue s))) as [Ht|Ht].
        - rewrite Ht. rewrite (proj2 Hn (proj1 Hn2 Ht)). reflexivity.
        - assert (Hl : live (abs s) <> []) by tauto. destruct (tt_tree (pq_queue s)); [congruence|]. destruct (live (abs s)); [congruence|auto]. }
      rewrite He. constructor.
    - left. eexists; eexists; split; [reflexivity|]. split; auto. split; [|apply fresh_refl].
      assert (Ht : pq_pairCount P s = length (flat_map all_pairs (contents (pq_queue s)))) by apply total_pairs.
      rewrite Ht. constructor.
      + rewrite abs_live. apply length_filter_le.
      + intros Hd. rewrite abs_live. unfold live_pairs. f_equal. symmetry. clear - Hd.
        induction (flat_map all_pairs (contents (pq_queue s))) as [|p l IH]; simpl; auto.
        assert (Hp : pair_dead (pq_ret s) p = false) by (unfold pair_dead; now rewrite <- !abs_dead, !Hd).
        rewrite Hp. simpl. now rewrite IH.
    - left. eexists; eexists; split; [reflexivity|]. split; auto. split; [|apply fresh_refl]. constructor.
  Qed.

  Notation reached := (reached step (fun s => allowed (abs s)) (pq_new P)).

  Lemma reached_pinv ops s rs : reached ops s rs -> pinv s.
  Proof.
    apply (reached_inv step _ _ pinv); [exact pinv_new|].
    intros s0 o s' r Hi Ha Hst. destruct (step_ok s0 o Hi Ha) as [(s1 & r1 & Hs1 & Hi1 & _)|(rows & _ & _ & Ht)]; congruence.
  Qed.

  Lemma reached_trace ops s rs : reached ops s rs -> ptrace pdata lt (abs (pq_new P)) ops rs (abs s).
  Proof.
    induction 1 as [|ops s rs o s' r H IH Ha Hst]; [constructor|].
    destruct (step_ok s o (reached_pinv _ _ _ H) Ha) as [(s1 & r1 & Hs1 & _ & Hp & _)|(rows & _ & _ & Ht)]; [|congruence].
    econstructor; [exact IH|]. assert (s1 = s' /\ r1 = r) as [-> ->] by (split; congruence). exact Hp.
  Qed.

  Lemma reached_log ops s rs : reached ops s rs ->
    log_ok (pq_log s) /\ (forall c, held (pq_log s) c = true <-> exists d, In d (contents (pq_queue s)) /\ c_col d = c).
  Proof.
    intros H. destruct (p_core _ (reached_pinv _ _ _ H)) as [_ _ _ Hl Hh]. split; auto. intros c. rewrite Hh, in_map_iff.
    split; intros (d & H1 & H2); eauto.
  Qed.

  (** Destroying the queue. *)
  Lemma destroy_held : forall l log, NoDup (map c_col l) -> log_ok log ->
    (forall c : N, held log c = true <-> In c (map c_col l)) -> (forall d : column, In d l -> c_rows d <> []) ->
    let log' := rev (map (fun d => EDestruct (c_col d) (hd 0 (c_rows d))) l) ++ log in
    log_ok log' /\ forall c, held log' c = false.
  Proof.
    induction l as [|d l IH]; intros log Hnd Hlog Hh Hne; simpl.
    - split; auto. intros c. destruct (held log c) eqn:Hc; auto. apply Hh in Hc. contradiction.
    - rewrite <- app_assoc. simpl. inversion Hnd as [|? ? Hni Hnd']; subst. apply IH; auto.
      + split; auto. apply Hh. now left.
      + intros c. cbn [held]. destruct (N.eqb_spec c (c_col d)) as [->|Hc].
        * split; [discriminate|contradiction].
        * rewrite Hh. simpl. split; [intros [?|?]; [congruence|auto]|auto].
      + intros x Hx. apply Hne. now right.
  Qed.
End PairQueue.

Section Facts.
  Context {P : Type}.
  Variable pdata : N -> N -> P.
  Variable lt : N * N * P -> N * N * P -> bool.
  Variable sup : bool.
  Hypothesis Hsw : strict_weak lt.

  Notation step := (pq_step P pdata lt sup).
  Notation abs := (pq_abs sup).
  Notation allowed := (pallowed pdata lt sup).
  Notation reached := (reached step (fun s => allowed (abs s)) (pq_new P)).

  Lemma pq_progress ops s rs o : reached ops s rs -> allowed (abs s) o ->
    (exists s' r, step s o = Ok (s', r)) \/
    (exists rows, o = PAdd rows /\ pq_count s = index_max /\ step s o = Throw "Too large column index in PairQueue."%string).
  Proof.
    intros H Ha. destruct (step_ok pdata lt sup Hsw s o (reached_pinv pdata lt sup Hsw _ _ _ H) Ha) as [(s' & r & Hs & _)|H']; eauto.
  Qed.

  Lemma pq_conserved ops s rs : reached ops s rs ->
    Permutation (untouched (dead (abs s)) (handed 0 ops)) (untouched (dead (abs s)) (delivered rs) ++ live (abs s)) /\
    exists rest, Permutation (handed 0 ops) (delivered rs ++ live (abs s) ++ rest).
  Proof.
    intros H. pose proof (reached_trace pdata lt sup Hsw _ _ _ H) as Ht.
    destruct (law_trace pdata lt _ _ _ _ Ht eq_refl eq_refl) as [_ Hl Hsub]. split; auto.
    rewrite Hl. apply Permutation_app_head.
    assert (He : untouched (dead (abs s)) (live (abs s)) = live (abs s)); [|now rewrite He].
    apply untouched_all. intros p Hp. cbn [abs pq_abs live] in Hp. apply filter_In in Hp as [_ Hp].
    apply negb_true_iff, orb_false_iff in Hp. exact Hp.
  Qed.

  Lemma pq_never_retired ops s rs s' p : reached ops s rs -> live (abs s) <> [] ->
    step s PPop = Ok (s', PPair p) \/ (exists d, step s PTop = Ok (s', PPairData p d)) ->
    dead (abs s) (fst p) = false /\ dead (abs s) (snd p) = false /\ is_max (pair_lt pdata lt) p (live (abs s)).
  Proof.
    intros H Hne Hst. pose proof (reached_pinv pdata lt sup Hsw _ _ _ H) as Hi.
    assert (Hm : is_max (pair_lt pdata lt) p (live (abs s))).
    { destruct Hst as [Hst|[d Hst]].
      - destruct (step_ok pdata lt sup Hsw s PPop Hi Hne) as [(s1 & r1 & Hs1 & _ & Hp & _)|(rows & Hr & _)]; [|discriminate].
        rewrite Hst in Hs1. assert (r1 = PPair p) as -> by congruence. inversion Hp; auto.
      - destruct (step_ok pdata lt sup Hsw s PTop Hi Hne) as [(s1 & r1 & Hs1 & _ & Hp & _)|(rows & Hr & _)]; [|discriminate].
        rewrite Hst in Hs1. assert (r1 = PPairData p d) as -> by congruence. inversion Hp; auto. }
    split; [|split; [|exact Hm]]; destruct Hm as [Hin _]; cbn [abs pq_abs live] in Hin; apply filter_In in Hin as [_ Hp];
      apply negb_true_iff, orb_false_iff in Hp; apply Hp.
  Qed.

  (** Retirement is for ever. *)
  Lemma pq_retired_stays ops s rs o s' r i : reached ops s rs -> allowed (abs s) o -> step s o = Ok (s', r) ->
    dead (abs s) i = true -> dead (abs s') i = true.
  Proof.
    intros H Ha Hst Hd. destruct (step_ok pdata lt sup Hsw s o (reached_pinv pdata lt sup Hsw _ _ _ H) Ha) as [(s1 & r1 & Hs1 & _ & Hp & _)|(rows & _ & _ & Ht)]; [|congruence].
    assert (s1 = s') as -> by congruence. eapply pstep_dead; eauto.
  Qed.

  Lemma pq_computes_alive ops s rs o s' r : reached ops s rs -> allowed (abs s) o -> step s o = Ok (s', r) ->
    exists new, pq_log s' = new ++ pq_log s /\
      forall e c r, In e new -> computes e = Some (c, r) -> dead (abs s') c = false /\ dead (abs s') r = false.
  Proof.
    intros H Ha Hst. destruct (step_ok pdata lt sup Hsw s o (reached_pinv pdata lt sup Hsw _ _ _ H) Ha) as [(s1 & r1 & Hs1 & _ & _ & Hf)|(rows & _ & _ & Ht)]; [|congruence].
    assert (s1 = s') as -> by congruence. exact Hf.
  Qed.

  Lemma pq_columns ops s rs c : reached ops s rs -> In c (TourTree.Model.tt_forAll _ (pq_queue s)) ->
    c_rows c <> [] /\ c_pd c = pdata (c_col c) (hd 0 (c_rows c)) /\ c_col c < pq_count s /\ forall r, In r (c_rows c) -> r < c_col c.
  Proof.
    intros H Hc. destruct (k_good _ _ _ _ _ _ (p_core _ _ _ _ (reached_pinv pdata lt sup Hsw _ _ _ H)) c Hc). auto.
  Qed.

  Lemma destroyed s : pinv pdata lt sup s -> log_ok (pq_destroy P s) /\ forall c, held (pq_destroy P s) c = false.
  Proof.
    intros Hi. destruct (p_core _ _ _ _ Hi) as [_ Hg Hnd Hl Hh].
    assert (He : pq_destroy P s = rev (map (fun d => EDestruct (c_col d) (hd 0 (c_rows d))) (TourTree.Model.tt_forAll _ (pq_queue s))) ++ pq_log s).
    { unfold pq_destroy. clear - Hg. revert Hg. unfold TourTree.Proofs.contents. change (map (@entry _) (tt_players (pq_queue s))) with (tt_forAll _ (pq_queue s)).
      generalize (pq_log s). induction (tt_forAll _ (pq_queue s)) as [|d l IH]; intros log Hg; simpl; auto.
      rewrite <- app_assoc. simpl. rewrite IH by (intros c Hc; apply Hg; now right).
      destruct (Hg d (or_introl eq_refl)) as [Hr _ _ _ _]. destruct (c_rows d); [congruence|reflexivity]. }
    rewrite He. apply destroy_held; auto. intros d Hd. apply (Hg d Hd).
  Qed.
  Lemma pq_destroyed ops s rs : reached ops s rs -> log_ok (pq_destroy P s) /\ forall c, held (pq_destroy P s) c = false.
  Proof. intros H. exact (destroyed s (reached_pinv pdata lt sup Hsw _ _ _ H)). Qed.
End Facts.
