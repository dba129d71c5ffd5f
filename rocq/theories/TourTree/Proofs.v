From Coq Require Import List Arith ZArith Bool Lia Permutation Wf_nat.
From Coq Require Import ZifyBool ZifyNat.
From Verif.Base Require Import Res Arr Order.
From Verif.Spec Require Import PQ PQFacts.
From Verif.Heap Require Import Model Proofs.
From Verif.TourTree Require Import Model.
Import ListNotations.
Ltac Zify.zify_post_hook ::= Z.div_mod_to_equations.

Section TourTree.
  Context {E : Type}.
  Variable lt : E -> E -> bool.
  Hypothesis Hsw : strict_weak lt.

  Implicit Types (tree ls : list nat) (es : list E).

  (** * The invariant, on the tree [tree], the entries [es] and the leaves [ls] of the players *)

  (** An inner node refers to the same player as one of its children. *)
  Definition linked tree : Prop :=
    forall q, 1 <= q -> 2 * q + 1 <= length tree ->
    exists c, c / 2 = q /\ 2 <= c /\ tat tree c = tat tree q.

  (** An inner node's player is a winner among the players of the children. *)
  Definition node_ok tree es (q : nat) : Prop :=
    exists i l r ei el er,
      tat tree q = Some i /\ tat tree (2 * q) = Some l /\ tat tree (2 * q + 1) = Some r /\
      nth_error es i = Some ei /\ nth_error es l = Some el /\ nth_error es r = Some er /\
      (i = l \/ i = r) /\ lt ei el = false /\ lt ei er = false.

  Definition inner_ok tree es : Prop := forall q, 1 <= q -> 2 * q + 1 <= length tree -> node_ok tree es q.

  Record shape tree ls : Prop := {
    sh_len : length tree + 1 = 2 * length ls;
    sh_player : forall i p, nth_error ls i = Some p ->
       tat tree p = Some i /\ length tree < 2 * p /\ exists s, p = (2 * i + 1) * 2 ^ s;
    sh_leaf : forall p, 1 <= p <= length tree -> length tree < 2 * p ->
       exists i, tat tree p = Some i /\ nth_error ls i = Some p
  }.

  Lemma inner_linked tree es : inner_ok tree es -> linked tree.
  Proof.
    intros H q Hq Hl. destruct (H q Hq Hl) as (i & l & r & ei & el & er & Hi & Hl' & Hr & _ & _ & _ & [-> | ->] & _).
    - exists (2 * q). repeat split; try lia. congruence.
    - exists (2 * q + 1). repeat split; try lia. congruence.
  Qed.

  (** A node that refers to a player lies above that player's leaf. *)
  Lemma holder_anc tree ls : shape tree ls -> linked tree ->
    forall q i p, tat tree q = Some i -> nth_error ls i = Some p -> anc p q.
  Proof.
    intros Hs Hk q. remember (length tree - q) as m eqn:Hm. revert q Hm.
    induction m as [m IH] using (well_founded_induction lt_wf); intros q Hm i p Hi Hp.
    pose proof (tat_bound _ _ _ Hi) as Hb. pose proof (sh_len _ _ Hs) as Hlen.
    destruct (le_lt_dec (2 * q + 1) (length tree)) as [Hin|Hleaf].
    - destruct (Hk q) as (c & Hc & Hc2 & Hat); [lia|lia|]. rewrite Hi in Hat.
      pose proof (tat_bound _ _ _ Hat) as Hcb.
      assert (anc p c) by (eapply (IH (length tree - c)); eauto; lia).
      rewrite <- Hc. now apply anc_up.
    - destruct (sh_leaf _ _ Hs q) as (j & Hj & Hjq); [lia|lia|].
      assert (j = i) as -> by congruence. assert (q = p) as -> by congruence. constructor.
  Qed.

  (** All nodes between a node that refers to a player and that player's leaf refer to it. *)
  Lemma holder_chain tree ls : shape tree ls -> linked tree ->
    forall q i p c, tat tree q = Some i -> nth_error ls i = Some p -> anc p c -> q <= c -> tat tree c = Some i.
  Proof.
    intros Hs Hk q. remember (length tree - q) as m eqn:Hm. revert q Hm.
    induction m as [m IH] using (well_founded_induction lt_wf); intros q Hm i p c Hi Hp Hc Hle.
    pose proof (tat_bound _ _ _ Hi) as Hb. pose proof (sh_len _ _ Hs) as Hlen.
    destruct (Nat.eq_dec q c) as [->|Hne]; auto.
    destruct (sh_player _ _ Hs i p Hp) as (Htp & Hpl & _).
    pose proof (tat_bound _ _ _ Htp) as Hpb. pose proof (anc_le _ _ Hc) as Hcp.
    destruct (le_lt_dec (2 * q + 1) (length tree)) as [Hin|Hleaf].
    - destruct (Hk q) as (d & Hd & Hd2 & Hat); [lia|lia|]. rewrite Hi in Hat.
      pose proof (tat_bound _ _ _ Hat) as Hdb.
      assert (Had : anc p d) by (eapply holder_anc; eauto).
      assert (Hdc : d <= c). { destruct (le_lt_dec d c); auto. assert (c <= d / 2) by (apply (anc_chain p); auto). lia. }
      eapply (IH (length tree - d)); eauto; lia.
    - destruct (sh_leaf _ _ Hs q) as (j & Hj & Hjq); [lia|lia|].
      assert (j = i) as -> by congruence. assert (q = p) as -> by congruence. lia.
  Qed.

  (** The children of a node refer to different players. *)
  Lemma children_differ tree ls : shape tree ls -> linked tree ->
    forall q i, 1 <= q -> tat tree (2 * q) = Some i -> tat tree (2 * q + 1) = Some i -> i < length ls -> False.
  Proof.
    intros Hs Hk q i Hq H1 H2 Hi. destruct (nth_error_lt ls i Hi) as [p Hp].
    assert (A1 : anc p (2 * q)) by (eapply holder_anc; eauto).
    assert (A2 : anc p (2 * q + 1)) by (eapply holder_anc; eauto).
    pose proof (anc_chain p _ _ A2 A1). lia.
  Qed.

  (** Every slot refers to an existing player. *)
  Lemma slots_bounded tree ls : shape tree ls -> linked tree ->
    forall q i, tat tree q = Some i -> i < length ls.
  Proof.
    intros Hs Hk q. remember (length tree - q) as m eqn:Hm. revert q Hm.
    induction m as [m IH] using (well_founded_induction lt_wf); intros q Hm i Hi.
    pose proof (tat_bound _ _ _ Hi) as Hb. pose proof (sh_len _ _ Hs) as Hlen.
    destruct (le_lt_dec (2 * q + 1) (length tree)) as [Hin|Hleaf].
    - destruct (Hk q) as (c & Hc & Hc2 & Hat); [lia|lia|]. rewrite Hi in Hat.
      pose proof (tat_bound _ _ _ Hat) as Hcb. eapply (IH (length tree - c)); eauto; lia.
    - destruct (sh_leaf _ _ Hs q) as (j & Hj & Hjq); [lia|lia|].
      assert (j = i) as -> by congruence. eapply nth_error_some_lt; eauto.
  Qed.

  (** The last slot refers to the last player. *)
  Lemma last_slot tree ls : shape tree ls -> tat tree (length tree) = Some (length ls - 1).
  Proof.
    intros Hs. pose proof (sh_len _ _ Hs) as Hlen.
    destruct (sh_leaf _ _ Hs (length tree)) as (j & Hj & Hjl); [lia|lia|].
    destruct (sh_player _ _ Hs j _ Hjl) as (_ & _ & s & Hp).
    destruct s as [|s].
    - simpl in Hp. rewrite Hj. f_equal. lia.
    - rewrite Nat.pow_succ_r' in Hp. nia.
  Qed.

  (** * The root wins *)
  Lemma root_wins tree es ls : shape tree ls -> inner_ok tree es -> length es = length ls ->
    forall w ew, tat tree 1 = Some w -> nth_error es w = Some ew ->
    forall q i e, tat tree q = Some i -> nth_error es i = Some e -> lt ew e = false.
  Proof.
    intros Hs Hin Hle w ew Hw Hew q. induction q as [q IH] using (well_founded_induction lt_wf); intros i e Hi He.
    pose proof (tat_bound _ _ _ Hi) as Hb. pose proof (sh_len _ _ Hs) as Hlen.
    destruct (Nat.eq_dec q 1) as [->|Hq].
    - assert (i = w) as -> by congruence. assert (e = ew) as -> by congruence. apply (sw_irrefl lt Hsw).
    - destruct (Hin (q / 2)) as (j & l & r & ej & el & er & Hj & Hl & Hr & Hej & Hel & Her & _ & Hlt1 & Hlt2); [lia|lia|].
      eapply (sw_neg_trans lt Hsw); [eapply (IH (q / 2)); eauto; lia|].
      assert (q = 2 * (q / 2) \/ q = 2 * (q / 2) + 1) as [Hq2|Hq2] by lia; rewrite Hq2 in Hi; congruence.
  Qed.

  Lemma root_max tree es ls : shape tree ls -> inner_ok tree es -> length es = length ls ->
    forall w ew, tat tree 1 = Some w -> nth_error es w = Some ew -> is_max lt ew es.
  Proof.
    intros Hs Hin Hle w ew Hw Hew. split; [eapply nth_error_In; eauto|].
    intros y Hy. apply In_nth_error in Hy as [i Hi].
    assert (Hil : i < length ls) by (rewrite <- Hle; eapply nth_error_some_lt; eauto).
    destruct (nth_error_lt ls i Hil) as [p Hp]. destruct (sh_player _ _ Hs i p Hp) as (Ht & _).
    eapply (root_wins tree es ls); eauto.
  Qed.

  (** * Replaying matches *)
  Lemma node_ok_upd_other tree es q p x : node_ok tree es q -> p <> q -> p <> 2 * q -> p <> 2 * q + 1 ->
    node_ok (tupd tree p x) es q.
  Proof.
    intros (i & l & r & ei & el & er & Hi & Hl & Hr & Hrest) H1 H2 H3.
    exists i, l, r, ei, el, er. rewrite !tat_tupd_other by auto. auto.
  Qed.

  Lemma sibling_spec pos : 2 <= pos -> sibling pos / 2 = pos / 2 /\ sibling pos <> pos /\ 2 <= sibling pos /\
    (pos = 2 * (pos / 2) /\ sibling pos = 2 * (pos / 2) + 1 \/ pos = 2 * (pos / 2) + 1 /\ sibling pos = 2 * (pos / 2)).
  Proof.
    intros H. unfold sibling. destruct (Nat.even pos) eqn:He.
    - apply Nat.even_spec in He as [m Hm]. lia.
    - assert (Ho : Nat.odd pos = true) by (unfold Nat.odd; now rewrite He).
      apply Nat.odd_spec in Ho as [m Hm]. lia.
  Qed.

  (** The comparison [cmp] that is made and the order [lt] that is kept; [cmp] is [lt] unless it is not an order (AnyOrderProofs.v). *)
  Variable cmp : E -> E -> bool.
  Hypothesis cmp_false : forall a b, cmp a b = false -> lt a b = false.
  Hypothesis cmp_true : forall a b, cmp a b = true -> lt b a = false.
  Hypothesis cmp_trans : forall a b c, cmp a b = true -> lt a c = false -> lt b c = false.

  Lemma replay_spec (ps : list (player E)) es lf : es = map entry ps ->
    forall fuel tree pos w,
    pos <= fuel -> 1 <= pos <= length tree -> anc lf pos -> (exists m, length tree = 2 * m + 1) ->
    tat tree pos = Some w ->
    (forall q, 1 <= q <= length tree -> exists i, tat tree q = Some i /\ i < length es) ->
    (forall q, 1 <= q -> 2 * q + 1 <= length tree -> ~ (anc lf q /\ q < pos) -> node_ok tree es q) ->
    exists tree', replay _ cmp fuel tree ps pos w = Ok tree' /\ length tree' = length tree /\
      inner_ok tree' es /\
      (forall q, ~ (anc lf q /\ q < pos) -> tat tree' q = tat tree q).
  Proof.
    intros Hes. induction fuel as [|f IH]; intros tree pos w Hf Hb Ha Hodd Hw Hbd Hok; [lia|].
    cbn [replay]. destruct (Nat.eqb_spec pos 1) as [->|Hne].
    - exists tree. repeat split; auto. intros q Hq Hq2. apply Hok; auto. intros [_ ?]; lia.
    - destruct Hodd as [m Hm].
      destruct (sibling_spec pos ltac:(lia)) as (Hs1 & Hs2 & Hs3 & Hs4).
      destruct (Hbd (sibling pos)) as (o & Ho & Hol); [lia|].
      destruct (Hbd pos) as (w' & Hw' & Hwl); [lia|]. assert (w' = w) as -> by congruence.
      rewrite tget_tat, Ho. cbn [of_option bind].
      destruct (nth_error_lt es w Hwl) as [ew Hew]. destruct (nth_error_lt es o Hol) as [eo Heo].
      assert (Hpw : exists pw, nth_error ps w = Some pw /\ entry pw = ew).
      { rewrite Hes, nth_error_map in Hew. destruct (nth_error ps w) as [pw|]; [|discriminate]. injection Hew as <-. eauto. }
      assert (Hpo : exists po, nth_error ps o = Some po /\ entry po = eo).
      { rewrite Hes, nth_error_map in Heo. destruct (nth_error ps o) as [po|]; [|discriminate]. injection Heo as <-. eauto. }
      destruct Hpw as (pw & Hpw & Hpwe). destruct Hpo as (po & Hpo & Hpoe).
      unfold vget. rewrite Hpw, Hpo. cbn [of_option bind]. rewrite Hpwe, Hpoe.
      set (w' := if cmp ew eo then o else w).
      assert (Hpar : 1 <= pos / 2 <= length tree) by lia.
      rewrite tset_tupd by lia. cbn [bind].
      assert (Hapar : anc lf (pos / 2)) by (apply anc_up; auto; lia).
      destruct (IH (tupd tree (pos / 2) w') (pos / 2) w') as (tree' & Hr & Hl' & Hin & Hoff); rewrite ?tupd_length; auto; try lia.
      + exists m; lia.
      + now apply tat_tupd_same.
      + intros q Hq. destruct (Nat.eq_dec (pos / 2) q) as [<-|Hqn].
        * rewrite tat_tupd_same by lia. exists w'; split; auto. unfold w'. destruct (cmp ew eo); auto.
        * rewrite tat_tupd_other by auto. auto.
      + intros q Hq1 Hq2 Hnq. destruct (Nat.eq_dec q (pos / 2)) as [->|Hqn].
        * assert (Hsib : tat (tupd tree (pos / 2) w') (sibling pos) = Some o) by (rewrite tat_tupd_other by lia; auto).
          assert (Hpos : tat (tupd tree (pos / 2) w') pos = Some w) by (rewrite tat_tupd_other by lia; auto).
          assert (Hme : tat (tupd tree (pos / 2) w') (pos / 2) = Some w') by (apply tat_tupd_same; lia).
          assert (Hwin : exists ew', nth_error es w' = Some ew' /\ lt ew' ew = false /\ lt ew' eo = false).
          { unfold w'. destruct (cmp ew eo) eqn:Hlt.
            - exists eo; repeat split; auto. apply (sw_irrefl lt Hsw).
            - exists ew; repeat split; auto. apply (sw_irrefl lt Hsw). }
          destruct Hwin as (ew' & Hew' & Hlt1 & Hlt2).
          assert (Hor : w' = w \/ w' = o) by (unfold w'; destruct (cmp ew eo); auto).
          destruct Hs4 as [[Hp2 Hsp2]|[Hp2 Hsp2]].
          -- exists w', w, o, ew', ew, eo. rewrite <- Hsp2, <- Hp2. repeat split; auto.
          -- exists w', o, w, ew', eo, ew. rewrite <- Hp2, <- Hsp2. repeat split; auto. tauto.
        * assert (Hx : ~ (anc lf q /\ q < pos)).
          { intros [Haq Hlt]. apply Hnq; split; auto. pose proof (anc_chain lf pos q Ha Haq Hlt). lia. }
          apply node_ok_upd_other; auto; try lia.
          -- intros He. apply Hnq. assert (q = pos / 2 / 2) as -> by lia. split; [|lia].
             apply anc_up; auto. lia.
          -- intros He. apply Hnq. assert (q = pos / 2 / 2) as -> by lia. split; [|lia].
             apply anc_up; auto. lia.
      + exists tree'. rewrite tupd_length in Hl'. repeat split; auto.
        intros q Hnq. rewrite Hoff.
        * apply tat_tupd_other. intros <-. apply Hnq. split; auto. lia.
        * intros [Haq Hlt]. apply Hnq. split; auto. lia.
  Qed.

  (** Replaying from the leaf of player [w] repairs a tree that is right except for the new entry of [w]. *)
  Lemma replay_player (ps : list (player E)) tree w lf :
    let es := map entry ps in let ls := map leaf ps in
    shape tree ls -> linked tree -> nth_error ls w = Some lf ->
    (forall q, 1 <= q -> 2 * q + 1 <= length tree -> ~ anc lf q -> node_ok tree es q) ->
    forall fuel, length tree <= fuel ->
    exists tree', replay _ cmp fuel tree ps lf w = Ok tree' /\ shape tree' ls /\ inner_ok tree' es.
  Proof.
    intros es ls Hs Hk Hlf Hok fuel Hfuel. pose proof (sh_len _ _ Hs) as Hlen.
    assert (Hles : length es = length ls) by (unfold es, ls; now rewrite !map_length).
    destruct (sh_player _ _ Hs w lf Hlf) as (Htl & Hleaf & _). pose proof (tat_bound _ _ _ Htl) as Hb.
    destruct (replay_spec ps es lf eq_refl fuel tree lf w) as (tree' & Hr & Hl' & Hin & Hoff); auto; try lia.
    - constructor.
    - exists (length ls - 1). lia.
    - intros q Hq. destruct (tat_some tree q Hq) as [i Hi]. exists i; split; auto.
      rewrite Hles. eapply slots_bounded; eauto.
    - intros q Hq1 Hq2 Hn. apply Hok; auto. intros Haq. apply Hn; split; auto.
      pose proof (anc_le _ _ Haq). destruct (Nat.eq_dec q lf); lia.
    - exists tree'. repeat split; auto; try lia.
      + destruct (sh_player _ _ Hs i p H) as (Hp1 & Hp2 & Hp3). rewrite Hoff; auto.
        intros [Hap Hlt]. pose proof (anc_chain lf lf p (anc_refl lf) Hap Hlt). lia.
      + destruct (sh_player _ _ Hs i p H) as (Hp1 & Hp2 & Hp3). lia.
      + destruct (sh_player _ _ Hs i p H) as (Hp1 & Hp2 & Hp3). auto.
      + intros p Hp Hpl. rewrite Hl' in *. destruct (sh_leaf _ _ Hs p) as (i & Hi & Hil); [lia|lia|].
        exists i; split; auto. rewrite Hoff; auto.
        intros [Hap Hlt]. pose proof (anc_chain lf lf p (anc_refl lf) Hap Hlt). lia.
  Qed.

  (** Nodes off the path are not affected by a new entry of player [w]. *)
  Lemma off_path_ok tree es es' ls w lf : shape tree ls -> linked tree -> nth_error ls w = Some lf ->
    (forall i, i <> w -> i < length ls -> nth_error es' i = nth_error es i) ->
    forall q, 1 <= q -> 2 * q + 1 <= length tree -> node_ok tree es q -> ~ anc lf q -> node_ok tree es' q.
  Proof.
    intros Hs Hk Hlf Heq q Hq1 Hq2 (i & l & r & ei & el & er & Hi & Hl & Hr & Hei & Hel & Her & Hor & Hlt1 & Hlt2) Hna.
    assert (Hni : i <> w) by (intros ->; apply Hna; eapply holder_anc; eauto).
    assert (Hnl : l <> w).
    { intros ->. apply Hna. assert (Ha : anc lf (2 * q)) by (eapply holder_anc; eauto).
      replace q with (2 * q / 2) by lia. apply anc_up; auto; lia. }
    assert (Hnr : r <> w).
    { intros ->. apply Hna. assert (Ha : anc lf (2 * q + 1)) by (eapply holder_anc; eauto).
      replace q with ((2 * q + 1) / 2) by lia. apply anc_up; auto; lia. }
    exists i, l, r, ei, el, er. repeat split; auto; rewrite Heq; auto; eapply slots_bounded; eauto.
  Qed.

  (** * Players as entries and leaves *)
  Lemma set_entry_ok (ps : list (player E)) i e : i < length ps ->
    exists ps', set_entry _ ps i e = Ok ps' /\ map entry ps' = upd (map entry ps) i e /\ map leaf ps' = map leaf ps.
  Proof.
    intros H. unfold set_entry. destruct (nth_error_lt ps i H) as [p Hp].
    unfold vget. rewrite Hp. cbn [of_option bind]. rewrite vset_ok by auto.
    eexists; split; [reflexivity|]. split.
    - clear. revert i. induction ps as [|a ps IH]; intros [|i]; simpl; auto. now rewrite IH.
    - clear H. revert i Hp. induction ps as [|a ps IH]; intros [|i] Hp; simpl in *; auto; try discriminate.
      + injection Hp as ->. auto.
      + now rewrite IH.
  Qed.

  Lemma set_leaf_ok (ps : list (player E)) i n : i < length ps ->
    exists ps', set_leaf _ ps i n = Ok ps' /\ map leaf ps' = upd (map leaf ps) i n /\ map entry ps' = map entry ps.
  Proof.
    intros H. unfold set_leaf. destruct (nth_error_lt ps i H) as [p Hp].
    unfold vget. rewrite Hp. cbn [of_option bind]. rewrite vset_ok by auto.
    eexists; split; [reflexivity|]. split.
    - clear. revert i. induction ps as [|a ps IH]; intros [|i]; simpl; auto. now rewrite IH.
    - clear H. revert i Hp. induction ps as [|a ps IH]; intros [|i] Hp; simpl in *; auto; try discriminate.
      + injection Hp as ->. auto.
      + now rewrite IH.
  Qed.

  Definition inv (s : tourtree E) : Prop :=
    let es := map entry (tt_players s) in let ls := map leaf (tt_players s) in
    (length (tt_tree s) <= tt_cap s /\ 16 <= tt_cap s) /\ tt_cap s / 2 + 2 <= tt_pcap s /\
    ((tt_tree s = [] /\ tt_players s = []) \/
     (tt_players s <> [] /\ shape (tt_tree s) ls /\ inner_ok (tt_tree s) es)).

  Definition contents (s : tourtree E) : list E := map entry (tt_players s).

  Lemma map_nth_leaf (ps : list (player E)) i p : nth_error (map leaf ps) i = Some p ->
    exists pl, nth_error ps i = Some pl /\ leaf pl = p.
  Proof. rewrite nth_error_map. destruct (nth_error ps i) as [pl|]; [|discriminate]. intros H; injection H as <-. eauto. Qed.

  Lemma map_nth_entry (ps : list (player E)) i e : nth_error (map entry ps) i = Some e ->
    exists pl, nth_error ps i = Some pl /\ entry pl = e.
  Proof. rewrite nth_error_map. destruct (nth_error ps i) as [pl|]; [|discriminate]. intros H; injection H as <-. eauto. Qed.

  (** * decreaseTop *)
  Lemma decreaseTop_gen s x : inv s -> tt_players s <> [] ->
    exists s' t m, tt_decreaseTop _ cmp s x = Ok s' /\ inv s' /\
      Permutation (contents s) (t :: m) /\ is_max lt t (contents s) /\ Permutation (contents s') (x :: m) /\
      tt_top _ s = Ok t.
  Proof.
    intros (Hc & Hpc & [[_ Hnil]|(Hne & Hs & Hin)]) Hne'; [congruence|].
    pose proof (sh_len _ _ Hs) as Hlen. pose proof (inner_linked _ _ Hin) as Hk.
    unfold tt_decreaseTop.
    assert (Hkp : 1 <= length (map leaf (tt_players s))). { rewrite map_length. destruct (tt_players s); simpl in *; [congruence|lia]. }
    destruct (tat_some (tt_tree s) 1) as [w Hw]; [lia|].
    rewrite tget_tat, Hw. cbn [of_option bind].
    pose proof (slots_bounded _ _ Hs Hk 1 w Hw) as Hwl. rewrite map_length in Hwl.
    destruct (set_entry_ok (tt_players s) w x Hwl) as (ps & Hps & Hpe & Hpl). rewrite Hps. cbn [bind].
    assert (Hlps : length ps = length (tt_players s)).
    { apply (f_equal (@length _)) in Hpl. now rewrite !map_length in Hpl. }
    destruct (nth_error_lt (map leaf ps) w) as [lf Hlf]. { rewrite map_length; lia. }
    destruct (map_nth_leaf ps w lf Hlf) as (pw & Hpw & Hpwl).
    unfold vget. rewrite Hpw. cbn [of_option bind]. rewrite Hpwl.
    destruct (nth_error_lt (map entry (tt_players s)) w) as [t Ht]; [now rewrite map_length|].
    destruct (replay_player ps (tt_tree s) w lf) with (fuel := length (tt_tree s)) as (tree' & Hr & Hs' & Hin'); auto.
    - now rewrite Hpl.
    - intros q Hq1 Hq2 Hna.
      eapply (off_path_ok (tt_tree s) (map entry (tt_players s)) _ (map leaf ps) w lf); eauto.
      + now rewrite Hpl.
      + intros i Hi _. rewrite Hpe. apply nth_upd_other; auto.
    - rewrite Hr. cbn [bind]. 
      destruct (nth_error_split _ _ Ht) as (m1 & m2 & Hsplit & Hm1).
      exists (mk_tt tree' (tt_cap s) ps (tt_pcap s)), t, (m1 ++ m2). split; [reflexivity|].
      assert (Hcont : Permutation (contents s) (t :: m1 ++ m2)).
      { unfold contents. rewrite Hsplit. symmetry. apply Permutation_middle. }
      split; [|split; [auto|split; [|split]]].
      + split; [|split]; simpl; auto.
        * pose proof (sh_len _ _ Hs') as Hl'. rewrite Hpl in Hl'. lia.
        * right. split; [|split; auto]. destruct ps; simpl in *; [lia|discriminate].
      + eapply (root_max (tt_tree s) (map entry (tt_players s))); eauto. now rewrite !map_length.
      + unfold contents at 1; simpl. rewrite Hpe.
        apply Permutation_cons_inv with t. rewrite (upd_perm _ _ _ x Ht). fold (contents s). rewrite Hcont. apply perm_swap.
      + unfold tt_top. rewrite tget_tat, Hw. cbn [of_option bind].
        destruct (map_nth_entry _ _ _ Ht) as (pt & Hpt & Hpte). unfold vget. rewrite Hpt. cbn [of_option bind]. now rewrite Hpte.
  Qed.

  (** * push *)
  Lemma push_loop_spec (ps : list (player E)) es b eb : es = map entry ps -> nth_error es b = Some eb ->
    forall fuel tree pos,
    pos <= fuel -> 2 <= pos <= length tree -> (exists m, length tree = 2 * m + 1) ->
    tat tree pos = Some b ->
    (forall q, 1 <= q <= length tree -> exists i, tat tree q = Some i /\ i < length es) ->
    (forall q, 1 <= q -> 2 * q + 1 <= length tree -> q <> pos / 2 -> node_ok tree es q) ->
    (forall a s ea eo, tat tree (pos / 2) = Some a -> tat tree (sibling pos) = Some s ->
       nth_error es a = Some ea -> nth_error es s = Some eo ->
       (a = s \/ cmp ea eb = true) /\ lt ea eo = false) ->
    exists tree', push_loop _ cmp fuel tree ps pos = Ok tree' /\ length tree' = length tree /\
      inner_ok tree' es /\ (forall q, pos / 2 < q -> tat tree' q = tat tree q) /\
      (tat tree' 1 = tat tree 1 \/ tat tree' 1 = Some b).
  Proof.
    intros Hes Heb. induction fuel as [|f IH]; intros tree pos Hf Hb Hodd Hpos Hbd Hok Hpar; [lia|].
    cbn [push_loop]. destruct Hodd as [m Hm].
    destruct (sibling_spec pos ltac:(lia)) as (Hs1 & Hs2 & Hs3 & Hs4).
    destruct (Hbd (pos / 2)) as (a & Ha & Hal); [lia|].
    destruct (Hbd (sibling pos)) as (o & Ho & Hol); [lia|].
    destruct (nth_error_lt es a Hal) as [ea Hea]. destruct (nth_error_lt es o Hol) as [eo Heo].
    rewrite !tget_tat, Ha, Hpos. cbn [of_option bind].
    assert (Hpa : exists pa, nth_error ps a = Some pa /\ entry pa = ea).
    { apply map_nth_entry. now rewrite <- Hes. }
    assert (Hpb : exists pb, nth_error ps b = Some pb /\ entry pb = eb).
    { apply map_nth_entry. now rewrite <- Hes. }
    destruct Hpa as (pa & Hpa & Hpae). destruct Hpb as (pb & Hpb & Hpbe).
    unfold vget. rewrite Hpa, Hpb. cbn [of_option bind]. rewrite Hpae, Hpbe.
    destruct (Hpar a o ea eo Ha Ho Hea Heo) as [Hao Hlo].
    destruct (cmp ea eb) eqn:Hlt.
    - rewrite tset_tupd by lia. cbn [bind].
      set (tree1 := tupd tree (pos / 2) b).
      assert (Hl1 : length tree1 = length tree) by (unfold tree1; now rewrite tupd_length).
      assert (Hok1 : node_ok tree1 es (pos / 2)).
      { assert (Hsib : tat tree1 (sibling pos) = Some o) by (unfold tree1; rewrite tat_tupd_other by lia; auto).
        assert (Hp1 : tat tree1 pos = Some b) by (unfold tree1; rewrite tat_tupd_other by lia; auto).
        assert (Hme : tat tree1 (pos / 2) = Some b) by (apply tat_tupd_same; lia).
        assert (Hbo : lt eb eo = false).
        { eauto. }
        pose proof (sw_irrefl lt Hsw eb) as Hirr.
        destruct Hs4 as [[Hp2 Hsp2]|[Hp2 Hsp2]].
        - exists b, b, o, eb, eb, eo. rewrite <- Hsp2, <- Hp2. repeat split; auto.
        - exists b, o, b, eb, eo, eb. rewrite <- Hp2, <- Hsp2. repeat split; auto. }
      destruct (Nat.eqb_spec (pos / 2) 1) as [He|Hne].
      + exists tree1. repeat split; auto.
        * intros q Hq1 Hq2. destruct (Nat.eq_dec q (pos / 2)) as [->|Hqn]; auto.
          apply node_ok_upd_other; try lia. apply Hok; auto; lia.
        * intros q Hq. unfold tree1. apply tat_tupd_other; lia.
        * right. rewrite <- He. apply tat_tupd_same; lia.
      + destruct (IH tree1 (pos / 2)) as (tree' & Hr & Hl' & Hin & Hoff & Hroot); rewrite ?Hl1; auto; try lia.
        * exists m; lia.
        * apply tat_tupd_same; lia.
        * intros q Hq. destruct (Nat.eq_dec (pos / 2) q) as [<-|Hqn].
          -- unfold tree1. rewrite tat_tupd_same by lia. exists b; split; auto. eapply nth_error_some_lt; eauto.
          -- unfold tree1. rewrite tat_tupd_other by auto. auto.
        * intros q Hq1 Hq2 Hqn. destruct (Nat.eq_dec q (pos / 2)) as [->|Hqn2]; auto.
          apply node_ok_upd_other; try lia. apply Hok; auto; lia.
        * intros a' s' ea' es' Ha' Hs' Hea' Hes'.
          destruct (sibling_spec (pos / 2) ltac:(lia)) as (Hz1 & Hz2 & Hz3 & Hz4).
          unfold tree1 in Ha', Hs'. rewrite tat_tupd_other in Ha' by lia. rewrite tat_tupd_other in Hs' by lia.
          destruct (Hok (pos / 2 / 2)) as (i & l & r & ei & el & er & Hi & Hl & Hr & Hei & Hel & Her & Hor & Hlt1 & Hlt2); try lia.
          assert (i = a') as -> by congruence. assert (ei = ea') as -> by congruence.
          destruct Hz4 as [[Hy1 Hy2]|[Hy1 Hy2]]; rewrite Hy2 in Hs'; rewrite Hy1 in Ha.
          -- assert (l = a) as -> by congruence. assert (r = s') as -> by congruence.
             assert (er = es') as -> by congruence. assert (el = ea) as -> by congruence.
             split; auto. destruct Hor as [->| ->]; auto. right. congruence.
          -- assert (r = a) as -> by congruence. assert (l = s') as -> by congruence.
             assert (el = es') as -> by congruence. assert (er = ea) as -> by congruence.
             split; auto. destruct Hor as [->| ->]; auto. right. congruence.
        * rewrite Hl1 in Hl'. exists tree'. repeat split; auto.
          -- intros q Hq. rewrite Hoff by lia. unfold tree1. apply tat_tupd_other; lia.
          -- destruct Hroot as [Hroot|Hroot]; auto. left. rewrite Hroot. unfold tree1. apply tat_tupd_other; lia.
    - exists tree. repeat split; auto. intros q Hq1 Hq2.
      destruct (Nat.eq_dec q (pos / 2)) as [->|Hqn]; [|apply Hok; auto].
      destruct Hao as [<-|Hx]; [|congruence].
      assert (eo = ea) as -> by congruence.
      destruct Hs4 as [[Hp2 Hsp2]|[Hp2 Hsp2]].
      + exists a, b, a, ea, eb, ea. rewrite <- Hsp2, <- Hp2. repeat split; auto.
      + exists a, a, b, ea, ea, eb. rewrite <- Hp2, <- Hsp2. repeat split; auto.
  Qed.

  Lemma snoc2 {A} (l : list A) a b : (l ++ [a]) ++ [b] = l ++ [a; b].
  Proof. now rewrite <- app_assoc. Qed.

  Lemma tat_app_r {A} (l : list A) a b q : tat (l ++ [a; b]) q =
    if Nat.leb q (length l) then tat l q else
    if Nat.eqb q (length l + 1) then Some a else if Nat.eqb q (length l + 2) then Some b else None.
  Proof.
    destruct (Nat.leb_spec q (length l)) as [H|H].
    - unfold tat. destruct q as [|q]; auto. apply nth_error_app1. simpl; lia.
    - unfold tat. destruct q as [|q]; [lia|]. rewrite nth_error_app2 by lia.
      destruct (Nat.eqb_spec (S q) (length l + 1)) as [H1|H1].
      + replace (q - length l) with 0 by lia. auto.
      + destruct (Nat.eqb_spec (S q) (length l + 2)) as [H2|H2].
        * replace (q - length l) with 1 by lia. auto.
        * apply nth_error_None. simpl; lia.
  Qed.

  Lemma push_gen s x : inv s -> exists s', tt_push _ cmp s x = Ok s' /\ inv s' /\ Permutation (contents s') (x :: contents s) /\
    (tt_top _ s' = Ok x \/ tt_top _ s' = tt_top _ s).
  Proof.
    intros (Hc0 & Hpc0 & Hrest0). unfold tt_push.
    set (s1 := if 2 <=? tt_cap s - length (tt_tree s) then s else tt_reallocate E s).
    assert (Hs1 : tt_tree s1 = tt_tree s /\ tt_players s1 = tt_players s /\ (length (tt_tree s1) + 2 <= tt_cap s1 /\ 16 <= tt_cap s1) /\
                  tt_cap s1 / 2 + 2 <= tt_pcap s1).
    { unfold s1. destruct (Nat.leb_spec 2 (tt_cap s - length (tt_tree s))) as [H|H].
      - repeat split; auto; lia.
      - unfold tt_reallocate; simpl. destruct (Nat.eqb_spec (tt_cap s) 0) as [He|Hne]; repeat split; auto; try lia. }
    clearbody s1. destruct Hs1 as (Ht1 & Hp1 & Hc & Hpc).
    assert (Hcont : contents s = contents s1) by (unfold contents; now rewrite Hp1).
    assert (Htops : tt_top _ s = tt_top _ s1) by (unfold tt_top; now rewrite Ht1, Hp1).
    rewrite Hcont, Htops. clear Htops. rewrite <- Ht1, <- Hp1 in Hrest0. clear Ht1 Hp1 Hcont Hc0 Hpc0. rename Hrest0 into Hrest.
    destruct Hrest as [[Ht Hp]|(Hne & Hs & Hin)].
    - unfold tt_empty. rewrite Ht. unfold players_push. rewrite Hp. cbn [length].
      destruct (Nat.ltb_spec 0 (tt_pcap s1)) as [_|?]; [|lia]. cbn [bind app]. unfold tree_push; simpl. rewrite Ht; cbn [length].
      destruct (Nat.ltb_spec 0 (tt_cap s1)) as [_|?]; [|rewrite Ht in Hc; simpl in Hc; lia]. simpl.
      eexists; split; [reflexivity|]. unfold contents; simpl. rewrite Hp; simpl. split; [|split; auto].
      split; [simpl; rewrite Ht in Hc; simpl in Hc; lia|]. split; auto. right. simpl.
      split; [discriminate|]. split.
      + split; simpl; auto.
        * intros [|i] p; simpl; [|destruct i; discriminate]. intros H; injection H as <-. repeat split; auto. now exists 0.
        * intros p H1 H2. assert (p = 1) as -> by lia. exists 0; auto.
      + intros q H1 H2. simpl in H2. lia.
    - pose proof (sh_len _ _ Hs) as Hlen. pose proof (inner_linked _ _ Hin) as Hk.
      set (es := map entry (tt_players s1)) in *. set (ls := map leaf (tt_players s1)) in *.
      set (n := length (tt_tree s1)) in *.
      assert (Hkl : length (tt_players s1) = length ls) by (unfold ls; now rewrite map_length).
      assert (Hke : length es = length ls) by (unfold ls, es; now rewrite !map_length).
      assert (Hk1 : 1 <= length ls). { rewrite <- Hkl. destruct (tt_players s1); [congruence|simpl; lia]. }
      assert (He : tt_empty _ s1 = false). { unfold tt_empty. unfold n in Hlen. destruct (tt_tree s1); auto. simpl in Hlen; lia. }
      rewrite He. fold n.
      replace ((n + 1) / 2) with (length ls) by lia.
      destruct (sh_leaf _ _ Hs (length ls)) as (m & Hm & Hml); [fold n; lia|fold n; lia|].
      rewrite tget_tat, Hm. cbn [of_option bind].
      unfold tree_push at 1. fold n. destruct (Nat.ltb_spec n (tt_cap s1)) as [_|?]; [|lia].
      cbn [bind tt_players tt_tree tt_cap tt_pcap].
      assert (Hmk : m < length (tt_players s1)) by (rewrite Hkl; eapply nth_error_some_lt; eauto).
      destruct (set_leaf_ok (tt_players s1) m (length (tt_tree s1 ++ [m])) Hmk) as (ps & Hps & Hpl & Hpe).
      rewrite Hps. cbn [bind].
      assert (Hlps : length ps = length ls).
      { apply (f_equal (@length _)) in Hpe. rewrite !map_length in Hpe. lia. }
      unfold players_push. cbn [bind tt_players tt_tree tt_cap tt_pcap].
      destruct (Nat.ltb_spec (length ps) (tt_pcap s1)) as [_|?]; [|lia].
      cbn [bind tt_players tt_tree tt_cap tt_pcap].
      unfold tree_push. cbn [bind tt_players tt_tree tt_cap tt_pcap].
      assert (Hla : length (tt_tree s1 ++ [m]) = n + 1) by (rewrite app_length; simpl; unfold n; lia).
      rewrite Hla in *.
      destruct (Nat.ltb_spec (n + 1) (tt_cap s1)) as [_|?]; [|lia]. cbn [bind tt_players tt_tree tt_cap tt_pcap].
      rewrite snoc2. set (ps2 := ps ++ [mk_player x (n + 1 + 1)]).
      assert (Hlp2 : length ps2 = length ls + 1) by (unfold ps2; rewrite app_length; simpl; lia).
      rewrite Hlp2. replace (length ls + 1 - 1) with (length ls) by lia.
      set (t2 := tt_tree s1 ++ [m; length ls]).
      assert (Hlt2 : length t2 = n + 2) by (unfold t2; rewrite app_length; simpl; fold n; lia). rewrite Hlt2.
      assert (Hat : forall q, tat t2 q = if Nat.leb q n then tat (tt_tree s1) q else
                if Nat.eqb q (n + 1) then Some m else if Nat.eqb q (n + 2) then Some (length ls) else None) by (intros q; apply tat_app_r).
      set (es2 := map entry ps2).
      assert (Hes2 : es2 = es ++ [x]) by (unfold es2, ps2; rewrite map_app, Hpe; reflexivity).
      assert (Hbl : forall q i, tat (tt_tree s1) q = Some i -> i < length ls) by (eapply slots_bounded; eauto).
      assert (Hold : forall i, i < length ls -> nth_error es2 i = nth_error es i).
      { intros i Hi. rewrite Hes2. apply nth_error_app1. lia. }
      assert (Hxn : nth_error es2 (length ls) = Some x).
      { rewrite Hes2, <- Hke. rewrite nth_error_app2 by lia. now rewrite Nat.sub_diag. }
      destruct (push_loop_spec ps2 es2 (length ls) x eq_refl Hxn (n + 2) t2 (n + 2)) as (tree' & Hr & Hl' & Hin' & Hoff & Hroot);
        rewrite ?Hlt2; try lia.
      + exists (length ls). lia.
      + rewrite Hat. destruct (Nat.leb_spec (n + 2) n); [lia|]. destruct (Nat.eqb_spec (n + 2) (n + 1)); [lia|].
        now rewrite Nat.eqb_refl.
      + intros q Hq. rewrite Hat. rewrite Hes2, app_length; simpl.
        destruct (Nat.leb_spec q n).
        * destruct (tat_some (tt_tree s1) q) as [i Hi]; [fold n; lia|]. exists i; split; auto. specialize (Hbl q i Hi). lia.
        * destruct (Nat.eqb_spec q (n + 1)); [exists m; split; auto; lia|].
          destruct (Nat.eqb_spec q (n + 2)); [exists (length ls); split; auto; lia|lia].
      + intros q Hq1 Hq2 Hqn. assert (Hq3 : 2 * q + 1 <= n) by lia.
        destruct (Hin q Hq1 Hq3) as (i & l & r & ei & el & er & Hi & Hl & Hr & Hei & Hel & Her & Hor & Hlt1 & Hlt2').
        exists i, l, r, ei, el, er. rewrite !Hat.
        destruct (Nat.leb_spec q n); [|lia]. destruct (Nat.leb_spec (2 * q) n); [|lia]. destruct (Nat.leb_spec (2 * q + 1) n); [|lia].
        rewrite !Hold by eauto. repeat split; auto.
      + intros a o ea eo Ha Ho Hea Heo.
        rewrite Hat in Ha. destruct (Nat.leb_spec ((n + 2) / 2) n); [|lia]. replace ((n + 2) / 2) with (length ls) in Ha by lia.
        assert (a = m) as -> by congruence.
        destruct (sibling_spec (n + 2) ltac:(lia)) as (Hs1 & Hs2 & Hs3 & Hs4).
        assert (Hsib : sibling (n + 2) = n + 1) by lia. rewrite Hsib, Hat in Ho.
        destruct (Nat.leb_spec (n + 1) n); [lia|]. rewrite Nat.eqb_refl in Ho.
        assert (o = m) as -> by congruence. assert (eo = ea) as -> by congruence. split; auto. apply (sw_irrefl lt Hsw).
      + rewrite Hr. cbn [bind]. eexists; split; [reflexivity|]. unfold contents; simpl. fold es2. rewrite Hes2. fold es.
        split; [|split; [rewrite Permutation_app_comm; auto|]].
        2:{ unfold tt_top. cbn [tt_tree tt_players]. rewrite !tget_tat.
            destruct (tat_some (tt_tree s1) 1) as [w0 Hw0]; [fold n; lia|].
            assert (Hw2 : tat t2 1 = Some w0) by (rewrite Hat; destruct (Nat.leb_spec 1 n); [auto|lia]).
            rewrite Hw2 in Hroot. rewrite Hw0. destruct Hroot as [-> | ->]; cbn [of_option bind].
            - right. assert (Hw0l : w0 < length ls) by eauto.
              destruct (nth_error_lt es w0) as [e0 He0]; [lia|].
              destruct (map_nth_entry _ _ _ He0) as (p0 & Hp0 & Hp0e).
              destruct (map_nth_entry ps2 w0 e0) as (p0' & Hp0' & Hp0e'). { fold es2. rewrite Hold by auto. auto. }
              unfold vget. rewrite Hp0, Hp0'. cbn [of_option bind]. congruence.
            - left. destruct (map_nth_entry ps2 (length ls) x Hxn) as (p0' & Hp0' & Hp0e').
              unfold vget. rewrite Hp0'. cbn [of_option bind]. congruence. }
        split; [simpl; lia|]. split; [simpl; auto|]. right. simpl.
        split; [unfold ps2; destruct ps; discriminate|]. split; [|exact Hin'].
        assert (Hls2 : map leaf ps2 = upd ls m (n + 1) ++ [n + 2]).
        { unfold ps2. rewrite map_app, Hpl. simpl. do 2 f_equal. lia. }
        rewrite Hls2.
        assert (Hmlt : m < length ls) by lia.
        assert (Hleafs : forall i, nth_error (upd ls m (n + 1) ++ [n + 2]) i =
           if Nat.eqb i m then Some (n + 1) else if Nat.eqb i (length ls) then Some (n + 2) else nth_error ls i).
        { intros i. destruct (Nat.eqb_spec i m) as [->|Him].
          - rewrite nth_error_app1 by (rewrite upd_length; lia). apply nth_upd_same; lia.
          - destruct (Nat.eqb_spec i (length ls)) as [->|Hil].
            + rewrite nth_error_app2 by (rewrite upd_length; lia). rewrite upd_length, Nat.sub_diag. auto.
            + destruct (le_lt_dec (length ls) i).
              * rewrite nth_error_app2 by (rewrite upd_length; lia). rewrite upd_length.
                rewrite (proj2 (nth_error_None ls i)) by lia. destruct (i - length ls) eqn:Hz; [lia|]. simpl. now destruct n0.
              * rewrite nth_error_app1 by (rewrite upd_length; lia). apply nth_upd_other; auto. }
        split.
        * rewrite app_length, upd_length; simpl. lia.
        * intros i p Hi. rewrite Hleafs in Hi. rewrite Hl', Hlt2.
          destruct (Nat.eqb_spec i m) as [->|Him]; [|destruct (Nat.eqb_spec i (length ls)) as [->|Hil]].
          -- injection Hi as <-. rewrite Hoff by lia. rewrite Hat.
             destruct (Nat.leb_spec (n + 1) n); [lia|]. rewrite Nat.eqb_refl. repeat split; auto; try lia.
             destruct (sh_player _ _ Hs m _ Hml) as (_ & _ & t & Ht). exists (S t).
             rewrite Nat.pow_succ_r'. nia.
          -- injection Hi as <-. rewrite Hoff by lia. rewrite Hat.
             destruct (Nat.leb_spec (n + 2) n); [lia|]. destruct (Nat.eqb_spec (n + 2) (n + 1)); [lia|].
             rewrite Nat.eqb_refl. repeat split; auto; try lia. exists 0. simpl. lia.
          -- destruct (sh_player _ _ Hs i p Hi) as (Hp1 & Hp2 & Hp3). fold n in Hp2.
             pose proof (tat_bound _ _ _ Hp1) as Hpb. fold n in Hpb.
             assert (p <> length ls) by (intros ->; congruence).
             rewrite Hoff by lia. rewrite Hat. destruct (Nat.leb_spec p n); [|lia]. repeat split; auto. lia.
        * rewrite Hl', Hlt2. intros p Hpr Hp2. destruct (Nat.eq_dec p (n + 1)) as [->|Hn1]; [|destruct (Nat.eq_dec p (n + 2)) as [->|Hn2]].
          -- exists m. rewrite Hoff by lia. rewrite Hat, Hleafs.
             destruct (Nat.leb_spec (n + 1) n); [lia|]. now rewrite !Nat.eqb_refl.
          -- exists (length ls). rewrite Hoff by lia. rewrite Hat, Hleafs.
             destruct (Nat.leb_spec (n + 2) n); [lia|]. destruct (Nat.eqb_spec (n + 2) (n + 1)); [lia|].
             destruct (Nat.eqb_spec (length ls) m); [lia|]. now rewrite !Nat.eqb_refl.
          -- destruct (sh_leaf _ _ Hs p) as (i & Hi & Hil); [fold n; lia|fold n; lia|].
             exists i. rewrite Hoff by lia. rewrite Hat, Hleafs. destruct (Nat.leb_spec p n); [|lia].
             pose proof (nth_error_some_lt _ _ _ Hil).
             destruct (Nat.eqb_spec i m) as [->|]; [assert (p = length ls) by congruence; lia|].
             destruct (Nat.eqb_spec i (length ls)); [lia|]. auto.
  Qed.

  Lemma push_range_gen xs : forall s, inv s ->
    exists s', tt_push_range _ cmp s xs = Ok s' /\ inv s' /\ Permutation (contents s') (xs ++ contents s).
  Proof.
    induction xs as [|x xs IH]; intros s Hi; cbn [tt_push_range].
    - exists s; auto.
    - destruct (push_gen s x Hi) as (s1 & -> & Hi1 & Hp1 & _). cbn [bind].
      destruct (IH s1 Hi1) as (s2 & Hr & Hi2 & Hp2). exists s2; repeat split; auto; try apply Hi2.
      rewrite Hp2, Hp1. simpl. symmetry. apply Permutation_middle.
  Qed.

  (** * pop *)

  (** The loop of pop turns every inner node that refers to [rgt] into one that refers to [lft]. *)
  Lemma replace_loop_spec tree0 n rgt lft : length tree0 = n ->
    (forall q c, tat tree0 q = Some rgt -> anc n c -> q <= c -> tat tree0 c = Some rgt) ->
    (forall q, tat tree0 q = Some rgt -> anc n q) ->
    forall fuel tree pos, pos <= fuel -> 1 <= pos < n -> length tree = n -> anc n pos ->
    (forall q, tat tree q = if (Nat.ltb pos q && Nat.ltb q n)%bool then (match tat tree0 q with Some i => Some (if Nat.eqb i rgt then lft else i) | None => None end)
                            else tat tree0 q) ->
    exists tree', replace_loop fuel tree pos rgt lft = Ok tree' /\ length tree' = n /\
      forall q, tat tree' q = if Nat.ltb q n then (match tat tree0 q with Some i => Some (if Nat.eqb i rgt then lft else i) | None => None end)
                              else tat tree0 q.
  Proof.
    intros Hn0 Hch Han. induction fuel as [|f IH]; intros tree pos Hf Hb Hl Ha Hq; [lia|].
    cbn [replace_loop]. rewrite tget_tat.
    assert (Hqp : tat tree pos = tat tree0 pos) by (rewrite Hq; destruct (Nat.ltb_spec pos pos); [lia|]; auto).
    destruct (tat_some tree0 pos) as [i Hi]; [lia|]. rewrite Hqp, Hi. cbn [of_option bind].
    destruct (Nat.eqb_spec i rgt) as [->|Hne].
    - rewrite tset_tupd by lia. cbn [bind].
      destruct (Nat.eqb_spec pos 1) as [->|Hp1].
      + eexists; split; [reflexivity|]. rewrite tupd_length. split; auto. intros q.
        destruct (Nat.eq_dec 1 q) as [<-|Hqn].
        * rewrite tat_tupd_same by lia. destruct (Nat.ltb_spec 1 n); [|lia]. rewrite Hi, Nat.eqb_refl. auto.
        * rewrite tat_tupd_other by auto. rewrite Hq. destruct (Nat.ltb_spec 1 q).
          -- reflexivity.
          -- assert (q = 0) as -> by lia. simpl. destruct (Nat.ltb_spec 0 n); auto.
      + apply IH; rewrite ?tupd_length; auto; try lia.
        * apply anc_up; auto; lia.
        * intros q. destruct (Nat.eq_dec pos q) as [<-|Hqn].
          -- rewrite tat_tupd_same by lia. destruct (Nat.ltb_spec (pos / 2) pos); [|lia]. destruct (Nat.ltb_spec pos n); [|lia].
             simpl. rewrite Hi, Nat.eqb_refl. auto.
          -- rewrite tat_tupd_other by auto. rewrite Hq.
             destruct (Nat.ltb_spec pos q); destruct (Nat.ltb_spec (pos / 2) q); try lia; auto.
             simpl. destruct (Nat.ltb_spec q n); auto.
             destruct (tat tree0 q) as [j|] eqn:Hj; auto. destruct (Nat.eqb_spec j rgt) as [->|]; auto.
             specialize (Han q Hj). pose proof (anc_chain n pos q Ha Han). lia.
    - exists tree. split; auto. split; auto. intros q. rewrite Hq.
      destruct (Nat.ltb_spec pos q); simpl; auto. destruct (Nat.ltb_spec q n); [|lia].
      destruct (tat tree0 q) as [j|] eqn:Hj; auto. destruct (Nat.eqb_spec j rgt) as [->|]; auto.
      assert (tat tree0 pos = Some rgt) by (eapply Hch; eauto). congruence.
  Qed.

  Definition swap_entries es a b : list E :=
    match nth_error es a, nth_error es b with Some x, Some y => upd (upd es a y) b x | _, _ => es end.

  (** After the first part of pop no inner node refers to the last player. *)
  Lemma pop_first_part (ps : list (player E)) tree lft rgt k : 
    let es := map entry ps in let ls := map leaf ps in let n := length tree in
    shape tree ls -> inner_ok tree es -> length ls = k -> 2 <= k -> rgt = k - 1 -> tat tree (n - 1) = Some lft ->
    forall atp, tat tree (n / 2) = Some atp ->
    exists tree1 ps1,
      (if Nat.eqb rgt atp then
           let* pl := vget ps lft in
           let* pr := vget ps rgt in
           let* psa := set_entry _ ps lft (entry pr) in
           let* psb := set_entry _ psa rgt (entry pl) in
           let* t := replace_loop n tree (n / 2) rgt lft in
           Ok (t, psb)
         else Ok (tree, ps)) = Ok (tree1, ps1) /\
      length tree1 = n /\ map leaf ps1 = ls /\ Permutation (map entry ps1) es /\
      inner_ok tree1 (map entry ps1) /\
      (forall q, n < 2 * q -> tat tree1 q = tat tree q) /\
      tat tree1 (n / 2) = Some lft /\
      (forall q, q < n -> tat tree1 q <> Some rgt) /\
      (forall w e, tat tree 1 = Some w -> nth_error es w = Some e ->
         exists w1, tat tree1 1 = Some w1 /\ nth_error (map entry ps1) w1 = Some e).
  Proof.
    intros es ls n Hs Hin Hkl Hk2 Hrg Hl atp Hatp.
    pose proof (sh_len _ _ Hs) as Hlen. fold n in Hlen. pose proof (inner_linked _ _ Hin) as Hk.
    assert (Hr : tat tree n = Some rgt) by (rewrite Hrg, <- Hkl; now apply last_slot).
    assert (Hrlf : nth_error ls rgt = Some n).
    { destruct (sh_leaf _ _ Hs n) as (j & Hj & Hjl); [fold n; lia|fold n; lia|]. congruence. }
    assert (Hllf : nth_error ls lft = Some (n - 1)).
    { destruct (sh_leaf _ _ Hs (n - 1)) as (j & Hj & Hjl); [fold n; lia|fold n; lia|]. congruence. }
    assert (Hlr : lft <> rgt) by (intros ->; rewrite Hrlf in Hllf; injection Hllf; lia).
    assert (Hpar : n / 2 = (n - 1) / 2) by lia.
    assert (Hancr : anc n (n / 2)) by (apply anc_up; [constructor|lia]).
    assert (Hancl : anc (n - 1) (n / 2)) by (rewrite Hpar; apply anc_up; [constructor|lia]).
    assert (H2a : 2 * (n / 2) = n - 1) by lia. assert (H2b : 2 * (n / 2) + 1 = n) by lia.
    assert (Hles : length es = length ls) by (unfold es, ls; now rewrite !map_length).
    assert (Hlps : length ps = length ls) by (unfold ls; now rewrite map_length).
    destruct (Hin (n / 2)) as (i & l & r & ei & el & er & Hi & Hl' & Hr' & Hei & Hel & Her & Hor & Hlt1 & Hlt2); [lia|fold n; lia|].
    rewrite H2a in Hl'. rewrite H2b in Hr'.
    assert (l = lft) as -> by congruence. assert (r = rgt) as -> by congruence. assert (i = atp) as -> by congruence.
    destruct (Nat.eqb_spec rgt atp) as [Heq|Hne].
    - subst atp.
      destruct (map_nth_entry ps lft el Hel) as (pl & Hpl & Hple).
      destruct (map_nth_entry ps rgt er Her) as (pr & Hpr & Hpre).
      unfold vget. rewrite Hpl, Hpr. cbn [of_option bind]. rewrite Hple, Hpre.
      assert (ei = er) as -> by congruence.
      destruct (set_entry_ok ps lft er) as (psa & Hpsa & Hpsae & Hpsal). { eapply nth_error_some_lt; eauto. }
      rewrite Hpsa. cbn [bind].
      assert (Hlpsa : length psa = length ps). { apply (f_equal (@length _)) in Hpsal. now rewrite !map_length in Hpsal. }
      destruct (set_entry_ok psa rgt el) as (psb & Hpsb & Hpsbe & Hpsbl). { rewrite Hlpsa. eapply nth_error_some_lt; eauto. }
      rewrite Hpsb. cbn [bind].
      rewrite Hpsal in Hpsbl. rewrite Hpsae in Hpsbe. fold es in Hpsbe.
      destruct (replace_loop_spec tree n rgt lft eq_refl) with (fuel := n) (tree := tree) (pos := n / 2) as (t & Ht & Htl & Htat); auto; try lia.
      + intros q c Hq Hc Hqc. eapply (holder_chain tree ls); eauto.
      + intros q Hq. eapply (holder_anc tree ls); eauto.
      + intros q. destruct (Nat.ltb_spec (n / 2) q); simpl; auto. destruct (Nat.ltb_spec q n); auto.
        destruct (tat tree q) as [j|] eqn:Hj; auto. destruct (Nat.eqb_spec j rgt) as [->|]; auto.
        assert (anc n q) by (eapply (holder_anc tree ls); eauto). pose proof (anc_chain n n q (anc_refl n) ltac:(auto)). lia.
      + rewrite Ht. cbn [bind]. exists t, psb. split; auto. split; auto. split; auto.
        assert (Hperm : Permutation (map entry psb) es).
        { rewrite Hpsbe. pose proof (upd_perm es lft el er Hel) as P1.
          assert (Hz : nth_error (upd es lft er) rgt = Some er) by (rewrite nth_upd_other; auto).
          pose proof (upd_perm (upd es lft er) rgt er el Hz) as P2.
          apply Permutation_cons_inv with er. rewrite P2, P1. reflexivity. }
        split; auto.
        assert (Hnl : forall q, tat tree q = Some lft -> q = n - 1).
        { intros q Hq. assert (Hqa : anc (n - 1) q) by (eapply (holder_anc tree ls); eauto).
          destruct (Nat.eq_dec q (n - 1)) as [|Hd]; auto. exfalso.
          pose proof (anc_le _ _ Hqa).
          assert (q <= n / 2). { rewrite Hpar. apply (anc_chain (n - 1)); auto. constructor. lia. }
          assert (tat tree (n / 2) = Some lft) by (eapply (holder_chain tree ls); eauto). congruence. }
        assert (Hes1 : forall j, nth_error (map entry psb) j =
           if Nat.eqb j lft then Some er else if Nat.eqb j rgt then Some el else nth_error es j).
        { intros j. rewrite Hpsbe. destruct (Nat.eqb_spec j lft) as [->|Hj].
          - rewrite nth_upd_other by auto. apply nth_upd_same. rewrite Hles. eapply nth_error_some_lt; eauto.
          - destruct (Nat.eqb_spec j rgt) as [->|Hj2].
            + apply nth_upd_same. rewrite upd_length, Hles. eapply nth_error_some_lt; eauto.
            + rewrite !nth_upd_other by auto. auto. }
        set (f := fun j => if Nat.eqb j rgt then lft else j).
        assert (Hf : forall q j e, q < n - 1 -> tat tree q = Some j -> nth_error es j = Some e ->
                     tat t q = Some (f j) /\ nth_error (map entry psb) (f j) = Some e).
        { intros q j e Hqn Hj He. rewrite Htat, Hj. destruct (Nat.ltb_spec q n); [|lia]. split; auto.
          rewrite Hes1. unfold f. destruct (Nat.eqb_spec j rgt) as [->|Hjr].
          - rewrite Nat.eqb_refl. congruence.
          - destruct (Nat.eqb_spec j lft) as [->|Hjl]; [apply Hnl in Hj; lia|]. destruct (Nat.eqb_spec j rgt); [congruence|auto]. }
        split; [|split; [|split; [|split]]].
        * intros q Hq1 Hq2. rewrite Htl in Hq2. destruct (Nat.eq_dec q (n / 2)) as [->|Hqn].
          -- exists lft, lft, rgt, er, er, el. rewrite H2b, H2a, !Htat, Hi, Hl, Hr, !Hes1.
             destruct (Nat.ltb_spec (n / 2) n); [|lia]. destruct (Nat.ltb_spec (n - 1) n); [|lia]. destruct (Nat.ltb_spec n n); [lia|].
             rewrite !Nat.eqb_refl. destruct (Nat.eqb_spec lft rgt); [congruence|]. destruct (Nat.eqb_spec rgt lft); [congruence|].
             repeat split; auto.
          -- destruct (Hin q) as (i' & l' & r' & ei' & el' & er' & Hi' & Hl'' & Hr'' & Hei' & Hel' & Her' & Hor' & Hlt1' & Hlt2'); [auto|fold n; lia|].
             exists (f i'), (f l'), (f r'), ei', el', er'.
             destruct (Hf q i' ei') as [? ?]; auto; [lia|]. destruct (Hf (2 * q) l' el') as [? ?]; auto; [lia|].
             destruct (Hf (2 * q + 1) r' er') as [? ?]; auto; [lia|].
             repeat split; auto. destruct Hor' as [->| ->]; auto.
        * intros q Hq. rewrite Htat. destruct (Nat.ltb_spec q n); auto.
          destruct (tat tree q) as [j|] eqn:Hj; auto. destruct (Nat.eqb_spec j rgt) as [->|]; auto.
          destruct (sh_leaf _ _ Hs q) as (j' & Hj1 & Hj2); [pose proof (tat_bound _ _ _ Hj); fold n; lia|fold n; lia|].
          assert (j' = rgt) as -> by congruence. assert (q = n) by congruence. lia.
        * rewrite Htat, Hi. destruct (Nat.ltb_spec (n / 2) n); [|lia]. now rewrite Nat.eqb_refl.
        * intros q Hq. rewrite Htat. destruct (Nat.ltb_spec q n); [|lia].
          destruct (tat tree q) as [j|] eqn:Hj; [|discriminate]. destruct (Nat.eqb_spec j rgt); congruence.
        * intros w e Hw He. destruct (Hf 1 w e) as [? ?]; auto; [lia|]. exists (f w); auto.
    - exists tree, ps. split; auto. split; auto. split; auto. split; auto. split; auto. split; auto.
      assert (Hatl : atp = lft) by (destruct Hor; congruence). split; [congruence|].
      split.
      + intros q Hq Hqr. assert (Hqa : anc n q) by (eapply (holder_anc tree ls); eauto).
        assert (q <= n / 2) by (apply (anc_chain n); auto; constructor).
        assert (tat tree (n / 2) = Some rgt) by (eapply (holder_chain tree ls); eauto). congruence.
      + intros w e Hw He. exists w; auto.
  Qed.

  Lemma list_eq_nil_dec {A} (l : list A) : {l = []} + {l <> []}.
  Proof. destruct l; [left|right]; congruence. Qed.

  Lemma removelast_map {A B} (f : A -> B) (l : list A) : map f (removelast l) = removelast (map f l).
  Proof. induction l as [|a [|b l] IH]; auto. change (f a :: map f (removelast (b :: l)) = f a :: removelast (map f (b :: l))). now rewrite IH. Qed.

  Lemma pop_gen s : inv s -> tt_players s <> [] ->
    exists s' t, tt_pop _ cmp s = Ok (s', t) /\ inv s' /\ is_max lt t (contents s) /\ Permutation (contents s) (t :: contents s') /\
      tt_top _ s = Ok t.
  Proof.
    intros (Hc & Hpc & [[_ Hnil]|(Hne & Hs & Hin)]) Hne'; [congruence|]. unfold tt_pop.
    pose proof (sh_len _ _ Hs) as Hlen. pose proof (inner_linked _ _ Hin) as Hk.
    set (es := map entry (tt_players s)) in *. set (ls := map leaf (tt_players s)) in *.
    set (tree := tt_tree s) in *. set (n := length tree) in *.
    assert (Hkl : length (tt_players s) = length ls) by (unfold ls; now rewrite map_length).
    assert (Hke : length es = length ls) by (unfold ls, es; now rewrite !map_length).
    assert (Hk1 : 1 <= length ls). { rewrite <- Hkl. destruct (tt_players s); [congruence|simpl; lia]. }
    destruct (tat_some tree 1) as [w Hw]; [fold n; lia|].
    rewrite tget_tat, Hw. cbn [of_option bind].
    pose proof (slots_bounded _ _ Hs Hk 1 w Hw) as Hwl.
    destruct (nth_error_lt es w) as [t Ht]; [lia|].
    destruct (map_nth_entry (tt_players s) w t Ht) as (pw & Hpw & Hpwe).
    assert (Htop : tt_top _ s = Ok t).
    { unfold tt_top. fold tree. rewrite tget_tat, Hw. cbn [of_option bind]. unfold vget. rewrite Hpw. cbn [of_option bind]. now rewrite Hpwe. }
    unfold vget at 1. rewrite Hpw. cbn [of_option bind]. rewrite Hpwe.
    assert (Hmax : is_max lt t (contents s)) by (eapply (root_max tree es ls); eauto).
    destruct (Nat.eqb_spec n 1) as [Hn1|Hn1].
    - assert (Hl1 : length (tt_players s) = 1) by lia.
      destruct (tt_players s) as [|p0 [|p1 ps]] eqn:Hps; [exfalso; clear - Hl1; discriminate| |exfalso; clear - Hl1; discriminate].
      assert (Htr : exists a, tree = [a]). { unfold n in Hn1. destruct tree as [|a [|b tr]]; simpl in Hn1; try lia. eauto. }
      destruct Htr as [a Htr]. rewrite Htr. simpl.
      eexists; eexists; split; [reflexivity|]. split; [|split; [auto|split; auto]].
      + split; [simpl; lia|]. split; [exact Hpc|]. left; auto.
      + unfold contents. rewrite Hps. simpl. simpl in Ht.
        assert (w = 0) as -> by (simpl in Hwl; lia). simpl in Ht. injection Ht as ->. auto.
    - set (k := length ls) in *. assert (Hk2 : 2 <= k) by lia.
      destruct (tat_some tree (n - 1)) as [lft Hlft]; [fold n; lia|].
      destruct (tat_some tree (n / 2)) as [atp Hatp]; [fold n; lia|].
      assert (Hrgt : tat tree n = Some (k - 1)) by (now apply last_slot).
      rewrite !tget_tat, Hlft, Hrgt, Hatp. cbn [of_option bind].
      destruct (pop_first_part (tt_players s) tree lft (k - 1) k Hs Hin eq_refl Hk2 eq_refl Hlft atp Hatp)
        as (tree1 & ps1 & Hfp & Hl1 & Hls1 & Hperm1 & Hin1 & Hleaf1 & Hpar1 & Hnr1 & Hroot1).
      fold n in Hfp, Hl1, Hleaf1, Hpar1, Hnr1. rewrite Hfp. cbn [bind]. clear Hfp.
      destruct (Hroot1 w t Hw Ht) as (w1 & Hw1 & Ht1).
      rewrite tget_tat, Hw1. cbn [of_option bind].
      set (es1 := map entry ps1) in *.
      assert (Hlps1 : length ps1 = k). { unfold k. apply (f_equal (@length _)) in Hls1. rewrite map_length in Hls1. exact Hls1. }
      assert (Hles1 : length es1 = k) by (unfold es1; now rewrite map_length).
      assert (Hw1r : w1 <> k - 1). { intros ->. apply (Hnr1 1); auto. lia. }
      assert (Hw1l : w1 < k). { rewrite <- Hles1. eapply nth_error_some_lt; eauto. }
      destruct (nth_error_lt es1 (k - 1)) as [er Her]; [lia|].
      destruct (map_nth_entry ps1 (k - 1) er Her) as (pr & Hpr & Hpre).
      unfold vget at 1. rewrite Hpr. cbn [of_option bind]. rewrite Hpre.
      destruct (set_entry_ok ps1 w1 er) as (ps2 & -> & Hps2e & Hps2l); [lia|]. cbn [bind].
      assert (Hlps2 : length ps2 = k). { apply (f_equal (@length _)) in Hps2l. now rewrite !map_length, Hlps1 in Hps2l. }
      rewrite Hlps2, Nat.eqb_refl. cbn [negb].
      assert (Hllf : nth_error ls lft = Some (n - 1)).
      { destruct (sh_leaf _ _ Hs (n - 1)) as (j & Hj & Hjl); [fold n; lia|fold n; lia|]. congruence. }
      assert (Hrlf : nth_error ls (k - 1) = Some n).
      { destruct (sh_leaf _ _ Hs n) as (j & Hj & Hjl); [fold n; lia|fold n; lia|]. congruence. }
      assert (Hlk : lft < k - 1).
      { assert (lft < k) by (eapply nth_error_some_lt; eauto). assert (lft <> k - 1) by (intros ->; rewrite Hrlf in Hllf; injection Hllf; lia). lia. }
      destruct (set_leaf_ok (removelast ps2) lft (n / 2)) as (ps4 & -> & Hps4l & Hps4e). { rewrite removelast_length; lia. }
      cbn [bind].
      rewrite removelast_map, Hps2l, Hls1 in Hps4l. fold ls in Hps4l. rewrite removelast_map, Hps2e in Hps4e. fold es1 in Hps4e.
      set (ls4 := upd (removelast ls) lft (n / 2)) in *. set (es4 := removelast (upd es1 w1 er)) in *.
      set (tree2 := removelast (removelast tree1)).
      assert (Hl2 : length tree2 = n - 2) by (unfold tree2; rewrite !removelast_length; lia).
      assert (Ht2 : forall q, tat tree2 q = if Nat.leb q (n - 2) then tat tree1 q else None).
      { intros q. destruct (Nat.leb_spec q (n - 2)).
        - unfold tree2. rewrite !tat_removelast; auto; rewrite ?removelast_length; lia.
        - destruct (tat tree2 q) eqn:Hq; auto. apply tat_bound in Hq. lia. }
      assert (Hlls4 : length ls4 = k - 1) by (unfold ls4; rewrite upd_length, removelast_length; unfold k; lia).
      assert (Hls4 : forall i, i < k - 1 -> nth_error ls4 i = if Nat.eqb i lft then Some (n / 2) else nth_error ls i).
      { intros i Hi. unfold ls4. destruct (Nat.eqb_spec i lft) as [->|Hil].
        - apply nth_upd_same. rewrite removelast_length. unfold k in *. lia.
        - rewrite nth_upd_other by auto. apply nth_error_removelast. unfold k in *. lia. }
      assert (Hsh : shape tree2 ls4).
      { split.
        - lia.
        - intros i p Hi. assert (Hik : i < k - 1) by (rewrite <- Hlls4; eapply nth_error_some_lt; eauto).
          rewrite Hls4 in Hi by auto. rewrite Ht2, Hl2. destruct (Nat.eqb_spec i lft) as [->|Hil].
          + assert (p = n / 2) as -> by congruence. destruct (Nat.leb_spec (n / 2) (n - 2)); [|lia]. split; auto. split; [lia|].
            destruct (sh_player _ _ Hs lft _ Hllf) as (_ & _ & t' & Ht'). destruct t' as [|t']; [simpl in Ht'; lia|].
            exists t'. rewrite Nat.pow_succ_r' in Ht'. nia.
          + destruct (sh_player _ _ Hs i p Hi) as (Hp1 & Hp2 & Hp3). fold n in Hp2. pose proof (tat_bound _ _ _ Hp1) as Hpb. fold n in Hpb.
            assert (p <> n) by (intros ->; assert (i = k - 1) by congruence; lia).
            assert (p <> n - 1) by (intros ->; congruence).
            destruct (Nat.leb_spec p (n - 2)); [|lia]. rewrite Hleaf1 by lia. repeat split; auto. lia.
        - rewrite Hl2. intros p Hp1 Hp2. rewrite Ht2. destruct (Nat.leb_spec p (n - 2)); [|lia].
          destruct (Nat.eq_dec p (n / 2)) as [->|Hpn].
          + exists lft. split; auto. rewrite Hls4 by lia. now rewrite Nat.eqb_refl.
          + destruct (sh_leaf _ _ Hs p) as (i & Hi & Hil); [fold n; lia|fold n; lia|].
            exists i. rewrite Hleaf1 by lia. split; auto.
            assert (i < k) by (eapply nth_error_some_lt; eauto).
            assert (i <> k - 1) by (intros ->; assert (p = n) by congruence; lia).
            rewrite Hls4 by lia. destruct (Nat.eqb_spec i lft) as [->|]; auto. assert (p = n - 1) by congruence. lia. }
      assert (Hk2' : linked tree2).
      { intros q Hq1 Hq2. rewrite Hl2 in Hq2. destruct (inner_linked _ _ Hin1 q) as (c & Hc1 & Hc2 & Hc3); [lia|lia|].
        exists c. repeat split; auto. rewrite !Ht2. destruct (Nat.leb_spec c (n - 2)); [|lia]. destruct (Nat.leb_spec q (n - 2)); [|lia]. auto. }
      assert (Hes4 : forall i, i <> w1 -> i < k - 1 -> nth_error es4 i = nth_error es1 i).
      { intros i Hi1 Hi2. unfold es4. rewrite nth_error_removelast by (rewrite upd_length; lia). apply nth_upd_other; auto. }
      assert (Hlps4 : length ps4 = k - 1). { rewrite <- Hlls4, <- Hps4l. now rewrite map_length. }
      destruct (nth_error_lt ls4 w1) as [lf Hlf]; [lia|].
      destruct (map_nth_leaf ps4 w1 lf) as (pw4 & Hpw4 & Hpw4l); [now rewrite Hps4l|].
      unfold vget. rewrite Hpw4. cbn [of_option bind]. rewrite Hpw4l.
      destruct (replay_player ps4 tree2 w1 lf) with (fuel := n) as (tree3 & Hr & Hs3 & Hin3); rewrite ?Hps4l, ?Hl2; auto; try lia.
      { intros q Hq1 Hq2 Hna. rewrite Hps4e.
        destruct (Hin1 q) as (i & l & r & ei & el & er' & Hi & Hl & Hrr & Hei & Hel & Her' & Hor & Hlt1 & Hlt2); [lia|lia|].
        assert (Hin2 : tat tree2 q = Some i) by (rewrite Ht2; destruct (Nat.leb_spec q (n - 2)); [auto|lia]).
        assert (Hl2' : tat tree2 (2 * q) = Some l) by (rewrite Ht2; destruct (Nat.leb_spec (2 * q) (n - 2)); [auto|lia]).
        assert (Hr2' : tat tree2 (2 * q + 1) = Some r) by (rewrite Ht2; destruct (Nat.leb_spec (2 * q + 1) (n - 2)); [auto|lia]).
        assert (Hni : i <> w1) by (intros ->; apply Hna; eapply (holder_anc tree2 ls4); eauto).
        assert (Hnl : l <> w1).
        { intros ->. apply Hna. assert (Ha : anc lf (2 * q)) by (eapply (holder_anc tree2 ls4); eauto).
          replace q with (2 * q / 2) by lia. apply anc_up; auto; lia. }
        assert (Hnr : r <> w1).
        { intros ->. apply Hna. assert (Ha : anc lf (2 * q + 1)) by (eapply (holder_anc tree2 ls4); eauto).
          replace q with ((2 * q + 1) / 2) by lia. apply anc_up; auto; lia. }
        exists i, l, r, ei, el, er'.
        rewrite !Hes4; auto; try (rewrite <- Hlls4; eapply (slots_bounded tree2 ls4); eauto; fail).
        repeat split; auto. }
      rewrite Hr. cbn [bind]. eexists; eexists; split; [reflexivity|].
      pose proof (sh_len _ _ Hs3) as Hl3. rewrite Hps4l in Hl3, Hs3.
      split; [|split; [auto|split; auto]].
      + split; [simpl; lia|]. split; [exact Hpc|]. right. simpl. rewrite Hps4l.
        split; auto. destruct ps4; [simpl in *; lia|discriminate].
      + unfold contents; simpl. fold es in Hperm1 |- *. rewrite Hps4e, <- Hperm1. fold es1.
        pose proof (upd_perm es1 w1 t er Ht1) as P.
        assert (Hlast : nth_error (upd es1 w1 er) (length (upd es1 w1 er) - 1) = Some er).
        { rewrite upd_length, Hles1. rewrite nth_upd_other by auto. auto. }
        apply removelast_perm in Hlast. fold es4 in Hlast.
        apply Permutation_cons_inv with er. rewrite <- P, Hlast. apply perm_swap.
  Qed.

  Lemma tt_new_inv : inv (tt_new E).
  Proof. split; [simpl; lia|]. split; [simpl; lia|]. left; auto. Qed.

  Lemma inv_nil s : inv s -> (tt_tree s = [] <-> tt_players s = []).
  Proof.
    intros (_ & _ & [[H1 H2]|(Hne & Hs & _)]); [tauto|]. split; [|congruence].
    intros Ht. pose proof (sh_len _ _ Hs) as Hl. rewrite Ht, map_length in Hl. simpl in Hl.
    destruct (tt_players s); [congruence|simpl in Hl; lia].
  Qed.

  Lemma tt_step_gen s o : inv s -> tt_api E o = true ->
    match tt_step _ cmp s o with
    | Ok (s', r) => inv s' /\ sstep lt no_dd (contents s) o r (contents s')
    | UB => contents s = [] /\ needs_nonempty o = true
    | _ => False
    end.
  Proof.
    intros Hi Ha. pose proof (inv_nil s Hi) as Hnil.
    assert (Hcn : contents s = [] <-> tt_players s = []). { unfold contents. destruct (tt_players s); simpl; split; congruence. }
    destruct o as [x|xs| | |x| | | |]; cbn [tt_step]; try discriminate.
    - destruct (push_gen s x Hi) as (s' & -> & Hi' & Hp & _). cbn [bind]. split; auto.
      constructor. apply merges_perm. now symmetry.
    - destruct (push_range_gen xs s Hi) as (s' & -> & Hi' & Hp). cbn [bind]. split; auto.
      constructor. apply merges_perm. now symmetry.
    - destruct (list_eq_nil_dec (tt_players s)) as [He|Hne].
      + unfold tt_pop. rewrite tget_tat, (proj2 Hnil He). simpl. tauto.
      + destruct (pop_gen s Hi Hne) as (s' & t & -> & Hi' & Hm & Hp & _). cbn [bind]. split; auto.
        econstructor; [apply merges_perm; exact Hp| |apply merges_refl]. eapply is_max_perm; eauto.
    - destruct (list_eq_nil_dec (tt_players s)) as [He|Hne].
      + unfold tt_top. rewrite tget_tat, (proj2 Hnil He). simpl. tauto.
      + destruct (pop_gen s Hi Hne) as (s' & t & Hpop & Hi' & Hm & Hp & ->). cbn [bind].
        split; auto. constructor; auto. apply merges_refl.
    - destruct (list_eq_nil_dec (tt_players s)) as [He|Hne].
      + unfold tt_decreaseTop. rewrite tget_tat, (proj2 Hnil He). simpl. tauto.
      + destruct (decreaseTop_gen s x Hi Hne) as (s' & t & m & -> & Hi' & Hp & Hm & Hp' & _). cbn [bind]. split; auto.
        econstructor; [apply merges_perm; exact Hp| |apply merges_perm; symmetry; exact Hp']. eapply is_max_perm; eauto.
    - split; [|constructor]. destruct Hi as (H1 & H2 & _). split; [simpl; lia|]. split; [simpl; auto|]. left; auto.
    - split; auto. 
      assert (He : tt_empty _ s = match contents s with [] => true | _ => false end).
      { unfold tt_empty. destruct (list_eq_nil_dec (tt_tree s)) as [Ht|Ht].
        - rewrite (proj2 Hcn (proj1 Hnil Ht)), Ht. auto.
        - assert (Hc : contents s <> []) by tauto.
          destruct (tt_tree s); [congruence|]. destruct (contents s); [congruence|auto]. }
      rewrite He. constructor. reflexivity.
    - split; auto. constructor; reflexivity.
  Qed.

End TourTree.

(** * With an order *)
Section Ordered.
  Context {E : Type}.
  Variable lt : E -> E -> bool.
  Hypothesis Hsw : strict_weak lt.
  Implicit Types (tree ls : list nat) (es : list E).
  Notation inv := (inv lt).

  Lemma lt_false a b : lt a b = false -> lt a b = false.
  Proof. auto. Qed.
  Lemma lt_true a b : lt a b = true -> lt b a = false.
  Proof. apply (sw_asym lt Hsw). Qed.
  Lemma lt_mono a b c : lt a b = true -> lt a c = false -> lt b c = false.
  Proof. intros H1 H2. apply (sw_asym lt Hsw). eapply (sw_le_lt lt Hsw); eauto. Qed.

  Lemma decreaseTop_spec s x : inv s -> tt_players s <> [] ->
    exists s' t m, tt_decreaseTop _ lt s x = Ok s' /\ inv s' /\
      Permutation (contents s) (t :: m) /\ is_max lt t (contents s) /\ Permutation (contents s') (x :: m) /\
      tt_top _ s = Ok t.
  Proof. exact (decreaseTop_gen lt Hsw lt lt_false lt_true lt_mono s x). Qed.
  Lemma push_spec s x : inv s -> exists s', tt_push _ lt s x = Ok s' /\ inv s' /\ Permutation (contents s') (x :: contents s) /\
    (tt_top _ s' = Ok x \/ tt_top _ s' = tt_top _ s).
  Proof. exact (push_gen lt Hsw lt lt_false lt_true lt_mono s x). Qed.
  Lemma push_range_spec xs : forall s, inv s ->
    exists s', tt_push_range _ lt s xs = Ok s' /\ inv s' /\ Permutation (contents s') (xs ++ contents s).
  Proof. exact (push_range_gen lt Hsw lt lt_false lt_true lt_mono xs). Qed.
  Lemma pop_spec s : inv s -> tt_players s <> [] ->
    exists s' t, tt_pop _ lt s = Ok (s', t) /\ inv s' /\ is_max lt t (contents s) /\ Permutation (contents s) (t :: contents s') /\
      tt_top _ s = Ok t.
  Proof. exact (pop_gen lt Hsw lt lt_false lt_true lt_mono s). Qed.
  Lemma tt_step_correct s o : inv s -> tt_api E o = true ->
    match tt_step _ lt s o with
    | Ok (s', r) => inv s' /\ sstep lt no_dd (contents s) o r (contents s')
    | UB => contents s = [] /\ needs_nonempty o = true
    | _ => False
    end.
  Proof. exact (tt_step_gen lt Hsw lt lt_false lt_true lt_mono s o). Qed.

  Lemma tt_pq_correct : pq_correct lt no_dd (tt_step _ lt) (tt_new E) contents (tt_api E).
  Proof.
    apply (pq_correct_lift lt no_dd _ _ contents inv (tt_api E)); auto.
    - exact tt_step_correct.
    - exact (tt_new_inv lt).
  Qed.

  (** * isValid *)
  Lemma inv_isValid s : inv s -> tt_isValid _ lt s = true.
  Proof.
    intros (Hc & Hpc & [[Ht Hp]|(Hne & Hs & Hin)]); unfold tt_isValid.
    - rewrite Ht, Hp. reflexivity.
    - pose proof (sh_len _ _ Hs) as Hlen. pose proof (inner_linked _ _ _ Hin) as Hk. rewrite map_length in Hlen.
      rewrite !andb_true_iff. repeat split.
      + apply orb_true_iff. right. apply Nat.leb_le. lia.
      + apply orb_true_iff. right. apply Nat.eqb_eq. lia.
      + apply forallb_forall. intros q Hq. apply in_seq in Hq. rewrite tget_tat.
        destruct (tat_some (tt_tree s) q) as [i Hi]; [lia|]. rewrite Hi. simpl. apply Nat.ltb_lt.
        pose proof (slots_bounded _ _ Hs Hk q i Hi) as H. now rewrite map_length in H.
      + apply forallb_forall. intros q Hq. apply in_seq in Hq. rewrite !tget_tat.
        destruct (Nat.leb_spec (length (tt_tree s)) (2 * q)) as [Hl|Hl].
        * destruct (sh_leaf _ _ Hs q) as (i & Hi & Hil); [lia|lia|]. rewrite Hi. cbn [of_option].
          destruct (map_nth_leaf _ _ _ Hil) as (pl & Hpl & Hpll). unfold vget. rewrite Hpl. cbn [of_option].
          rewrite Hpll, Nat.eqb_refl, andb_true_r. apply Nat.ltb_lt. lia.
        * destruct (Hin q) as (i & l & r & ei & el & er & Hi & Hl' & Hr & Hei & Hel & Her & Hor & Hlt1 & Hlt2); [lia|lia|].
          rewrite Hi, Hl', Hr. cbn [of_option].
          destruct (map_nth_entry _ _ _ Hei) as (pi & Hpi & Hpie).
          destruct (map_nth_entry _ _ _ Hel) as (pl & Hpl & Hple).
          destruct (map_nth_entry _ _ _ Her) as (pr & Hpr & Hpre).
          unfold vget. rewrite Hpi, Hpl, Hpr. cbn [of_option]. rewrite Hpie, Hple, Hpre, Hlt1, Hlt2.
          rewrite (proj2 (Nat.leb_le (2 * q + 1) _)) by lia.
          destruct (Nat.eqb_spec l r) as [->|_].
          -- exfalso. eapply (children_differ (tt_tree s) (map leaf (tt_players s)) Hs Hk q r); auto; try lia.
             eapply slots_bounded; eauto.
          -- destruct Hor as [->| ->]; rewrite Nat.eqb_refl; simpl; auto. now rewrite orb_true_r.
  Qed.

  Lemma tt_reachable_inv ops s rs : forallb (tt_api E) ops = true -> run (tt_step _ lt) (tt_new E) ops = Ok (s, rs) -> inv s.
  Proof.
    intros Ha Hr. eapply (inv_lift lt no_dd _ (tt_step _ lt) contents inv (tt_api E)); eauto.
    - exact tt_step_correct.
    - exact (tt_new_inv lt).
  Qed.

  Lemma tt_reachable_valid ops s rs : forallb (tt_api E) ops = true -> run (tt_step _ lt) (tt_new E) ops = Ok (s, rs) ->
    tt_isValid _ lt s = true.
  Proof. intros Ha Hr. eapply inv_isValid, tt_reachable_inv; eauto. Qed.

  Lemma tt_push_ok ops s rs x : forallb (tt_api E) ops = true -> run (tt_step _ lt) (tt_new E) ops = Ok (s, rs) ->
    exists s', tt_step _ lt s (Push x) = Ok (s', ONone).
  Proof.
    intros Ha Hr. destruct (push_spec s x (tt_reachable_inv ops s rs Ha Hr)) as (s' & Hp & _).
    exists s'. cbn [tt_step]. now rewrite Hp.
  Qed.
End Ordered.
