From Coq Require Import List Arith Bool Lia String Permutation.
From Verif.Base Require Import Res Arr Order.
From Verif.Spec Require Import PQ PQFacts.
From Verif.Heap Require Import Model Proofs.
From Verif.TourTree Require Import Model Proofs Faults FaultsProofs.
Import ListNotations.
Local Notation length := List.length.

(** As FaultsProofs.v, but compare needs to be defined for the entries that are left in the tree only. *)
Section Partial.
  Context {E F : Type}.
  Variable g : E -> F.
  Variable lt : E -> E -> bool.
  Variable ltf : F -> F -> res bool.
  Definition agree (l : list E) : Prop := forall a b, In a l -> In b l -> ltf (g a) (g b) = Ok (lt a b).
  Notation mp := (mp g).
  Notation map_tt := (map_tt g).

  Lemma vget_in (ps : list (player E)) i p : vget ps i = Ok p -> In (entry p) (map entry ps).
  Proof. unfold vget. destruct (nth_error ps i) eqn:H; [|discriminate]. intros Hp. injection Hp as ->. apply in_map. eapply nth_error_In; eauto. Qed.

  Lemma push_loop_partial fuel : forall tree ps pos, agree (map entry ps) ->
    push_loop_f F ltf fuel tree (map mp ps) pos = fine (push_loop E lt fuel tree ps pos).
  Proof.
    induction fuel as [|f IH]; intros tree ps pos Ha; auto. cbn [push_loop push_loop_f].
    destruct (tget tree (pos / 2)) as [a| | |]; cbn [bind fine rmap]; auto.
    destruct (tget tree pos) as [b| | |]; cbn [bind fine rmap]; auto.
    rewrite !vget_map. destruct (vget ps a) as [pa| | |] eqn:Hpa; cbn [bind fine rmap]; auto.
    destruct (vget ps b) as [pb| | |] eqn:Hpb; cbn [bind fine rmap]; auto.
    unfold compared. cbn [FaultsProofs.mp entry]. rewrite Ha by (eapply vget_in; eauto). destruct (lt (entry pa) (entry pb)); auto.
    destruct (tset tree (pos / 2) b) as [t| | |]; cbn [bind fine rmap]; auto. destruct (pos / 2 =? 1); auto.
  Qed.
  Lemma replay_partial fuel : forall tree ps pos p, agree (map entry ps) ->
    replay_f F ltf fuel tree (map mp ps) pos p = fine (replay E lt fuel tree ps pos p).
  Proof.
    induction fuel as [|f IH]; intros tree ps pos p Ha; cbn [replay replay_f]; destruct (pos =? 1); auto.
    destruct (tget tree (sibling pos)) as [a| | |]; cbn [bind fine rmap]; auto.
    rewrite !vget_map. destruct (vget ps p) as [pa| | |] eqn:Hpa; cbn [bind fine rmap]; auto.
    destruct (vget ps a) as [pb| | |] eqn:Hpb; cbn [bind fine rmap]; auto.
    unfold compared. cbn [FaultsProofs.mp entry]. rewrite Ha by (eapply vget_in; eauto).
    destruct (tset tree (pos / 2) _) as [t| | |]; cbn [bind fine rmap]; auto.
  Qed.

  Lemma decreaseTop_partial s x s' : tt_decreaseTop E lt s x = Ok s' -> agree (map entry (tt_players s')) ->
    tt_decreaseTop_f F ltf (map_tt s) (g x) = Ok (map_tt s', None).
  Proof.
    unfold tt_decreaseTop_f, tt_decreaseTop. cbn [FaultsProofs.map_tt tt_players tt_tree tt_cap tt_pcap].
    destruct (tget (tt_tree s) 1) as [p| | |]; cbn [bind]; try discriminate.
    rewrite set_entry_map. destruct (set_entry E (tt_players s) p x) as [ps| | |]; cbn [bind rmap]; try discriminate.
    rewrite vget_map. destruct (vget ps p) as [pp| | |]; cbn [bind rmap]; try discriminate.
    destruct (replay E lt _ _ _ _ _) as [t| | |] eqn:Hr; cbn [bind]; try discriminate. intros H. injection H as <-. cbn [tt_players]. intros Ha.
    rewrite replay_partial by auto. cbn [FaultsProofs.mp leaf]. rewrite Hr. reflexivity.
  Qed.
  Lemma pop_partial s s' t : tt_pop E lt s = Ok (s', t) -> agree (map entry (tt_players s')) ->
    tt_pop_f F ltf (map_tt s) = Ok (map_tt s', g t, None).
  Proof.
    unfold tt_pop_f, tt_pop. cbn [FaultsProofs.map_tt tt_players tt_tree tt_cap tt_pcap].
    destruct (tget (tt_tree s) 1) as [root| | |]; cbn [bind]; try discriminate.
    rewrite vget_map. destruct (vget (tt_players s) root) as [proot| | |]; cbn [bind rmap]; try discriminate.
    destruct (length (tt_tree s) =? 1).
    { intros H _. injection H as <- <-. unfold FaultsProofs.map_tt; simpl. now rewrite removelast_map. }
    destruct (tget (tt_tree s) (length (tt_tree s) - 1)) as [lft| | |]; cbn [bind]; try discriminate.
    destruct (tget (tt_tree s) (length (tt_tree s))) as [rgt| | |]; cbn [bind]; try discriminate.
    destruct (tget (tt_tree s) (length (tt_tree s) / 2)) as [atp| | |]; cbn [bind]; try discriminate.
    rewrite pop_prep.
    match goal with |- bind ?b _ = _ -> _ => destruct b as [[tree1 ps1]| | |]; cbn [bind rmap fst snd]; try discriminate end.
    destruct (tget tree1 1) as [p| | |]; cbn [bind]; try discriminate.
    rewrite vget_map. destruct (vget ps1 rgt) as [pr| | |]; cbn [bind rmap]; try discriminate. cbn [FaultsProofs.mp entry].
    rewrite set_entry_map. destruct (set_entry E ps1 p (entry pr)) as [ps2| | |]; cbn [bind rmap]; try discriminate.
    rewrite map_length. destruct (negb _); try discriminate.
    rewrite <- removelast_map, set_leaf_map. destruct (set_leaf E (removelast ps2) lft _) as [ps4| | |]; cbn [bind rmap]; try discriminate.
    rewrite vget_map. destruct (vget ps4 p) as [pp| | |]; cbn [bind rmap]; try discriminate.
    destruct (replay E lt _ _ _ _ _) as [tr| | |] eqn:Hr; cbn [bind]; try discriminate. intros H. injection H as <- <-. cbn [tt_players]. intros Ha.
    rewrite replay_partial by auto. cbn [FaultsProofs.mp leaf]. rewrite Hr. reflexivity.
  Qed.
  Lemma push_partial s x s' : tt_push E lt s x = Ok s' -> agree (map entry (tt_players s')) ->
    tt_push_f F ltf (map_tt s) (g x) = Ok (map_tt s', None).
  Proof.
    unfold tt_push_f, tt_push. cbn [FaultsProofs.map_tt tt_cap tt_tree].
    set (s1 := if 2 <=? tt_cap s - length (tt_tree s) then s else tt_reallocate E s).
    replace (if 2 <=? tt_cap s - length (tt_tree s) then map_tt s else tt_reallocate F (map_tt s)) with (map_tt s1)
      by (subst s1; destruct (2 <=? _); reflexivity).
    change (tt_empty F (map_tt s1)) with (tt_empty E s1). destruct (tt_empty E s1).
    - change (mk_player (g x) 1) with (mp (mk_player x 1)). rewrite players_push_map.
      destruct (players_push E s1 _) as [s2| | |]; cbn [bind rmap]; try discriminate.
      rewrite tree_push_map. cbn [FaultsProofs.map_tt tt_players]. rewrite map_length. destruct (tree_push E s2 _); cbn [bind rmap]; try discriminate.
      intros H _. injection H as <-. reflexivity.
    - change (tt_tree (map_tt s1)) with (tt_tree s1).
      destruct (tget (tt_tree s1) _) as [md| | |]; cbn [bind]; try discriminate.
      rewrite tree_push_map. destruct (tree_push E s1 md) as [s2| | |]; cbn [bind rmap]; try discriminate.
      cbn [FaultsProofs.map_tt tt_players tt_tree tt_cap tt_pcap]. rewrite set_leaf_map.
      destruct (set_leaf E (tt_players s2) _ _) as [ps| | |]; cbn [bind rmap]; try discriminate.
      set (s3 := mk_tt (tt_tree s2) (tt_cap s2) ps (tt_pcap s2)).
      change (mk_tt (tt_tree s2) (tt_cap s2) (map mp ps) (tt_pcap s2)) with (map_tt s3).
      change (mk_player (g x) (length (tt_tree s2) + 1)) with (mp (mk_player x (length (tt_tree s2) + 1))). rewrite players_push_map.
      cbn [tt_tree s3]. destruct (players_push E s3 _) as [s4| | |]; cbn [bind rmap]; try discriminate.
      rewrite tree_push_map. cbn [FaultsProofs.map_tt tt_players]. rewrite map_length.
      destruct (tree_push E s4 _) as [s5| | |]; cbn [bind rmap]; try discriminate.
      cbn [FaultsProofs.map_tt tt_players tt_tree tt_cap tt_pcap].
      destruct (push_loop E lt _ _ _ _) as [tr| | |] eqn:Hr; cbn [bind]; try discriminate. intros H. injection H as <-. cbn [tt_players]. intros Ha.
      rewrite push_loop_partial by auto. rewrite Hr. reflexivity.
  Qed.
End Partial.

(** * The top entry changed in place *)
From Verif.Queues Require Import InPlace.
Section Changed.
  Context {E : Type}.
  Variable lt : E -> E -> bool.
  Hypothesis Hsw : strict_weak lt.
  Variable ltd : E -> E -> res bool.
  Notation tourtree := (tourtree E).

  Lemma map_tt_id (s : tourtree) : map_tt (fun e => e) s = s.
  Proof.
    destruct s as [t c ps pc]. unfold map_tt. cbn [tt_tree tt_cap tt_players tt_pcap]. f_equal. rewrite <- map_id. apply map_ext. now intros [].
  Qed.

  Notation K := (E * E)%type.
  Definition ltk (a b : K) : bool := lt (fst a) (fst b).
  Lemma ltk_sw : strict_weak ltk.
  Proof.
    split; unfold ltk; intros; [apply (sw_irrefl lt Hsw)|eapply (sw_trans lt Hsw); eauto|eapply (sw_neg_trans lt Hsw); eauto].
  Qed.

  Lemma inner_key tree (es : list K) : inner_ok lt tree (map fst es) -> inner_ok ltk tree es.
  Proof.
    intros H q Hq Hl. destruct (H q Hq Hl) as (i & l & r & ei & el & er & H1 & H2 & H3 & Hi & Hl' & Hr & Ho & L1 & L2).
    rewrite nth_error_map in Hi, Hl', Hr. destruct (nth_error es i) as [ki|] eqn:Ki; [|discriminate]. destruct (nth_error es l) as [kl|] eqn:Kl; [|discriminate].
    destruct (nth_error es r) as [kr|] eqn:Kr; [|discriminate]. injection Hi as <-. injection Hl' as <-. injection Hr as <-.
    exists i, l, r, ki, kl, kr. auto 10.
  Qed.

  Lemma change_spec (s : tourtree) c : inv lt s -> tt_players s <> [] ->
    exists w p, tt_change s c = Ok (mk_tt (tt_tree s) (tt_cap s) (upd (tt_players s) w (mk_player c (leaf p))) (tt_pcap s)) /\
      tget (tt_tree s) 1 = Ok w /\ nth_error (tt_players s) w = Some p /\ tt_top E s = Ok (entry p).
  Proof.
    intros Hi Hne. destruct (pop_spec lt Hsw s Hi Hne) as (s' & t & _ & _ & _ & _ & Ht). unfold tt_top, tt_change in *.
    destruct (tget (tt_tree s) 1) as [w| | |]; try discriminate. cbn [bind] in *. unfold set_entry, vget in *.
    destruct (nth_error (tt_players s) w) as [p|] eqn:Hp; try discriminate. cbn [of_option bind] in *. exists w, p.
    rewrite vset_ok by (eapply nth_error_some_lt; eauto). cbn [bind]. auto.
  Qed.

  Lemma pop_changed (s : tourtree) c : inv lt s -> tt_players s <> [] ->
    exists sc s' t, tt_change s c = Ok sc /\ tt_pop E lt s = Ok (s', t) /\ tt_top E s = Ok t /\
      (agree (fun e => e) lt ltd (map entry (tt_players s')) -> tt_pop_f E ltd sc = Ok (s', c, None)).
  Proof.
    intros Hi Hne. destruct (change_spec s c Hi Hne) as (w & p & Hch & Hw & Hp & Htop).
    destruct (pop_spec lt Hsw s Hi Hne) as (s' & t & Hpop & _ & _ & _ & Ht).
    eexists; exists s', t; split; [exact Hch|]. split; auto. split; auto. intros Ha.
    set (d := fun e : E => (e, e)).
    set (sk := mk_tt (tt_tree s) (tt_cap s) (upd (map (mp d) (tt_players s)) w (mk_player (t, c) (leaf p))) (tt_pcap s)).
    assert (Et : entry p = t) by congruence.
    assert (Hwl : w < length (tt_players s)) by (eapply nth_error_some_lt; eauto).
    assert (Hfst : map_tt fst sk = s).
    { unfold map_tt, sk. cbn [tt_tree tt_cap tt_players tt_pcap]. rewrite <- upd_map. unfold mp at 1. cbn [entry leaf fst].
      rewrite map_map. rewrite (map_ext _ (fun q => q)) by (now intros []). rewrite map_id.
      replace (upd (tt_players s) w _) with (tt_players s); [now destruct s|].
      apply nth_error_ext. intros i. destruct (Nat.eq_dec i w) as [->|Hn].
      - rewrite nth_upd_same by auto. rewrite Hp. f_equal. destruct p as [e l]. cbn [entry leaf] in Et |- *. now rewrite Et.
      - now rewrite nth_upd_other by congruence. }
    assert (Hsnd : map_tt snd sk = mk_tt (tt_tree s) (tt_cap s) (upd (tt_players s) w (mk_player c (leaf p))) (tt_pcap s)).
    { unfold map_tt, sk. cbn [tt_tree tt_cap tt_players tt_pcap]. rewrite <- upd_map. unfold mp at 1. cbn [entry leaf snd].
      rewrite map_map. rewrite (map_ext _ (fun q => q)) by (now intros []). now rewrite map_id. }
    assert (Hne' : tt_players sk <> []).
    { intros H. apply Hne. apply length_zero_iff_nil. apply (f_equal (@List.length _)) in H. unfold sk in H. cbn [tt_players] in H.
      rewrite upd_length, map_length in H. exact H. }
    assert (Hik : inv ltk sk).
    { rewrite <- Hfst in Hi. destruct Hi as (H1 & H2 & H3). split; [exact H1|]. split; [exact H2|]. unfold map_tt in H3. cbn [tt_players tt_tree] in H3.
      rewrite !map_map in H3. cbn [mp entry leaf] in H3. destruct H3 as [[H3 H4]|(H3 & H4 & H5)].
      - exfalso. apply map_eq_nil in H4. auto.
      - right. split; auto. split; auto. apply inner_key. now rewrite map_map. }
    destruct (pop_spec ltk ltk_sw sk Hik Hne') as (sk' & tk & Hpk & _ & _ & Hperm & Htk).
    assert (Htk' : tk = (t, c)).
    { unfold tt_top, sk in Htk. cbn [tt_tree tt_players] in Htk. rewrite Hw in Htk. cbn [bind] in Htk. unfold vget in Htk.
      rewrite nth_upd_same in Htk by (now rewrite map_length). cbn [of_option bind entry] in Htk. congruence. }
    subst tk.
    assert (Hdiag : forall k, In k (map entry (tt_players sk')) -> fst k = snd k).
    { assert (Hs : exists l1 l2, contents sk = l1 ++ (t, c) :: l2 /\ forall k, In k (l1 ++ l2) -> fst k = snd k).
      { apply nth_error_split in Hp as (q1 & q2 & Hq & Hql). exists (map d (map entry q1)), (map d (map entry q2)).
        unfold contents, sk. cbn [tt_players]. rewrite Hq, map_app. cbn [map]. subst w. rewrite <- (map_length (mp d) q1).
        rewrite upd_app_r by lia. rewrite Nat.sub_diag. cbn [upd]. rewrite map_app. cbn [map entry]. split.
        - rewrite !map_map. reflexivity.
        - intros k Hk. rewrite <- map_app in Hk. apply in_map_iff in Hk as (e & <- & _). reflexivity. }
      destruct Hs as (l1 & l2 & Hs & Hdl). rewrite Hs in Hperm. apply Permutation_sym, Permutation_cons_app_inv in Hperm.
      intros k Hk. apply Hdl. eapply Permutation_in; eauto. }
    assert (Hfs : map_tt fst sk' = s' /\ t = t).
    { assert (H1 : tt_pop_f E (fun a b => Ok (lt a b)) (map_tt fst sk) = Ok (map_tt fst sk', t, None)).
      { change t with (fst (t, c)). apply (pop_partial fst ltk (fun a b => Ok (lt a b)) sk sk' (t, c) Hpk). intros a b _ _. reflexivity. }
      assert (H2 : tt_pop_f E (fun a b => Ok (lt a b)) (map_tt (fun e => e) s) = Ok (map_tt (fun e => e) s', t, None)).
      { apply (pop_partial (fun e => e) lt (fun a b => Ok (lt a b)) s s' t Hpop). intros a b _ _. reflexivity. }
      rewrite !map_tt_id in H2. rewrite Hfst in H1. split; congruence. }
    destruct Hfs as [Hfs _]. rewrite <- Hsnd.
    assert (H : tt_pop_f E ltd (map_tt snd sk) = Ok (map_tt snd sk', snd (t, c), None)).
    { apply (pop_partial snd ltk ltd sk sk' (t, c) Hpk). intros a b Hina Hinb. rewrite <- (Hdiag a Hina), <- (Hdiag b Hinb). unfold ltk. apply Ha.
      - rewrite <- Hfs. unfold map_tt. cbn [tt_players]. rewrite map_map. cbn [mp entry]. rewrite <- map_map. now apply in_map.
      - rewrite <- Hfs. unfold map_tt. cbn [tt_players]. rewrite map_map. cbn [mp entry]. rewrite <- map_map. now apply in_map. }
    rewrite H. f_equal. f_equal. f_equal. rewrite <- Hfs. unfold map_tt. f_equal. apply map_ext_in. intros q Hq. unfold mp. f_equal.
    symmetry. apply Hdiag. now apply in_map.
  Qed.

  Lemma decreaseTop_changed (s : tourtree) c x : inv lt s -> tt_players s <> [] ->
    exists sc s', tt_change s c = Ok sc /\ tt_decreaseTop E lt s x = Ok s' /\
      (agree (fun e => e) lt ltd (map entry (tt_players s')) -> tt_decreaseTop_f E ltd sc x = Ok (s', None)).
  Proof.
    intros Hi Hne. destruct (change_spec s c Hi Hne) as (w & p & Hch & Hw & Hp & Htop).
    destruct (decreaseTop_spec lt Hsw s x Hi Hne) as (s' & t & m & Hd & _).
    eexists; exists s'; split; [exact Hch|]. split; auto. intros Ha.
    pose proof (decreaseTop_partial (fun e => e) lt ltd s x s' Hd Ha) as H. rewrite !map_tt_id in H. rewrite <- H. clear H.
    assert (Hwl : w < length (tt_players s)) by (eapply nth_error_some_lt; eauto).
    unfold tt_decreaseTop_f. cbn [tt_tree tt_players tt_cap tt_pcap]. rewrite Hw. cbn [bind]. unfold set_entry, vget.
    rewrite nth_upd_same by auto. rewrite Hp. cbn [of_option bind leaf]. rewrite !vset_ok by (rewrite ?upd_length; auto). cbn [bind].
    replace (upd (upd (tt_players s) w (mk_player c (leaf p))) w (mk_player x (leaf p))) with (upd (tt_players s) w (mk_player x (leaf p))); auto.
    apply nth_error_ext. intros i. destruct (Nat.eq_dec i w) as [->|Hn].
    - rewrite !nth_upd_same by (rewrite ?upd_length; auto). reflexivity.
    - now rewrite !nth_upd_other by auto.
  Qed.
End Changed.
