(** The packed tree in memory represents a tree: insertion. *)
From Coq Require Import List Arith Bool ZArith NArith String Lia Permutation.
From Verif.Base Require Import Res Arr ResList StdAlg Lists.
From Verif.DivMask Require Import Model.
From Verif.Spec Require Import DivFinder.
From Verif.KD Require Import EntryArray Tree.
From Verif.KDMem Require Import Arena ArenaFacts Packed PackedProofs.
Import ListNotations.
Local Notation length := List.length.

Section Insert.
  Context {M : Type}.
  Variable C : kconf M.
  Notation ext := (ext M).
  Notation tree := (tree M).
  Notation memory := (arena (pnode M)).
  Notation chain := (chain C true true).

  Definition relink (s : slot) (p : nat) : slot := mk_slot (s_var s) (s_exp s) (s_mask s) (Some p).
  Definition relinked (n : pnode M) (j : nat) (s : slot) (p : nat) : pnode M := mk_pnode (p_entries n) (p_used n) (upd (p_slots n) j (relink s p)).
  (** The child at [parent], if there is one, leads to [p]; [var] is the variable splitInsert starts from at index [i] of the node at [p]. *)
  Definition hangs (A : memory) (parent : option (nat * nat)) (p : nat) (f : list nat) : Prop :=
    match parent with
    | None => True
    | Some (q, j) => ~ In q (p :: f) /\ exists n s, ar_get A q = Ok n /\ nth_error (p_slots n) j = Some s /\ s_node s = Some p
    end.
  Definition hints (A : memory) (parent : option (nat * nat)) (p i : nat) (var : option nat) : Prop :=
    match i with
    | S j => exists n s v, ar_get A p = Ok n /\ nth_error (p_slots n) j = Some s /\ s_var s = Some v /\ var = Some v
    | 0 => match parent with
           | None => var = None
           | Some (q, j) => exists n s v, ar_get A q = Ok n /\ nth_error (p_slots n) j = Some s /\ s_var s = Some v /\ var = Some v
           end
    end.
  Definition linked (A A' : memory) (parent : option (nat * nat)) (p' : nat) (r r' : option nat) : Prop :=
    match parent with
    | None => r' = Some p'
    | Some (q, j) => r' = r /\ exists n s, ar_get A q = Ok n /\ nth_error (p_slots n) j = Some s /\ ar_get A' q = Ok (relinked n j s p')
    end.
  (** The children before index [i] are the same. *)
  Definition same_start (A A' : memory) (p p' i : nat) : Prop :=
    exists n n', ar_get A p = Ok n /\ ar_get A' p' = Ok n' /\ forall j, j < i -> nth_error (p_slots n') j = nth_error (p_slots n) j.
  Definition node_of (parent : option (nat * nat)) : option nat := match parent with None => None | Some (q, _) => Some q end.
  Definition put_sim (A : memory) (parent : option (nat * nat)) (p i : nat) (f : list nat) (r : option nat) (t : res tree) (B : res (ptree M)) : Prop :=
    match t with
    | Ok t' => exists A' r' p' f', B = Ok (mk_ptree A' r') /\ chain A' p' i t' f' /\ linked A A' parent p' r r' /\ same_start A A' p p' i /\
                 (forall q, ~ In q (p :: f) -> Some q <> node_of parent -> In q (live A) -> ar_get A' q = ar_get A q) /\
                 ar_dead A' = ar_dead A /\ Permutation (live A' ++ p :: f) (live A ++ p' :: f')
    | Throw x => B = Throw x
    | _ => True
    end.

  Lemma relink_same s p : s_node s = Some p -> relink s p = s.
  Proof. destruct s as [a b c d]. cbn [s_node]. intros ->. reflexivity. Qed.
  Lemma relinked_same n j s p : nth_error (p_slots n) j = Some s -> s_node s = Some p -> relinked n j s p = n.
  Proof. intros H1 H2. unfold relinked. rewrite relink_same, upd_same by auto. destruct n; reflexivity. Qed.
  Lemma slot_ok (A : memory) q j n s : ar_get A q = Ok n -> nth_error (p_slots n) j = Some s -> get_slot A q j = Ok s.
  Proof. intros H1 H2. unfold get_slot. rewrite H1. cbn [bind]. now apply vget_ok. Qed.
  Lemma set_slot_ok (A : memory) q j n s s' : ar_get A q = Ok n -> nth_error (p_slots n) j = Some s' ->
    set_slot A q j s = Ok (put A q (mk_pnode (p_entries n) (p_used n) (upd (p_slots n) j s))).
  Proof.
    intros H1 H2. unfold set_slot. rewrite H1. cbn [bind]. rewrite vset_ok by (eapply nth_error_some_lt; eauto). cbn [bind]. eapply set_put; eauto.
  Qed.
  Lemma insert_full (a : earray M) e : c_leaf C <= length (a_list a) -> match arr_insert C a e with Ok _ | Throw _ => False | _ => True end.
  Proof.
    intros H. assert (Hp : forall x, push_back C a x = UB) by (intros x; unfold push_back; destruct (Nat.ltb_spec (length (a_list a)) (c_leaf C)); [lia|reflexivity]).
    unfold arr_insert. destruct (c_sorted C); cbn [negb]; [|now rewrite Hp].
    assert (Hu : forall l, match upper_bound (kcomp C) l e with Throw _ => False | _ => True end).
    { induction l as [|y l IH]; cbn [upper_bound]; auto. destruct (kcomp C e y); [destruct (forallb _ l); exact Logic.I|]. destruct (upper_bound (kcomp C) l e); cbn [bind]; auto. }
    specialize (Hu (a_list a)). destruct (upper_bound (kcomp C) (a_list a) e) as [it| | |]; cbn [bind]; auto. unfold insert_at.
    destruct (it =? length (a_list a)); [now rewrite Hp|]. unfold vget. destruct (nth_error (a_list a) (length (a_list a) - 1)); cbn [bind of_option]; [now rewrite Hp|exact Logic.I].
  Qed.

  Lemma leaf_put A e parent p i a var r : chain A p i (Leaf a) [] -> hangs A parent p [] -> hints A parent p i var -> (parent = None -> r = Some p) ->
    put_sim A parent p i [] r (insert_tree C true (Leaf a) e var) (p_put C (mk_ptree A r) e parent p).
  Proof.
    intros (n & Hp & Hu & Hz & He & _) Hh Hv Hr. cbn [insert_tree]. unfold p_put. cbn [p_arena p_root]. rewrite Hp. cbn [bind]. rewrite He.
    assert (Hlink : forall A', (forall q, Some q = node_of parent -> ar_get A' q = ar_get A q) -> linked A A' parent p r r).
    { intros A' HA'. destruct parent as [[q j]|]; cbn [linked hangs node_of] in *; [|auto]. split; auto. destruct Hh as (Hq & nq & s & H1 & H2 & H3).
      exists nq, s. split; auto. split; auto. rewrite HA', H1 by auto. now rewrite relinked_same. }
    destruct (Nat.eqb_spec (length (a_list a)) (c_leaf C)) as [Ef|Ef].
    2: { destruct (Nat.ltb_spec (length (a_list a)) (c_leaf C)) as [Hlt|Hge].
         2: { assert (Hf := insert_full a e Hge). destruct (arr_insert C a e); cbn [bind put_sim]; auto; contradiction. }
         destruct (arr_insert C a e) as [a'| | |]; cbn [bind]; try exact Logic.I; try reflexivity. rewrite (entries_ok _ _ _ _ Hp). cbn [bind].
         set (n' := mk_pnode a' (p_used n) (p_slots n)). exists (put A p n'), r, p, []. split; [reflexivity|].
         assert (Hg : ar_get (put A p n') p = Ok n') by (eapply get_put_same; eauto).
         split. { exists n'. repeat split; auto. } split.
         { apply Hlink. intros q Hq. apply (get_put_ne _ _ _ _ _ Hp). intros ->. destruct parent as [[q' j]|]; cbn [node_of hangs] in *; [|discriminate].
           injection Hq as ->. apply (proj1 Hh). now left. }
         split. { exists n, n'. auto. }
         split. { intros q H1 _ _. apply (get_put_ne _ _ _ _ _ Hp). intros ->. apply H1. now left. } split; [reflexivity|]. rewrite live_put. reflexivity. }
    destruct (Nat.ltb_spec (length (a_list a)) (c_leaf C)) as [Hlt|_]; [lia|].
    unfold split_insert_packed, p_split_insert. rewrite Hp. cbn [bind]. rewrite He, Hu.
    assert (Hvar : (if negb (i =? 0) then (let* s := vget (p_slots n) (i - 1) in let* v := of_option (s_var s) in Ok (Some v))
      else match parent with
           | Some (q, j) => let* s := get_slot A q j in let* v := of_option (s_var s) in Ok (Some v)
           | None => Ok None
           end) = Ok var).
    { destruct i as [|j]; cbn [Nat.eqb negb hints] in *.
      - destruct parent as [[q j]|]; [|now subst]. destruct Hv as (nq & s & v & H1 & H2 & H3 & ->). rewrite (slot_ok _ _ _ _ _ H1 H2). cbn [bind]. rewrite H3. reflexivity.
      - destruct Hv as (nq & s & v & H1 & H2 & H3 & ->). rewrite Hp in H1. injection H1 as <-. rewrite Nat.sub_succ, Nat.sub_0_r, (proj2 (vget_ok _ _ _) H2). cbn [bind]. rewrite H3. reflexivity. }
    rewrite Hvar. cbn [bind]. destruct (split_for C e (a_list a) var) as [[[[v x] l] g]| | |]; cbn [bind]; try exact Logic.I; try reflexivity.
    destruct (arr_of C l) as [le| | |]; cbn [bind]; try exact Logic.I; try reflexivity.
    assert (Hch : children n = Ok (firstn i (p_slots n))). { unfold children. rewrite Hu. destruct (Nat.ltb_spec (length (p_slots n)) i); [lia|reflexivity]. }
    rewrite Hch. cbn [bind]. rewrite new_grow. cbv zeta.
    set (mask := klower C (klower C max_mask (a_mask a)) (x_mask e)).
    set (ns := mk_slot (Some v) (Some x) (if c_tree C then Some mask else None) (Some p)).
    set (slots := firstn i (p_slots n) ++ [ns]). set (nc := mk_pnode le (S i) slots). set (c := fresh A). set (A1 := grow A nc).
    set (gt := arr_recalculate C (sort_arr C (mk_arr g (a_mask a)))).
    assert (Hlen : length (firstn i (p_slots n)) = i) by (rewrite firstn_length; lia).
    assert (Hns : nth_error slots i = Some ns). { unfold slots. rewrite nth_error_app2 by lia. rewrite Hlen, Nat.sub_diag. reflexivity. }
    assert (Hpc : p <> c) by (eapply get_not_fresh; eauto).
    assert (Hp1 : ar_get A1 p = Ok n) by (now apply get_grow).
    assert (Hc1 : ar_get A1 c = Ok nc) by (apply get_grow_new).
    assert (Hold : forall q, In q (live A) -> ar_get A1 q = ar_get A q /\ q <> c).
    { intros q Hq. destruct (live_get A q Hq) as [m Hm]. assert (q <> c) by (eapply get_not_fresh; eauto). split; auto. now apply get_grow_other. }
    (* the parent *)
    assert (Hpar : exists A2, match parent with
        | None => Ok A1
        | Some (q, j) => let* s := get_slot A1 q j in set_slot A1 q j (mk_slot (s_var s) (s_exp s) (s_mask s) (Some c)) end = Ok A2 /\
        same_size A1 A2 /\ (forall q, Some q <> node_of parent -> ar_get A2 q = ar_get A1 q) /\
        (forall q, node_of parent = Some q -> q <> p /\ q <> c) /\
        linked A A2 parent c r (match parent with None => Some c | Some _ => r end)).
    { destruct parent as [[q j]|]; cbn [node_of].
      2: { exists A1. split; auto. split; [apply same_size_refl|]. split; auto. split; [discriminate|reflexivity]. }
      cbn [hangs] in Hh. destruct Hh as (Hq & nq & s & H1 & H2 & H3). destruct (Hold q (get_live _ _ _ H1)) as [Hq1 Hqc]. rewrite H1 in Hq1.
      rewrite (slot_ok _ _ _ _ _ Hq1 H2). cbn [bind]. rewrite (set_slot_ok _ _ _ _ _ _ Hq1 H2). eexists. split; [reflexivity|]. split; [apply same_size_put|].
      split. { intros z Hz'. apply (get_put_ne _ _ _ _ _ Hq1). congruence. } split. { intros z [= <-]. split; auto. intros ->. apply Hq. now left. }
      split; auto. exists nq, s. split; auto. split; auto. apply (get_put_same _ _ _ _ Hq1). }
    destruct Hpar as (A2 & HA2 & Hz2 & Hf2 & Hq2 & Hk2). rewrite HA2. cbn [bind].
    assert (Hp2 : ar_get A2 p = Ok n). { rewrite Hf2; auto. intros Hc. destruct (Hq2 p (eq_sym Hc)). congruence. }
    assert (Hc2 : ar_get A2 c = Ok nc). { rewrite Hf2; auto. intros Hc. destruct (Hq2 c (eq_sym Hc)). congruence. }
    rewrite (set_put _ _ _ _ Hp2). cbn [bind]. set (ng := mk_pnode gt 0 (p_slots n)). set (A3 := put A2 p ng).
    assert (Hp3 : ar_get A3 p = Ok ng) by (eapply get_put_same; eauto).
    assert (Hc3 : ar_get A3 c = Ok nc) by (unfold A3; rewrite (get_put_ne _ _ _ _ _ Hp2); auto).
    assert (Ho3 : forall q, q <> p -> ar_get A3 q = ar_get A2 q) by (intros q Hq; eapply get_put_ne; eauto).
    assert (Hlive3 : live A3 = live A ++ [c]). { unfold A3. rewrite live_put, (same_size_live _ _ Hz2). apply live_grow. }
    unfold split_node.
    (* inserting into one of the two *)
    assert (Hdone : forall w nw b le' gt', ar_get A3 w = Ok nw -> (w = p /\ nw = ng /\ le' = le /\ gt' = b \/ w = c /\ nw = nc /\ le' = b /\ gt' = gt) ->
      put_sim A parent p i [] r (Ok (Split v x mask (Leaf le') (Leaf gt')))
        (let* (A6, j) := (let* A6 := set_entries A3 w b in Ok (A6, c)) in Ok (mk_ptree A6 match parent with Some _ => r | None => Some j end))).
    { intros w nw b le' gt' Hw Hcase. rewrite (entries_ok _ _ _ _ Hw). cbn [bind]. set (nw' := mk_pnode b (p_used nw) (p_slots nw)). set (A' := put A3 w nw').
      assert (Hw' : ar_get A' w = Ok nw') by (eapply get_put_same; eauto).
      assert (Ho' : forall q, q <> w -> ar_get A' q = ar_get A3 q) by (intros q Hq; eapply get_put_ne; eauto).
      assert (Hwpc : w = p \/ w = c) by (destruct Hcase as [(-> & _)|(-> & _)]; auto).
      assert (Hpg : ar_get A' p = Ok (mk_pnode gt' 0 (p_slots n))).
      { destruct Hcase as [(-> & -> & -> & ->)|(-> & -> & -> & ->)]; [exact Hw'|]. rewrite Ho' by auto. exact Hp3. }
      assert (Hcl : ar_get A' c = Ok (mk_pnode le' (S i) slots)).
      { destruct Hcase as [(-> & -> & -> & ->)|(-> & -> & -> & ->)]; [|exact Hw']. rewrite Ho' by auto. exact Hc3. }
      assert (Ho : forall q, q <> p -> q <> c -> ar_get A' q = ar_get A2 q). { intros q Q1 Q2. rewrite Ho' by (destruct Hwpc; congruence). now apply Ho3. }
      eexists A', _, c, [p]. split; [reflexivity|].
      split. { exists (mk_pnode le' (S i) slots), ns, p, [], []. cbn [p_used p_slots]. split; [exact Hcl|]. split; [lia|]. split; [exact Hns|].
        split; [reflexivity|]. split; [reflexivity|]. split; [reflexivity|]. split. { cbn [andb]. intros Hc. unfold ns. cbn [s_mask]. now rewrite Hc. }
        split. { exists (mk_pnode gt' 0 (p_slots n)). cbn [p_used p_slots p_entries]. repeat split; auto. lia. }
        split; [|reflexivity]. exists (mk_pnode le' (S i) slots). cbn [p_used p_slots p_entries]. repeat split; auto. unfold slots. rewrite app_length, Hlen. cbn [length]. lia. }
      split. { destruct parent as [[q j]|]; cbn [linked node_of] in *; auto. split; auto. destruct Hk2 as [_ (nq & s & K1 & K2 & K3)]. exists nq, s. split; auto. split; auto.
        destruct (Hq2 q eq_refl). rewrite Ho; auto. }
      split. { exists n, (mk_pnode le' (S i) slots). split; auto. split; auto. intros j Hj. cbn [p_slots]. unfold slots. rewrite nth_error_app1 by lia. now apply nth_firstn. }
      split. { intros q Q1' Q2 Q3. assert (Q1 : q <> p) by (intros ->; apply Q1'; now left). destruct (Hold q Q3) as (Q4 & Q5). rewrite Ho, Hf2; auto. }
      split. { unfold A', A3. cbn [put ar_dead]. rewrite (proj1 Hz2). reflexivity. }
      unfold A'. rewrite live_put, Hlive3, <- app_assoc. apply Permutation_app_head. reflexivity. }
    destruct (above C v x (x_t e)) eqn:Ea.
    - rewrite Hp3. cbn [bind ng p_entries]. destruct (arr_insert C gt e) as [b| | |]; cbn [bind]; try exact Logic.I; try reflexivity.
      apply (Hdone p ng b le b Hp3). left. auto.
    - rewrite Hc3. cbn [bind nc p_entries]. destruct (arr_insert C le e) as [b| | |]; cbn [bind]; try exact Logic.I; try reflexivity.
      apply (Hdone c nc b b gt Hc3). right. auto.
  Qed.

  Lemma insert_sim e : forall t A parent p i f var, chain A p i t f -> NoDup (p :: f) -> hangs A parent p f -> hints A parent p i var ->
    exists A1 parent1 q n, n <= nodes t /\ (forall k, p_walk C (n + k) A e parent p i = Ok (A1, parent1, q)) /\
      chain A1 p i (lower_masks C t e) f /\ same_start A A1 p p i /\ (forall z, ~ In z (p :: f) -> ar_get A1 z = ar_get A z) /\ same_size A A1 /\ same_links A A1 /\
      forall r, (parent = None -> r = Some p) -> put_sim A parent p i f r (insert_tree C true t e var) (p_put C (mk_ptree A1 r) e parent1 q).
  Proof.
    induction t as [a|v x mask le IHl gt IHg]; intros A parent p i f var H Hn Hh Hv.
    - assert (H' := H). destruct H' as (n & Hp & Hu & Hz & He & ->). exists A, parent, p, 1. split; [cbn [nodes]; lia|].
      split. { intros k. cbn [Nat.add p_walk]. rewrite Hp. cbn [bind]. now rewrite Hu, Nat.eqb_refl. }
      split; auto. split; [exists n, n; auto|]. split; auto. split; [apply same_size_refl|]. split; [apply same_links_refl|].
      intros r Hr. apply leaf_put; auto.
    - destruct H as (n & s & q & fg & fl & Hp & Hi & Hs & Hsv & Hsx & Hsn & Hsm & Hg & Hl & ->). apply nodup_chain in Hn as (Hng & Hnl & Hpg & Hgl).
      assert (Hsub : forall z, ~ In z (p :: (q :: fg) ++ fl) -> ~ In z (q :: fg) /\ ~ In z (p :: fl)).
      { intros z Hz. split; intros Hc; apply Hz; [right; apply in_or_app; auto|]. destruct Hc as [<-|Hc]; [now left|right; apply in_or_app; auto]. }
      set (mask' := klower C mask (x_mask e)).
      assert (Hls : exists s', lower_slot C s e = Ok s' /\ same_slot s s' /\ (c_tree C = true -> s_mask s' = Some mask')).
      { unfold lower_slot. destruct (c_tree C) eqn:Ec.
        - rewrite Hsm by auto. cbn [of_option bind]. eexists. split; [reflexivity|]. split; [repeat split|]. auto.
        - exists s. split; auto. split; [repeat split|discriminate]. }
      destruct Hls as (s' & Hls & (Ev & Ex & En) & Em).
      set (n0 := mk_pnode (p_entries n) (p_used n) (upd (p_slots n) i s')). set (A0 := put A p n0).
      assert (Hp0 : ar_get A0 p = Ok n0) by (eapply get_put_same; eauto).
      assert (Ho0 : forall z, z <> p -> ar_get A0 z = ar_get A z) by (intros z Hz; eapply get_put_ne; eauto).
      assert (Hil : i < length (p_slots n)) by (eapply nth_error_some_lt; eauto).
      assert (Hs0 : nth_error (p_slots n0) i = Some s') by (apply nth_upd_same; auto).
      assert (Hso : forall j, j <> i -> nth_error (p_slots n0) j = nth_error (p_slots n) j) by (intros j Hj; apply nth_upd_other; auto).
      assert (Hr0g : chain A0 q 0 gt fg). { apply (chain_same C true true gt A); auto. intros z Hz. apply Ho0. intros ->. auto. }
      assert (Hr0l : chain A0 p (S i) le fl).
      { apply (chain_frame C true le true A A0 p p (S i) fl n n0); auto; [apply upd_length|intros j Hj; apply Hso; lia|].
        intros z Hz. apply Ho0. intros ->. apply NoDup_cons_iff in Hnl as [Hx _]. auto. }
      assert (Hk0 : same_links A A0). { apply (same_links_put A p n n0); auto. split; auto. cbn [p_slots n0].
        clear - Hs Ev Ex En. revert i Hs. induction (p_slots n) as [|y l IH]; intros [|i] Hs; try discriminate; cbn [upd nth_error] in *.
        - injection Hs as ->. constructor; [repeat split; auto|apply same_slots_refl].
        - constructor; [repeat split|auto]. }
      assert (Hlive : live A0 = live A) by apply live_put.
      assert (Hpar : forall z, node_of parent = Some z -> z <> p /\ ~ In z (q :: fg) /\ ~ In z fl).
      { intros z Hz. destruct parent as [[z' j]|]; cbn [node_of hangs] in *; [|discriminate]. injection Hz as ->. destruct Hh as [Hx _].
        assert (Hzp : z <> p) by (intros ->; apply Hx; now left). destruct (Hsub z Hx) as [X1 X2]. split; auto. split; auto. intros Hc. apply X2. now right. }
      cbn [lower_masks insert_tree]. fold mask'.
      assert (Hstep : forall k, p_walk C (S k) A e parent p i = if above C v x (x_t e) then p_walk C k A0 e (Some (p, i)) q 0 else p_walk C k A0 e parent p (S i)).
      { intros k. cbn [p_walk]. rewrite Hp. cbn [bind]. destruct (Nat.eqb_spec i (p_used n)); [lia|]. rewrite (proj2 (vget_ok _ _ _) Hs). cbn [bind]. rewrite Hls. cbn [bind].
        rewrite (set_slot_ok _ _ _ _ _ _ Hp Hs). cbn [bind]. rewrite (in_child_ok C s v x) by auto. cbn [bind]. rewrite Hsn. cbn [of_option bind]. reflexivity. }
      destruct (above C v x (x_t e)) eqn:Ea.
      + destruct (IHg A0 (Some (p, i)) q 0 fg (Some v) Hr0g Hng) as (A1 & parent1 & w & k1 & Hk1 & Hw & Hr1 & Hst & Hf1 & Hz1 & Hl1 & Hput).
        { cbn [hangs]. split; auto. exists n0, s'. split; auto. split; auto. congruence. }
        { cbn [hints]. exists n0, s', v. split; auto. split; auto. split; auto. congruence. }
        assert (Hp1 : ar_get A1 p = Ok n0) by (rewrite Hf1; auto).
        exists A1, parent1, w, (S k1). split; [cbn [nodes]; lia|]. split. { intros k. cbn [Nat.add]. rewrite Hstep. apply Hw. }
        split. { exists n0, s', q, fg, fl. split; auto. split; auto. split; auto. split; [congruence|]. split; [congruence|]. split; [congruence|]. split; [auto|]. split; auto. split; auto.
          apply (chain_same C true true le A0); auto. intros z Hz. apply Hf1. intros Hc. exact (Hgl z Hc Hz). }
        split. { exists n, n0. split; auto. split; auto. intros j Hj. apply Hso. lia. }
        split. { intros z Hz. assert (z <> p) by (intros ->; apply Hz; now left). rewrite Hf1, Ho0; auto. apply (Hsub z Hz). }
        split. { eapply same_size_trans; [apply same_size_put|exact Hz1]. } split; [eapply same_links_trans; eauto|].
        intros r Hr. assert (Hs1 := Hput r ltac:(discriminate)). destruct (insert_tree C true gt e (Some v)) as [u| | |]; cbn [bind put_sim] in *; auto.
        destruct Hs1 as (A' & r' & q' & fg' & E1 & E2 & [-> (m0 & s0 & E3 & E4 & E5)] & E6 & E7 & E8 & E9).
        rewrite Hp0 in E3. injection E3 as <-. rewrite Hs0 in E4. injection E4 as <-. cbn [node_of] in E7.
        assert (Hi' : nth_error (upd (p_slots n0) i (relink s' q')) i = Some (relink s' q')). { apply nth_upd_same. eapply nth_error_some_lt; eauto. }
        exists A', r, p, ((q' :: fg') ++ fl). split; auto.
        assert (Hfl : forall z, In z fl -> ar_get A' z = ar_get A0 z).
        { intros z Hz. apply E7; [intros Hc; apply (Hgl z Hc); now right|intros [= ->]; apply NoDup_cons_iff in Hnl as [Hx _]; auto|].
          eapply chain_live; [exact Hr0l|now right]. }
        split. { exists (relinked n0 i s' q'), (relink s' q'), q', fg', fl. split; auto. split; auto. split; auto.
          split; [cbn [relink s_var]; congruence|]. split; [cbn [relink s_exp]; congruence|]. split; [reflexivity|]. split; [auto|]. split; auto. split; auto.
          apply (chain_frame C true le true A0 A' p p (S i) fl n0 (relinked n0 i s' q')); auto; [apply upd_length|].
          intros j Hj. cbn [relinked p_slots]. apply nth_upd_other. lia. }
        split. { destruct parent as [[z j]|]; cbn [linked node_of] in *; [|auto]. split; auto. destruct Hh as (Hx & nz & sz & L1 & L2 & L3). destruct (Hpar z eq_refl) as (P1 & P2 & P3).
          exists nz, sz. split; auto. split; auto. rewrite relinked_same by auto. rewrite E7, Ho0; auto; [congruence|]. rewrite Hlive. eapply get_live; eauto. }
        split. { exists n, (relinked n0 i s' q'). split; auto. split; auto. intros j Hj. cbn [relinked p_slots]. rewrite nth_upd_other by lia. apply Hso. lia. }
        split. { intros z Q1 Q2 Q3. assert (Hzp : z <> p) by (intros ->; apply Q1; now left). rewrite E7, Ho0; auto; [apply (Hsub z Q1)|congruence|now rewrite Hlive]. }
        split. { rewrite E8. reflexivity. }
        rewrite Hlive in E9. change (p :: (q :: fg) ++ fl) with ((p :: q :: fg) ++ fl). change (p :: (q' :: fg') ++ fl) with ((p :: q' :: fg') ++ fl).
        rewrite !app_assoc. apply Permutation_app_tail. change (p :: q :: fg) with ([p] ++ q :: fg). change (p :: q' :: fg') with ([p] ++ q' :: fg').
        rewrite (Permutation_app_comm [p] (q :: fg)), (Permutation_app_comm [p] (q' :: fg')), !app_assoc. apply Permutation_app_tail. exact E9.
      + destruct (IHl A0 parent p (S i) fl (Some v) Hr0l Hnl) as (A1 & parent1 & w & k1 & Hk1 & Hw & Hr1 & (m & m' & S1 & S2 & S3) & Hf1 & Hz1 & Hl1 & Hput).
        { destruct parent as [[z j]|]; cbn [hangs] in *; auto. destruct Hh as (Hx & nz & sz & L1 & L2 & L3). split; [apply (Hsub z Hx)|]. exists nz, sz. rewrite Ho0; auto.
          intros ->. apply Hx. now left. }
        { cbn [hints]. exists n0, s', v. split; auto. split; auto. split; auto. congruence. }
        rewrite Hp0 in S1. injection S1 as <-.
        assert (Hu' : i < p_used m' /\ length (p_slots m') = length (p_slots m')) by (split; auto; assert (Hx := chain_used C true true _ _ _ _ _ _ Hr1 S2); lia).
        exists A1, parent1, w, (S k1). split; [cbn [nodes]; lia|]. split. { intros k. cbn [Nat.add]. rewrite Hstep. apply Hw. }
        split. { exists m', s', q, fg, fl. split; auto. split; [apply Hu'|]. split; [rewrite S3 by lia; auto|]. split; [congruence|]. split; [congruence|]. split; [congruence|]. split; [auto|].
          split; auto. apply (chain_same C true true gt A0); auto. }
        split. { exists n, m'. split; auto. split; auto. intros j Hj. rewrite S3 by lia. apply Hso. lia. }
        split. { intros z Hz. assert (z <> p) by (intros ->; apply Hz; now left). rewrite Hf1, Ho0; auto. apply (Hsub z Hz). }
        split. { eapply same_size_trans; [apply same_size_put|exact Hz1]. } split; [eapply same_links_trans; eauto|].
        intros r Hr. assert (Hs1 := Hput r Hr). destruct (insert_tree C true le e (Some v)) as [u| | |]; cbn [bind put_sim] in *; auto.
        destruct Hs1 as (A' & r' & p' & fl' & E1 & E2 & E3 & (y & y' & Y1 & Y2 & Y3) & E7 & E8 & E9).
        rewrite Hp0 in Y1. injection Y1 as <-.
        exists A', r', p', ((q :: fg) ++ fl'). split; auto.
        assert (Hqg : forall z, In z (q :: fg) -> ar_get A' z = ar_get A0 z).
        { intros z Hz. apply E7; auto; [|exact (chain_live C true true gt A0 q 0 fg Hr0g z Hz)]. intros Hc. destruct (Hpar z (eq_sym Hc)) as (_ & P2 & _). auto. }
        split. { exists y', s', q, fg, fl'. split; auto. split; [assert (Hx := chain_used C true true _ _ _ _ _ _ E2 Y2); lia|]. split; [rewrite Y3 by lia; auto|].
          split; [congruence|]. split; [congruence|]. split; [congruence|]. split; [auto|]. split; auto. apply (chain_same C true true gt A0); auto. }
        split. { destruct parent as [[z j]|]; cbn [linked node_of] in *; [|auto]. destruct E3 as [-> (nz & sz & L1 & L2 & L3)]. split; auto. exists nz, sz. split; [|auto].
          rewrite <- L1. symmetry. apply Ho0. apply (Hpar z eq_refl). }
        split. { exists n, y'. split; auto. split; auto. intros j Hj. rewrite Y3 by lia. apply Hso. lia. }
        split. { intros z Q1 Q2 Q3. assert (Hzp : z <> p) by (intros ->; apply Q1; now left). rewrite E7, Ho0; auto; [apply (Hsub z Q1)|now rewrite Hlive]. }
        split. { rewrite E8. reflexivity. }
        rewrite Hlive in E9. change (p :: (q :: fg) ++ fl) with ([p] ++ (q :: fg) ++ fl). change (p' :: (q :: fg) ++ fl') with ([p'] ++ (q :: fg) ++ fl').
        rewrite (Permutation_app_comm (q :: fg) fl), (Permutation_app_comm (q :: fg) fl'), !app_assoc. apply Permutation_app_tail. rewrite <- !app_assoc. exact E9.
  Qed.

  (** ** The whole tree *)
  Definition prel (T : ptree M) (root : option tree) : Prop :=
    match root with
    | None => p_root T = None /\ live (p_arena T) = []
    | Some t => exists p f, p_root T = Some p /\ chain (p_arena T) p 0 t f /\ Permutation (p :: f) (live (p_arena T))
    end.
  Lemma live_nodup (A : memory) f : Permutation f (live A) -> NoDup f.
  Proof. intros H. eapply nodup_perm; [apply Permutation_sym; eauto|]. apply seq_NoDup. Qed.
  Lemma prel_fuel self kids (t : tree) (A : memory) p i f : PackedProofs.chain C self kids A p i t f -> Permutation (p :: f) (live A) -> nodes t <= 2 * size A.
  Proof. intros H Hp. rewrite (chain_length C kids t _ _ _ _ _ H). apply Permutation_length in Hp. unfold live in Hp. rewrite seq_length in Hp. cbn [length] in Hp. lia. Qed.
  Lemma start_rel T root : prel T root ->
    exists T' p f t, p_start T = (T', p) /\ t = match root with None => Leaf arr_empty | Some t => t end /\
      p_root T' = Some p /\ chain (p_arena T') p 0 t f /\ Permutation (p :: f) (live (p_arena T')).
  Proof.
    intros H. unfold p_start. destruct root as [t|]; cbn [prel] in H.
    - destruct H as (p & f & H1 & H2 & H3). rewrite H1. exists T, p, f, t. auto.
    - destruct H as [H1 H2]. rewrite H1. unfold p_make. rewrite new_grow. set (n := mk_pnode _ _ _). exists (mk_ptree (grow (p_arena T) n) (Some (fresh (p_arena T)))), (fresh (p_arena T)), [], (Leaf arr_empty).
      cbn [p_arena p_root]. split; auto. split; auto. split; auto. split; [exists n; split; [apply get_grow_new|repeat split]; cbn; lia|]. rewrite live_grow, H2. reflexivity.
  Qed.
  Lemma packed_insert_rel T root e : prel T root ->
    match tree_insert C true root e with
    | Ok root' => exists T', p_insert C T e = Ok T' /\ prel T' root'
    | Throw x => p_insert C T e = Throw x
    | _ => True
    end.
  Proof.
    intros H. destruct (start_rel T root H) as (T' & p & f & t & E1 & E2 & E3 & E4 & E5). unfold tree_insert. rewrite <- E2.
    destruct (insert_sim e t (p_arena T') None p 0 f None E4 (live_nodup _ _ E5) Logic.I eq_refl) as (A1 & parent1 & q & n & Hn & Hw & Hr & _ & _ & Hz & _ & Hs).
    specialize (Hs (p_root T') (fun _ => E3)).
    assert (Hi : p_insert C T e = p_put C (mk_ptree A1 (p_root T')) e parent1 q).
    { unfold p_insert, p_approach. rewrite E1. replace (2 * _) with (n + (2 * size (p_arena T') - n)); [rewrite Hw; reflexivity|].
      assert (Hx := prel_fuel _ _ _ _ _ _ _ E4 E5). unfold size in *. lia. }
    rewrite Hi. destruct (insert_tree C true t e None) as [t'| | |]; cbn [put_sim bind] in *; auto.
    destruct Hs as (A' & r' & p' & f' & S1 & S2 & S3 & S4 & S5 & S6 & S7). cbn [linked] in S3. subst r'.
    exists (mk_ptree A' (Some p')). split; auto. exists p', f'. split; auto. split; auto. cbn [p_arena].
    apply Permutation_app_inv_l with (l := p :: f). rewrite (Permutation_app_comm (p :: f) (live A')), S7. apply Permutation_app_tail. exact E5.
  Qed.
  Lemma packed_abandoned_rel T root e : prel T root -> exists T', p_abandoned C T e = Ok T' /\ prel T' (tree_abandoned C root e).
  Proof.
    intros H. destruct (start_rel T root H) as (T' & p & f & t & E1 & E2 & E3 & E4 & E5). unfold tree_abandoned. rewrite <- E2.
    destruct (insert_sim e t (p_arena T') None p 0 f None E4 (live_nodup _ _ E5) Logic.I eq_refl) as (A1 & parent1 & q & n & Hn & Hw & Hr & _ & _ & Hz & _ & _).
    exists (mk_ptree A1 (p_root T')). split.
    { unfold p_abandoned, p_approach. rewrite E1. replace (2 * _) with (n + (2 * size (p_arena T') - n)); [rewrite Hw; reflexivity|].
      assert (Hx := prel_fuel _ _ _ _ _ _ _ E4 E5). unfold size in *. lia. }
    exists p, f. split; auto. split; auto. cbn [p_arena]. rewrite (same_size_live _ _ Hz). exact E5.
  Qed.
End Insert.
