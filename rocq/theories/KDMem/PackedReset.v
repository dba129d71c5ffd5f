(** The packed tree in memory represents a tree: construction. *)
From Coq Require Import List Arith Bool ZArith NArith String Lia Permutation.
From Verif.Base Require Import Res Arr ResList StdAlg Lists.
From Verif.DivMask Require Import Model.
From Verif.Spec Require Import DivFinder.
From Verif.KD Require Import EntryArray Tree.
From Verif.KDMem Require Import BinaryReset Arena ArenaFacts Packed PackedProofs PackedInsert.
Import ListNotations.
Local Notation length := List.length.

Section Reset.
  Context {M : Type}.
  Variable C : kconf M.
  Notation ext := (ext M).
  Notation tree := (tree M).
  Notation memory := (arena (pnode M)).
  Notation chain := (PackedProofs.chain C).

  (** The number of nodes of the packed tree *)
  Fixpoint leaves (t : tree) : nat := match t with Leaf _ => 1 | Split _ _ _ le gt => leaves le + leaves gt end.
  Lemma leaves_pos t : 1 <= leaves t.
  Proof. induction t; cbn [leaves]; lia. Qed.
  Lemma leaves_nodes t : nodes t = 2 * leaves t - 1.
  Proof. induction t as [|v x m le IHl gt IHg]; cbn [leaves nodes]; auto. assert (H1 := leaves_pos le). assert (H2 := leaves_pos gt). lia. Qed.

  (** ** Splitting children off *)
  Fixpoint parts (n : nat) (bits : list (nat * Z)) (ch : list (list M * nat * Z)) (t : tree) : Prop :=
    match t, ch with
    | Leaf _, [] => True
    | Split v x _ le gt, (g, v', x') :: ch' => v' = v /\ x' = x /\ (exists n', n' < n /\ build C n' bits g (Some v) = Ok gt) /\ parts n bits ch' le
    | _, _ => False
    end.
  Lemma parts_more n n' bits t : n <= n' -> forall ch, parts n bits ch t -> parts n' bits ch t.
  Proof.
    intros Hn. induction t as [a|v x m le IHl gt IHg]; intros [|[[g v'] x'] ch]; cbn [parts]; auto. intros (H1 & H2 & (k & H3 & H4) & H5).
    split; auto. split; auto. split; [exists k; split; auto; lia|auto].
  Qed.
  Lemma split_off_sim bits : forall n l var t, build C n bits l var = Ok t ->
    exists l0 ch, (forall fuel acc, leaves t <= S fuel -> p_split_off C fuel l var acc = Ok (inl (l0, acc ++ ch))) /\
      arr_of C (map (kext C bits) l0) = Ok (node_entries t) /\ parts n bits ch t.
  Proof.
    induction n as [|n IH]; intros l var t; cbn [build]; [discriminate|]. destruct (length l <=? c_leaf C) eqn:El.
    - destruct (arr_of C (map (kext C bits) l)) as [a| | |] eqn:Ea; cbn [bind]; try discriminate. intros [= <-]. exists l, []. split; [|split; [exact Ea|exact Logic.I]].
      intros fuel acc _. rewrite app_nil_r. destruct fuel; cbn [p_split_off]; rewrite El; reflexivity.
    - destruct (split_range C l var) as [[[[v x] le] gt]| | |] eqn:Es; cbn [bind]; try discriminate.
      destruct (build C n bits le (Some v)) as [tl| | |] eqn:E1; cbn [bind]; try discriminate.
      destruct (build C n bits gt (Some v)) as [tg| | |] eqn:E2; cbn [bind]; try discriminate.
      intros [= <-]. destruct (IH _ _ _ E1) as (l0 & ch & H1 & H2 & H3). exists l0, ((gt, v, x) :: ch). split; [|split].
      + intros fuel acc Hf. cbn [leaves] in Hf. assert (Hp := leaves_pos tl). assert (Hp' := leaves_pos tg). destruct fuel as [|fuel]; [lia|].
        cbn [p_split_off]. rewrite El, Es, H1 by lia. rewrite <- app_assoc. reflexivity.
      + exact H2.
      + cbn [parts]. split; auto. split; auto. split; [exists n; auto|]. apply (parts_more n (S n)); [lia|exact H3].
  Qed.

  (** ** The loop over the tasks *)
  Definition from_ok (A : memory) (from : option (nat * Z * (nat * nat))) (var : option nat) (r : option nat) : Prop :=
    match from with
    | None => var = None /\ r = None
    | Some (v, x, (q, j)) => var = Some v /\ r <> None /\ exists n s, ar_get A q = Ok n /\ nth_error (p_slots n) j = Some s
    end.
  Definition from_node (from : option (nat * Z * (nat * nat))) : option nat := match from with None => None | Some (_, _, (q, _)) => Some q end.
  Definition hooked (A A' : memory) (from : option (nat * Z * (nat * nat))) (p : nat) (r r' : option nat) : Prop :=
    match from with
    | None => r' = Some p
    | Some (v, x, (q, j)) => r' = r /\ exists n m, ar_get A q = Ok n /\ ar_get A' q = Ok (mk_pnode (p_entries n) (p_used n) (upd (p_slots n) j (mk_slot (Some v) (Some x) m (Some p))))
    end.
  Definition node_spec (n : nat) : Prop := forall bits l var t, build C n bits l var = Ok t -> forall A r from, from_ok A from var r ->
    exists A' r' p f, chain false false A' p 0 t f /\ Permutation (live A') (live A ++ p :: f) /\ ar_dead A' = ar_dead A /\ hooked A A' from p r r' /\
      (forall q, Some q <> from_node from -> In q (live A) -> ar_get A' q = ar_get A q) /\
      forall fuel todo, leaves t <= fuel -> p_reset_loop C fuel (mk_ptree A r) bits (mk_task l from :: todo) = p_reset_loop C (fuel - leaves t) (mk_ptree A' r') bits todo.

  Lemma kids_sim n bits : (forall n', n' < n -> node_spec n') -> forall t ch, parts n bits ch t -> forall A r p i np, r <> None -> ar_get A p = Ok np ->
    p_used np = i + length ch -> p_used np <= length (p_slots np) -> p_entries np = node_entries t ->
    exists A' f np', chain false false A' p i t f /\ Permutation (live A') (live A ++ f) /\ ar_dead A' = ar_dead A /\
      (forall q, q <> p -> In q (live A) -> ar_get A' q = ar_get A q) /\
      ar_get A' p = Ok np' /\ (forall j, j < i -> nth_error (p_slots np') j = nth_error (p_slots np) j) /\
      forall fuel todo, leaves t <= S fuel -> p_reset_loop C fuel (mk_ptree A r) bits (child_tasks p i ch todo) = p_reset_loop C (S fuel - leaves t) (mk_ptree A' r) bits todo.
  Proof.
    intros Hn. induction t as [a|v x m le IHl gt IHg]; intros [|[[g v'] x'] ch]; cbn [parts]; try contradiction; intros Hparts A r p i np Hr Hp Hu Hz He.
    - exists A, [], np. cbn [length] in Hu. rewrite Nat.add_0_r in Hu. split. { exists np. repeat split; auto. lia. } rewrite app_nil_r. do 5 (split; auto).
      intros fuel todo _. cbn [child_tasks leaves]. rewrite Nat.sub_succ, Nat.sub_0_r. reflexivity.
    - destruct Hparts as (-> & -> & (n' & Hn' & Hb) & Hch). cbn [length] in Hu.
      destruct (IHl ch Hch A r p (S i) np) as (A1 & fl & n1 & L1 & L2 & L3 & L4 & L5 & L6 & L7); auto; [lia|].
      assert (Hlp : In p (live A)) by (eapply get_live; eauto).
      assert (Hu1 := chain_used C false false _ _ _ _ _ _ L1 L5).
      destruct (nth_error_lt (p_slots n1) i) as [s1 Hs1]; [lia|].
      destruct (Hn n' Hn' bits g (Some v) gt Hb A1 r (Some (v, x, (p, i)))) as (A2 & r' & q & fg & B1 & B2 & B3 & [-> (n1' & m' & B4 & B5)] & B6 & B7).
      { cbn [from_ok]. split; auto. split; auto. exists n1, s1. auto. }
      rewrite L5 in B4. injection B4 as <-. cbn [from_node] in B6. set (n2 := mk_pnode _ _ _) in B5.
      assert (Hs2 : nth_error (p_slots n2) i = Some (mk_slot (Some v) (Some x) m' (Some q))) by (apply nth_upd_same; eapply nth_error_some_lt; eauto).
      assert (Hnd : NoDup (live A ++ fl)). { eapply nodup_perm; [exact L2|]. apply seq_NoDup. }
      exists A2, ((q :: fg) ++ fl), n2. split.
      { exists n2. eexists _, q, fg, fl. split; [exact B5|]. split; [unfold n2; cbn [p_used]; lia|]. split; [exact Hs2|]. do 3 (split; [reflexivity|]). split; [discriminate|].
        split; [exact B1|]. split; [|reflexivity]. apply (chain_frame C false le false A1 A2 p p (S i) fl n1 n2); auto.
        - apply upd_length.
        - intros j Hj. apply nth_upd_other. lia.
        - intros z Hz'. apply B6; [|eapply chain_live; [exact L1|now right]]. intros [= ->]. apply nodup_app in Hnd as (_ & _ & Hd). exact (Hd p Hlp Hz'). }
      split. { rewrite B2, L2, <- app_assoc. apply Permutation_app_head, Permutation_app_comm. }
      split; [congruence|]. split.
      { intros z Z1 Z2. rewrite B6; [auto|congruence|]. eapply Permutation_in; [apply Permutation_sym; exact L2|]. apply in_or_app. auto. }
      split; [exact B5|]. split. { intros j Hj. unfold n2. cbn [p_slots]. rewrite nth_upd_other by lia. apply L6. lia. }
      intros fuel todo Hf. cbn [leaves] in Hf. assert (Hp1 := leaves_pos gt). assert (Hp2 := leaves_pos le). cbn [child_tasks].
      rewrite L7 by lia. rewrite B7 by lia. f_equal. cbn [leaves]. lia.
  Qed.
  Lemma node_sim : forall n, node_spec n.
  Proof.
    induction n as [n IH] using (well_founded_induction lt_wf). intros bits l var t Hb A r from Hfrom.
    destruct (split_off_sim bits n l var t Hb) as (l0 & ch & H1 & H2 & H3).
    (* the variable and exponent are stored in the child *)
    assert (HA0 : exists A0, match from with
        | None => Ok A
        | Some (v, x, (q, i)) => let* s := get_slot A q i in set_slot A q i (mk_slot (Some v) (Some x) (s_mask s) (s_node s))
        end = Ok A0 /\ same_size A A0 /\ (forall q, Some q <> from_node from -> ar_get A0 q = ar_get A q) /\
        match from with
        | None => True
        | Some (v, x, (q, j)) => exists n0 m y, ar_get A q = Ok n0 /\ j < length (p_slots n0) /\ ar_get A0 q = Ok (mk_pnode (p_entries n0) (p_used n0) (upd (p_slots n0) j (mk_slot (Some v) (Some x) m y)))
        end).
    { destruct from as [[[v x] [q j]]|].
      - destruct Hfrom as (-> & Hr & n0 & s & F1 & F2). rewrite (slot_ok _ _ _ _ _ F1 F2). cbn [bind]. rewrite (set_slot_ok _ _ _ _ _ _ F1 F2). eexists. split; [reflexivity|].
        split; [apply same_size_put|]. split. { intros z Hz. cbn [from_node] in Hz. apply (get_put_ne _ _ _ _ _ F1). congruence. }
        exists n0, (s_mask s), (s_node s). split; auto. split; [eapply nth_error_some_lt; eauto|]. apply (get_put_same _ _ _ _ F1).
      - exists A. split; auto. split; [apply same_size_refl|]. auto. }
    destruct HA0 as (A0 & E0 & Z0 & F0 & G0).
    set (np := mk_pnode (node_entries t) (length ch) (repeat raw (Nat.max 1 (length ch)))). set (p := fresh A0). set (A1 := grow A0 np).
    set (r' := match r with None => Some p | Some _ => r end).
    assert (Hp1 : ar_get A1 p = Ok np) by (apply get_grow_new).
    (* the node is stored there *)
    assert (HA2 : exists A2, match from with
        | None => Ok A1
        | Some (_, _, (q, i)) => let* s := get_slot A1 q i in set_slot A1 q i (mk_slot (s_var s) (s_exp s) (s_mask s) (Some p))
        end = Ok A2 /\ same_size A1 A2 /\ (forall q, Some q <> from_node from -> ar_get A2 q = ar_get A1 q) /\ hooked A A2 from p r r' /\ (forall q, from_node from = Some q -> q <> p /\ In q (live A))).
    { destruct from as [[[v x] [q j]]|].
      - destruct Hfrom as (-> & Hr & _). destruct G0 as (n0 & m & y & G1 & G2 & G3).
        assert (Hq1 : ar_get A1 q = Ok (mk_pnode (p_entries n0) (p_used n0) (upd (p_slots n0) j (mk_slot (Some v) (Some x) m y)))) by (now apply get_grow).
        set (n1 := mk_pnode _ _ _) in Hq1. assert (Hs : nth_error (p_slots n1) j = Some (mk_slot (Some v) (Some x) m y)) by (apply nth_upd_same; auto).
        rewrite (slot_ok _ _ _ _ _ Hq1 Hs). cbn [bind s_var s_exp s_mask]. rewrite (set_slot_ok _ _ _ _ _ _ Hq1 Hs). eexists. split; [reflexivity|].
        split; [apply same_size_put|]. split. { intros z Hz. cbn [from_node] in Hz. apply (get_put_ne _ _ _ _ _ Hq1). congruence. }
        split. { cbn [hooked]. split; [unfold r'; destruct r; [reflexivity|congruence]|]. exists n0, m. split; auto. rewrite (get_put_same _ _ _ _ Hq1). unfold n1. cbn [p_entries p_used p_slots].
          now rewrite upd_upd. }
        intros z [= <-]. split; [|eapply get_live; eauto]. eapply get_not_fresh; eauto.
      - destruct Hfrom as [-> ->]. exists A1. split; auto. split; [apply same_size_refl|]. split; auto. split; [reflexivity|discriminate]. }
    destruct HA2 as (A2 & E2 & Z2 & F2 & K2 & Q2).
    assert (Hp2 : ar_get A2 p = Ok np). { rewrite F2; auto. intros Hc. destruct (Q2 p (eq_sym Hc)) as [Hx _]. congruence. }
    destruct (kids_sim n bits IH t ch H3 A2 r' p 0 np) as (A3 & f & n3 & B1 & B2 & B3 & B4 & B5 & B6 & B7); auto.
    { unfold r'. destruct r; discriminate. } { cbn [np p_slots p_used]. rewrite repeat_length. lia. }
    assert (Hl2 : live A2 = live A ++ [p]). { rewrite (same_size_live _ _ Z2). unfold A1. rewrite live_grow, (same_size_live _ _ Z0). reflexivity. }
    exists A3, r', p, f. split; auto. split. { rewrite B2, Hl2, <- app_assoc. reflexivity. }
    split. { rewrite B3, (proj1 Z2). unfold A1. rewrite dead_grow. apply (proj1 Z0). }
    assert (Hpl : ~ In p (live A)). { intros Hc. destruct (live_get _ _ Hc) as [y Hy]. unfold p in Hy. rewrite (same_size_fresh _ _ Z0) in Hy. apply get_not_fresh in Hy. congruence. }
    split. { destruct from as [[[v x] [q j]]|]; cbn [hooked from_node] in *; auto. destruct K2 as [-> (n0 & m & K3 & K4)]. split; auto. exists n0, m. split; auto.
      destruct (Q2 q eq_refl) as [Q3 Q4]. rewrite B4; auto. rewrite Hl2. apply in_or_app. auto. }
    split. { intros q Hq Hql. assert (Hqp : q <> p) by congruence. rewrite B4; auto; [|rewrite Hl2; apply in_or_app; auto]. rewrite F2 by auto. unfold A1.
      rewrite get_grow_other by auto. auto. }
    intros fuel todo Hf. assert (Hpos := leaves_pos t). destruct fuel as [|fuel]; [lia|]. cbn [p_reset_loop t_from t_range p_arena p_root]. rewrite E0. cbn [bind].
    replace (match from with None => None | Some (v, _, _) => Some v end) with var.
    2: { destruct from as [[[v x] [q j]]|]; cbn [from_ok] in Hfrom; [destruct Hfrom as [-> _]|destruct Hfrom as [-> _]]; reflexivity. }
    rewrite H1 by lia. cbn [bind app]. rewrite H2. cbn [bind]. unfold p_make. rewrite new_grow. fold np p A1. fold r'. rewrite E2. cbn [bind]. rewrite B7 by lia. reflexivity.
  Qed.

  (** ** The masks *)
  Lemma chain_done t : c_tree C = false -> forall self kids self' kids' A p i f, chain self kids A p i t f -> chain self' kids' A p i t f.
  Proof.
    intros Hc. induction t as [a|v x m le IHl gt IHg]; intros self kids self' kids' A p i f H; auto.
    destruct H as (n & s & q & fg & fl & H1 & H2 & H3 & H4 & H5 & H6 & H7 & H8 & H9 & ->). exists n, s, q, fg, fl. do 6 (split; [assumption|]).
    split; [rewrite Hc, andb_false_r; discriminate|]. split; eauto.
  Qed.
  Lemma chain_mask (A : memory) q t f : c_tree C = true -> chain true true A q 0 t f -> p_mask A q = Ok (node_mask t).
  Proof.
    intros Hc. unfold p_mask. destruct t as [a|v x m le gt]; intros H.
    - destruct H as (n & -> & H2 & _ & H4 & _). cbn [bind]. rewrite H2, H4. reflexivity.
    - destruct H as (n & s & q' & fg & fl & -> & H2 & H3 & H4 & H5 & H6 & H7 & _). cbn [bind]. destruct (Nat.eqb_spec (p_used n) 0); [lia|].
      rewrite (proj2 (vget_ok _ _ _) H3). cbn [bind]. rewrite H7 by auto. reflexivity.
  Qed.
  Lemma fix_sim : c_tree C = true -> forall t A p i f n, chain false true A p i t f -> built C t -> NoDup (p :: f) -> ar_get A p = Ok n ->
    exists A' n', p_fix C (p_used n) A p = p_fix C i A' p /\ chain true true A' p i t f /\ ar_get A' p = Ok n' /\ (forall q, q <> p -> ar_get A' q = ar_get A q) /\ same_size A A' /\
      p_used n' = p_used n /\ p_entries n' = p_entries n /\ length (p_slots n') = length (p_slots n) /\ (forall j, j < i -> nth_error (p_slots n') j = nth_error (p_slots n) j).
  Proof.
    intros Hc. induction t as [a|v x m le IHl gt IHg]; intros A p i f n H Hb Hn Hp.
    - destruct H as (n' & H1 & H2 & H3 & H4 & ->). rewrite Hp in H1. injection H1 as <-. exists A, n. rewrite H2. split; auto. split; [exists n; auto|]. split; auto. split; auto. split; [apply same_size_refl|]. auto.
    - destruct H as (n' & s & q & fg & fl & H1 & H2 & H3 & H4 & H5 & H6 & H7 & H8 & H9 & ->). rewrite Hp in H1. injection H1 as <-. destruct Hb as (Hm & Hbl & Hbg).
      apply nodup_chain in Hn as (Hng & Hnl & Hpg & Hgl).
      destruct (IHl A p (S i) fl n H9 Hbl Hnl Hp) as (A1 & n1 & L1 & L2 & L3 & L4 & L5 & L6 & L7 & L8 & L9).
      assert (Hg1 : chain true true A1 q 0 gt fg). { apply (chain_same C true true gt A); auto. intros z Hz. apply L4. intros ->. auto. }
      assert (Hs1 : nth_error (p_slots n1) i = Some s) by (rewrite L9 by lia; auto).
      assert (Hil : i < length (p_slots n1)) by (eapply nth_error_some_lt; eauto).
      set (s2 := mk_slot (s_var s) (s_exp s) (Some m) (s_node s)). set (n2 := mk_pnode (p_entries n1) (p_used n1) (upd (p_slots n1) i s2)).
      set (A2 := put A1 p n2). assert (Hp2 : ar_get A2 p = Ok n2) by (eapply get_put_same; eauto).
      assert (Ho2 : forall z, z <> p -> ar_get A2 z = ar_get A1 z) by (intros z Hz; eapply get_put_ne; eauto).
      exists A2, n2. split.
      { rewrite L1. cbn [p_fix]. rewrite L3. cbn [bind]. rewrite (proj2 (vget_ok _ _ _) Hs1). cbn [bind].
        assert (Hrest : (if S i =? p_used n1 then Ok (a_mask (p_entries n1)) else let* s' := vget (p_slots n1) (S i) in of_option (s_mask s')) = Ok (node_mask le)).
        { destruct le as [a|v' x' m' le' gt'].
          - destruct L2 as (y & Y1 & Y2 & _ & Y4 & _). rewrite L3 in Y1. injection Y1 as <-. rewrite Y2, Nat.eqb_refl, Y4. reflexivity.
          - destruct L2 as (y & s' & q' & fg' & fl' & Y1 & Y2 & Y3 & _ & _ & _ & Y7 & _). rewrite L3 in Y1. injection Y1 as <-.
            destruct (Nat.eqb_spec (S i) (p_used n1)); [lia|]. rewrite (proj2 (vget_ok _ _ _) Y3). cbn [bind]. rewrite Y7 by auto. reflexivity. }
        rewrite Hrest. cbn [bind]. rewrite H6. cbn [of_option bind]. rewrite (chain_mask _ _ _ _ Hc Hg1). cbn [bind]. rewrite (set_slot_ok _ _ _ _ _ _ L3 Hs1). cbn [bind].
        rewrite <- Hm. unfold A2, n2, s2. rewrite H6. reflexivity. }
      split. { exists n2, s2, q, fg, fl. split; auto. split; [cbn [n2 p_used]; lia|]. split; [cbn [n2 p_slots]; apply nth_upd_same; auto|]. do 3 (split; [assumption|]). split; [reflexivity|].
        split. { apply (chain_same C true true gt A1); auto. intros z Hz. apply Ho2. intros ->. auto. } split; [|reflexivity].
        apply (chain_frame C true le true A1 A2 p p (S i) fl n1 n2); auto.
        - apply upd_length.
        - intros j Hj. apply nth_upd_other. lia.
        - intros z Hz. apply Ho2. intros ->. apply NoDup_cons_iff in Hnl as [Hx _]. auto. }
      split; auto. split. { intros z Hz. rewrite Ho2, L4; auto. } split; [eapply same_size_trans; [exact L5|apply same_size_put]|].
      split; auto. split; auto. split; [cbn [n2 p_slots]; rewrite upd_length; auto|]. intros j Hj. cbn [n2 p_slots]. rewrite nth_upd_other by lia. apply L9. lia.
  Qed.
  Lemma built_kids t : built C t -> Forall (built C) (kids_of t).
  Proof. induction t as [a|v x m le IHl gt IHg]; cbn [built kids_of]; [constructor|]. intros (_ & H1 & H2). constructor; auto. Qed.
  Notation item := (nat * tree * list nat)%type.
  Lemma fix_all_app l1 l2 : forall A, p_fix_all C A (l1 ++ l2) = (let* A' := p_fix_all C A l1 in p_fix_all C A' l2).
  Proof. induction l1 as [|p l1 IH]; intros A; cbn [app p_fix_all bind]; auto. destruct (ar_get A p); cbn [bind]; auto. destruct (p_fix C _ A p); cbn [bind]; auto. Qed.
  Lemma masks_sim : c_tree C = true -> forall fuel (A : memory) (F : list item) seen, length (area F) <= fuel -> forest C false A F -> Forall (built C) (trees F) -> NoDup (area F) ->
    exists order A', p_record fuel A (length seen) (seen ++ ptrs F) = Ok (seen ++ order) /\ p_fix_all C A (rev order) = Ok A' /\
      forest C true A' F /\ same_size A A' /\ (forall q, ~ In q (area F) -> ar_get A' q = ar_get A q).
  Proof.
    intros Hc. induction fuel as [|fuel IH]; intros A F seen Hf HF Hb Hn.
    { destruct F as [|[[p t] f] F].
      - exists [], A. cbn [p_record ptrs map]. rewrite !app_nil_r, Nat.ltb_irrefl. split; auto. split; auto. split; [constructor|]. split; [apply same_size_refl|auto].
      - apply Forall_cons_iff in HF as [(f' & H1 & _) _]. cbn [fst snd] in H1. subst f. unfold area in Hf. cbn [map List.concat snd app length] in Hf. lia. }
    destruct F as [|[[p t] f0] F].
    { exists [], A. cbn [p_record ptrs map]. rewrite !app_nil_r, Nat.ltb_irrefl. split; auto. split; auto. split; [constructor|]. split; [apply same_size_refl|auto]. }
    apply Forall_cons_iff in HF as [(f & H1 & H2) HF]. cbn [fst snd] in H1, H2. subst f0. unfold area in Hf, Hn. cbn [map List.concat snd] in Hf, Hn. fold (area F) in Hf, Hn.
    cbn [trees map fst snd] in Hb. apply Forall_cons_iff in Hb as [Hbt Hb].
    destruct (chain_head _ _ _ _ _ _ _ _ H2) as [n Hp]. destruct (chain_kids C _ _ _ _ _ _ _ _ H2 Hp) as (G & G1 & G2 & G3 & G4 & G5 & G6). cbn [skipn] in G1.
    cbn [app] in Hn. assert (Hn' := Hn). apply NoDup_cons_iff in Hn' as [Hnp Hnd]. subst f.
    assert (Hperm : Permutation (area (F ++ G)) (area G ++ area F)) by (rewrite area_app; apply Permutation_app_comm).
    destruct (IH A (F ++ G) (seen ++ [p])) as (order & A' & R1 & R2 & R3 & R4 & R5).
    { rewrite (Permutation_length Hperm). cbn [app length] in Hf. lia. }
    { apply Forall_app. split; assumption. }
    { unfold trees. rewrite map_app. apply Forall_app. split; [assumption|]. fold (trees G). rewrite G2. now apply built_kids. }
    { eapply nodup_perm; [apply Permutation_sym; exact Hperm|exact Hnd]. }
    apply Forall_app in R3 as [R3 R3'].
    assert (Hp' : ar_get A' p = Ok n). { rewrite R5; auto. intros Hx. apply Hnp. eapply Permutation_in; eauto. }
    assert (Hnear : chain false true A' p 0 t (area G)) by (apply (G6 true A'); [congruence|exact R3']).
    assert (Hndp : NoDup (p :: area G)). { constructor; [intros Hx; apply Hnp, in_or_app; auto|]. apply nodup_app in Hnd as (Hx & _ & _). exact Hx. }
    destruct (fix_sim Hc t A' p 0 (area G) n Hnear Hbt Hndp Hp') as (A2 & n2 & X1 & X2 & X3 & X4 & X5 & _).
    exists (p :: order), A2. split; [|split; [|split; [|split]]].
    - cbn [p_record ptrs map fst snd]. fold (ptrs F).
      destruct (Nat.ltb_spec (length seen) (length (seen ++ p :: ptrs F))) as [_|Hx]; [|rewrite app_length in Hx; cbn [length] in Hx; lia].
      replace (vget (seen ++ p :: ptrs F) (length seen)) with (Ok p).
      2: { symmetry. apply vget_ok. rewrite nth_error_app2, Nat.sub_diag; auto. }
      cbn [bind]. rewrite Hp. cbn [bind]. rewrite (children_ok C _ _ _ _ _ _ _ _ H2 Hp). cbn [bind]. rewrite G1. cbn [bind].
      replace ((seen ++ p :: ptrs F) ++ ptrs G) with ((seen ++ [p]) ++ ptrs (F ++ G)) by (unfold ptrs; rewrite map_app, <- !app_assoc; reflexivity).
      replace (S (length seen)) with (length (seen ++ [p])) by (rewrite app_length; cbn [length]; lia). rewrite R1, <- app_assoc. reflexivity.
    - cbn [rev]. rewrite fix_all_app, R2. cbn [bind p_fix_all]. rewrite Hp'. cbn [bind]. rewrite X1. reflexivity.
    - constructor; [exists (area G); auto|]. apply (forest_frame C true A'); [exact R3|]. intros q Hq. apply X4. intros ->. apply Hnp, in_or_app. auto.
    - eapply same_size_trans; eauto.
    - intros q Hq. unfold area in Hq. cbn [map List.concat snd] in Hq. fold (area F) in Hq. cbn [app] in Hq. rewrite X4 by (intros ->; apply Hq; now left).
      apply R5. intros Hx. apply Hq. right. eapply Permutation_in; eauto.
  Qed.

  (** ** The whole tree *)
  Lemma packed_clear_rel (T : ptree M) (root : option tree) : prel C T root -> exists T' gone, p_clear T = Ok (T', gone) /\ prel C T' None /\
    Permutation gone (match root with None => [] | Some t => tree_entries t end).
  Proof.
    intros H. unfold p_clear. destruct root as [t|]; cbn [prel] in H.
    - destruct H as (p & f & H1 & H2 & H3). rewrite H1.
      destruct (clear_sim C true (2 * size (p_arena T)) (p_arena T) [(p, t, p :: f)] []) as (A' & gone & R1 & R2 & R3).
      + unfold area. cbn [map List.concat snd]. rewrite app_nil_r, (Permutation_length H3). unfold live. rewrite seq_length. lia.
      + constructor; [exists f; auto|constructor].
      + unfold area. cbn [map List.concat snd]. rewrite app_nil_r. eapply live_nodup; eauto.
      + cbn [ptrs map fst snd app] in R1. unfold size in R1. rewrite R1. cbn [bind]. eexists _, gone. split; [reflexivity|]. split; [split; reflexivity|].
        rewrite R2. unfold entries_of. cbn [trees map fst snd flat_map]. rewrite app_nil_r. reflexivity.
    - destruct H as [H1 H2]. rewrite H1. destruct (2 * length (ar_cells (p_arena T))); cbn [p_clear_loop bind]; (eexists _, []; split; [reflexivity|]; split; auto; split; reflexivity).
  Qed.
  Lemma packed_reset_rel T root l bits root' : prel C T root -> tree_reset C l bits = Ok root' -> exists T', p_reset C T l bits = Ok T' /\ prel C T' root'.
  Proof.
    intros H Hr. destruct (packed_clear_rel T root H) as (T1 & gone & H1 & H2 & _). unfold p_reset, p_reset_leaves. rewrite H1. cbn [bind].
    destruct l as [|x l]; cbn [tree_reset] in Hr. { injection Hr as <-. exists T1. auto. }
    destruct (build C (length (x :: l)) bits (x :: l) None) as [t| | |] eqn:E; cbn [bind] in Hr; try discriminate. injection Hr as <-.
    destruct T1 as [A r]. destruct H2 as [H2r H2]. cbn [p_arena p_root] in *. subst r.
    destruct (node_sim _ bits _ _ _ E A None None) as (A' & r' & p & f & B1 & B2 & B3 & B4 & B5 & B6). { split; reflexivity. } cbn [hooked] in B4. subst r'.
    assert (Hn := build_nodes C _ _ _ _ _ E). assert (Hl := leaves_nodes t). assert (Hl' := leaves_pos t). rewrite B6 by lia. clear B6.
    rewrite H2 in B2. cbn [app] in B2. assert (Hb := build_built C _ _ _ _ _ E).
    assert (Hend : forall k, p_reset_loop C k (mk_ptree A' (Some p)) bits [] = Ok (mk_ptree A' (Some p), None)) by (destruct k; reflexivity).
    rewrite Hend. cbn [bind]. unfold p_masks. cbn [p_root p_arena]. destruct (c_tree C) eqn:Ec; cbn [negb bind].
    - destruct (masks_sim Ec (length (ar_cells A')) A' [(p, t, p :: f)] []) as (order & A2 & R1 & R2 & R3 & R4 & _).
      + unfold area. cbn [map List.concat snd]. rewrite app_nil_r, <- (Permutation_length B2). unfold live, size. rewrite seq_length. lia.
      + constructor; [exists f; auto|constructor].
      + constructor; [exact Hb|constructor].
      + unfold area. cbn [map List.concat snd]. rewrite app_nil_r. eapply live_nodup; eauto using Permutation_sym.
      + cbn [ptrs map fst snd length app] in R1. rewrite R1. cbn [bind]. rewrite R2. cbn [bind]. eexists. split; [reflexivity|].
        apply Forall_cons_iff in R3 as [(f' & Hx & R3) _]. cbn [fst snd] in *. injection Hx as <-. exists p, f. split; auto. split; auto. cbn [p_arena].
        rewrite (same_size_live _ _ R4). now apply Permutation_sym.
    - eexists. split; [reflexivity|]. exists p, f. split; auto. cbn [p_arena]. split; [eapply chain_done; eauto|]. now apply Permutation_sym.
  Qed.
End Reset.
