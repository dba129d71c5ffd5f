(** Proofs about HashTable. *)
From Coq Require Import List Arith Bool NArith Lia Permutation.
From Verif.Base Require Import Res Arr Lists.
From Verif.Spec Require Import HMap.
From Verif.HashTable Require Import Model.
Import ListNotations.

Section Proofs.
  Context {K V : Type}.
  Variable keq : K -> K -> bool.
  Variable hash : K -> N.
  Hypothesis keq_refl : forall a, keq a a = true.
  Hypothesis keq_sym : forall a b, keq a b = true -> keq b a = true.
  Hypothesis keq_trans : forall a b c, keq a b = true -> keq b c = true -> keq a c = true.
  Hypothesis hash_keq : forall a b, keq a b = true -> hash a = hash b.

  Notation node := (node K V).
  Notation table := (table K V).
  Notation bin := (bin K hash).

  Lemma bin_lt log k : bin log k < 2 ^ log.
  Proof.
    unfold bin. rewrite N.shiftl_1_l, <- N.ones_equiv, N.land_ones.
    assert (H : (hash k mod 2 ^ N.of_nat log < 2 ^ N.of_nat log)%N) by (apply N.mod_lt, N.pow_nonzero; discriminate).
    apply Nat.lt_le_trans with (N.to_nat (2 ^ N.of_nat log)); [lia|]. rewrite N2Nat.inj_pow, Nat2N.id. apply le_n.
  Qed.

  (** ** Chains *)
  Inductive chain (nodes : list (option node)) : option nat -> list nat -> Prop :=
  | ch_nil : chain nodes None []
  | ch_cons x n l : nth_error nodes x = Some (Some n) -> chain nodes (n_next n) l -> chain nodes (Some x) (x :: l).

  Lemma chain_ext nodes nodes' p l : chain nodes p l -> (forall x, In x l -> nth_error nodes' x = nth_error nodes x) -> chain nodes' p l.
  Proof.
    intros H. induction H as [|x n l Hx H IH]; intros Hs; [constructor|]. econstructor.
    - rewrite Hs; [exact Hx|now left].
    - apply IH. intros y Hy. apply Hs. now right.
  Qed.
  Lemma chain_frame nodes p l x v : chain nodes p l -> ~ In x l -> chain (upd nodes x v) p l.
  Proof. intros H Hn. eapply chain_ext; eauto. intros y Hy. apply nth_upd_other. intros ->. contradiction. Qed.
  Lemma chain_more nodes ext p l : chain nodes p l -> chain (nodes ++ ext) p l.
  Proof.
    intros H. induction H as [|x n l Hx H IH]; [constructor|]. econstructor; [|exact IH].
    rewrite nth_error_app1; auto. now apply nth_error_some_lt in Hx.
  Qed.
  Lemma chain_bound nodes p l x : chain nodes p l -> In x l -> x < length nodes.
  Proof. intros H. induction H as [|y n l Hx H IH]; [intros []|]. intros [<-|Hi]; auto. now apply nth_error_some_lt in Hx. Qed.

  Definition node_at (nodes : list (option node)) (x : nat) (n : node) : Prop := nth_error nodes x = Some (Some n).

  Lemma deref_ok nodes x n : node_at nodes x n -> deref K V nodes x = Ok n.
  Proof. intros H. unfold deref, vget. now rewrite H. Qed.

  (** ** The searches *)
  Lemma find_ok nodes k : forall p l fuel, chain nodes p l -> length l <= fuel ->
    exists o, find K V keq fuel nodes p k = Ok o /\
      match o with
      | None => forall x n, In x l -> node_at nodes x n -> keq (n_key n) k = false
      | Some x => In x l /\ exists n, node_at nodes x n /\ keq (n_key n) k = true
      end.
  Proof.
    intros p l fuel H. revert fuel. induction H as [|x n l Hx H IH]; intros fuel Hf.
    - exists None. split; [destruct fuel; reflexivity|]. intros x n [].
    - destruct fuel as [|fuel]; [simpl in Hf; lia|]. cbn [find]. rewrite (deref_ok _ _ _ Hx). cbn [bind].
      destruct (keq (n_key n) k) eqn:He.
      + exists (Some x). split; auto. split; [now left|]. exists n. auto.
      + destruct (IH fuel) as (o & Ho & Hm); [simpl in Hf; lia|]. exists o. split; auto. destruct o as [y|].
        * destruct Hm as [Hy Hm]. split; [now right|auto].
        * intros y m [<-|Hy] Hn; eauto. unfold node_at in Hn. congruence.
  Qed.

  Lemma walk_ok nodes k : forall l p fuel, chain nodes (Some p) l -> length l <= fuel ->
    exists x b, walk K V keq fuel nodes p k = Ok (x, b) /\
      match b with
      | false => (forall x n, In x l -> node_at nodes x n -> keq (n_key n) k = false) /\ exists l', l = l' ++ [x]
      | true => In x l /\ exists n, node_at nodes x n /\ keq (n_key n) k = true
      end.
  Proof.
    induction l as [|y l IH]; intros p fuel H Hf; inversion H as [|x n l0 Hx Hc]; subst.
    destruct fuel as [|fuel]; [simpl in Hf; lia|]. cbn [walk]. rewrite (deref_ok _ _ _ Hx). cbn [bind].
    destruct (keq (n_key n) k) eqn:He.
    - exists y, true. split; auto. split; [now left|eauto].
    - destruct (n_next n) as [q|] eqn:Hq.
      + destruct (IH q fuel) as (x & b & Hw & Hm); [auto|simpl in Hf; lia|]. exists x, b. split; auto. destruct b.
        * destruct Hm. split; [now right|auto].
        * destruct Hm as [Hm (l' & ->)]. split; [|now exists (y :: l')]. intros z m [<-|Hz] Hn; eauto. unfold node_at in Hn. congruence.
      + exists y, false. inversion Hc; subst. split; auto. split; [|now exists []]. intros z m [<-|[]] Hn. unfold node_at in Hn. congruence.
  Qed.

  Lemma walk_end_ok nodes : forall l p fuel, chain nodes (Some p) l -> length l <= fuel ->
    exists x l', walk_end K V fuel nodes p = Ok x /\ l = l' ++ [x].
  Proof.
    induction l as [|y l IH]; intros p fuel H Hf; inversion H as [|x n l0 Hx Hc]; subst.
    destruct fuel as [|fuel]; [simpl in Hf; lia|]. cbn [walk_end]. rewrite (deref_ok _ _ _ Hx). cbn [bind].
    destruct (n_next n) as [q|] eqn:Hq.
    - destruct (IH q fuel) as (x & l' & Hw & ->); [auto|simpl in Hf; lia|]. exists x, (y :: l'). auto.
    - exists y, []. inversion Hc; subst. auto.
  Qed.

  (** ** Changing links *)
  Definition kv (nodes : list (option node)) (x : nat) : option (K * V) :=
    match nth_error nodes x with Some (Some n) => Some (n_key n, n_val n) | _ => None end.

  Lemma set_next_ok nodes x n q : node_at nodes x n ->
    set_next K V nodes x q = Ok (upd nodes x (Some (mk_node (n_key n) (n_val n) q))).
  Proof. intros H. unfold set_next. rewrite (deref_ok _ _ _ H). cbn [bind]. apply vset_ok. now apply nth_error_some_lt in H. Qed.

  Lemma kv_set_next nodes x n q y : node_at nodes x n -> kv (upd nodes x (Some (mk_node (n_key n) (n_val n) q))) y = kv nodes y.
  Proof.
    intros H. unfold kv. destruct (Nat.eq_dec x y) as [<-|Hn].
    - rewrite nth_upd_same by (now apply nth_error_some_lt in H). rewrite H. reflexivity.
    - now rewrite nth_upd_other.
  Qed.

  Lemma node_set_next nodes x n q : node_at nodes x n -> node_at (upd nodes x (Some (mk_node (n_key n) (n_val n) q))) x (mk_node (n_key n) (n_val n) q).
  Proof. intros H. unfold node_at. apply nth_upd_same. now apply nth_error_some_lt in H. Qed.

  Lemma chain_snoc nodes q nq : node_at nodes q nq -> n_next nq = None -> forall l p x n, chain nodes p (l ++ [x]) -> NoDup (l ++ [x]) -> ~ In q (l ++ [x]) ->
    node_at nodes x n -> chain (upd nodes x (Some (mk_node (n_key n) (n_val n) (Some q)))) p (l ++ [x; q]).
  Proof.
    intros Hq Hqn. induction l as [|y l IH]; intros p x n H Hd Hi Hx; simpl in *.
    - inversion H as [|? m ? Hm Hc]; subst. apply ch_cons with (n := mk_node (n_key n) (n_val n) (Some q)).
      + now apply node_set_next.
      + cbn [n_next]. apply ch_cons with (n := nq); [|rewrite Hqn; constructor]. rewrite nth_upd_other; auto.
    - inversion H as [|? m ? Hm Hc]; subst. inversion Hd as [|? ? Hnx Hd']; subst.
      assert (Hxy : x <> y) by (intros ->; apply Hnx; apply in_or_app; right; now left).
      apply ch_cons with (n := m); [rewrite nth_upd_other; auto|]. apply IH; auto.
  Qed.

  (** ** The table represents a list of chains *)
  Record rep (log : nat) (bins : list (option nat)) (nodes : list (option node)) (chs : list (list nat)) : Prop := {
    r_size : length bins = 2 ^ log;
    r_len : length chs = length bins;
    r_chain : forall i p l, nth_error bins i = Some p -> nth_error chs i = Some l -> chain nodes p l;
    r_nodup : NoDup (concat chs);
    r_bin : forall i l x n, nth_error chs i = Some l -> In x l -> node_at nodes x n -> bin log (n_key n) = i
  }.

  Lemma chain_node nodes p l x : chain nodes p l -> In x l -> exists n, node_at nodes x n.
  Proof. intros H. induction H as [|y n l Hx H IH]; [intros []|]. intros [<-|Hi]; auto. exists n. exact Hx. Qed.
  Lemma chain_len nodes p l : chain nodes p l -> NoDup l -> length l <= length nodes.
  Proof.
    intros H Hd. rewrite <- (seq_length (length nodes) 0). apply NoDup_incl_length; auto. intros x Hx. apply in_seq.
    pose proof (chain_bound _ _ _ _ H Hx). lia.
  Qed.

  Lemma node_kv nodes x n : node_at nodes x n -> kv nodes x = Some (n_key n, n_val n).
  Proof. intros H. unfold kv. now rewrite H. Qed.
  Lemma kv_node nodes x k v : kv nodes x = Some (k, v) -> exists n, node_at nodes x n /\ n_key n = k /\ n_val n = v.
  Proof.
    unfold kv, node_at. destruct (nth_error nodes x) as [[n|]|]; try discriminate. intros H. injection H as <- <-. eauto.
  Qed.

  (** Appends the node [q], which is in no chain, to a chain. *)
  Lemma rep_append log bins nodes chs q nq : rep log bins nodes chs -> node_at nodes q nq -> n_next nq = None -> ~ In q (concat chs) ->
    forall i p l, nth_error bins i = Some p -> nth_error chs i = Some l -> bin log (n_key nq) = i ->
    match p with
    | None => rep log (upd bins i (Some q)) nodes (upd chs i (l ++ [q]))
    | Some r => exists x n, walk_end K V (length nodes) nodes r = Ok x /\ (exists l', l = l' ++ [x]) /\ node_at nodes x n /\
        rep log bins (upd nodes x (Some (mk_node (n_key n) (n_val n) (Some q)))) (upd chs i (l ++ [q]))
    end.
  Proof.
    intros [Hs Hl Hc Hd Hb] Hq Hqn Hnq i p l Hp Hli Hbin.
    assert (Hil : i < length chs) by (now apply nth_error_some_lt in Hli).
    assert (Hdl : NoDup l) by (eapply nodup_concat_nth; eauto).
    assert (Hql : ~ In q l) by (intros H; apply Hnq; apply in_concat_nth; eauto).
    assert (Hd' : NoDup (concat (upd chs i (l ++ [q])))).
    { eapply nodup_perm; [symmetry; apply concat_upd_snoc; exact Hli|]. now constructor. }
    pose proof (Hc i p l Hp Hli) as Hch. destruct p as [r|].
    - destruct (walk_end_ok nodes l r (length nodes) Hch) as (x & l' & Hw & Hll); [eapply chain_len; eauto|].
      destruct (chain_node _ _ _ x Hch) as (n & Hn); [rewrite Hll; apply in_or_app; right; now left|].
      exists x, n. split; auto. split; [eauto|]. split; auto. split; auto.
      + now rewrite upd_length.
      + intros j p' m Hj Hm. destruct (Nat.eq_dec i j) as [<-|Hij].
        * rewrite nth_upd_same in Hm by auto. injection Hm as <-. rewrite Hp in Hj. injection Hj as <-. rewrite Hll in *.
          rewrite <- app_assoc. simpl. eapply chain_snoc; eauto.
        * rewrite nth_upd_other in Hm by auto. apply chain_frame; [eapply Hc; eauto|]. intros Hx.
          apply Hij. eapply (nodup_concat_disjoint chs i j l m x); eauto. rewrite Hll. apply in_or_app; right; now left.
      + intros j m y ny Hj Hy Hny.
        assert (Hny' : exists ny', node_at nodes y ny' /\ n_key ny' = n_key ny).
        { apply node_kv in Hny. rewrite kv_set_next in Hny by auto. apply kv_node in Hny as (ny' & H1 & H2 & _). eauto. }
        destruct Hny' as (ny' & Hny' & <-). destruct (Nat.eq_dec i j) as [<-|Hij].
        * rewrite nth_upd_same in Hj by auto. injection Hj as <-. apply in_app_or in Hy as [Hy|[<-|[]]]; [eauto|].
          unfold node_at in *. congruence.
        * rewrite nth_upd_other in Hj by auto. eauto.
    - inversion Hch; subst l. simpl in *. assert (Hib : i < length bins) by lia. split; auto.
      + now rewrite upd_length.
      + now rewrite !upd_length.
      + intros j p' m Hj Hm. destruct (Nat.eq_dec i j) as [<-|Hij].
        * rewrite nth_upd_same in Hm by auto. rewrite nth_upd_same in Hj by auto. injection Hm as <-. injection Hj as <-.
          econstructor; [exact Hq|]. rewrite Hqn. constructor.
        * rewrite nth_upd_other in Hm by auto. rewrite nth_upd_other in Hj by auto. eauto.
      + intros j m y ny Hj Hy Hny. destruct (Nat.eq_dec i j) as [<-|Hij].
        * rewrite nth_upd_same in Hj by auto. injection Hj as <-. destruct Hy as [<-|[]]. unfold node_at in *. congruence.
        * rewrite nth_upd_other in Hj by auto. eauto.
  Qed.

  (** ** Growing *)
  Definition relinked (log : nat) (chs rest : list nat) (nodes : list (option node)) (m : res (list (option nat) * list (option node) * nat)) : Prop :=
    exists bins' nodes' bc' chs', m = Ok (bins', nodes', bc') /\ rep log bins' nodes' chs' /\ Permutation (concat chs') (chs ++ rest) /\
      length nodes' = length nodes /\ (forall x, kv nodes' x = kv nodes x) /\
      (forall x, ~ In x (chs ++ rest) -> nth_error nodes' x = nth_error nodes x).

  Lemma rep_frame log bins nodes chs x v : rep log bins nodes chs -> ~ In x (concat chs) -> rep log bins (upd nodes x v) chs.
  Proof.
    intros [Hs Hl Hc Hd Hb] Hx. split; auto.
    - intros i p l Hi Hli. apply chain_frame; eauto. intros H. apply Hx. apply in_concat_nth. eauto.
    - intros i l y n Hi Hy Hn. eapply Hb; eauto. unfold node_at in *. rewrite nth_upd_other in Hn; auto.
      intros ->. apply Hx. apply in_concat_nth. eauto.
  Qed.

  Lemma relink_ok log : forall rest fuel p bins nodes bc chs, chain nodes p rest -> rep log bins nodes chs -> NoDup (concat chs ++ rest) ->
    length rest <= fuel -> relinked log (concat chs) rest nodes (relink K V hash fuel log bins nodes bc p).
  Proof.
    induction rest as [|q rest IH]; intros fuel p bins nodes bc chs Hch Hr Hd Hf; inversion Hch as [|x n l Hq Hch']; subst.
    - exists bins, nodes, bc, chs. split; [destruct fuel; reflexivity|]. split; auto. rewrite app_nil_r. auto 10.
    - destruct fuel as [|fuel]; [simpl in Hf; lia|]. cbn [relink]. rewrite (deref_ok _ _ _ Hq). cbn [bind].
      rewrite (set_next_ok _ _ _ None Hq). cbn [bind]. set (nodes1 := upd nodes q (Some (mk_node (n_key n) (n_val n) None))).
      assert (Hq1 : node_at nodes1 q (mk_node (n_key n) (n_val n) None)) by (now apply node_set_next).
      assert (Hqc : ~ In q (concat chs)).
      { apply nodup_app in Hd as (_ & _ & Hd). intros H. apply (Hd q H). now left. }
      assert (Hqr : ~ In q rest).
      { apply nodup_app in Hd as (_ & Hd & _). now inversion Hd. }
      assert (Hr1 : rep log bins nodes1 chs) by (now apply rep_frame).
      pose proof (bin_lt log (n_key n)) as Hbl. rewrite <- (r_size _ _ _ _ Hr) in Hbl.
      destruct (nth_error_lt bins _ Hbl) as [p' Hp']. destruct (nth_error_lt chs (bin log (n_key n))) as [l Hl]; [rewrite (r_len _ _ _ _ Hr); auto|].
      unfold vget. rewrite Hp'. cbn [of_option bind].
      pose proof (rep_append log bins nodes1 chs q _ Hr1 Hq1 eq_refl Hqc _ p' l Hp' Hl eq_refl) as Hap.
      assert (Hperm : Permutation (concat (upd chs (bin log (n_key n)) (l ++ [q])) ++ rest) (concat chs ++ q :: rest)).
      { rewrite (concat_upd_snoc _ _ _ q Hl). simpl. apply Permutation_middle. }
      assert (Hd2 : NoDup (concat (upd chs (bin log (n_key n)) (l ++ [q])) ++ rest)).
      { eapply nodup_perm; [symmetry; exact Hperm|exact Hd]. }
      assert (Hlen1 : length nodes1 = length nodes) by apply upd_length.
      assert (Hkv1 : forall x, kv nodes1 x = kv nodes x) by (intros x; unfold nodes1; now apply kv_set_next).
      assert (Hch1 : chain nodes1 (n_next n) rest) by (now apply chain_frame).
      destruct p' as [r|].
      + destruct Hap as (x & nx & Hw & (l' & Hll) & Hx & Hr2). rewrite Hlen1 in Hw. rewrite Hw. cbn [bind].
        rewrite (set_next_ok _ _ _ (Some q) Hx). cbn [bind].
        assert (Hxc : In x (concat chs)).
        { apply in_concat_nth. exists (bin log (n_key n)), l. split; auto. rewrite Hll. apply in_or_app; right; now left. }
        assert (Hxr : ~ In x rest).
        { apply nodup_app in Hd as (_ & _ & Hd). intros H. apply (Hd x Hxc). now right. }
        destruct (IH fuel (n_next n) bins (upd nodes1 x (Some (mk_node (n_key nx) (n_val nx) (Some q)))) bc _ (chain_frame _ _ _ _ _ Hch1 Hxr) Hr2 Hd2)
          as (bins' & nodes' & bc' & chs' & -> & Hr' & Hp2 & Hlen & Hkv & Hfr); [simpl in Hf; lia|].
        exists bins', nodes', bc', chs'. split; auto. split; auto. split; [now rewrite Hp2, Hperm|]. split; [rewrite Hlen, upd_length; auto|]. split.
        * intros y. rewrite Hkv, kv_set_next by auto. apply Hkv1.
        * intros y Hy. rewrite Hfr; [|intros H; apply Hy; eapply Permutation_in; [exact Hperm|exact H]].
          rewrite nth_upd_other; [|intros ->; apply Hy; apply in_or_app; now left]. unfold nodes1. rewrite nth_upd_other; auto.
          intros ->. apply Hy. apply in_or_app; right; now left.
      + rewrite (set_next_ok _ _ _ None Hq1). cbn [bind n_key n_val].
        assert (Hn1 : upd nodes1 q (Some (mk_node (n_key n) (n_val n) None)) = nodes1) by (unfold nodes1; apply upd_upd).
        rewrite Hn1. rewrite vset_ok by auto. cbn [bind].
        destruct (IH fuel (n_next n) _ nodes1 (S bc) _ Hch1 Hap Hd2) as (bins' & nodes' & bc' & chs' & -> & Hr' & Hp2 & Hlen & Hkv & Hfr); [simpl in Hf; lia|].
        exists bins', nodes', bc', chs'. split; auto. split; auto. split; [now rewrite Hp2, Hperm|]. split; [congruence|]. split.
        * intros y. rewrite Hkv. apply Hkv1.
        * intros y Hy. rewrite Hfr; [|intros H; apply Hy; eapply Permutation_in; [exact Hperm|exact H]].
          unfold nodes1. rewrite nth_upd_other; auto. intros ->. apply Hy. apply in_or_app; right; now left.
  Qed.

  Lemma relink_all_ok log : forall old olds bins nodes bc chs, Forall2 (chain nodes) old olds -> rep log bins nodes chs ->
    NoDup (concat chs ++ concat olds) -> relinked log (concat chs) (concat olds) nodes (relink_all K V hash log old bins nodes bc).
  Proof.
    induction old as [|p old IH]; intros olds bins nodes bc chs Hf Hr Hd; inversion Hf as [|? l ? olds' Hp Hf']; subst; cbn [relink_all].
    - exists bins, nodes, bc, chs. split; auto. split; auto. simpl. rewrite app_nil_r. auto 10.
    - simpl in Hd. rewrite app_assoc in Hd. pose proof (proj1 (nodup_app _ _) Hd) as (Hd1 & Hd2 & Hd3).
      destruct (relink_ok log l (length nodes) p bins nodes bc chs Hp Hr Hd1) as (bins1 & nodes1 & bc1 & chs1 & -> & Hr1 & Hp1 & Hlen1 & Hkv1 & Hfr1).
      { eapply chain_len; eauto. apply nodup_app in Hd1. tauto. }
      cbn [bind]. destruct (IH olds' bins1 nodes1 bc1 chs1) as (bins' & nodes' & bc' & chs' & -> & Hr' & Hp2 & Hlen & Hkv & Hfr); auto.
      + assert (Hall : forall l' x, In l' olds' -> In x l' -> ~ In x (concat chs ++ l)).
        { intros l' x Hl' Hx H. apply (Hd3 x H). apply in_concat. eauto. }
        clear -Hf' Hall Hfr1. induction Hf' as [|p' l' old olds' Hc Hf' IHf]; constructor.
        * eapply chain_ext; eauto. intros x Hx. apply Hfr1. apply (Hall l'); auto. now left.
        * apply IHf. intros m x Hm Hx. apply (Hall m x); auto. now right.
      + eapply nodup_perm; [|exact Hd]. apply Permutation_app_tail. now symmetry.
      + exists bins', nodes', bc', chs'. split; auto. split; auto.
        assert (Hpp : Permutation (concat chs1 ++ concat olds') (concat chs ++ concat (l :: olds'))).
        { simpl. rewrite app_assoc. now apply Permutation_app_tail. }
        split; [now rewrite Hp2|]. split; [congruence|]. split; [intros x; now rewrite Hkv|].
        intros x Hx. rewrite Hfr by (intros H; apply Hx; eapply Permutation_in; [exact Hpp|exact H]).
        apply Hfr1. intros H. apply Hx. simpl. rewrite app_assoc. apply in_or_app. now left.
  Qed.

  Lemma nth_repeat_inv {A} (a : A) n i x : nth_error (repeat a n) i = Some x -> x = a.
  Proof. intros H. apply nth_error_In in H. now apply repeat_spec in H. Qed.

  Lemma concat_repeat_nil {A} n : concat (repeat (@nil A) n) = [].
  Proof. induction n; simpl; auto. Qed.

  Lemma rep_new log nodes : rep log (repeat None (2 ^ log)) nodes (repeat [] (2 ^ log)).
  Proof.
    split.
    - apply repeat_length.
    - now rewrite !repeat_length.
    - intros i p l Hp Hl. apply nth_repeat_inv in Hp, Hl. subst. constructor.
    - rewrite concat_repeat_nil. constructor.
    - intros i l x n Hl Hx. apply nth_repeat_inv in Hl. subst. destruct Hx.
  Qed.

  Lemma forall2_nth {A B} (R : A -> B -> Prop) (l : list A) : forall l', length l' = length l ->
    (forall i a b, nth_error l i = Some a -> nth_error l' i = Some b -> R a b) -> Forall2 R l l'.
  Proof.
    induction l as [|a l IH]; intros [|b l'] Hl H; simpl in Hl; try discriminate; constructor.
    - apply (H 0); auto.
    - apply IH; [lia|]. intros i x y Hx Hy. apply (H (S i)); auto.
  Qed.

  (** ** The invariant *)
  Record inv (t : table) (l : list (K * V)) : Prop := {
    i_rep : exists chs, rep (t_log t) (t_bins t) (t_nodes t) chs /\ Permutation (concat chs) (seq 0 (length l));
    i_len : length (t_nodes t) = length l;
    i_kv : forall x, kv (t_nodes t) x = nth_error l x;
    i_keys : forall x y k v k' v', nth_error l x = Some (k, v) -> nth_error l y = Some (k', v') -> keq k k' = true -> x = y;
    i_count : t_count t = length l;
    i_max : t_max t = max_count (t_log t)
  }.

  Lemma place_some (l : list (K * V)) : forall k h, place_of keq l k = Some h -> exists k' v, nth_error l h = Some (k', v) /\ keq k' k = true.
  Proof.
    induction l as [|[k' v] l IH]; intros k h H; simpl in H; [discriminate|]. destruct (keq k' k) eqn:He.
    - injection H as <-. simpl. eauto.
    - destruct (place_of keq l k) as [h'|] eqn:Hp; [|discriminate]. injection H as <-. simpl. eauto.
  Qed.
  Lemma place_none (l : list (K * V)) : forall k h k' v, place_of keq l k = None -> nth_error l h = Some (k', v) -> keq k' k = false.
  Proof.
    induction l as [|[k0 v0] l IH]; intros k h k' v H Hh; [destruct h; discriminate|]. simpl in H. destruct (keq k0 k) eqn:He; [discriminate|].
    destruct (place_of keq l k) eqn:Hp; [discriminate|]. destruct h as [|h]; simpl in Hh; [injection Hh as <- <-; auto|eauto].
  Qed.

  Lemma bin_keq log k k' : keq k k' = true -> bin log k = bin log k'.
  Proof. intros H. unfold bin. now rewrite (hash_keq _ _ H). Qed.

  (** What a chain search in the bin of [k] means for the list of entries. *)
  Lemma search_some t l k x i c n chs : inv t l -> rep (t_log t) (t_bins t) (t_nodes t) chs -> nth_error chs i = Some c -> In x c ->
    node_at (t_nodes t) x n -> keq (n_key n) k = true -> place_of keq l k = Some x.
  Proof.
    intros Hi Hr Hc Hx Hn He. pose proof (i_kv _ _ Hi x) as Hkv. rewrite (node_kv _ _ _ Hn) in Hkv. symmetry in Hkv.
    destruct (place_of keq l k) as [h|] eqn:Hp.
    - apply place_some in Hp as (k' & v & Hh & He'). f_equal. eapply (i_keys _ _ Hi); eauto.
    - rewrite (place_none _ _ _ _ _ Hp Hkv) in He. discriminate.
  Qed.
  Lemma search_none t l k c chs : inv t l -> rep (t_log t) (t_bins t) (t_nodes t) chs -> Permutation (concat chs) (seq 0 (length l)) ->
    nth_error chs (bin (t_log t) k) = Some c -> (forall x n, In x c -> node_at (t_nodes t) x n -> keq (n_key n) k = false) ->
    place_of keq l k = None.
  Proof.
    intros Hi Hr Hp Hc Hall. destruct (place_of keq l k) as [h|] eqn:Hpl; auto. exfalso. apply place_some in Hpl as (k' & v & Hh & He).
    pose proof (i_kv _ _ Hi h) as Hkv. rewrite Hh in Hkv. apply kv_node in Hkv as (n & Hn & <- & _).
    assert (Hin : In h (concat chs)).
    { eapply Permutation_in; [symmetry; exact Hp|]. apply in_seq. apply nth_error_some_lt in Hh. lia. }
    apply in_concat_nth in Hin as (i & c' & Hc' & Hx). pose proof (r_bin _ _ _ _ Hr _ _ _ _ Hc' Hx Hn) as Hb.
    rewrite (bin_keq _ _ _ He) in Hb. subst i. rewrite Hc in Hc'. injection Hc' as <-. rewrite (Hall h n Hx Hn) in He. discriminate.
  Qed.

  Lemma lookup_ok t l k : inv t l -> ht_lookup K V keq hash t k = Ok (place_of keq l k).
  Proof.
    intros Hi. destruct (i_rep _ _ Hi) as (chs & Hr & Hp). unfold ht_lookup.
    pose proof (bin_lt (t_log t) k) as Hbl. rewrite <- (r_size _ _ _ _ Hr) in Hbl.
    destruct (nth_error_lt (t_bins t) _ Hbl) as [p Hpb]. destruct (nth_error_lt chs (bin (t_log t) k)) as [c Hc]; [rewrite (r_len _ _ _ _ Hr); auto|].
    unfold vget. rewrite Hpb. cbn [of_option bind]. pose proof (r_chain _ _ _ _ Hr _ _ _ Hpb Hc) as Hch.
    destruct (find_ok (t_nodes t) k p c (length (t_nodes t)) Hch) as (o & -> & Ho).
    { eapply chain_len; eauto. eapply nodup_concat_nth; eauto. eapply r_nodup; eauto. }
    f_equal. symmetry. destruct o as [x|].
    - destruct Ho as (Hx & n & Hn & He). eapply search_some; eauto.
    - eapply search_none; eauto.
  Qed.

  Lemma grow_ok t l nbits : inv t l -> exists t', grow K V hash t nbits = Ok t' /\ inv t' l /\ t_log t' = nbits.
  Proof.
    intros [(chs & Hr & Hp) Hlen Hkv Hkeys Hcnt Hmax]. unfold grow.
    destruct (relink_all_ok nbits (t_bins t) chs (repeat None (2 ^ nbits)) (t_nodes t) 0 (repeat [] (2 ^ nbits))) as
      (bins' & nodes' & bc' & chs' & -> & Hr' & Hp' & Hlen' & Hkv' & _).
    - apply forall2_nth; [now rewrite (r_len _ _ _ _ Hr)|]. apply (r_chain _ _ _ _ Hr).
    - apply rep_new.
    - rewrite concat_repeat_nil. simpl. apply (r_nodup _ _ _ _ Hr).
    - cbn [bind]. eexists; split; [reflexivity|]. split; auto. split; cbn [t_log t_bins t_nodes t_count t_max]; auto.
      + exists chs'. split; auto. rewrite Hp', concat_repeat_nil. exact Hp.
      + congruence.
      + intros x. now rewrite Hkv'.
  Qed.

  Lemma grow_if_full_ok t l : inv t l -> exists t', grow_if_full K V hash t = Ok t' /\ inv t' l /\
    t_log t' = (if N.ltb (t_max t) (N.of_nat (t_count t)) then t_log t + 2 else t_log t).
  Proof.
    intros Hi. unfold grow_if_full. destruct (N.ltb (t_max t) (N.of_nat (t_count t))); [now apply grow_ok|]. eauto.
  Qed.

  Lemma nth_snoc {A} (l : list A) a i : nth_error (l ++ [a]) i = if i =? length l then Some a else nth_error l i.
  Proof.
    destruct (Nat.eqb_spec i (length l)) as [->|Hn].
    - rewrite nth_error_app2, Nat.sub_diag by auto. reflexivity.
    - destruct (Nat.lt_ge_cases i (length l)) as [H|H]; [now rewrite nth_error_app1|].
      rewrite nth_error_app2 by auto. destruct (i - length l) eqn:Hd; [lia|]. simpl. symmetry.
      replace (nth_error (@nil A) n) with (@None A) by (destruct n; reflexivity). now apply nth_error_None.
  Qed.

  Lemma keys_snoc (l : list (K * V)) k v : (forall x y k v k' v', nth_error l x = Some (k, v) -> nth_error l y = Some (k', v') -> keq k k' = true -> x = y) ->
    place_of keq l k = None ->
    forall x y k1 v1 k2 v2, nth_error (l ++ [(k, v)]) x = Some (k1, v1) -> nth_error (l ++ [(k, v)]) y = Some (k2, v2) -> keq k1 k2 = true -> x = y.
  Proof.
    intros Hk Hp x y k1 v1 k2 v2 Hx Hy He. rewrite nth_snoc in Hx, Hy.
    destruct (Nat.eqb_spec x (length l)) as [->|Hnx]; destruct (Nat.eqb_spec y (length l)) as [->|Hny]; auto.
    - injection Hx as <- <-. apply keq_sym in He. rewrite (place_none _ _ _ _ _ Hp Hy) in He. discriminate.
    - injection Hy as <- <-. rewrite (place_none _ _ _ _ _ Hp Hx) in He. discriminate.
    - eauto.
  Qed.

  Definition inserted (t : table) (l : list (K * V)) (k : K) (v : V) (m : res (table * (bool * nat))) : Prop :=
    match place_of keq l k with
    | Some h => m = Ok (t, (false, h))
    | None => exists t', m = Ok (t', (true, length l)) /\ inv t' (l ++ [(k, v)]) /\
                t_log t' = if N.ltb (t_max t) (N.of_nat (S (t_count t))) then t_log t + 2 else t_log t
    end.

  (** insert with any function in the place of [grow_if_full] *)
  Definition insert_with (G : table -> res table) (t : table) (k : K) (v : V) : res (table * (bool * nat)) :=
    let hashval := bin (t_log t) k in
    let* head := vget (t_bins t) hashval in
    match head with
    | None =>
        let (nodes, result) := makeNode K V (t_nodes t) k v in
        let* bins := vset (t_bins t) hashval (Some result) in
        let* t' := G (mk_table (t_log t) bins nodes (S (t_count t)) (t_binCount t) (t_max t)) in
        Ok (t', (true, result))
    | Some p =>
        let* (tmpNode, found) := walk K V keq (length (t_nodes t)) (t_nodes t) p k in
        if (found : bool) then Ok (t, (false, tmpNode)) else
        let (nodes, result) := makeNode K V (t_nodes t) k v in
        let* nodes' := set_next K V nodes tmpNode (Some result) in
        let* t' := G (mk_table (t_log t) (t_bins t) nodes' (S (t_count t)) (t_binCount t) (t_max t)) in
        Ok (t', (true, result))
    end.
  Lemma insert_with_ok t l k v : inv t l ->
    match place_of keq l k with
    | Some h => forall G, insert_with G t k v = Ok (t, (false, h))
    | None => exists t1, (forall G, insert_with G t k v = (let* t' := G t1 in Ok (t', (true, length l)))) /\ inv t1 (l ++ [(k, v)]) /\
                t_log t1 = t_log t /\ t_max t1 = t_max t /\ t_count t1 = S (t_count t)
    end.
  Proof.
    intros Hi. pose proof Hi as [(chs & Hr & Hp) Hlen Hkv Hkeys Hcnt Hmax]. unfold insert_with.
    pose proof (bin_lt (t_log t) k) as Hbl. rewrite <- (r_size _ _ _ _ Hr) in Hbl.
    destruct (nth_error_lt (t_bins t) _ Hbl) as [p Hpb]. destruct (nth_error_lt chs (bin (t_log t) k)) as [c Hc]; [rewrite (r_len _ _ _ _ Hr); auto|].
    unfold vget. rewrite Hpb. cbn [of_option bind]. pose proof (r_chain _ _ _ _ Hr _ _ _ Hpb Hc) as Hch.
    assert (Hlc : length c <= length (t_nodes t)).
    { eapply chain_len; eauto. eapply nodup_concat_nth; eauto. eapply r_nodup; eauto. }
    (* the table with the new node in no chain *)
    set (nodes1 := t_nodes t ++ [Some (mk_node k v None)]).
    assert (Hq1 : node_at nodes1 (length (t_nodes t)) (mk_node k v None)).
    { unfold node_at, nodes1. rewrite nth_snoc, Nat.eqb_refl. reflexivity. }
    assert (Hbound : forall x, In x (concat chs) -> x < length (t_nodes t)).
    { intros x Hx. apply (Permutation_in _ Hp) in Hx. apply in_seq in Hx. lia. }
    assert (Hqc : ~ In (length (t_nodes t)) (concat chs)) by (intros H; apply Hbound in H; lia).
    assert (Hr1 : rep (t_log t) (t_bins t) nodes1 chs).
    { destruct Hr as [R1 R2 R3 R4 R5]. split; auto.
      - intros i p' l' Hi' Hl'. apply chain_more. eauto.
      - intros i l' x n Hl' Hx Hn. eapply R5; eauto. unfold node_at, nodes1 in *. rewrite nth_snoc in Hn.
        destruct (Nat.eqb_spec x (length (t_nodes t))) as [->|]; auto. exfalso. apply Hqc. apply in_concat_nth. eauto. }
    pose proof (rep_append _ _ _ _ _ _ Hr1 Hq1 eq_refl Hqc _ p c Hpb Hc eq_refl) as Hap.
    assert (Hp1 : Permutation (concat (upd chs (bin (t_log t) k) (c ++ [length (t_nodes t)]))) (seq 0 (length (l ++ [(k, v)])))).
    { rewrite (concat_upd_snoc _ _ _ _ Hc), Hp, app_length. simpl. rewrite Nat.add_1_r, seq_S. simpl. rewrite Hlen. apply Permutation_cons_append. }
    assert (Hkv1 : forall x, kv nodes1 x = nth_error (l ++ [(k, v)]) x).
    { intros x. rewrite nth_snoc, <- Hlen, <- Hkv. unfold kv, nodes1. rewrite nth_snoc. destruct (x =? length (t_nodes t)); reflexivity. }
    assert (Hlen1 : length nodes1 = length (l ++ [(k, v)])) by (unfold nodes1; rewrite !app_length; simpl; lia).
    destruct p as [r|].
    - destruct (walk_ok (t_nodes t) k c r (length (t_nodes t)) Hch Hlc) as (x & b & -> & Hb). cbn [bind]. destruct b.
      + destruct Hb as (Hx & n & Hn & He). rewrite (search_some t l k x _ c n chs Hi Hr Hc Hx Hn He). reflexivity.
      + destruct Hb as (Hall & c' & Hcc). rewrite (search_none t l k c chs Hi Hr Hp Hc Hall). unfold makeNode. fold nodes1.
        destruct Hap as (y & n & Hw & (c'' & Hcc') & Hn & Hr2).
        assert (y = x) by (rewrite Hcc in Hcc'; apply app_inj_tail in Hcc' as [_ H]; auto). subst y.
        rewrite (set_next_ok _ _ _ _ Hn). cbn [bind].
        eexists; split; [intros G; rewrite <- Hlen; reflexivity|]. split; [|repeat split].
        { split; cbn [t_log t_bins t_nodes t_count t_max]; auto.
          - eauto.
          - now rewrite upd_length.
          - intros z. rewrite kv_set_next by auto. apply Hkv1.
          - apply keys_snoc; auto. exact (search_none t l k c chs Hi Hr Hp Hc Hall).
          - rewrite app_length. simpl. lia. }
    - inversion Hch; subst c. assert (Hpl : place_of keq l k = None) by (eapply search_none; eauto; intros x n []).
      rewrite Hpl. unfold makeNode. fold nodes1. rewrite vset_ok by auto. cbn [bind].
      eexists; split; [intros G; rewrite <- Hlen; reflexivity|]. split; [|repeat split].
      { split; cbn [t_log t_bins t_nodes t_count t_max]; auto.
        - eauto.
        - apply keys_snoc; auto.
        - rewrite app_length. simpl. lia. }
  Qed.

  Lemma insert_ok t l k v : inv t l -> inserted t l k v (ht_insert K V keq hash t k v).
  Proof.
    intros Hi. pose proof (insert_with_ok t l k v Hi) as H. unfold inserted.
    change (ht_insert K V keq hash t k v) with (insert_with (grow_if_full K V hash) t k v).
    destruct (place_of keq l k) as [h|]; auto. destruct H as (t1 & H & Hi1 & H1 & H2 & H3). rewrite H.
    destruct (grow_if_full_ok t1 _ Hi1) as (t' & -> & Hi' & Hlog). cbn [bind]. exists t'. rewrite Hlog, H1, H2, H3. auto.
  Qed.

  Lemma key_ok t l h : inv t l -> ht_key K V t h = let* (k, _) := vget l h in Ok k.
  Proof.
    intros Hi. unfold ht_key, deref, vget. pose proof (i_kv _ _ Hi h) as Hkv. unfold kv in Hkv.
    destruct (nth_error (t_nodes t) h) as [[n|]|]; rewrite <- Hkv; reflexivity.
  Qed.
  Lemma value_ok t l h : inv t l -> ht_value K V t h = let* (_, v) := vget l h in Ok v.
  Proof.
    intros Hi. unfold ht_value, deref, vget. pose proof (i_kv _ _ Hi h) as Hkv. unfold kv in Hkv.
    destruct (nth_error (t_nodes t) h) as [[n|]|]; rewrite <- Hkv; reflexivity.
  Qed.

  Lemma chain_same_links nodes nodes' p l : chain nodes p l -> (forall x n, In x l -> node_at nodes x n -> exists n', node_at nodes' x n' /\ n_next n' = n_next n) ->
    chain nodes' p l.
  Proof.
    intros H. induction H as [|x n l Hx H IH]; intros Hs; [constructor|].
    destruct (Hs x n) as (n' & Hn' & Hnx); [now left|exact Hx|]. apply ch_cons with (n := n'); auto. rewrite Hnx. apply IH.
    intros y m Hy. apply Hs. now right.
  Qed.

  Lemma setValue_ok t l h v : inv t l ->
    match nth_error l h with
    | None => ht_setValue K V t h v = UB
    | Some (k, _) => exists t', ht_setValue K V t h v = Ok t' /\ inv t' (upd l h (k, v)) /\ t_log t' = t_log t
    end.
  Proof.
    intros Hi. pose proof Hi as [(chs & Hr & Hp) Hlen Hkv Hkeys Hcnt Hmax]. unfold ht_setValue. pose proof (Hkv h) as Hh.
    destruct (nth_error l h) as [[k v0]|] eqn:Hlh.
    - apply kv_node in Hh as (n & Hn & <- & <-). rewrite (deref_ok _ _ _ Hn). cbn [bind].
      assert (Hhl : h < length (t_nodes t)) by (now apply nth_error_some_lt in Hn). rewrite vset_ok by auto. cbn [bind].
      eexists; split; [reflexivity|]. split; auto. set (nodes' := upd (t_nodes t) h (Some (mk_node (n_key n) v (n_next n)))).
      assert (Hnode : forall x m, node_at (t_nodes t) x m -> exists m', node_at nodes' x m' /\ n_next m' = n_next m /\ n_key m' = n_key m).
      { intros x m Hm. unfold node_at, nodes'. destruct (Nat.eq_dec h x) as [<-|Hx].
        - rewrite nth_upd_same by auto. eexists; split; [reflexivity|]. unfold node_at in *. rewrite Hn in Hm. injection Hm as <-. auto.
        - rewrite nth_upd_other by auto. eauto. }
      assert (Hnode' : forall x m, node_at nodes' x m -> exists m', node_at (t_nodes t) x m' /\ n_key m' = n_key m).
      { intros x m Hm. unfold node_at, nodes' in *. destruct (Nat.eq_dec h x) as [<-|Hx].
        - rewrite nth_upd_same in Hm by auto. injection Hm as <-. eauto.
        - rewrite nth_upd_other in Hm by auto. eauto. }
      assert (Hnth : forall x, nth_error (upd l h (n_key n, v)) x = if x =? h then Some (n_key n, v) else nth_error l x).
      { intros x. destruct (Nat.eqb_spec x h) as [->|Hx]; [apply nth_upd_same; now apply nth_error_some_lt in Hlh|now apply nth_upd_other; auto]. }
      split; cbn [t_log t_bins t_nodes t_count t_max]; rewrite ?upd_length; auto.
      + exists chs. split; auto. destruct Hr as [R1 R2 R3 R4 R5]. split; auto.
        * intros i p l' Hi' Hl'. eapply chain_same_links; eauto. intros x m Hx Hm. destruct (Hnode x m Hm) as (m' & H1 & H2 & _). eauto.
        * intros i l' x m Hl' Hx Hm. destruct (Hnode' x m Hm) as (m' & Hm' & <-). eauto.
      + unfold nodes'. now rewrite upd_length.
      + intros x. rewrite Hnth. unfold kv, nodes'. destruct (Nat.eqb_spec x h) as [->|Hx].
        * now rewrite nth_upd_same.
        * rewrite nth_upd_other by auto. apply Hkv.
      + intros x y k1 v1 k2 v2 Hx Hy He. rewrite Hnth in Hx, Hy.
        assert (Hx' : exists v', nth_error l x = Some (k1, v')).
        { destruct (Nat.eqb_spec x h) as [->|]; [injection Hx as <- <-|]; eauto. }
        assert (Hy' : exists v', nth_error l y = Some (k2, v')).
        { destruct (Nat.eqb_spec y h) as [->|]; [injection Hy as <- <-|]; eauto. }
        destruct Hx' as [v1' Hx']. destruct Hy' as [v2' Hy']. eauto.
    - unfold deref, vget. unfold kv in Hh. destruct (nth_error (t_nodes t) h) as [[n|]|]; try discriminate; reflexivity.
  Qed.

  Lemma new_inv nbits : inv (ht_new K V nbits) [].
  Proof.
    unfold ht_new. split; cbn [t_log t_bins t_nodes t_count t_max]; auto.
    - exists (repeat [] (2 ^ nbits)). split; [apply rep_new|]. rewrite concat_repeat_nil. constructor.
    - intros [|x]; reflexivity.
    - intros [|x]; discriminate.
  Qed.

  Lemma step_ok t l o : inv t l ->
    match hmap_step keq l o with
    | Ok (l', r) => exists t', ht_step K V keq hash t o = Ok (t', r) /\ inv t' l'
    | UB => ht_step K V keq hash t o = UB
    | _ => False
    end.
  Proof.
    intros Hi. destruct o as [k v|k|h|h|h v]; cbn [hmap_step ht_step].
    - pose proof (insert_ok t l k v Hi) as H. unfold inserted in H. destruct (place_of keq l k) as [h|].
      + rewrite H. cbn [bind]. eauto.
      + destruct H as (t' & -> & Hi' & _). cbn [bind]. eauto.
    - rewrite (lookup_ok t l k Hi). cbn [bind]. eauto.
    - rewrite (key_ok t l h Hi). destruct (vget l h) as [[k v]| | |] eqn:Hv; cbn [bind]; eauto; unfold vget in Hv; destruct (nth_error l h); discriminate.
    - rewrite (value_ok t l h Hi). destruct (vget l h) as [[k v]| | |] eqn:Hv; cbn [bind]; eauto; unfold vget in Hv; destruct (nth_error l h); discriminate.
    - pose proof (setValue_ok t l h v Hi) as H. unfold vget. destruct (nth_error l h) as [[k v0]|] eqn:Hh; cbn [of_option bind].
      + destruct H as (t' & -> & Hi' & _). rewrite vset_ok by (now apply nth_error_some_lt in Hh). cbn [bind]. eauto.
      + now rewrite H.
  Qed.

  Lemma run_ok ops : forall t l, inv t l ->
    match run (hmap_step keq) l ops with
    | Ok (l', rs) => exists t', run (ht_step K V keq hash) t ops = Ok (t', rs) /\ inv t' l'
    | UB => run (ht_step K V keq hash) t ops = UB
    | _ => False
    end.
  Proof.
    induction ops as [|o ops IH]; intros t l Hi; cbn [run]; eauto.
    pose proof (step_ok t l o Hi) as Hs. destruct (hmap_step keq l o) as [[l1 r]| | |]; cbn [bind]; try contradiction.
    - destruct Hs as (t1 & -> & Hi1). cbn [bind]. specialize (IH t1 l1 Hi1). destruct (run (hmap_step keq) l1 ops) as [[l2 rs]| | |]; cbn [bind]; try contradiction.
      + destruct IH as (t2 & -> & Hi2). cbn [bind]. eauto.
      + now rewrite IH.
    - now rewrite Hs.
  Qed.

  (** ** The node count *)
  Lemma chain_length_ok nodes p l fuel : chain nodes p l -> length l <= fuel -> chain_length K V fuel nodes p = Ok (length l).
  Proof.
    intros H. revert fuel. induction H as [|x n l Hx H IH]; intros fuel Hf.
    - destruct fuel; reflexivity.
    - destruct fuel as [|fuel]; [simpl in Hf; lia|]. cbn [chain_length]. rewrite (deref_ok _ _ _ Hx). cbn [bind].
      rewrite IH by (simpl in Hf; lia). reflexivity.
  Qed.
  Lemma count_all_ok nodes : forall bins chs, Forall2 (chain nodes) bins chs -> NoDup (concat chs) -> count_all K V nodes bins = Ok (length (concat chs)).
  Proof.
    intros bins chs H. induction H as [|p l bins chs Hc H IH]; intros Hd; auto. simpl in Hd. apply nodup_app in Hd as (H1 & H2 & _).
    cbn [count_all]. rewrite (chain_length_ok _ _ _ _ Hc) by (eapply chain_len; eauto). cbn [bind]. rewrite (IH H2). simpl. now rewrite app_length.
  Qed.
  Lemma nodeCount_ok t l : inv t l -> ht_computeNodeCount K V t = Ok (t_count t) /\ t_count t = length l.
  Proof.
    intros [(chs & Hr & Hp) Hlen Hkv Hkeys Hcnt Hmax]. split; auto. unfold ht_computeNodeCount. rewrite (count_all_ok _ _ chs).
    - rewrite (Permutation_length Hp), seq_length. now rewrite Hcnt.
    - apply forall2_nth; [now rewrite (r_len _ _ _ _ Hr)|]. apply (r_chain _ _ _ _ Hr).
    - eapply r_nodup; eauto.
  Qed.

  (** ** Only inserts *)
  (** The pairs that are inserted: those before which no pair with an equal key occurs. *)
  Lemma place_first (kvs : list (K * V)) : forall l k,
    match place_of keq l k with Some h => nth_error l h | None => List.find (fun e => keq (fst e) k) kvs end
      = List.find (fun e => keq (fst e) k) (l ++ kvs).
  Proof.
    induction l as [|[k' v] l IH]; intros k; simpl; auto. destruct (keq k' k); auto. rewrite <- IH.
    destruct (place_of keq l k); reflexivity.
  Qed.
  Lemma run_inserts : forall (kvs l : list (K * V)), exists l' rs, run (hmap_step keq) l (map (fun e => HInsert (fst e) (snd e)) kvs) = Ok (l', rs) /\
    (forall k, List.find (fun e => keq (fst e) k) l' = List.find (fun e => keq (fst e) k) (l ++ kvs)) /\ incl l' (l ++ kvs).
  Proof.
    induction kvs as [|[k v] kvs IH]; intros l; cbn [map run].
    - exists l, []. rewrite app_nil_r. repeat split; auto. apply incl_refl.
    - cbn [hmap_step fst snd]. destruct (place_of keq l k) as [h|] eqn:Hp; cbn [bind].
      + destruct (IH l) as (l' & rs & -> & Hf & Hs). cbn [bind]. exists l', (HOInserted false h :: rs). split; auto. split.
        * intros k1. rewrite Hf. rewrite <- !place_first. destruct (place_of keq l k1) eqn:Hp1; auto. cbn [List.find fst].
          destruct (keq k k1) eqn:He; auto. exfalso. apply place_some in Hp as (k' & v' & Hh & He').
          pose proof (place_none _ _ _ _ _ Hp1 Hh) as H. rewrite (keq_trans _ _ _ He' He) in H. discriminate.
        * intros x Hx. apply Hs in Hx. apply in_app_or in Hx as [Hx|Hx]; apply in_or_app; [now left|right; now right].
      + destruct (IH (l ++ [(k, v)])) as (l' & rs & -> & Hf & Hs). cbn [bind]. exists l', (HOInserted true (length l) :: rs). split; auto.
        rewrite <- app_assoc in Hf, Hs. split; auto.
  Qed.

  (** ** The load of the table *)
  Lemma max_grows log : 2 <= log -> (N.succ (max_count log) <= max_count (log + 2))%N.
  Proof.
    intros H. unfold max_count. rewrite !N.shiftl_mul_pow2, Nat2N.inj_add. change (N.of_nat 2) with 2%N. rewrite N.pow_add_r.
    assert (Hp : (4 <= 2 ^ N.of_nat log)%N) by (change 4%N with (2 ^ 2)%N; apply N.pow_le_mono_r; lia).
    set (p := (2 ^ N.of_nat log)%N) in *. set (b := (1 * 2 ^ 55)%N). change (2 ^ 2)%N with 4%N.
    assert (Hb : b = 36028797018963968%N) by reflexivity. clearbody b. subst b. clearbody p.
    apply N.div_le_lower_bound; [discriminate|]. pose proof (N.mul_div_le (3602879701896397 * p) 36028797018963968) as Hd.
    specialize (Hd ltac:(discriminate)). set (m := (3602879701896397 * p / 36028797018963968)%N) in *. clearbody m. lia.
  Qed.

  Definition load (t : table) : Prop := 2 <= t_log t /\ (N.of_nat (t_count t) <= t_max t)%N.

  Lemma step_load t l o t' r : inv t l -> load t -> ht_step K V keq hash t o = Ok (t', r) -> load t'.
  Proof.
    intros Hi [Hl Hc] H. destruct o as [k v|k|h|h|h v]; cbn [ht_step] in H.
    - pose proof (insert_ok t l k v Hi) as Hin. unfold inserted in Hin. destruct (place_of keq l k) as [h|] eqn:Hp.
      + rewrite Hin in H. cbn [bind] in H. injection H as <- <-. now split.
      + destruct Hin as (t1 & H1 & Hi1 & Hlog). rewrite H1 in H. cbn [bind] in H. injection H as <- <-. clear H1.
        assert (Hn : N.of_nat (t_count t1) = N.succ (N.of_nat (t_count t))).
        { rewrite (i_count _ _ Hi1), (i_count _ _ Hi), app_length. simpl. lia. }
        unfold load. rewrite Hn, (i_max _ _ Hi1), Hlog. pose proof (i_max _ _ Hi) as Hm. destruct (N.ltb_spec (t_max t) (N.of_nat (S (t_count t)))) as [Hf|Hf].
        * split; [lia|]. pose proof (max_grows _ Hl). lia.
        * split; auto. rewrite Nat2N.inj_succ in Hf. lia.
    - rewrite (lookup_ok t l k Hi) in H. cbn [bind] in H. injection H as <- <-. now split.
    - destruct (ht_key K V t h); cbn [bind] in H; try discriminate. injection H as <- <-. now split.
    - destruct (ht_value K V t h); cbn [bind] in H; try discriminate. injection H as <- <-. now split.
    - unfold ht_setValue in H. destruct (deref K V (t_nodes t) h); cbn [bind] in H; try discriminate.
      destruct (vset _ _ _); cbn [bind] in H; try discriminate. injection H as <- <-. now split.
  Qed.

  Lemma run_load ops : forall t l t' rs, inv t l -> load t -> run (ht_step K V keq hash) t ops = Ok (t', rs) -> load t'.
  Proof.
    induction ops as [|o ops IH]; intros t l t' rs Hi Hl H; cbn [run] in H; [now injection H as <- <-|].
    destruct (ht_step K V keq hash t o) as [[t1 r]| | |] eqn:Hs; cbn [bind] in H; try discriminate.
    destruct (run _ t1 ops) as [[t2 rs2]| | |] eqn:Hr; cbn [bind] in H; try discriminate. injection H as <- <-.
    pose proof (step_ok t l o Hi) as Hok. destruct (hmap_step keq l o) as [[l1 r1]| | |]; try contradiction.
    - destruct Hok as (t1' & Hs' & Hi1). rewrite Hs in Hs'. injection Hs' as <- <-. apply (IH t1 l1 t2 rs2 Hi1 (step_load _ _ _ _ _ Hi Hl Hs) Hr).
    - rewrite Hs in Hok. discriminate.
  Qed.

  Lemma new_load nbits : 2 <= nbits -> load (ht_new K V nbits).
  Proof. intros H. split; auto. cbn. lia. Qed.
  Lemma load_bound t l : inv t l -> load t -> (2 ^ 55 * N.of_nat (length l) <= 3602879701896397 * N.of_nat (length (t_bins t)))%N.
  Proof.
    intros Hi [_ H]. rewrite (i_count _ _ Hi), (i_max _ _ Hi) in H. destruct (i_rep _ _ Hi) as (chs & Hr & _). rewrite (r_size _ _ _ _ Hr), Nat2N.inj_pow.
    change (N.of_nat 2) with 2%N. unfold max_count in H. rewrite !N.shiftl_mul_pow2 in H. change (1 * 2 ^ 55)%N with (2 ^ 55)%N in H.
    eapply N.le_trans; [apply N.mul_le_mono_l; exact H|]. now apply N.mul_div_le.
  Qed.
  Lemma load_tenth t l : inv t l -> load t -> t_log t < 54 -> (10 * N.of_nat (length l) <= N.of_nat (length (t_bins t)))%N.
  Proof.
    intros Hi Hl Hlog. pose proof (load_bound t l Hi Hl) as H. destruct (i_rep _ _ Hi) as (chs & Hr & _). rewrite (r_size _ _ _ _ Hr), Nat2N.inj_pow in *.
    change (N.of_nat 2) with 2%N in *. assert (Hp : (2 ^ N.of_nat (t_log t) <= 2 ^ 53)%N) by (apply N.pow_le_mono_r; lia).
    change (2 ^ 53)%N with 9007199254740992%N in Hp. change (2 ^ 55)%N with 36028797018963968%N in H. lia.
  Qed.

  (** ** After any history *)
  Lemma run_new_inv nbits ops t rs : run (ht_step K V keq hash) (ht_new K V nbits) ops = Ok (t, rs) -> exists l, run (hmap_step keq) [] ops = Ok (l, rs) /\ inv t l.
  Proof.
    intros H. pose proof (run_ok ops _ _ (new_inv nbits)) as Hr. destruct (run (hmap_step keq) [] ops) as [[l rs']| | |]; try contradiction.
    - destruct Hr as (t' & Hr & Hi). rewrite H in Hr. injection Hr as <- <-. eauto.
    - rewrite H in Hr. discriminate.
  Qed.
  Lemma inv_size t l : inv t l -> length (t_bins t) = 2 ^ t_log t.
  Proof. intros Hi. destruct (i_rep _ _ Hi) as (chs & Hr & _). exact (r_size _ _ _ _ Hr). Qed.

  Theorem ht_refines nbits ops :
    match run (hmap_step keq) [] ops with
    | Ok (l, rs) => exists t, run (ht_step K V keq hash) (ht_new K V nbits) ops = Ok (t, rs) /\
        t_count t = length l /\ ht_computeNodeCount K V t = Ok (length l)
    | _ => run (ht_step K V keq hash) (ht_new K V nbits) ops = UB
    end.
  Proof.
    pose proof (run_ok ops _ _ (new_inv nbits)) as Hr. destruct (run (hmap_step keq) [] ops) as [[l rs']| | |]; try contradiction; auto.
    destruct Hr as (t & Hr & Hi). exists t. split; auto. destruct (nodeCount_ok _ _ Hi) as [H1 H2]. rewrite <- H2. auto.
  Qed.

  Theorem ht_first_insert nbits kvs : exists t rs,
    run (ht_step K V keq hash) (ht_new K V nbits) (map (fun e => HInsert (fst e) (snd e)) kvs) = Ok (t, rs) /\
    forall k, match List.find (fun e => keq (fst e) k) kvs with
    | None => ht_lookup K V keq hash t k = Ok None
    | Some (k', v) => exists h, ht_lookup K V keq hash t k = Ok (Some h) /\ ht_key K V t h = Ok k' /\ ht_value K V t h = Ok v
    end.
  Proof.
    pose proof (run_ok (map (fun e => HInsert (fst e) (snd e)) kvs) _ _ (new_inv nbits)) as Hr. destruct (run_inserts kvs []) as (l & rs & Hl & Hf & _).
    rewrite Hl in Hr. destruct Hr as (t & Hr & Hi). exists t, rs. split; auto. intros k. simpl in Hf. rewrite <- Hf.
    pose proof (place_first [] l k) as Hp. rewrite app_nil_r in Hp. rewrite <- Hp. rewrite (lookup_ok t l k Hi).
    destruct (place_of keq l k) as [h|] eqn:Hpl; simpl; auto. apply place_some in Hpl as (k' & v & Hh & _). rewrite Hh.
    exists h. split; auto. rewrite (key_ok _ _ h Hi), (value_ok _ _ h Hi). unfold vget. rewrite Hh. auto.
  Qed.

  Theorem ht_distinct ops : forall (l : list (K * V)) rs, run (hmap_step keq) [] ops = Ok (l, rs) ->
    forall x y k v k' v', nth_error l x = Some (k, v) -> nth_error l y = Some (k', v') -> keq k k' = true -> x = y.
  Proof.
    intros l rs H. pose proof (run_ok ops _ _ (new_inv 0)) as Hr. rewrite H in Hr. destruct Hr as (t & _ & Hi). exact (i_keys _ _ Hi).
  Qed.

  Theorem ht_growth nbits ops t rs k v t' b h : run (ht_step K V keq hash) (ht_new K V nbits) ops = Ok (t, rs) ->
    ht_insert K V keq hash t k v = Ok (t', (b, h)) ->
    length (t_bins t) = 2 ^ t_log t /\
    t_log t' = (if b && N.ltb (max_count (t_log t)) (N.of_nat (S (t_count t))) then t_log t + 2 else t_log t) /\
    length (t_bins t') = 2 ^ t_log t'.
  Proof.
    intros Hr H. apply run_new_inv in Hr as (l & _ & Hi). pose proof (insert_ok t l k v Hi) as Hin. unfold inserted in Hin.
    split; [eapply inv_size; eauto|]. destruct (place_of keq l k) as [h'|].
    - rewrite H in Hin. injection Hin as -> -> ->. simpl. split; auto. eapply inv_size; eauto.
    - destruct Hin as (t1 & H1 & Hi1 & Hlog). rewrite H in H1. injection H1 as -> -> ->. simpl. rewrite <- (i_max _ _ Hi). split; auto.
      eapply inv_size; eauto.
  Qed.

  Theorem ht_load nbits ops t rs : 2 <= nbits -> run (ht_step K V keq hash) (ht_new K V nbits) ops = Ok (t, rs) ->
    (2 ^ 55 * N.of_nat (t_count t) <= 3602879701896397 * N.of_nat (length (t_bins t)))%N /\
    (length (t_bins t) < 2 ^ 54 -> (10 * N.of_nat (t_count t) <= N.of_nat (length (t_bins t)))%N).
  Proof.
    intros Hn H. pose proof H as Hr. apply run_new_inv in H as (l & _ & Hi).
    pose proof (run_load _ _ _ _ _ (new_inv nbits) (new_load nbits Hn) Hr) as Hl.
    rewrite (i_count _ _ Hi). split; [now apply load_bound|]. intros Hlt. apply load_tenth; auto. rewrite (inv_size _ _ Hi) in Hlt.
    now apply Nat.pow_lt_mono_r_iff in Hlt; [|auto].
  Qed.

  Theorem ht_grow_keeps nbits ops t rs n : run (ht_step K V keq hash) (ht_new K V nbits) ops = Ok (t, rs) -> exists t', grow K V hash t n = Ok t' /\
    length (t_bins t') = 2 ^ n /\ forall ops', match run (ht_step K V keq hash) t ops' with
      | Ok (_, rs') => exists t2, run (ht_step K V keq hash) t' ops' = Ok (t2, rs')
      | r => run (ht_step K V keq hash) t' ops' = r
      end.
  Proof.
    intros Hr. apply run_new_inv in Hr as (l & _ & Hi). destruct (grow_ok t l n Hi) as (t' & Hg & Hi' & Hlog). exists t'. split; auto.
    split; [rewrite (inv_size _ _ Hi'); now rewrite Hlog|]. intros ops'. pose proof (run_ok ops' _ _ Hi) as H1. pose proof (run_ok ops' _ _ Hi') as H2.
    destruct (run (hmap_step keq) l ops') as [[l2 rs2]| | |]; try contradiction.
    - destruct H1 as (t1 & -> & _). destruct H2 as (t2 & -> & _). eauto.
    - now rewrite H1, H2.
  Qed.
End Proofs.
