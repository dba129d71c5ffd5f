(** HashTable with a hash and a key equality that may answer anything (C73). *)
From Coq Require Import List Arith Bool NArith Lia Permutation.
From Verif.Base Require Import Res Arr Lists.
From Verif.Spec Require Import HMap HLoose.
From Verif.HashTable Require Import Model Proofs.
Import ListNotations.

Section AnyEqual.
  Context {K V : Type}.
  Variable keq : K -> K -> bool.
  Variable hash : K -> N.

  Notation node := (node K V).
  Notation table := (table K V).
  Notation bin := (bin K hash).
  (** The invariant of [Proofs] with an equality that accepts nothing says nothing about the keys. *)
  Notation inv := (inv (fun _ _ : K => false) hash).

  Lemma search_any (t : table) l x n k : inv t l -> node_at (t_nodes t) x n -> keq (n_key n) k = true ->
    exists k' v', nth_error l x = Some (k', v') /\ keq k' k = true.
  Proof.
    intros Hi Hn He. pose proof (i_kv _ _ _ _ Hi x) as Hkv. rewrite (node_kv _ _ _ Hn) in Hkv. exists (n_key n), (n_val n). auto.
  Qed.

  Lemma lookup_any (t : table) l k : inv t l -> exists o, ht_lookup K V keq hash t k = Ok o /\ hloose keq l (HLookup k) (HOFound o) l.
  Proof.
    intros Hi. destruct (i_rep _ _ _ _ Hi) as (chs & Hr & Hp). unfold ht_lookup.
    pose proof (bin_lt hash (t_log t) k) as Hbl. rewrite <- (r_size _ _ _ _ _ Hr) in Hbl.
    destruct (nth_error_lt (t_bins t) _ Hbl) as [p Hpb]. destruct (nth_error_lt chs (bin (t_log t) k)) as [c Hc]; [rewrite (r_len _ _ _ _ _ Hr); auto|].
    unfold vget. rewrite Hpb. cbn [of_option bind]. pose proof (r_chain _ _ _ _ _ Hr _ _ _ Hpb Hc) as Hch.
    destruct (find_ok keq (t_nodes t) k p c (length (t_nodes t)) Hch) as (o & -> & Ho).
    { eapply chain_len; eauto. eapply nodup_concat_nth; eauto. eapply r_nodup; eauto. }
    exists o. split; auto. destruct o as [x|]; [|constructor]. destruct Ho as (_ & n & Hn & He).
    destruct (search_any t l x n k Hi Hn He) as (k' & v' & H1 & H2). econstructor; eauto.
  Qed.

  Lemma insert_any (t : table) l k v : inv t l -> exists t' b h l', ht_insert K V keq hash t k v = Ok (t', (b, h)) /\ inv t' l' /\
    hloose keq l (HInsert k v) (HOInserted b h) l'.
  Proof.
    intros Hi. pose proof Hi as [(chs & Hr & Hp) Hlen Hkv Hkeys Hcnt Hmax]. unfold ht_insert.
    pose proof (bin_lt hash (t_log t) k) as Hbl. rewrite <- (r_size _ _ _ _ _ Hr) in Hbl.
    destruct (nth_error_lt (t_bins t) _ Hbl) as [p Hpb]. destruct (nth_error_lt chs (bin (t_log t) k)) as [c Hc]; [rewrite (r_len _ _ _ _ _ Hr); auto|].
    unfold vget. rewrite Hpb. cbn [of_option bind]. pose proof (r_chain _ _ _ _ _ Hr _ _ _ Hpb Hc) as Hch.
    assert (Hlc : length c <= length (t_nodes t)).
    { eapply chain_len; eauto. eapply nodup_concat_nth; eauto. eapply r_nodup; eauto. }
    set (nodes1 := t_nodes t ++ [Some (mk_node k v None)]).
    assert (Hq1 : node_at nodes1 (length (t_nodes t)) (mk_node k v None)).
    { unfold node_at, nodes1. rewrite nth_snoc, Nat.eqb_refl. reflexivity. }
    assert (Hbound : forall x, In x (concat chs) -> x < length (t_nodes t)).
    { intros x Hx. apply (Permutation_in _ Hp) in Hx. apply in_seq in Hx. lia. }
    assert (Hqc : ~ In (length (t_nodes t)) (concat chs)) by (intros H; apply Hbound in H; lia).
    assert (Hr1 : rep hash (t_log t) (t_bins t) nodes1 chs).
    { destruct Hr as [R1 R2 R3 R4 R5]. split; auto.
      - intros i p' l' Hi' Hl'. apply chain_more. eauto.
      - intros i l' x n Hl' Hx Hn. eapply R5; eauto. unfold node_at, nodes1 in *. rewrite nth_snoc in Hn.
        destruct (Nat.eqb_spec x (length (t_nodes t))) as [->|]; auto. exfalso. apply Hqc. apply in_concat_nth. eauto. }
    pose proof (rep_append hash _ _ _ _ _ _ Hr1 Hq1 eq_refl Hqc _ p c Hpb Hc eq_refl) as Hap.
    assert (Hp1 : Permutation (concat (upd chs (bin (t_log t) k) (c ++ [length (t_nodes t)]))) (seq 0 (length (l ++ [(k, v)])))).
    { rewrite (concat_upd_snoc _ _ _ _ Hc), Hp, app_length. simpl. rewrite Nat.add_1_r, seq_S. simpl. rewrite Hlen. apply Permutation_cons_append. }
    assert (Hkv1 : forall x, kv nodes1 x = nth_error (l ++ [(k, v)]) x).
    { intros x. rewrite nth_snoc, <- Hlen, <- Hkv. unfold kv, nodes1. rewrite nth_snoc. destruct (x =? length (t_nodes t)); reflexivity. }
    assert (Hlen1 : length nodes1 = length (l ++ [(k, v)])) by (unfold nodes1; rewrite !app_length; simpl; lia).
    destruct p as [r|].
    - destruct (walk_ok keq (t_nodes t) k c r (length (t_nodes t)) Hch Hlc) as (x & b & -> & Hb). cbn [bind]. destruct b.
      + destruct Hb as (_ & n & Hn & He). destruct (search_any t l x n k Hi Hn He) as (k' & v' & H1 & H2).
        exists t, false, x, l. split; auto. split; auto. econstructor; eauto.
      + destruct Hb as (_ & c' & Hcc). unfold makeNode. fold nodes1. destruct Hap as (y & n & _ & (c'' & Hcc') & Hn & Hr2).
        assert (y = x) by (rewrite Hcc in Hcc'; apply app_inj_tail in Hcc' as [_ H]; auto). subst y.
        rewrite (set_next_ok _ _ _ _ Hn). cbn [bind]. set (nodes2 := upd nodes1 x (Some (mk_node (n_key n) (n_val n) (Some (length (t_nodes t)))))) in *.
        destruct (grow_if_full_ok (fun _ _ => false) hash (mk_table (t_log t) (t_bins t) nodes2 (S (t_count t)) (t_binCount t) (t_max t)) (l ++ [(k, v)])) as (t' & -> & Hi' & _).
        * split; cbn [t_log t_bins t_nodes t_count t_max]; auto; try discriminate.
          -- eauto.
          -- unfold nodes2. now rewrite upd_length.
          -- intros z. unfold nodes2. rewrite kv_set_next by auto. apply Hkv1.
          -- rewrite app_length. simpl. lia.
        * cbn [bind]. exists t', true, (length (t_nodes t)), (l ++ [(k, v)]). split; auto. split; auto. rewrite Hlen. constructor.
    - inversion Hch; subst c. unfold makeNode. fold nodes1. rewrite vset_ok by auto. cbn [bind].
      destruct (grow_if_full_ok (fun _ _ => false) hash (mk_table (t_log t) (upd (t_bins t) (bin (t_log t) k) (Some (length (t_nodes t)))) nodes1 (S (t_count t)) (t_binCount t) (t_max t)) (l ++ [(k, v)])) as (t' & -> & Hi' & _).
      + split; cbn [t_log t_bins t_nodes t_count t_max]; auto; try discriminate.
        * eauto.
        * rewrite app_length. simpl. lia.
      + cbn [bind]. exists t', true, (length (t_nodes t)), (l ++ [(k, v)]). split; auto. split; auto. rewrite Hlen. constructor.
  Qed.

  Lemma step_any (t : table) l o : inv t l ->
    match ht_step K V keq hash t o with
    | Ok (t', r) => exists l', inv t' l' /\ hloose keq l o r l'
    | UB => bad_handle (length l) o
    | _ => False
    end.
  Proof.
    intros Hi. destruct o as [k v|k|h|h|h v]; cbn [ht_step].
    - destruct (insert_any t l k v Hi) as (t' & b & h & l' & -> & Hi' & H). cbn [bind]. eauto.
    - destruct (lookup_any t l k Hi) as (o & -> & H). cbn [bind]. eauto.
    - rewrite (key_ok _ _ t l h Hi). unfold vget. destruct (nth_error l h) as [[k v]|] eqn:Hh; cbn [of_option bind].
      + exists l. split; auto. econstructor; eauto.
      + now apply nth_error_None in Hh.
    - rewrite (value_ok _ _ t l h Hi). unfold vget. destruct (nth_error l h) as [[k v]|] eqn:Hh; cbn [of_option bind].
      + exists l. split; auto. econstructor; eauto.
      + now apply nth_error_None in Hh.
    - pose proof (setValue_ok _ _ t l h v Hi) as H. destruct (nth_error l h) as [[k v0]|] eqn:Hh.
      + destruct H as (t' & -> & Hi' & _). cbn [bind]. exists (upd l h (k, v)). split; auto. econstructor; eauto.
      + rewrite H. cbn [bind]. now apply nth_error_None in Hh.
  Qed.

  Lemma run_any ops : forall t l, inv t l ->
    match run (ht_step K V keq hash) t ops with
    | Ok (t', rs) => exists l', inv t' l' /\ hloose_trace keq l ops rs l'
    | UB => exists pre o post rs l', ops = pre ++ o :: post /\ hloose_trace keq l pre rs l' /\ bad_handle (length l') o
    | _ => False
    end.
  Proof.
    induction ops as [|o ops IH]; intros t l Hi; cbn [run].
    - exists l. split; auto. constructor.
    - pose proof (step_any t l o Hi) as Hs. destruct (ht_step K V keq hash t o) as [[t1 r]| | |]; cbn [bind]; try contradiction.
      + destruct Hs as (l1 & Hi1 & Hl). specialize (IH t1 l1 Hi1). destruct (run (ht_step K V keq hash) t1 ops) as [[t2 rs]| | |]; cbn [bind]; try contradiction.
        * destruct IH as (l2 & Hi2 & Ht). exists l2. split; auto. econstructor; eauto.
        * destruct IH as (pre & o' & post & rs & l' & -> & Ht & Hb). exists (o :: pre), o', post, (r :: rs), l'. split; auto. split; auto. econstructor; eauto.
      + exists [], o, ops, [], l. split; auto. split; auto. constructor.
  Qed.

  Lemma ht_any nbits ops :
    match run (ht_step K V keq hash) (ht_new K V nbits) ops with
    | Ok (t, rs) => exists l, hloose_trace keq [] ops rs l /\ t_count t = length l /\ ht_computeNodeCount K V t = Ok (length l)
    | UB => exists pre o post rs l, ops = pre ++ o :: post /\ hloose_trace keq [] pre rs l /\ bad_handle (length l) o
    | _ => False
    end.
  Proof.
    pose proof (run_any ops _ _ (new_inv (fun _ _ => false) hash nbits)) as H.
    destruct (run (ht_step K V keq hash) (ht_new K V nbits) ops) as [[t rs]| | |]; auto.
    destruct H as (l & Hi & Ht). exists l. split; auto. destruct (nodeCount_ok _ _ _ _ Hi) as [H1 H2]. rewrite <- H2. auto.
  Qed.
End AnyEqual.
