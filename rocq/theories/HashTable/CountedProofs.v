(** How often HashTable calls the functions of its configuration. *)
From Coq Require Import List Arith Bool NArith Lia Permutation.
From Verif.Base Require Import Res Arr Lists Count.
From Verif.Spec Require Import HMap.
From Verif.HashTable Require Import Model Proofs Counted.
Import ListNotations.

Section Cost.
  Context {K V : Type}.
  Variable keq : K -> K -> bool.
  Variable hash : K -> N.
  Hypothesis keq_sym : forall a b, keq a b = true -> keq b a = true.
  Hypothesis keq_trans : forall a b c, keq a b = true -> keq b c = true -> keq a c = true.
  Hypothesis keq_hash : forall a b, keq a b = true -> hash a = hash b.
  Variable wh wk : nat.
  Notation node := (node K V).
  Notation table := (table K V).
  Notation bin := (bin K hash).
  Notation inv := (inv keq hash).

  (** ** Forgetting the counter *)
  Lemma forget_tick w : forget (tick w) = Ok tt.
  Proof. reflexivity. Qed.

  Ltac fg := repeat (rewrite ?forget_bind, ?forget_free, ?forget_tick; cbn [bind]); try reflexivity.

  Lemma walk_forget fuel : forall nodes p k, forget (walk_c K V keq wk fuel nodes p k) = walk K V keq fuel nodes p k.
  Proof.
    induction fuel as [|fuel IH]; intros nodes p k; cbn [walk_c walk]; [reflexivity|]. fg. apply bind_ext; auto. intros n. fg.
    destruct (keq (n_key n) k); fg. destruct (n_next n); fg. apply IH.
  Qed.
  Lemma find_forget fuel : forall nodes p k, forget (find_c K V keq wk fuel nodes p k) = find K V keq fuel nodes p k.
  Proof.
    induction fuel as [|fuel IH]; intros nodes [q|] k; cbn [find_c find]; try reflexivity. fg. apply bind_ext; auto. intros n. fg.
    destruct (keq (n_key n) k); fg. apply IH.
  Qed.
  Lemma relink_forget log fuel : forall bins nodes bc p, forget (relink_c K V hash wh fuel log bins nodes bc p) = relink K V hash fuel log bins nodes bc p.
  Proof.
    induction fuel as [|fuel IH]; intros bins nodes bc [q|]; cbn [relink_c relink]; try reflexivity. fg. apply bind_ext; auto. intros n. fg.
    apply bind_ext; auto. intros nodes1. fg. apply bind_ext; auto. intros [r|]; fg; (apply bind_ext; [auto|]); intros x; fg; (apply bind_ext; [auto|]); intros y; apply IH.
  Qed.
  Lemma relink_all_forget log old : forall bins nodes bc, forget (relink_all_c K V hash wh log old bins nodes bc) = relink_all K V hash log old bins nodes bc.
  Proof.
    induction old as [|p old IH]; intros bins nodes bc; cbn [relink_all_c relink_all]; [reflexivity|]. fg. rewrite relink_forget.
    apply bind_ext; auto. intros [[a b] c]. apply IH.
  Qed.
  Lemma grow_if_full_forget (t : table) : forget (grow_if_full_c K V hash wh t) = grow_if_full K V hash t.
  Proof.
    unfold grow_if_full_c, grow_if_full. destruct (_ <? _)%N; [|reflexivity]. unfold grow_c, grow. fg. rewrite relink_all_forget.
    apply bind_ext; auto. intros [[a b] c]. reflexivity.
  Qed.
  Lemma insert_forget (t : table) k v : forget (ht_insert_c K V keq hash wh wk t k v) = ht_insert K V keq hash t k v.
  Proof.
    unfold ht_insert_c, ht_insert. fg. apply bind_ext; auto. intros [p|].
    - fg. rewrite walk_forget. apply bind_ext; auto. intros [x b]. cbn [fst snd]. destruct b; fg. unfold makeNode. fg. apply bind_ext; auto. intros nodes'. fg.
      rewrite grow_if_full_forget. apply bind_ext; auto.
    - unfold makeNode. fg. apply bind_ext; auto. intros bins. fg. rewrite grow_if_full_forget. apply bind_ext; auto.
  Qed.
  Lemma lookup_forget (t : table) k : forget (ht_lookup_c K V keq hash wh wk t k) = ht_lookup K V keq hash t k.
  Proof. unfold ht_lookup_c, ht_lookup. fg. apply bind_ext; auto. intros p. apply find_forget. Qed.
  Lemma step_forget (t : table) o : forget (ht_step_c K V keq hash wh wk t o) = ht_step K V keq hash t o.
  Proof.
    destruct o; cbn [ht_step_c ht_step]; fg.
    - rewrite insert_forget. apply bind_ext; auto. intros [t' [b h]]. reflexivity.
    - rewrite lookup_forget. apply bind_ext; auto.
  Qed.
  Lemma run_forget ops : forall t : table, forget (ht_run_c K V keq hash wh wk t ops) = run (ht_step K V keq hash) t ops.
  Proof.
    induction ops as [|o ops IH]; intros t; cbn [ht_run_c run]; [reflexivity|]. fg. rewrite step_forget. apply bind_ext; auto. intros [t1 r]. cbn [fst snd]. fg.
    rewrite IH. apply bind_ext; auto. intros [t2 rs]. reflexivity.
  Qed.

  (** ** Loops count at most once per unit of fuel, and more fuel makes no difference *)
  Lemma of_forget {A} (m : counted A) a : forget m = Ok a -> exists n, m = Ok (a, n).
  Proof. destruct m as [[b n]| | |]; cbn; try discriminate. intros H. injection H as ->. eauto. Qed.

  Ltac inv_ok H :=
    repeat match type of H with
    | cbind _ _ = Ok _ => let a := fresh "a" in let c := fresh "c" in let d := fresh "d" in let H1 := fresh "Q" in let H2 := fresh "E" in
        apply cbind_ok in H as (a & c & d & H1 & H & H2);
        first [apply free_ok in H1 as [H1 ->] | (unfold tick in H1; injection H1 as <- <-) | idtac]
    end.

  Lemma walk_fuel fuel : forall nodes p k x n, walk_c K V keq wk fuel nodes p k = Ok (x, n) -> n <= wk * fuel /\ forall more, walk_c K V keq wk (fuel + more) nodes p k = Ok (x, n).
  Proof.
    induction fuel as [|fuel IH]; intros nodes p k x n H; [discriminate|]. cbn [walk_c] in H. inv_ok H. subst. cbn [Nat.add].
    destruct (keq (n_key a) k) eqn:He; [|destruct (n_next a) as [q|] eqn:Hn].
    - apply free_ok in H as [H ->]. injection H as <-. split; [lia|]. intros more. cbn [walk_c]. rewrite Q. cbn. rewrite He. reflexivity.
    - destruct (IH _ _ _ _ _ H) as [Hb Hm]. split; [lia|]. intros more. cbn [walk_c]. rewrite Q. cbn. rewrite He, Hn, Hm. reflexivity.
    - apply free_ok in H as [H ->]. injection H as <-. split; [lia|]. intros more. cbn [walk_c]. rewrite Q. cbn. rewrite He, Hn. reflexivity.
  Qed.
  Lemma find_fuel fuel : forall nodes p k x n, find_c K V keq wk fuel nodes p k = Ok (x, n) -> n <= wk * fuel /\ forall more, find_c K V keq wk (fuel + more) nodes p k = Ok (x, n).
  Proof.
    induction fuel as [|fuel IH]; intros nodes [q|] k x n H; try discriminate.
    - cbn in H. injection H as <- <-. split; [lia|]. intros more. destruct more; reflexivity.
    - cbn [find_c] in H. inv_ok H. subst. cbn [Nat.add]. destruct (keq (n_key a) k) eqn:He.
      + apply free_ok in H as [H ->]. injection H as <-. split; [lia|]. intros more. cbn [find_c]. rewrite Q. cbn. rewrite He. reflexivity.
      + destruct (IH _ _ _ _ _ H) as [Hb Hm]. split; [lia|]. intros more. cbn [find_c]. rewrite Q. cbn. rewrite He, Hm. reflexivity.
    - cbn in H. injection H as <- <-. split; [lia|]. intros more. reflexivity.
  Qed.
  Lemma relink_fuel log fuel : forall bins nodes bc p x n, relink_c K V hash wh fuel log bins nodes bc p = Ok (x, n) ->
    n <= wh * fuel /\ forall more, relink_c K V hash wh (fuel + more) log bins nodes bc p = Ok (x, n).
  Proof.
    induction fuel as [|fuel IH]; intros bins nodes bc [q|] x n H; try discriminate.
    - cbn in H. injection H as <- <-. split; [lia|]. intros more. destruct more; reflexivity.
    - cbn [relink_c] in H. inv_ok H. cbn [Nat.add]. destruct a1 as [r|]; inv_ok H; destruct (IH _ _ _ _ _ _ H) as [Hb Hm]; subst; (split; [lia|]); intros more; cbn [relink_c];
        rewrite Q; cbn [free bind cbind]; rewrite Q0; cbn [free bind cbind tick]; rewrite Q1; cbn [free bind cbind]; rewrite Q2; cbn [free bind cbind]; rewrite Q3; cbn [free bind cbind];
        rewrite Hm; reflexivity.
    - cbn in H. injection H as <- <-. split; [lia|]. intros more. reflexivity.
  Qed.

  (** ** Growing hashes every entry once *)
  Lemma relink_cost log rest bins nodes bc p chs x n : chain nodes p rest -> rep hash log bins nodes chs -> NoDup (concat chs ++ rest) ->
    relink_c K V hash wh (length nodes) log bins nodes bc p = Ok (x, n) -> n <= wh * length rest.
  Proof.
    intros Hch Hr Hd H. destruct (relink_ok hash log rest (length rest) p bins nodes bc chs Hch Hr Hd (le_n _)) as (bins' & nodes' & bc' & chs' & Hok & _).
    rewrite <- relink_forget in Hok. apply of_forget in Hok as [m Hok]. apply relink_fuel in Hok as [Hb Hm].
    assert (Hl : length rest <= length nodes) by (eapply chain_len; eauto; apply nodup_app in Hd; tauto).
    specialize (Hm (length nodes - length rest)). replace (length rest + (length nodes - length rest)) with (length nodes) in Hm by lia.
    rewrite Hm in H. injection H as _ <-. exact Hb.
  Qed.
  Lemma relink_all_cost log : forall old olds bins nodes bc chs x n, Forall2 (chain nodes) old olds -> rep hash log bins nodes chs ->
    NoDup (concat chs ++ concat olds) -> relink_all_c K V hash wh log old bins nodes bc = Ok (x, n) -> n <= wh * length (concat olds).
  Proof.
    induction old as [|p old IH]; intros olds bins nodes bc chs x n Hf Hr Hd H; inversion Hf as [|? l ? olds' Hp Hf']; subst; cbn [relink_all_c] in H.
    - apply free_ok in H as [_ ->]. lia.
    - apply cbind_ok in H as (a & c & d & H1 & H2 & ->). simpl in Hd. rewrite app_assoc in Hd. pose proof (proj1 (nodup_app _ _) Hd) as (Hd1 & Hd2 & Hd3).
      pose proof (relink_cost _ _ _ _ _ _ _ _ _ Hp Hr Hd1 H1) as Hc. simpl. rewrite app_length.
      destruct (relink_ok hash log l (length nodes) p bins nodes bc chs Hp Hr Hd1) as (bins1 & nodes1 & bc1 & chs1 & Hok & Hr1 & Hp1 & Hlen1 & Hkv1 & Hfr1).
      { eapply chain_len; eauto. apply nodup_app in Hd1. tauto. }
      rewrite <- relink_forget in Hok. rewrite H1 in Hok. cbn in Hok. injection Hok as ->. cbn [fst snd] in H2.
      assert (d <= wh * length (concat olds')); [|lia]. eapply IH; [| |  |exact H2].
      + assert (Hall : forall l' x, In l' olds' -> In x l' -> ~ In x (concat chs ++ l)).
        { intros l' y Hl' Hx H. apply (Hd3 y H). apply in_concat. eauto. }
        clear -Hf' Hall Hfr1. induction Hf' as [|p' l' old olds' Hc Hf' IHf]; constructor.
        * eapply chain_ext; eauto. intros x Hx. apply Hfr1. apply (Hall l'); auto. now left.
        * apply IHf. intros m x Hm Hx. apply (Hall m x); auto. now right.
      + exact Hr1.
      + eapply nodup_perm; [|exact Hd]. apply Permutation_app_tail. now symmetry.
  Qed.
  Lemma grow_if_full_cost (t : table) l t' n : inv t l -> grow_if_full_c K V hash wh t = Ok (t', n) ->
    n <= if N.ltb (t_max t) (N.of_nat (t_count t)) then wh * length l else 0.
  Proof.
    intros [(chs & Hr & Hp) Hlen Hkv Hkeys Hcnt Hmax] H. unfold grow_if_full_c in H. destruct (_ <? _)%N.
    - unfold grow_c in H. apply cbind_ok in H as (a & c & d & H1 & H2 & ->). apply free_ok in H2 as [_ ->].
      assert (c <= wh * length (concat chs)).
      { eapply relink_all_cost; [| |  |exact H1].
        - apply forall2_nth; [now rewrite (r_len _ _ _ _ _ Hr)|]. apply (r_chain _ _ _ _ _ Hr).
        - apply rep_new.
        - rewrite concat_repeat_nil. simpl. apply (r_nodup _ _ _ _ _ Hr). }
      rewrite (Permutation_length Hp), seq_length in H. lia.
    - apply free_ok in H as [_ ->]. lia.
  Qed.

  (** ** The search compares the key with entries of one bin *)
  Definition colliding (log : nat) (l : list (K * V)) (k : K) : list (K * V) := filter (fun e => bin log (fst e) =? bin log k) l.

  Lemma filter_seq {A} (p : A -> bool) (l : list A) : forall b,
    length (filter (fun x => match nth_error l (x - b) with Some a => p a | None => false end) (seq b (length l))) = length (filter p l).
  Proof.
    induction l as [|a l IH]; intros b; [reflexivity|]. cbn [length seq filter]. rewrite Nat.sub_diag. cbn [nth_error]. specialize (IH (S b)).
    assert (He : filter (fun x => match nth_error (a :: l) (x - b) with Some a0 => p a0 | None => false end) (seq (S b) (length l)) =
                 filter (fun x => match nth_error l (x - S b) with Some a0 => p a0 | None => false end) (seq (S b) (length l))).
    { apply filter_ext_in. intros x Hx. apply in_seq in Hx. replace (x - b) with (S (x - S b)) by lia. reflexivity. }
    destruct (p a); cbn [length]; rewrite He, IH; reflexivity.
  Qed.
  Lemma chain_colliding (t : table) l k chs c : inv t l -> rep hash (t_log t) (t_bins t) (t_nodes t) chs -> Permutation (concat chs) (seq 0 (length l)) ->
    nth_error chs (bin (t_log t) k) = Some c -> length c = length (colliding (t_log t) l k).
  Proof.
    intros Hi Hr Hp Hc. unfold colliding. rewrite <- (filter_seq _ l 0). apply Permutation_length. apply NoDup_Permutation.
    - eapply nodup_concat_nth; eauto. eapply r_nodup; eauto.
    - apply NoDup_filter, seq_NoDup.
    - intros x. rewrite filter_In, Nat.sub_0_r. split.
      + intros Hx. assert (Hin : In x (concat chs)) by (apply in_concat_nth; eauto). split; [eapply Permutation_in; eauto|].
        apply (Permutation_in _ Hp), in_seq in Hin. destruct (nth_error_lt l x) as [[k' v'] Hn]; [lia|]. rewrite Hn. cbn [fst].
        rewrite <- (i_kv _ _ _ _ Hi) in Hn. apply kv_node in Hn as (n & Hn & <- & _). apply Nat.eqb_eq. eapply (r_bin _ _ _ _ _ Hr); eauto.
      + intros [Hx Hb]. apply (Permutation_in _ (Permutation_sym Hp)), in_concat_nth in Hx as (j & c' & Hj & Hx).
        destruct (nth_error l x) as [[k' v']|] eqn:Hn; [|discriminate]. apply Nat.eqb_eq in Hb. cbn [fst] in Hb.
        rewrite <- (i_kv _ _ _ _ Hi) in Hn. apply kv_node in Hn as (n & Hn & <- & _). pose proof (r_bin _ _ _ _ _ Hr _ _ _ _ Hj Hx Hn) as Hb'.
        rewrite Hb' in Hb. subst j. congruence.
  Qed.

  Lemma walk_cost nodes k l p x n : chain nodes (Some p) l -> length l <= length nodes -> walk_c K V keq wk (length nodes) nodes p k = Ok (x, n) ->
    n <= wk * length l.
  Proof.
    intros Hch Hl H. destruct (walk_ok keq nodes k l p (length l) Hch (le_n _)) as (y & b & Hok & _). rewrite <- walk_forget in Hok.
    apply of_forget in Hok as [m Hok]. apply walk_fuel in Hok as [Hb Hm]. specialize (Hm (length nodes - length l)).
    replace (length l + (length nodes - length l)) with (length nodes) in Hm by lia. rewrite Hm in H. injection H as _ <-. exact Hb.
  Qed.
  Lemma find_cost nodes k l p x n : chain nodes p l -> length l <= length nodes -> find_c K V keq wk (length nodes) nodes p k = Ok (x, n) ->
    n <= wk * length l.
  Proof.
    intros Hch Hl H. destruct (find_ok keq nodes k p l (length l) Hch (le_n _)) as (o & Hok & _). rewrite <- find_forget in Hok.
    apply of_forget in Hok as [m Hok]. apply find_fuel in Hok as [Hb Hm]. specialize (Hm (length nodes - length l)).
    replace (length l + (length nodes - length l)) with (length nodes) in Hm by lia. rewrite Hm in H. injection H as _ <-. exact Hb.
  Qed.
  Lemma find_all nodes k l : forall fuel p n, chain nodes p l -> find_c K V keq wk fuel nodes p k = Ok (None, n) -> n = wk * length l.
  Proof.
    induction l as [|y l IH]; intros fuel p n Hch H; inversion Hch as [|x nd l0 Hx Hc]; subst.
    - destruct fuel; cbn in H; injection H as <-; cbn [length]; lia.
    - destruct fuel as [|fuel]; [discriminate|]. cbn [find_c] in H. inv_ok H. rewrite (deref_ok _ _ _ Hx) in Q. injection Q as <-. subst.
      destruct (keq (n_key nd) k); [apply free_ok in H as [H _]; discriminate|]. rewrite (IH _ _ _ Hc H). cbn [length]. lia.
  Qed.

  Lemma lookup_cost (t : table) l k o n : inv t l -> ht_lookup_c K V keq hash wh wk t k = Ok (o, n) ->
    n <= wh + wk * length (colliding (t_log t) l k) /\ (o = None -> n = wh + wk * length (colliding (t_log t) l k)).
  Proof.
    intros Hi H. pose proof Hi as [(chs & Hr & Hp) Hlen Hkv Hkeys Hcnt Hmax]. unfold ht_lookup_c in H. inv_ok H. subst.
    pose proof (bin_lt hash (t_log t) k) as Hbl. rewrite <- (r_size _ _ _ _ _ Hr) in Hbl.
    destruct (nth_error_lt chs (bin (t_log t) k)) as [c Hc]; [rewrite (r_len _ _ _ _ _ Hr); auto|].
    unfold vget in Q. destruct (nth_error (t_bins t) (bin (t_log t) k)) as [p|] eqn:Hpb; [|discriminate]. injection Q as <-.
    pose proof (r_chain _ _ _ _ _ Hr _ _ _ Hpb Hc) as Hch. rewrite <- (chain_colliding t l k chs c Hi Hr Hp Hc).
    assert (Hlc : length c <= length (t_nodes t)). { eapply chain_len; eauto. eapply nodup_concat_nth; eauto. eapply r_nodup; eauto. }
    split.
    - pose proof (find_cost _ _ _ _ _ _ Hch Hlc H). lia.
    - intros ->. pose proof (find_all _ _ _ _ _ _ Hch H). lia.
  Qed.

  Lemma insert_cost (t : table) l k v x n : inv t l -> ht_insert_c K V keq hash wh wk t k v = Ok (x, n) ->
    n <= wh + wk * length (colliding (t_log t) l k) +
         match place_of keq l k with Some _ => 0 | None => if N.ltb (t_max t) (N.of_nat (S (t_count t))) then wh * S (length l) else 0 end.
  Proof.
    intros Hi H. pose proof Hi as [(chs & Hr & Hp) Hlen Hkv Hkeys Hcnt Hmax]. pose proof (insert_with_ok keq hash keq_sym keq_trans keq_hash t l k v Hi) as Hw.
    unfold ht_insert_c in H. inv_ok H. subst. pose proof (bin_lt hash (t_log t) k) as Hbl. rewrite <- (r_size _ _ _ _ _ Hr) in Hbl.
    destruct (nth_error_lt chs (bin (t_log t) k)) as [c Hc]; [rewrite (r_len _ _ _ _ _ Hr); auto|]. unfold insert_with in Hw. rewrite Q in Hw. cbn [bind] in Hw.
    unfold vget in Q. destruct (nth_error (t_bins t) (bin (t_log t) k)) as [p|] eqn:Hpb; [|discriminate]. injection Q as <-.
    pose proof (r_chain _ _ _ _ _ Hr _ _ _ Hpb Hc) as Hch. rewrite <- (chain_colliding t l k chs c Hi Hr Hp Hc).
    assert (Hlc : length c <= length (t_nodes t)). { eapply chain_len; eauto. eapply nodup_concat_nth; eauto. eapply r_nodup; eauto. }
    destruct p as [p|].
    - apply cbind_ok in H as ([y b] & c1 & d1 & H1 & H & ->). pose proof (walk_cost _ _ _ _ _ _ Hch Hlc H1) as Hcost.
      assert (Hwk : walk K V keq (length (t_nodes t)) (t_nodes t) p k = Ok (y, b)) by (rewrite <- (walk_forget (length (t_nodes t))), H1; reflexivity).
      rewrite Hwk in Hw. cbn [bind fst snd] in *. destruct b.
      + apply free_ok in H as [_ ->]. lia.
      + unfold makeNode in *. inv_ok H. destruct (place_of keq l k) as [h|]; [specialize (Hw (fun t => Ok t)); rewrite Q in Hw; discriminate|].
        destruct Hw as (t1 & Hw & Hi1 & _ & Hm1 & Hc1). specialize (Hw (fun t => Ok t)). rewrite Q in Hw. cbn [bind] in Hw.
        match type of Q0 with grow_if_full_c _ _ _ _ ?T = _ => assert (HT : T = t1) by congruence end. rewrite HT in Q0.
        pose proof (grow_if_full_cost _ _ _ _ Hi1 Q0) as Hg. rewrite Hm1, Hc1, app_length in Hg. cbn [length] in Hg. rewrite Nat.add_1_r in Hg.
        apply free_ok in H as [_ ->]. lia.
    - unfold makeNode in *. inv_ok H. destruct (place_of keq l k) as [h|]; [specialize (Hw (fun t => Ok t)); rewrite Q in Hw; discriminate|].
      destruct Hw as (t1 & Hw & Hi1 & _ & Hm1 & Hc1). specialize (Hw (fun t => Ok t)). rewrite Q in Hw. cbn [bind] in Hw.
      match type of Q0 with grow_if_full_c _ _ _ _ ?T = _ => assert (HT : T = t1) by congruence end. rewrite HT in Q0.
      pose proof (grow_if_full_cost _ _ _ _ Hi1 Q0) as Hg. rewrite Hm1, Hc1, app_length in Hg. cbn [length] in Hg. rewrite Nat.add_1_r in Hg.
      apply free_ok in H as [_ ->]. lia.
  Qed.
End Cost.

(** ** Growing is paid for by the insertions before it *)
Lemma max_small : max_count 0 = 0%N /\ max_count 1 = 0%N /\ max_count 2 = 0%N /\ max_count 3 = 0%N /\ max_count 4 = 1%N /\ max_count 5 = 3%N /\ max_count 6 = 6%N.
Proof. vm_compute. auto 10. Qed.
Lemma max_times4 log : (4 * max_count log <= max_count (log + 2))%N.
Proof.
  unfold max_count. rewrite !N.shiftl_mul_pow2, Nat2N.inj_add. change (N.of_nat 2) with 2%N. rewrite N.pow_add_r.
  set (p := (2 ^ N.of_nat log)%N) in *. set (b := (1 * 2 ^ 55)%N). change (2 ^ 2)%N with 4%N.
  assert (Hb : b = 36028797018963968%N) by reflexivity. clearbody b. subst b. clearbody p.
  apply N.div_le_lower_bound; [discriminate|]. pose proof (N.mul_div_le (3602879701896397 * p) 36028797018963968) as Hd.
  specialize (Hd ltac:(discriminate)). set (m := (3602879701896397 * p / 36028797018963968)%N) in *. clearbody m. lia.
Qed.
Lemma max_positive log : 4 <= log -> (1 <= max_count log)%N.
Proof.
  intros H. unfold max_count. rewrite !N.shiftl_mul_pow2.
  assert (Hp : (16 <= 2 ^ N.of_nat log)%N) by (change 16%N with (2 ^ 4)%N; apply N.pow_le_mono_r; lia).
  set (p := (2 ^ N.of_nat log)%N) in *. set (b := (1 * 2 ^ 55)%N).
  assert (Hb : b = 36028797018963968%N) by reflexivity. clearbody b. subst b. clearbody p.
  apply N.div_le_lower_bound; [discriminate|]. lia.
Qed.

(** In a table of [2 ^ log] bins with [len] entries the hash values computed by growing so far are at most [R]. *)
Definition paid (log len R : nat) : Prop :=
  R <= 2 * len /\
  ((N.of_nat len <= max_count log /\ N.of_nat R <= max_count log + 1 /\ (max_count log = 0 -> R = 0%nat))%N \/
   ((log = 2 \/ log = 3) /\ len = 1 /\ R <= 1) \/ (log = 4 /\ len = 2 /\ R <= 3)).
Definition full (log len : nat) : bool := N.ltb (max_count log) (N.of_nat (S len)).
Lemma paid_new log : paid log 0 0.
Proof. split; [lia|]. left. repeat split; lia. Qed.
Lemma paid_insert log len R : paid log len R -> paid (if full log len then log + 2 else log) (S len) (R + if full log len then S len else 0).
Proof.
  destruct max_small as (M0 & M1 & M2 & M3 & M4 & M5 & M6). intros [H2 H]. unfold full.
  destruct H as [(Hl & HR & H0)|[([->| ->] & -> & HR)|(-> & -> & HR)]].
  - destruct (N.ltb_spec (max_count log) (N.of_nat (S len))) as [Hf|Hf].
    + assert (Hlen : N.of_nat len = max_count log) by lia. destruct (Nat.lt_ge_cases log 4) as [Hs|Hs].
      * assert (Hm : max_count log = 0%N). { destruct log as [|[|[|[|log]]]]; try assumption. lia. }
        rewrite Hm in *. specialize (H0 eq_refl). subst R. assert (len = 0) by lia. subst len. split; [lia|].
        destruct log as [|[|[|[|log]]]]; try lia; cbn [Nat.add].
        -- left. rewrite M4. repeat split; try lia.
        -- left. rewrite M5. repeat split; try lia.
      * pose proof (max_positive log Hs). pose proof (max_times4 log). split; [lia|]. left. repeat split; lia.
    + rewrite Nat.add_0_r. split; [lia|]. left. repeat split; try lia.
  - rewrite M2. change (0 <? N.of_nat 2)%N with true. cbv iota. split; [lia|]. right; right. lia.
  - rewrite M3. change (0 <? N.of_nat 2)%N with true. cbv iota. split; [lia|]. left. change (3 + 2) with 5. rewrite M5. repeat split; try lia.
  - rewrite M4. change (1 <? N.of_nat 3)%N with true. cbv iota. split; [lia|]. left. change (4 + 2) with 6. rewrite M6. repeat split; try lia.
Qed.

Section Run.
  Context {K V : Type}.
  Variable keq : K -> K -> bool.
  Variable hash : K -> N.
  Hypothesis keq_sym : forall a b, keq a b = true -> keq b a = true.
  Hypothesis keq_trans : forall a b c, keq a b = true -> keq b c = true -> keq a c = true.
  Hypothesis keq_hash : forall a b, keq a b = true -> hash a = hash b.
  Notation table := (table K V).
  Notation inv := (inv keq hash).

  (** The calls that take a key *)
  Definition asks (o : hop K V) : nat := match o with HInsert _ _ | HLookup _ => 1 | _ => 0 end.
  Definition list_asks (ops : list (hop K V)) : nat := list_sum (map asks ops).

  Lemma step_paid (t : table) l o t' r n R : inv t l -> paid (t_log t) (length l) R -> ht_step_c K V keq hash 1 0 t o = Ok (t', r, n) ->
    exists l' R', inv t' l' /\ paid (t_log t') (length l') R' /\ hmap_step keq l o = Ok (l', r) /\ n + R <= asks o + R'.
  Proof.
    intros Hi HR H. pose proof (step_ok keq hash keq_sym keq_trans keq_hash t l o Hi) as Hs.
    assert (Hst : ht_step K V keq hash t o = Ok (t', r)) by (rewrite <- (step_forget keq hash 1 0 t o), H; reflexivity). rewrite Hst in Hs.
    destruct (hmap_step keq l o) as [[l1 r1]| | |] eqn:Hm; try contradiction; [|discriminate].
    destruct Hs as (t1 & Ht1 & Hi1). injection Ht1 as <- <-. exists l1.
    destruct o as [k v|k|h|h|h v]; cbn [ht_step_c asks] in H |- *.
    - apply cbind_ok in H as ([t2 [b h]] & c & d & H1 & H2 & ->). apply free_ok in H2 as [H2 ->]. cbn [fst snd] in H2. injection H2 as -> <-.
      pose proof (insert_cost keq hash keq_sym keq_trans keq_hash 1 0 t l k v _ _ Hi H1) as Hc. cbn [fst snd] in *.
      pose proof (insert_ok keq hash keq_sym keq_trans keq_hash t l k v Hi) as Hin. unfold inserted in Hin.
      assert (Hins : ht_insert K V keq hash t k v = Ok (t', (b, h))) by (rewrite <- (insert_forget keq hash 1 0 t k v), H1; reflexivity).
      cbn [hmap_step] in Hm. destruct (place_of keq l k) as [h'|].
      + rewrite Hin in Hins. injection Hins as -> _ _. injection Hm as <- _. exists R. repeat split; auto; try apply Hi1; try apply HR. lia.
      + destruct Hin as (t3 & Hin & _ & Hlog). rewrite Hin in Hins. injection Hins as -> _ _. injection Hm as <- _.
        pose proof (paid_insert _ _ _ HR) as Hp. rewrite (i_max _ _ _ _ Hi), (i_count _ _ _ _ Hi) in Hlog, Hc. unfold full in Hp. rewrite <- Hlog in Hp.
        eexists. split; [exact Hi1|]. rewrite app_length. cbn [length]. rewrite Nat.add_1_r. split; [exact Hp|]. split; auto.
        destruct (_ <? _)%N; lia.
    - apply cbind_ok in H as (a & c & d & H1 & H2 & ->). apply free_ok in H2 as [H2 ->]. injection H2 as <- _. cbn [hmap_step] in Hm. injection Hm as <- _.
      destruct (lookup_cost keq hash 1 0 t l k a c Hi H1) as [Hc _]. exists R. repeat split; auto; try apply Hi1; try apply HR. lia.
    - apply cbind_ok in H as (a & c & d & H1 & H2 & ->). apply free_ok in H1 as [_ ->]. apply free_ok in H2 as [H2 ->]. injection H2 as <- _. cbn [hmap_step] in Hm.
      destruct (vget l h) as [[k v]| | |]; try discriminate. injection Hm as <- _. exists R. repeat split; auto; try apply Hi1; try apply HR.
    - apply cbind_ok in H as (a & c & d & H1 & H2 & ->). apply free_ok in H1 as [_ ->]. apply free_ok in H2 as [H2 ->]. injection H2 as <- _. cbn [hmap_step] in Hm.
      destruct (vget l h) as [[k v]| | |]; try discriminate. injection Hm as <- _. exists R. repeat split; auto; try apply Hi1; try apply HR.
    - apply cbind_ok in H as (a & c & d & H1 & H2 & ->). apply free_ok in H1 as [H1 ->]. apply free_ok in H2 as [H2 ->]. injection H2 as <- _. exists R. split; [auto|].
      split; [|split; [auto|lia]].
      assert (Hlog : t_log a = t_log t).
      { unfold ht_setValue in H1. destruct (deref K V (t_nodes t) h); cbn [bind] in H1; try discriminate. destruct (vset _ _ _); cbn [bind] in H1; try discriminate. now injection H1 as <-. }
      rewrite Hlog. cbn [hmap_step] in Hm. unfold vget in Hm. destruct (nth_error l h) as [[k v0]|]; try discriminate. cbn [of_option bind] in Hm.
      unfold vset in Hm. destruct (h <? length l); try discriminate. injection Hm as <- _. now rewrite upd_length.
  Qed.

  Lemma run_paid ops : forall (t : table) l t' rs n R, inv t l -> paid (t_log t) (length l) R -> ht_run_c K V keq hash 1 0 t ops = Ok (t', rs, n) ->
    exists l' R', inv t' l' /\ paid (t_log t') (length l') R' /\ run (hmap_step keq) l ops = Ok (l', rs) /\ n + R <= list_asks ops + R'.
  Proof.
    induction ops as [|o ops IH]; intros t l t' rs n R Hi HR H; cbn [ht_run_c run] in H |- *.
    - apply free_ok in H as [H ->]. injection H as <- <-. exists l, R. repeat split; auto; try apply Hi; try apply HR.
    - apply cbind_ok in H as ([t1 r] & c & d & H1 & H2 & ->). apply cbind_ok in H2 as ([t2 rs2] & c2 & d2 & H2 & H3 & ->). apply free_ok in H3 as [H3 ->].
      cbn [fst snd] in *. injection H3 as <- <-. destruct (step_paid _ _ _ _ _ _ _ Hi HR H1) as (l1 & R1 & Hi1 & HR1 & Hm1 & Hn1).
      destruct (IH _ _ _ _ _ _ Hi1 HR1 H2) as (l2 & R2 & Hi2 & HR2 & Hm2 & Hn2). exists l2, R2. rewrite Hm1. cbn [bind]. rewrite Hm2. cbn [bind].
      repeat split; auto; try apply Hi2; try apply HR2. unfold list_asks in *. cbn [map list_sum]. change (list_sum (asks o :: map asks ops)) with (asks o + list_sum (map asks ops)). lia.
  Qed.

  Lemma hash_calls nbits ops (t : table) rs n : ht_run_c K V keq hash 1 0 (ht_new K V nbits) ops = Ok (t, rs, n) -> n <= list_asks ops + 2 * t_count t.
  Proof.
    intros H. destruct (run_paid ops _ _ _ _ _ 0 (new_inv keq hash nbits) (paid_new nbits) H) as (l & R & Hi & HR & _ & Hn).
    rewrite (i_count _ _ _ _ Hi). destruct HR. lia.
  Qed.
End Run.

Lemma bin_mod {K} (hash : K -> N) log a b : (bin K hash log a =? bin K hash log b) = N.eqb (hash a mod 2 ^ N.of_nat log) (hash b mod 2 ^ N.of_nat log).
Proof.
  unfold bin. rewrite N.shiftl_1_l, <- N.ones_equiv, !N.land_ones. destruct (N.eqb_spec (hash a mod 2 ^ N.of_nat log) (hash b mod 2 ^ N.of_nat log)) as [H|H].
  - rewrite H. apply Nat.eqb_refl.
  - apply Nat.eqb_neq. intros He. apply H. now apply N2Nat.inj.
Qed.

Section Reach.
  Context {K V : Type}.
  Variable keq : K -> K -> bool.
  Variable hash : K -> N.
  Hypothesis keq_sym : forall a b, keq a b = true -> keq b a = true.
  Hypothesis keq_trans : forall a b c, keq a b = true -> keq b c = true -> keq a c = true.
  Hypothesis keq_hash : forall a b, keq a b = true -> hash a = hash b.

  Lemma key_calls nbits (ops : list (hop K V)) l t rs : run (hmap_step keq) [] ops = Ok (l, rs) -> run (ht_step K V keq hash) (ht_new K V nbits) ops = Ok (t, rs) ->
    forall k, exists same, same = length (filter (fun e => N.eqb (hash (fst e) mod N.of_nat (length (t_bins t))) (hash k mod N.of_nat (length (t_bins t)))) l) /\
      (forall o n, ht_lookup_c K V keq hash 0 1 t k = Ok (o, n) -> n <= same /\ (o = None -> n = same)) /\
      (forall v x n, ht_insert_c K V keq hash 0 1 t k v = Ok (x, n) -> n <= same).
  Proof.
    intros Hm Ht k. pose proof (run_ok keq hash keq_sym keq_trans keq_hash ops _ _ (new_inv keq hash nbits)) as H. rewrite Hm in H.
    destruct H as (t' & H & Hi). rewrite Ht in H. injection H as <-. destruct (i_rep _ _ _ _ Hi) as (chs & Hr & _).
    assert (Hs : length (colliding hash (t_log t) l k) = length (filter (fun e => N.eqb (hash (fst e) mod N.of_nat (length (t_bins t))) (hash k mod N.of_nat (length (t_bins t)))) l)).
    { unfold colliding. f_equal. apply filter_ext. intros e. rewrite bin_mod, (r_size _ _ _ _ _ Hr), Nat2N.inj_pow. reflexivity. }
    eexists. split; [reflexivity|]. rewrite <- Hs. split.
    - intros o n Hn. destruct (lookup_cost keq hash 0 1 t l k o n Hi Hn) as [H1 H2]. split; [lia|]. intros Ho. rewrite (H2 Ho). lia.
    - intros v x n Hn. pose proof (insert_cost keq hash keq_sym keq_trans keq_hash 0 1 t l k v x n Hi Hn) as Hc.
      destruct (place_of keq l k); [lia|]. destruct (_ <? _)%N; lia.
  Qed.
End Reach.

(** Keys that all fall into one bin *)
Lemma place_far (l : list (nat * unit)) k : Forall (fun e => fst e < k) l -> place_of Nat.eqb l k = None.
Proof. induction 1 as [|[a u] l H Hl IH]; [reflexivity|]. cbn [place_of fst] in *. destruct (Nat.eqb_spec a k); [lia|]. now rewrite IH. Qed.
Lemma run_seq n : forall b (l : list (nat * unit)), Forall (fun e => fst e < b) l ->
  exists rs, run (hmap_step Nat.eqb) l (map (fun i => HInsert i tt) (seq b n)) = Ok (l ++ map (fun i => (i, tt)) (seq b n), rs).
Proof.
  induction n as [|n IH]; intros b l Hl; cbn [seq map run].
  - exists []. now rewrite app_nil_r.
  - cbn [hmap_step]. rewrite (place_far l b Hl). cbn [bind]. destruct (IH (S b) (l ++ [(b, tt)])) as (rs & ->).
    + apply Forall_app. split; [|repeat constructor]. eapply Forall_impl; [|exact Hl]. intros e He. cbn in He. lia.
    + cbn [bind]. rewrite <- app_assoc. eauto.
Qed.
Lemma all_collide n : exists t rs, run (ht_step nat unit Nat.eqb (fun _ => 0%N)) (ht_new _ _ 10) (map (fun i => HInsert i tt) (seq 0 n)) = Ok (t, rs) /\
  ht_lookup_c nat unit Nat.eqb (fun _ => 0%N) 0 1 t n = Ok (None, n).
Proof.
  destruct (run_seq n 0 [] (Forall_nil _)) as (rs & Hrun). cbn [app] in Hrun.
  assert (Hs : forall a b, Nat.eqb a b = true -> Nat.eqb b a = true) by (intros a b H; now rewrite Nat.eqb_sym).
  assert (Ht : forall a b c, Nat.eqb a b = true -> Nat.eqb b c = true -> Nat.eqb a c = true) by (intros a b c H1 H2; apply Nat.eqb_eq in H1, H2; apply Nat.eqb_eq; congruence).
  assert (Hh : forall a b, Nat.eqb a b = true -> 0%N = 0%N) by reflexivity.
  pose proof (run_ok Nat.eqb (fun _ => 0%N) Hs Ht Hh (map (fun i => HInsert i tt) (seq 0 n)) _ _ (new_inv Nat.eqb (fun _ => 0%N) 10)) as H. rewrite Hrun in H.
  destruct H as (t & H & Hi). exists t, rs. split; auto.
  pose proof (lookup_ok Nat.eqb (fun _ => 0%N) Hs Ht Hh t _ n Hi) as Hl.
  rewrite place_far in Hl.
  - rewrite <- (lookup_forget Nat.eqb (fun _ => 0%N) 0 1) in Hl. apply of_forget in Hl as [m Hl]. rewrite Hl.
    destruct (lookup_cost Nat.eqb (fun _ => 0%N) 0 1 t _ n _ _ Hi Hl) as [_ Hm]. rewrite (Hm eq_refl). repeat f_equal. unfold colliding.
    assert (Hf : forall l : list (nat * unit), filter (fun e => bin nat (fun _ => 0%N) (t_log t) (fst e) =? bin nat (fun _ => 0%N) (t_log t) n) l = l).
    { induction l as [|a l IH]; [reflexivity|]. cbn [filter]. unfold bin at 1 2. rewrite Nat.eqb_refl. now rewrite IH. }
    rewrite Hf, map_length, seq_length. lia.
  - apply Forall_forall. intros [a u] Ha. apply in_map_iff in Ha as (i & Hi' & Hin). injection Hi' as <- _. apply in_seq in Hin. cbn. lia.
Qed.

(** ** The number of bins *)
Lemma full_size log len : full log len = true -> 2 ^ (log + 2) <= 40 * S len.
Proof.
  unfold full. intros H. apply N.ltb_lt in H. unfold max_count in H. rewrite !N.shiftl_mul_pow2 in H.
  assert (Hp : N.of_nat (2 ^ log) = (2 ^ N.of_nat log)%N) by (rewrite Nat2N.inj_pow; reflexivity). rewrite <- Hp in H.
  rewrite Nat.pow_add_r. change (2 ^ 2) with 4. set (p := 2 ^ log) in *. clearbody p. clear Hp.
  assert (Hb : (1 * 2 ^ 55 = 36028797018963968)%N) by reflexivity. rewrite Hb in H. clear Hb.
  pose proof (N.mul_succ_div_gt (3602879701896397 * N.of_nat p) 36028797018963968 ltac:(discriminate)) as Hd.
  set (m := (3602879701896397 * N.of_nat p / 36028797018963968)%N) in *. clearbody m. lia.
Qed.

Section Bins.
  Context {K V : Type}.
  Variable keq : K -> K -> bool.
  Variable hash : K -> N.
  Hypothesis keq_sym : forall a b, keq a b = true -> keq b a = true.
  Hypothesis keq_trans : forall a b c, keq a b = true -> keq b c = true -> keq a c = true.
  Hypothesis keq_hash : forall a b, keq a b = true -> hash a = hash b.
  Notation table := (table K V).
  Notation inv := (inv keq hash).

  Lemma step_bins b (t : table) l o t' l' r r' : inv t l -> 2 ^ t_log t <= Nat.max b (40 * length l) -> ht_step K V keq hash t o = Ok (t', r) ->
    hmap_step keq l o = Ok (l', r') -> 2 ^ t_log t' <= Nat.max b (40 * length l').
  Proof.
    intros Hi Hb H Hm. destruct o as [k v|k|h|h|h v]; cbn [ht_step hmap_step] in H, Hm.
    - pose proof (insert_ok keq hash keq_sym keq_trans keq_hash t l k v Hi) as Hin. unfold inserted in Hin. destruct (place_of keq l k) as [h|].
      + rewrite Hin in H. injection H as <- <-. injection Hm as <- _. exact Hb.
      + destruct Hin as (t1 & Hin & _ & Hlog). rewrite Hin in H. injection H as <- <-. injection Hm as <- _. rewrite Hlog, app_length, Nat.add_1_r. cbn [length].
        rewrite (i_max _ _ _ _ Hi), (i_count _ _ _ _ Hi). change (N.ltb (max_count (t_log t)) (N.of_nat (S (length l)))) with (full (t_log t) (length l)).
        destruct (full (t_log t) (length l)) eqn:Hf; [apply full_size in Hf|]; lia.
    - destruct (ht_lookup K V keq hash t k); try discriminate. injection H as <- <-. injection Hm as <- _. exact Hb.
    - destruct (ht_key K V t h); try discriminate. injection H as <- <-. destruct (vget l h) as [[k v]| | |]; try discriminate. injection Hm as <- _. exact Hb.
    - destruct (ht_value K V t h); try discriminate. injection H as <- <-. destruct (vget l h) as [[k v]| | |]; try discriminate. injection Hm as <- _. exact Hb.
    - unfold ht_setValue in H. destruct (deref K V (t_nodes t) h); cbn [bind] in H; try discriminate. destruct (vset _ _ _); cbn [bind] in H; try discriminate. injection H as <- <-.
      unfold vget in Hm. destruct (nth_error l h) as [[k v0]|]; try discriminate. cbn [of_option bind] in Hm. unfold vset in Hm. destruct (h <? length l); try discriminate. injection Hm as <- _.
      rewrite upd_length. exact Hb.
  Qed.
  Lemma run_bins b ops : forall (t : table) l t' l' rs rs', inv t l -> 2 ^ t_log t <= Nat.max b (40 * length l) -> run (ht_step K V keq hash) t ops = Ok (t', rs) ->
    run (hmap_step keq) l ops = Ok (l', rs') -> 2 ^ t_log t' <= Nat.max b (40 * length l').
  Proof.
    induction ops as [|o ops IH]; intros t l t' l' rs rs' Hi Hb H Hm; cbn [run] in H, Hm.
    - injection H as <- _. injection Hm as <- _. exact Hb.
    - pose proof (step_ok keq hash keq_sym keq_trans keq_hash t l o Hi) as Hs. destruct (hmap_step keq l o) as [[l1 r1]| | |] eqn:Hl; cbn [bind] in Hm; try discriminate.
      destruct Hs as (t1 & Hs & Hi1). rewrite Hs in H. cbn [bind] in H. pose proof (step_bins b t l o t1 l1 r1 r1 Hi Hb Hs Hl) as Hb1.
      destruct (run (ht_step K V keq hash) t1 ops) as [[t2 rs2]| | |] eqn:H2; cbn [bind] in H; try discriminate. injection H as <- _.
      destruct (run (hmap_step keq) l1 ops) as [[l2 rs3]| | |] eqn:H3; cbn [bind] in Hm; try discriminate. injection Hm as <- _. exact (IH _ _ _ _ _ _ Hi1 Hb1 H2 H3).
  Qed.
  Lemma bins_linear nbits ops (t : table) l rs : run (ht_step K V keq hash) (ht_new K V nbits) ops = Ok (t, rs) -> run (hmap_step keq) [] ops = Ok (l, rs) ->
    length (t_bins t) <= Nat.max (2 ^ nbits) (40 * length l).
  Proof.
    intros Ht Hm. pose proof (run_ok keq hash keq_sym keq_trans keq_hash ops _ _ (new_inv keq hash nbits)) as H. rewrite Hm in H. destruct H as (t' & H & Hi).
    rewrite Ht in H. injection H as <-. destruct (i_rep _ _ _ _ Hi) as (chs & Hr & _). rewrite (r_size _ _ _ _ _ Hr).
    eapply run_bins; [apply (new_inv keq hash nbits)| |exact Ht|exact Hm]. cbn. lia.
  Qed.
End Bins.
