From Coq Require Import List Arith NArith Bool Lia Permutation.
From Coq Require Import ZifyBool ZifyNat ZifyN.
From Verif.Base Require Import Res Arr.
From Verif.ComTree Require Import Model.
From Verif.Spec Require Import Seq.
Import ListNotations.

(** * Node arithmetic *)
Section Node.
  Local Open Scope N_scope.

  Definition scale (fi : bool) (k : N) : N := if fi then 2 ^ k else 1.

  Lemma wrap_small n : n < word -> wrap n = n.
  Proof. apply N.mod_small. Qed.

  Lemma pow2_pos k : 0 < 2 ^ k.
  Proof. apply N.neq_0_lt_0, N.pow_nonzero. lia. Qed.

  Lemma scale_pos fi k : 0 < scale fi k.
  Proof. destruct fi; simpl; [apply pow2_pos|lia]. Qed.

  Lemma word_ones : word - 1 = N.ones 64.
  Proof. reflexivity. Qed.

  Lemma root_node fi k : n_root fi (2 ^ k) = 1 * scale fi k.
  Proof. unfold n_root, scale; destruct fi; lia. Qed.

  Lemma k_lt k m : m * 2 ^ k < word -> 1 <= m -> k < 64.
  Proof.
    intros H Hm. destruct (N.lt_ge_cases k 64) as [|Hk]; auto.
    assert (word <= 2 ^ k) by (unfold word; apply N.pow_le_mono_r; lia).
    nia.
  Qed.

  Lemma parent_node fi k n : n * scale fi k < word -> k < 63 ->
    n_parent fi (2 ^ k) (n * scale fi k) = Ok (n / 2 * scale fi k).
  Proof.
    intros H Hk. unfold n_parent, scale in *; destruct fi.
    - pose proof (pow2_pos k) as Hp.
      assert (H2 : wrap (2 * 2 ^ k) = 2 * 2 ^ k).
      { apply wrap_small. rewrite <- N.pow_succ_r'. unfold word. apply N.pow_lt_mono_r; lia. }
      rewrite H2. destruct (N.eqb_spec (2 * 2 ^ k) 0) as [E|_]; [lia|].
      f_equal. rewrite (N.mul_comm 2), <- N.div_div by lia.
      rewrite N.div_mul by lia. apply wrap_small.
      assert (n / 2 <= n) by (apply N.div_le_upper_bound; lia). nia.
    - rewrite !N.mul_1_r. reflexivity.
  Qed.

  Lemma left_node fi k n : 2 * n * scale fi k < word ->
    n_left (n * scale fi k) = 2 * n * scale fi k.
  Proof. intros H; unfold n_left. rewrite N.mul_assoc. now apply wrap_small. Qed.

  Lemma right_node fi k n : (2 * n + 1) * scale fi k < word ->
    n_right fi (2 ^ k) (n * scale fi k) = (2 * n + 1) * scale fi k.
  Proof.
    intros H; unfold n_right, scale in *; destruct fi.
    - rewrite wrap_small; nia.
    - rewrite wrap_small; lia.
  Qed.

  Lemma next_node fi k n : (n + 1) * scale fi k < word ->
    n_next fi (2 ^ k) (n * scale fi k) = (n + 1) * scale fi k.
  Proof.
    intros H; unfold n_next, scale in *; destruct fi; rewrite wrap_small; nia.
  Qed.

  Lemma next_count_node fi k n c : (n + c) * scale fi k < word ->
    n_next_count fi (2 ^ k) (n * scale fi k) c = (n + c) * scale fi k.
  Proof.
    intros H; unfold n_next_count, scale in *; destruct fi.
    - rewrite (wrap_small (2 ^ k * c)) by nia. rewrite wrap_small; nia.
    - rewrite wrap_small; lia.
  Qed.

  Lemma prev_node fi k n : 1 <= n -> n * scale fi k < word ->
    n_prev fi (2 ^ k) (n * scale fi k) = (n - 1) * scale fi k.
  Proof.
    intros Hn H; unfold n_prev, scale in *.
    assert (Hgen : forall s, 0 < s -> n * s < word -> wrap (n * s + (word - s)) = (n - 1) * s).
    { intros s Hs Hlt. unfold wrap.
      assert (s <= n * s) by nia.
      replace (n * s + (word - s)) with ((n - 1) * s + 1 * word) by nia.
      rewrite N.mod_add by (unfold word; discriminate). apply N.mod_small. nia. }
    destruct fi; apply Hgen; auto using pow2_pos; lia.
  Qed.

  Lemma lxor_1_r n : N.lxor n 1 = if N.even n then n + 1 else n - 1.
  Proof. destruct n as [|[p|p|]]; reflexivity || (simpl; lia). Qed.

  Lemma sibling_node fi k n :
    n_sibling fi (2 ^ k) (n * scale fi k) = (if N.even n then n + 1 else n - 1) * scale fi k.
  Proof.
    unfold n_sibling, scale; destruct fi.
    - rewrite <- N.shiftl_mul_pow2. replace (2 ^ k) with (N.shiftl 1 k) at 1 by (rewrite N.shiftl_mul_pow2; lia).
      rewrite <- N.shiftl_lxor, lxor_1_r. apply N.shiftl_mul_pow2.
    - rewrite !N.mul_1_r. apply lxor_1_r.
  Qed.

  Lemma ldiff_1_r n : N.ldiff n 1 = 2 * (n / 2).
  Proof.
    rewrite <- (N.div2_div n). destruct n as [|[p|p|]]; try reflexivity.
  Qed.

  Lemma land_complement a k : a < word -> k < 64 ->
    N.land a (word - 1 - 2 ^ k) = N.ldiff a (2 ^ k).
  Proof.
    intros Ha Hk.
    assert (Hl : N.log2 (2 ^ k) < 64) by (rewrite N.log2_pow2; lia).
    rewrite word_ones, <- (N.lnot_sub_low _ _ Hl).
    destruct (N.eq_dec a 0) as [->|Hn].
    - rewrite N.land_0_l. reflexivity.
    - rewrite <- (N.ldiff_land_low a (2 ^ k) 64); auto. apply N.log2_lt_pow2; [lia|exact Ha].
  Qed.

  Lemma leftSibling_node fi k n : n * scale fi k < word ->
    n_leftSibling fi (2 ^ k) (n * scale fi k) = 2 * (n / 2) * scale fi k.
  Proof.
    intros H. destruct (N.eq_dec n 0) as [->|Hn].
    { rewrite N.mul_0_l. unfold n_leftSibling; destruct fi; apply N.land_0_l. }
    unfold n_leftSibling, scale in *; destruct fi.
    - assert (Hk : k < 64) by (eapply k_lt; [exact H|lia]).
      rewrite land_complement by auto.
      rewrite <- N.shiftl_mul_pow2. replace (2 ^ k) with (N.shiftl 1 k) at 1 by (rewrite N.shiftl_mul_pow2; lia).
      rewrite <- N.shiftl_ldiff, ldiff_1_r. apply N.shiftl_mul_pow2.
    - rewrite !N.mul_1_r in *.
      change (N.land n (word - 1 - 1)) with (N.land n (word - 1 - 2 ^ 0)).
      rewrite land_complement by (auto; lia). apply ldiff_1_r.
  Qed.

  Lemma land_1_r n : (N.land n 1 =? 0) = N.even n.
  Proof. destruct n as [|[p|p|]]; reflexivity. Qed.

  Lemma isLeft_node fi k n : n_isLeft fi (2 ^ k) (n * scale fi k) = N.even n.
  Proof.
    unfold n_isLeft, scale; destruct fi.
    - rewrite <- N.shiftl_mul_pow2. replace (2 ^ k) with (N.shiftl 1 k) by (rewrite N.shiftl_mul_pow2; lia).
      rewrite <- N.shiftl_land, N.shiftl_mul_pow2, <- land_1_r.
      pose proof (pow2_pos k). destruct (N.eqb_spec (N.land n 1) 0); destruct (N.eqb_spec (N.land n 1 * 2 ^ k) 0); auto; nia.
    - rewrite N.mul_1_r. apply land_1_r.
  Qed.

  Lemma isRight_node fi k n : n_isRight fi (2 ^ k) (n * scale fi k) = N.odd n.
  Proof.
    rewrite <- N.negb_even, <- (isLeft_node fi k n). unfold n_isRight, n_isLeft; destruct fi; reflexivity.
  Qed.

  Lemma isRoot_node fi k n : n_isRoot fi (2 ^ k) (n * scale fi k) = (n =? 1).
  Proof.
    unfold n_isRoot. rewrite root_node. pose proof (scale_pos fi k).
    destruct (N.eqb_spec n 1); destruct (N.eqb_spec (n * scale fi k) (1 * scale fi k)); auto; nia.
  Qed.

  Lemma compare_node fi k m n :
    n_lt (m * scale fi k) (n * scale fi k) = (m <? n) /\
    n_le (m * scale fi k) (n * scale fi k) = (m <=? n) /\
    n_eq (m * scale fi k) (n * scale fi k) = (m =? n).
  Proof.
    pose proof (scale_pos fi k) as Hp. unfold n_lt, n_le, n_eq.
    repeat split.
    - destruct (N.ltb_spec m n); destruct (N.ltb_spec (m * scale fi k) (n * scale fi k)); auto; nia.
    - destruct (N.leb_spec m n); destruct (N.leb_spec (m * scale fi k) (n * scale fi k)); auto; nia.
    - destruct (N.eqb_spec m n); destruct (N.eqb_spec (m * scale fi k) (n * scale fi k)); auto; nia.
  Qed.

  Lemma normal_node fi k n : n_normal fi (2 ^ k) (n * scale fi k) = n.
  Proof.
    pose proof (pow2_pos k). unfold n_normal, scale; destruct fi; [rewrite N.div_mul; lia|lia].
  Qed.

  (** All of the node interface at once: [node fi k n] is the stored number of the node with plain index [n]. *)
  Lemma node_arithmetic fi k n : k < 63 -> n * scale fi k < word ->
    let S := 2 ^ k in
    let node m := m * scale fi k in
    n_root fi S = node 1 /\
    n_normal fi S (node n) = n /\
    n_parent fi S (node n) = Ok (node (n / 2)) /\
    n_sibling fi S (node n) = node (if N.even n then n + 1 else n - 1) /\
    n_leftSibling fi S (node n) = node (2 * (n / 2)) /\
    n_isLeft fi S (node n) = N.even n /\
    n_isRight fi S (node n) = N.odd n /\
    n_isRoot fi S (node n) = (n =? 1) /\
    (1 <= n -> n_prev fi S (node n) = node (n - 1)) /\
    (node (n + 1) < word -> n_next fi S (node n) = node (n + 1)) /\
    (forall c, node (n + c) < word -> n_next_count fi S (node n) c = node (n + c)) /\
    (node (2 * n) < word -> n_left (node n) = node (2 * n)) /\
    (node (2 * n + 1) < word -> n_right fi S (node n) = node (2 * n + 1)) /\
    (forall m, n_lt (node n) (node m) = (n <? m) /\ n_le (node n) (node m) = (n <=? m) /\
               n_eq (node n) (node m) = (n =? m)).
  Proof.
    intros Hk H; simpl. repeat match goal with |- _ /\ _ => split end; intros.
    - apply root_node.
    - apply normal_node.
    - now apply parent_node.
    - apply sibling_node.
    - now apply leftSibling_node.
    - apply isLeft_node.
    - apply isRight_node.
    - apply isRoot_node.
    - now apply prev_node.
    - now apply next_node.
    - now apply next_count_node.
    - now apply left_node.
    - now apply right_node.
    - apply compare_node.
  Qed.
End Node.

(** * Storage *)
Section Storage.
  Context {E : Type}.
  Implicit Types (t : comtree E) (l : list E).

  (** The tree [t] holds the sequence [l]. *)
  Definition holds t l : Prop :=
    ct_last t = length l /\ length l <= ct_cap t /\
    match ct_arr t with
    | None => ct_cap t = 0
    | Some a => length a = ct_cap t /\ firstn (length l) a = map Some l
    end.

  Lemma holds_nth t l k a : holds t l -> ct_arr t = Some a -> k < length l -> nth_error a k = Some (nth_error l k).
  Proof.
    intros (Hl & Hc & Ha) Harr Hk. rewrite Harr in Ha. destruct Ha as [_ Hf].
    assert (H : nth_error (firstn (length l) a) k = nth_error a k).
    { clear - Hk. revert a k Hk. induction (length l) as [|n IH]; intros [|x a] [|k] Hk; simpl; try lia; auto.
      apply IH; lia. }
    rewrite <- H, Hf, nth_error_map. destruct (nth_error l k) eqn:Hn; auto.
    apply nth_error_None in Hn; lia.
  Qed.

  Lemma holds_arr t l : holds t l -> l <> [] -> exists a, ct_arr t = Some a.
  Proof.
    intros (Hl & Hc & Ha) Hn. destruct (ct_arr t) as [a|]; eauto.
    destruct l; simpl in *; [congruence|lia].
  Qed.

  Lemma ct_get_holds t l n v : holds t l -> 1 <= n -> nth_error l (n - 1) = Some v -> ct_get t n = Ok v.
  Proof.
    intros Hh Hn Hv. pose proof (nth_error_some_lt _ _ _ Hv) as Hlt.
    destruct (holds_arr t l Hh) as [a Ha]. { intros ->; simpl in Hlt; lia. }
    unfold ct_get. rewrite Ha. destruct n as [|k]; [lia|].
    replace (S k - 1) with k in * by lia.
    now rewrite (holds_nth t l k a Hh Ha Hlt), Hv.
  Qed.

  Lemma firstn_upd {A} (a : list A) n k v : firstn n (upd a k v) = upd (firstn n a) k v.
  Proof.
    revert a k; induction n as [|n IH]; intros [|x a] [|k]; simpl; auto. now rewrite IH.
  Qed.

  Lemma map_upd {A B} (f : A -> B) (a : list A) k v : map f (upd a k v) = upd (map f a) k (f v).
  Proof. revert k; induction a as [|x a IH]; intros [|k]; simpl; auto. now rewrite IH. Qed.

  Lemma ct_set_holds t l n v : holds t l -> 1 <= n <= length l ->
    exists t', ct_set t n v = Ok t' /\ holds t' (upd l (n - 1) v) /\ ct_cap t' = ct_cap t.
  Proof.
    intros Hh Hn. destruct (holds_arr t l Hh) as [a Ha]. { intros ->; simpl in Hn; lia. }
    destruct Hh as (Hl & Hc & Hf). rewrite Ha in Hf; destruct Hf as [Hlen Hf].
    unfold ct_set. rewrite Ha. destruct n as [|k]; [lia|]. replace (S k - 1) with k by lia.
    rewrite vset_ok by lia. simpl. eexists; split; [reflexivity|]. split; auto.
    unfold holds; simpl. rewrite !upd_length. repeat split; auto.
    now rewrite firstn_upd, Hf, map_upd.
  Qed.

  Lemma ct_new_holds c : holds (ct_new c) (@nil E).
  Proof.
    unfold holds, ct_new; simpl. repeat split; auto; try lia.
    destruct (Nat.ltb_spec 0 c); [|lia]. split; [apply repeat_length|reflexivity].
  Qed.

  Lemma firstn_snoc {A} (a : list A) n v : n < length a ->
    firstn (S n) (upd a n v) = firstn n a ++ [v].
  Proof.
    revert n; induction a as [|x a IH]; intros [|n] H; simpl in *; try lia; auto.
    f_equal. apply IH; lia.
  Qed.

  Lemma ct_pushBackWithCapacity_holds t l v : holds t l -> length l < ct_cap t ->
    exists t', ct_pushBackWithCapacity t v = Ok t' /\ holds t' (l ++ [v]) /\ ct_cap t' = ct_cap t.
  Proof.
    intros (Hl & Hc & Hf) Hcap. unfold ct_pushBackWithCapacity, ct_set; simpl.
    destruct (ct_arr t) as [a|] eqn:Ha; [|lia]. destruct Hf as [Hlen Hf].
    rewrite vset_ok by lia. simpl. eexists; split; [reflexivity|]. split; auto.
    unfold holds; simpl. rewrite app_length, upd_length; simpl. repeat split; try lia.
    replace (length l + 1) with (S (length l)) by lia.
    rewrite Hl, firstn_snoc, Hf, map_app; auto; lia.
  Qed.

  Lemma ct_copy_loop_holds fuel t l new i : holds t l -> 1 <= i -> length l + 1 - i <= fuel -> i <= length l + 1 ->
    holds new (firstn (i - 1) l) -> length l <= ct_cap new ->
    exists t', ct_copy_loop fuel t new i = Ok t' /\ holds t' l /\ ct_cap t' = ct_cap new.
  Proof.
    intros Hh. revert new i. induction fuel as [|f IH]; intros new i Hi Hf Hi2 Hn Hcap; simpl.
    - destruct Hh as (Hl & _). rewrite Hl. destruct (Nat.leb_spec i (length l)); [lia|].
      exists new; split; [reflexivity|split; [|reflexivity]].
      replace (i - 1) with (length l) in Hn by lia. now rewrite firstn_all in Hn.
    - pose proof Hh as (Hl & _). rewrite Hl. destruct (Nat.leb_spec i (length l)) as [Hle|Hgt].
      + destruct (nth_error_lt l (i - 1)) as [v Hv]; [lia|].
        rewrite (ct_get_holds t l i v Hh Hi Hv). simpl.
        pose proof Hn as (Hnl & _). rewrite firstn_length in Hnl.
        destruct (Nat.eqb_spec (ct_last new) (ct_cap new)) as [He|He]; [lia|].
        destruct (ct_pushBackWithCapacity_holds new _ v Hn) as (new' & Hp & Hh' & Hc').
        { rewrite firstn_length; lia. }
        rewrite Hp. simpl.
        assert (Hs : firstn (i - 1) l ++ [v] = firstn (S i - 1) l).
        { replace (S i - 1) with (S (i - 1)) by lia. clear - Hv.
          revert l Hv; induction (i - 1) as [|k IH]; intros [|x l] Hv; simpl in *; try congruence.
          f_equal; auto. }
        rewrite Hs in Hh'.
        destruct (IH new' (S i)) as (t' & Ht & Hht & Hct); auto; try lia.
        exists t'; split; [exact Ht|split; [exact Hht|congruence]].
      + exists new; split; [reflexivity|split; [|reflexivity]].
        replace (i - 1) with (length l) in Hn by lia. now rewrite firstn_all in Hn.
  Qed.

  Lemma ct_increaseCapacity_holds t l : holds t l ->
    exists t', ct_increaseCapacity t = Ok t' /\ holds t' l /\ ct_cap t' = (if Nat.eqb (ct_cap t) 0 then 16 else ct_cap t * 2).
  Proof.
    intros Hh. pose proof Hh as (Hl & Hc & _). unfold ct_increaseCapacity.
    set (c := if Nat.eqb (ct_cap t) 0 then 16 else ct_cap t * 2).
    assert (Hcap : length l <= c). { unfold c. destruct (Nat.eqb_spec (ct_cap t) 0); lia. }
    destruct (ct_copy_loop_holds (ct_last t) t l (ct_new c) 1) as (t' & Ht & Hht & Hct); auto; try lia.
    - apply ct_new_holds.
    - rewrite Ht. simpl. eexists; split; [reflexivity|]. split; [|exact Hct].
      destruct Hht as (Hl' & Hc' & Ha'). repeat split; simpl; auto; try lia.
  Qed.

  Lemma ct_pushBack_holds t l v : holds t l ->
    exists t', ct_pushBack t v = Ok t' /\ holds t' (l ++ [v]).
  Proof.
    intros Hh. unfold ct_pushBack.
    destruct (Nat.eqb_spec (ct_last t) (ct_cap t)) as [He|He].
    - destruct (ct_increaseCapacity_holds t l Hh) as (t1 & H1 & Hh1 & Hc1). rewrite H1. simpl.
      destruct (ct_pushBackWithCapacity_holds t1 l v Hh1) as (t2 & H2 & Hh2 & _).
      { destruct Hh as (Hl & _). rewrite Hc1. destruct (Nat.eqb_spec (ct_cap t) 0); lia. }
      exists t2; split; auto.
    - simpl. destruct (ct_pushBackWithCapacity_holds t l v Hh) as (t2 & H2 & Hh2 & _).
      { destruct Hh as (Hl & Hc & _). lia. }
      exists t2; split; auto.
  Qed.

  Lemma firstn_removelast {A} (l : list A) : firstn (length l - 1) l = removelast l.
  Proof.
    destruct l as [|x l] using rev_ind; auto.
    rewrite removelast_snoc, app_length; simpl.
    replace (length l + 1 - 1) with (length l) by lia.
    rewrite firstn_app, firstn_all, Nat.sub_diag; simpl. apply app_nil_r.
  Qed.

  Lemma ct_popBack_holds t l : holds t l -> l <> [] ->
    exists t', ct_popBack t = Ok t' /\ holds t' (removelast l).
  Proof.
    intros (Hl & Hc & Ha) Hn. unfold ct_popBack.
    destruct (ct_last t) as [|k] eqn:Hk. { destruct l; simpl in *; [congruence|lia]. }
    eexists; split; [reflexivity|]. unfold holds; simpl.
    rewrite removelast_length. repeat split; try lia.
    destruct (ct_arr t) as [a|]; auto. destruct Ha as [Hlen Hf]. split; auto.
    rewrite <- (firstn_removelast l), <- firstn_map, <- Hf, firstn_firstn. f_equal; lia.
  Qed.

  Lemma ct_clear_holds t l : holds t l -> holds (ct_clear t) [].
  Proof.
    intros (Hl & Hc & Ha). unfold holds; simpl. repeat split; try lia.
    destruct (ct_arr t) as [a|]; auto. destruct Ha; split; auto.
  Qed.

  Lemma ct_assign_loop_gen fuel t l : holds t l -> forall a i c,
    1 <= i -> i <= length l + 1 -> length l + 1 - i <= fuel -> length a = c -> length l <= c ->
    firstn (i - 1) a = map Some (firstn (i - 1) l) ->
    exists a', ct_assign_loop fuel t (mk_ct (Some a) (length l) c) i = Ok (mk_ct (Some a') (length l) c) /\
               length a' = c /\ firstn (length l) a' = map Some l.
  Proof.
    intros Hh. induction fuel as [|f IH]; intros a i c Hi Hi2 Hf Hlen Hc Hfirst; simpl;
      pose proof Hh as (Hl & _); rewrite Hl; destruct (Nat.leb_spec i (length l)) as [Hle|Hgt]; try lia.
    - exists a; repeat split; auto. replace (i - 1) with (length l) in Hfirst by lia. now rewrite firstn_all in Hfirst.
    - destruct (nth_error_lt l (i - 1)) as [v Hv]; [lia|].
      rewrite (ct_get_holds t l i v Hh Hi Hv). simpl.
      unfold ct_set; simpl. destruct i as [|k]; [lia|].
      rewrite vset_ok by lia. simpl. replace (S k - 1) with k in * by lia.
      apply IH; try lia; [now rewrite upd_length|].
      replace (S (S k) - 1) with (S k) by lia.
      rewrite firstn_snoc, Hfirst by lia.
      assert (Hs : firstn (S k) l = firstn k l ++ [v]).
      { clear - Hv. revert l Hv; induction k as [|k IH]; intros [|x l] Hv; simpl in *; try congruence.
        f_equal; apply IH; auto. }
      rewrite Hs, map_app. reflexivity.
    - exists a; repeat split; auto. replace (i - 1) with (length l) in Hfirst by lia. now rewrite firstn_all in Hfirst.
  Qed.

  Lemma ct_copy_holds t l m : holds t l -> exists t', ct_copy t m = Ok t' /\ holds t' l.
  Proof.
    intros Hh. pose proof Hh as (Hl & Hc & _). unfold ct_copy, ct_size. rewrite Hl.
    set (c := if Nat.ltb m (length l) then length l else m).
    assert (Hcap : length l <= c). { unfold c. destruct (Nat.ltb_spec m (length l)); lia. }
    destruct (Nat.eqb_spec c 0) as [He|He].
    - eexists; split; [reflexivity|]. unfold holds; simpl. repeat split; auto; lia.
    - destruct (ct_assign_loop_gen (length l) t l Hh (new_array c) 1 c) as (a' & Ha & Hlen & Hf); auto; try lia.
      + apply repeat_length.
      + rewrite Ha. eexists; split; [reflexivity|]. unfold holds; simpl. auto.
  Qed.

  Lemma ct_swap_holds t u l m : holds t l -> holds u m ->
    holds (fst (ct_swap t u)) m /\ holds (snd (ct_swap t u)) l.
  Proof. intros H1 H2. split; [exact H2|exact H1]. Qed.

  Lemma ct_step_holds t l o l' r : holds t l -> seq_step l o = Some (l', r) ->
    exists t', ct_step t o = Ok (t', r) /\ holds t' l'.
  Proof.
    intros Hh Hs. destruct o as [v| |n v|n| | |m|]; cbn [seq_step] in Hs.
    - injection Hs as <- <-. destruct (ct_pushBack_holds t l v Hh) as (t' & Ht & Hh').
      exists t'; simpl; rewrite Ht; auto.
    - assert (Hne : l <> []) by (intros ->; discriminate).
      assert (Hs' : Some (removelast l, CNone) = Some (l', r)) by (destruct l; [congruence|exact Hs]).
      injection Hs' as <- <-.
      destruct (ct_popBack_holds t l Hh Hne) as (t' & Ht & Hh').
      exists t'; simpl; rewrite Ht; auto.
    - destruct (Nat.leb_spec 1 n); cbn [andb] in Hs; [|discriminate].
      destruct (Nat.leb_spec n (length l)); [|discriminate]. injection Hs as <- <-.
      destruct (ct_set_holds t l n v Hh) as (t' & Ht & Hh' & _); auto.
      exists t'; simpl; rewrite Ht; auto.
    - destruct (Nat.leb_spec 1 n); [|discriminate].
      destruct (nth_error l (n - 1)) as [v|] eqn:Hv; [|discriminate]. injection Hs as <- <-.
      exists t; simpl. rewrite (ct_get_holds t l n v); auto.
    - injection Hs as <- <-. exists (ct_clear t); split; auto. now apply ct_clear_holds with l.
    - injection Hs as <- <-. destruct (ct_increaseCapacity_holds t l Hh) as (t' & Ht & Hh' & _).
      exists t'; simpl; rewrite Ht; auto.
    - injection Hs as <- <-. destruct (ct_copy_holds t l m Hh) as (t' & Ht & Hh').
      exists t'; simpl; rewrite Ht; auto.
    - injection Hs as <- <-. exists t; split; auto. simpl. unfold ct_size. destruct Hh as (-> & _); auto.
  Qed.

  Lemma ct_run_holds ops : forall t l l' rs, holds t l -> seq_run l ops = Some (l', rs) ->
    exists t', run ct_step t ops = Ok (t', rs) /\ holds t' l'.
  Proof.
    induction ops as [|o ops IH]; intros t l l' rs Hh Hs; simpl in Hs.
    - injection Hs as <- <-. exists t; auto.
    - destruct (seq_step l o) as [[l1 r]|] eqn:H1; [|discriminate].
      destruct (seq_run l1 ops) as [[l2 rs2]|] eqn:H2; [|discriminate]. injection Hs as <- <-.
      destruct (ct_step_holds t l o l1 r Hh H1) as (t1 & Ht1 & Hh1).
      destruct (IH t1 l1 l2 rs2 Hh1 H2) as (t2 & Ht2 & Hh2).
      exists t2; split; auto. simpl. rewrite Ht1; simpl. now rewrite Ht2.
  Qed.

  (** Observable form: a history allowed by the sequence specification runs with the specified answers, and afterwards every
      node reads as the specified entry and the size is the length. *)
  Lemma ct_history c ops l rs : seq_run [] ops = Some (l, rs) ->
    exists t, run ct_step (ct_new c) ops = Ok (t, rs) /\
      ct_size t = length l /\ ct_size t <= ct_capacity t /\
      (forall n, 1 <= n <= length l -> exists v, nth_error l (n - 1) = Some v /\ ct_get t n = Ok v).
  Proof.
    intros Hs. destruct (ct_run_holds ops (ct_new c) [] l rs (ct_new_holds c) Hs) as (t & Ht & Hh).
    exists t. pose proof Hh as (Hl & Hc & _). repeat split; auto.
    - unfold ct_size, ct_capacity; lia.
    - intros n Hn. destruct (nth_error_lt l (n - 1)) as [v Hv]; [lia|].
      exists v; split; auto. apply (ct_get_holds t l); auto; lia.
  Qed.

  (** Swapping exchanges two trees reached by any histories. *)
  Lemma ct_swap_history c1 c2 ops1 ops2 l1 l2 rs1 rs2 t1 t2 :
    seq_run [] ops1 = Some (l1, rs1) -> run ct_step (ct_new c1) ops1 = Ok (t1, rs1) ->
    seq_run [] ops2 = Some (l2, rs2) -> run ct_step (ct_new c2) ops2 = Ok (t2, rs2) ->
    forall ops l rs, 
      (seq_run l2 ops = Some (l, rs) -> exists t, run ct_step (fst (ct_swap t1 t2)) ops = Ok (t, rs)) /\
      (seq_run l1 ops = Some (l, rs) -> exists t, run ct_step (snd (ct_swap t1 t2)) ops = Ok (t, rs)).
  Proof.
    intros H1 R1 H2 R2 ops l rs.
    destruct (ct_run_holds ops1 (ct_new c1) [] l1 rs1 (ct_new_holds c1) H1) as (t1' & R1' & Hh1).
    destruct (ct_run_holds ops2 (ct_new c2) [] l2 rs2 (ct_new_holds c2) H2) as (t2' & R2' & Hh2).
    assert (t1' = t1) as -> by congruence. assert (t2' = t2) as -> by congruence.
    destruct (ct_swap_holds t1 t2 l1 l2 Hh1 Hh2) as [Ha Hb].
    split; intros Hs.
    - destruct (ct_run_holds ops _ _ l rs Ha Hs) as (t & Ht & _); eauto.
    - destruct (ct_run_holds ops _ _ l rs Hb Hs) as (t & Ht & _); eauto.
  Qed.

  (** The move constructor loses every entry: the new tree is empty and the old one claims its old size over a null array. *)
  Lemma ct_move_loses t l : holds t l -> l <> [] ->
    ct_size (fst (ct_move t)) = 0 /\
    ct_size (snd (ct_move t)) = length l /\
    forall n, ct_get (snd (ct_move t)) n = UB.
  Proof.
    intros (Hl & _) Hn. repeat split; auto.
  Qed.
End Storage.
