From Coq Require Import List Arith Bool NArith Lia.
From Verif.Base Require Import Res Arr.
From Verif.Spec Require Import HMap.
From Verif.HashTable Require Import Model Proofs Debug.
From Verif.TourTree Require Import Debug DebugProofs.
Import ListNotations.

Section Proofs.
  Context {K V : Type}.
  Variable keq : K -> K -> bool.
  Variable hash : K -> N.
  Hypothesis keq_sym : forall a b, keq a b = true -> keq b a = true.
  Hypothesis keq_trans : forall a b c, keq a b = true -> keq b c = true -> keq a c = true.
  Hypothesis hash_keq : forall a b, keq a b = true -> hash a = hash b.
  Notation table := (table K V).
  Notation inv := (inv keq hash).

  Lemma check_count_ok (t : table) l : inv t l -> check_count K V t = Ok tt.
  Proof. intros Hi. unfold check_count. destruct (nodeCount_ok keq hash t l Hi) as [-> _]. cbn [bind]. apply check_ok, Nat.eqb_refl. Qed.
  Lemma check_bin_ok (t : table) l k : inv t l -> check_bin K V hash t k = Ok tt.
  Proof. intros Hi. apply check_ok, Nat.ltb_lt. rewrite (inv_size keq hash t l Hi). apply bin_lt. Qed.

  Lemma finish_ok (t : table) l : inv t l -> finish_d K V hash t = grow_if_full K V hash t.
  Proof.
    intros Hi. unfold finish_d, grow_if_full. destruct (N.ltb (t_max t) (N.of_nat (t_count t))).
    - unfold grow_d. rewrite (check_count_ok _ _ Hi). cbn [bind]. destruct (grow_ok keq hash t l (t_log t + 2) Hi) as (t' & -> & Hi' & _).
      cbn [bind]. rewrite (check_count_ok _ _ Hi'). cbn [bind]. rewrite (check_count_ok _ _ Hi'). reflexivity.
    - cbn [bind]. now rewrite (check_count_ok _ _ Hi).
  Qed.

  Lemma insert_same (t : table) l k v : inv t l -> ht_insert_d K V keq hash t k v = ht_insert K V keq hash t k v.
  Proof.
    intros Hi. unfold ht_insert_d. rewrite (check_bin_ok _ _ _ Hi). cbn [bind].
    change (insert_with keq hash (finish_d K V hash) t k v = insert_with keq hash (grow_if_full K V hash) t k v).
    pose proof (insert_with_ok keq hash keq_sym keq_trans hash_keq t l k v Hi) as H.
    destruct (place_of keq l k) as [h|]; [now rewrite !H|]. destruct H as (t1 & H & Hi1 & _). now rewrite !H, (finish_ok _ _ Hi1).
  Qed.

  Lemma step_same (t : table) l o : inv t l -> ht_step_d K V keq hash t o = ht_step K V keq hash t o.
  Proof.
    intros Hi. destruct o; auto; cbn [ht_step_d ht_step].
    - now rewrite (insert_same _ _ _ _ Hi).
    - unfold ht_lookup_d. now rewrite (check_bin_ok _ _ _ Hi).
  Qed.

  Lemma run_same ops : forall (t : table) l, inv t l -> run (ht_step_d K V keq hash) t ops = run (ht_step K V keq hash) t ops.
  Proof.
    induction ops as [|o ops IH]; intros t l Hi; auto. cbn [run]. rewrite (step_same _ _ _ Hi).
    pose proof (step_ok keq hash keq_sym keq_trans hash_keq t l o Hi) as Hs. destruct (hmap_step keq l o) as [[l1 r]| | |]; try contradiction.
    - destruct Hs as (t1 & -> & Hi1). cbn [bind]. now rewrite (IH _ _ Hi1).
    - now rewrite Hs.
  Qed.

  Theorem ht_no_assertion nbits ops : run (ht_step_d K V keq hash) (ht_new K V nbits) ops = run (ht_step K V keq hash) (ht_new K V nbits) ops.
  Proof. apply run_same with (l := []). apply new_inv. Qed.
End Proofs.
