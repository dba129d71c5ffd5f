(** Facts about the arena. *)
From Coq Require Import List Arith Bool Lia Permutation.
From Verif.Base Require Import Res Arr Lists.
From Verif.KDMem Require Import Arena.
Import ListNotations.

Section Facts.
  Context {N : Type}.
  Notation arena := (arena N).

  Definition size (A : arena) : nat := length (ar_cells A).
  Definition fresh (A : arena) : nat := ar_dead A + size A.
  Definition put (A : arena) (p : nat) (n : N) : arena := mk_arena (ar_dead A) (upd (ar_cells A) (p - ar_dead A) n).
  Definition grow (A : arena) (n : N) : arena := mk_arena (ar_dead A) (ar_cells A ++ [n]).
  (** The pointers that may be followed *)
  Definition live (A : arena) : list nat := seq (ar_dead A) (size A).

  Lemma new_grow A n : ar_new A n = (grow A n, fresh A).
  Proof. reflexivity. Qed.
  Lemma get_bounds A p n : ar_get A p = Ok n -> ar_dead A <= p < fresh A.
  Proof.
    unfold ar_get, fresh, size. destruct (Nat.ltb_spec p (ar_dead A)); [discriminate|]. intros Hv. apply vget_ok, nth_error_some_lt in Hv. lia.
  Qed.
  Lemma get_live A p n : ar_get A p = Ok n -> In p (live A).
  Proof. intros H. apply get_bounds in H. unfold live. apply in_seq. unfold fresh in H. lia. Qed.
  Lemma live_get A p : In p (live A) -> exists n, ar_get A p = Ok n.
  Proof.
    unfold live, ar_get. intros H. apply in_seq in H. destruct (Nat.ltb_spec p (ar_dead A)); [lia|].
    destruct (nth_error_lt (ar_cells A) (p - ar_dead A)) as [n Hn]; [unfold size in H; lia|]. exists n. now apply vget_ok.
  Qed.
  Lemma get_not_fresh A p n : ar_get A p = Ok n -> p <> fresh A.
  Proof. intros H. apply get_bounds in H. lia. Qed.
  Lemma set_put A p n m : ar_get A p = Ok m -> ar_set A p n = Ok (put A p n).
  Proof.
    unfold ar_get, ar_set, put. destruct (p <? ar_dead A); [discriminate|]. intros Hv. apply vget_ok, nth_error_some_lt in Hv.
    rewrite vset_ok by auto. reflexivity.
  Qed.
  Lemma get_put_same A p n m : ar_get A p = Ok m -> ar_get (put A p n) p = Ok n.
  Proof.
    unfold ar_get, put. cbn [ar_dead ar_cells]. destruct (p <? ar_dead A); [discriminate|]. intros Hv. apply vget_ok, nth_error_some_lt in Hv.
    apply vget_ok, nth_upd_same; auto.
  Qed.
  Lemma get_put_other A p q n : q <> p -> ar_dead A <= p -> ar_get (put A p n) q = ar_get A q.
  Proof.
    intros Hq Hp. unfold ar_get, put. cbn [ar_dead ar_cells]. destruct (Nat.ltb_spec q (ar_dead A)); [reflexivity|].
    unfold vget. rewrite nth_upd_other by lia. reflexivity.
  Qed.
  Lemma get_put_ne A p q n m : ar_get A p = Ok m -> q <> p -> ar_get (put A p n) q = ar_get A q.
  Proof. intros H Hq. apply get_put_other; auto. apply get_bounds in H. lia. Qed.
  Lemma size_put A p n : size (put A p n) = size A.
  Proof. unfold size, put. apply upd_length. Qed.
  Lemma fresh_put A p n : fresh (put A p n) = fresh A.
  Proof. unfold fresh. now rewrite size_put. Qed.
  Lemma dead_put A p n : ar_dead (put A p n) = ar_dead A.
  Proof. reflexivity. Qed.
  Lemma get_grow_new A n : ar_get (grow A n) (fresh A) = Ok n.
  Proof.
    unfold ar_get, grow, fresh, size. cbn [ar_dead ar_cells]. destruct (Nat.ltb_spec (ar_dead A + length (ar_cells A)) (ar_dead A)); [lia|].
    apply vget_ok. rewrite nth_error_app2 by lia. replace (_ - _ - _) with 0 by lia. reflexivity.
  Qed.
  Lemma get_grow_other A n p : p <> fresh A -> ar_get (grow A n) p = ar_get A p.
  Proof.
    unfold ar_get, grow, fresh, size. cbn [ar_dead ar_cells]. intros Hp. destruct (Nat.ltb_spec p (ar_dead A)); [reflexivity|].
    unfold vget. destruct (Nat.lt_ge_cases (p - ar_dead A) (length (ar_cells A))) as [Hl|Hl].
    - rewrite nth_error_app1 by auto. reflexivity.
    - rewrite (proj2 (nth_error_None _ _)) by (rewrite app_length; cbn [length]; lia). rewrite (proj2 (nth_error_None (ar_cells A) _)) by lia. reflexivity.
  Qed.
  Lemma get_grow A n p m : ar_get A p = Ok m -> ar_get (grow A n) p = Ok m.
  Proof. intros H. rewrite get_grow_other; auto. eapply get_not_fresh; eauto. Qed.
  Lemma size_grow A n : size (grow A n) = S (size A).
  Proof. unfold size, grow. cbn [ar_cells]. rewrite app_length. cbn [length]. lia. Qed.
  Lemma fresh_grow A n : fresh (grow A n) = S (fresh A).
  Proof. unfold fresh. rewrite size_grow. cbn [ar_dead grow]. lia. Qed.
  Lemma dead_grow A n : ar_dead (grow A n) = ar_dead A.
  Proof. reflexivity. Qed.
  Lemma live_put A p n : live (put A p n) = live A.
  Proof. unfold live. now rewrite size_put. Qed.
  Lemma live_grow A n : live (grow A n) = live A ++ [fresh A].
  Proof. unfold live. rewrite size_grow, dead_grow, seq_S. reflexivity. Qed.

  (** Two memories with the same pointers in use *)
  Definition same_size (A A' : arena) : Prop := ar_dead A' = ar_dead A /\ size A' = size A.
  Lemma same_size_refl A : same_size A A.
  Proof. split; reflexivity. Qed.
  Lemma same_size_trans A B D : same_size A B -> same_size B D -> same_size A D.
  Proof. intros [H1 H2] [H3 H4]. split; congruence. Qed.
  Lemma same_size_put A p n : same_size A (put A p n).
  Proof. split; [reflexivity|apply size_put]. Qed.
  Lemma same_size_live A A' : same_size A A' -> live A' = live A.
  Proof. intros [H1 H2]. unfold live. now rewrite H1, H2. Qed.
  Lemma same_size_fresh A A' : same_size A A' -> fresh A' = fresh A.
  Proof. intros [H1 H2]. unfold fresh. now rewrite H1, H2. Qed.

  Lemma live_bound A f : NoDup f -> (forall q, In q f -> In q (live A)) -> length f <= size A.
  Proof. intros Hn Hi. rewrite <- (seq_length (size A) (ar_dead A)). apply NoDup_incl_length; auto. Qed.
End Facts.
