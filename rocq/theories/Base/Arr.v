(** Array reads and writes on lists, with out-of-bounds access as [UB].  This file models no particular C++ code. *)
From Coq Require Import List Arith Lia Permutation.
From Verif.Base Require Import Res.
Import ListNotations.

Fixpoint upd {A : Type} (l : list A) (i : nat) (v : A) : list A :=
  match l, i with
  | [], _ => []
  | _ :: t, 0 => v :: t
  | h :: t, S j => h :: upd t j v
  end.

(** 0-based access, as for [std::vector::operator[]]. *)
Definition vget {A : Type} (l : list A) (i : nat) : res A := of_option (nth_error l i).
Definition vset {A : Type} (l : list A) (i : nat) (v : A) : res (list A) :=
  if Nat.ltb i (length l) then Ok (upd l i v) else UB.

Lemma upd_length {A} (l : list A) i v : length (upd l i v) = length l.
Proof. revert i; induction l as [|h t IH]; intros [|j]; simpl; auto. Qed.

Lemma nth_upd_same {A} (l : list A) i v : i < length l -> nth_error (upd l i v) i = Some v.
Proof. revert i; induction l as [|h t IH]; intros [|j] H; simpl in *; try lia; auto. apply IH; lia. Qed.

Lemma nth_upd_other {A} (l : list A) i j v : i <> j -> nth_error (upd l i v) j = nth_error l j.
Proof.
  revert i j; induction l as [|h t IH]; intros [|i] [|j] H; simpl; auto; try lia.
Qed.

Lemma upd_same {A} (l : list A) i v : nth_error l i = Some v -> upd l i v = l.
Proof.
  revert i; induction l as [|h t IH]; intros [|i] H; simpl in *; try congruence.
  f_equal; auto.
Qed.

Lemma upd_upd {A} (l : list A) i v w : upd (upd l i v) i w = upd l i w.
Proof. revert i; induction l as [|h t IH]; intros [|i]; simpl; auto. f_equal; auto. Qed.

Lemma upd_comm {A} (l : list A) i j v w : i <> j -> upd (upd l i v) j w = upd (upd l j w) i v.
Proof.
  revert i j; induction l as [|h t IH]; intros [|i] [|j] H; simpl; auto; try lia.
  f_equal; auto.
Qed.

Lemma upd_oob {A} (l : list A) i v : length l <= i -> upd l i v = l.
Proof. revert i; induction l as [|h t IH]; intros [|i] H; simpl in *; auto; try lia. f_equal; apply IH; lia. Qed.

Lemma upd_app_l {A} (l r : list A) i v : i < length l -> upd (l ++ r) i v = upd l i v ++ r.
Proof. revert i; induction l as [|h t IH]; intros [|i] H; simpl in *; auto; try lia. f_equal; apply IH; lia. Qed.

Lemma upd_app_r {A} (l r : list A) i v : length l <= i -> upd (l ++ r) i v = l ++ upd r (i - length l) v.
Proof.
  revert i; induction l as [|h t IH]; intros i H; simpl in *.
  - now rewrite Nat.sub_0_r.
  - destruct i as [|i]; try lia. simpl. f_equal. apply IH; lia.
Qed.

(** Overwriting one slot exchanges one element of the multiset. *)
Lemma upd_perm {A} (l : list A) i x v :
  nth_error l i = Some x -> Permutation (x :: upd l i v) (v :: l).
Proof.
  revert i; induction l as [|h t IH]; intros [|i] H; simpl in *; try congruence.
  - injection H as ->. apply perm_swap.
  - rewrite perm_swap. rewrite (IH i H). apply perm_swap.
Qed.

Lemma nth_error_ext {A} (l l' : list A) :
  (forall i, nth_error l i = nth_error l' i) -> l = l'.
Proof.
  revert l'; induction l as [|h t IH]; intros [|h' t'] H; auto.
  - specialize (H 0); discriminate.
  - specialize (H 0); discriminate.
  - f_equal.
    + specialize (H 0); simpl in H; congruence.
    + apply IH; intros i; exact (H (S i)).
Qed.

Lemma vget_ok {A} (l : list A) i v : vget l i = Ok v <-> nth_error l i = Some v.
Proof. unfold vget; destruct (nth_error l i); simpl; split; congruence. Qed.

Lemma vset_ok {A} (l : list A) i v : i < length l -> vset l i v = Ok (upd l i v).
Proof. unfold vset; intros H; apply Nat.ltb_lt in H; now rewrite H. Qed.

Lemma nth_error_lt {A} (l : list A) i : i < length l -> exists v, nth_error l i = Some v.
Proof.
  intros H; destruct (nth_error l i) as [v|] eqn:E; eauto.
  apply nth_error_None in E; lia.
Qed.

Lemma nth_error_some_lt {A} (l : list A) i v : nth_error l i = Some v -> i < length l.
Proof. intros H; apply nth_error_Some; congruence. Qed.

Lemma removelast_length {A} (l : list A) : length (removelast l) = length l - 1.
Proof.
  induction l as [|a l IH]; auto. destruct l as [|b l]; auto.
  change (removelast (a :: b :: l)) with (a :: removelast (b :: l)).
  simpl length in *. lia.
Qed.

Lemma nth_error_removelast {A} (l : list A) i :
  i < length l - 1 -> nth_error (removelast l) i = nth_error l i.
Proof.
  revert i; induction l as [|a l IH]; intros i H; simpl in H; try lia.
  destruct l as [|b l]; simpl in H; try lia.
  change (removelast (a :: b :: l)) with (a :: removelast (b :: l)).
  destruct i as [|i]; auto. simpl nth_error. apply IH. simpl; lia.
Qed.

Lemma removelast_snoc {A} (l : list A) x : removelast (l ++ [x]) = l.
Proof. rewrite removelast_app by discriminate. simpl. apply app_nil_r. Qed.

Lemma removelast_perm {A} (l : list A) v :
  nth_error l (length l - 1) = Some v -> Permutation l (v :: removelast l).
Proof.
  intros H. destruct (@exists_last _ l) as (l' & x & ->).
  { intros ->; discriminate. }
  rewrite removelast_snoc. rewrite app_length in H; simpl in H.
  rewrite nth_error_app2 in H by lia.
  replace (length l' + 1 - 1 - length l') with 0 in H by lia.
  injection H as ->. symmetry; apply Permutation_cons_append.
Qed.
