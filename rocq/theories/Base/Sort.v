(** What std::sort and std::stable_sort may do to a range, and insertion sort as an instance.  This file models no particular C++ code. *)
From Coq Require Import List Arith Bool Permutation Sorted.
From Verif.Base Require Import Order.
Import ListNotations.

Section Sort.
  Context {A : Type}.
  Variable lt : A -> A -> bool.

  (** No entry is less than one before it. *)
  Definition in_order (l : list A) : Prop := StronglySorted (fun a b => lt b a = false) l.
  Definition sorts (sort : list A -> list A) : Prop := forall l, Permutation (sort l) l /\ in_order (sort l).

  Fixpoint sinsert (a : A) (l : list A) : list A :=
    match l with
    | [] => [a]
    | b :: l' => if lt b a then b :: sinsert a l' else a :: l
    end.
  Definition isort (l : list A) : list A := fold_right sinsert [] l.

  Lemma sinsert_perm a l : Permutation (sinsert a l) (a :: l).
  Proof. induction l as [|b l IH]; simpl; auto. destruct (lt b a); auto. rewrite IH. constructor. Qed.
  Lemma isort_perm l : Permutation (isort l) l.
  Proof. induction l as [|a l IH]; simpl; auto. now rewrite sinsert_perm, IH. Qed.

  Hypothesis Hsw : strict_weak lt.
  Lemma sinsert_sorted a l : in_order l -> in_order (sinsert a l).
  Proof.
    unfold in_order. induction l as [|b l IH]; intros H; simpl; [repeat constructor|].
    apply StronglySorted_inv in H as [H1 H2]. destruct (lt b a) eqn:Hba.
    - constructor; auto. apply Forall_forall. intros x Hx. apply (Permutation_in _ (sinsert_perm a l)) in Hx as [<-|Hx].
      + now apply (sw_asym lt Hsw).
      + rewrite Forall_forall in H2. auto.
    - constructor; [now constructor|]. constructor; auto. rewrite Forall_forall in *. intros x Hx. specialize (H2 x Hx).
      eapply (sw_neg_trans _ Hsw); eauto.
  Qed.
  Lemma isort_sorts : sorts isort.
  Proof.
    intros l. split; [apply isort_perm|]. induction l as [|a l IH]; simpl; [constructor|]. now apply sinsert_sorted.
  Qed.
End Sort.
