(** Facts about lists that the standard library lacks.  This file models no C++ code. *)
From Coq Require Import List Arith Lia Permutation.
From Verif.Base Require Import Arr.
Import ListNotations.

Lemma nodup_app {A} (l l' : list A) : NoDup (l ++ l') <-> NoDup l /\ NoDup l' /\ forall x, In x l -> ~ In x l'.
Proof.
  induction l as [|a l IH]; simpl.
  - split; [intros H; repeat split; auto; constructor|tauto].
  - split.
    + intros H. inversion H as [|? ? Hn Hd]; subst. apply IH in Hd as (H1 & H2 & H3). split; [|split; auto].
      * constructor; auto. intros Hi. apply Hn. apply in_or_app. now left.
      * intros x [<-|Hx] Hx'; [apply Hn; apply in_or_app; now right|eapply H3; eauto].
    + intros (H1 & H2 & H3). inversion H1 as [|? ? Hn Hd]; subst. constructor.
      * intros Hi. apply in_app_or in Hi as [Hi|Hi]; auto. eapply H3; eauto.
      * apply IH. repeat split; auto.
Qed.

Lemma nodup_perm {A} (l l' : list A) : Permutation l l' -> NoDup l -> NoDup l'.
Proof. intros. eapply Permutation_NoDup; eauto. Qed.

Lemma concat_upd {A} (chs : list (list A)) i l l' : nth_error chs i = Some l -> Permutation (l ++ concat (upd chs i l')) (l' ++ concat chs).
Proof.
  revert i. induction chs as [|c chs IH]; intros [|i] H; simpl in H; try discriminate.
  - injection H as ->. simpl. apply Permutation_app_swap_app.
  - simpl. rewrite (Permutation_app_swap_app l c), (Permutation_app_swap_app l' c). apply Permutation_app_head. now apply IH.
Qed.
Lemma concat_upd_snoc {A} (chs : list (list A)) i l x : nth_error chs i = Some l -> Permutation (concat (upd chs i (l ++ [x]))) (x :: concat chs).
Proof.
  intros H. pose proof (concat_upd _ _ _ (l ++ [x]) H) as Hp. rewrite <- app_assoc in Hp. now apply Permutation_app_inv_l in Hp.
Qed.
Lemma in_concat_nth {A} (chs : list (list A)) x : In x (concat chs) <-> exists i l, nth_error chs i = Some l /\ In x l.
Proof.
  rewrite in_concat. split.
  - intros (l & Hl & Hx). apply In_nth_error in Hl as [i Hi]. eauto.
  - intros (i & l & Hi & Hx). exists l. split; auto. eapply nth_error_In; eauto.
Qed.
Lemma nodup_concat_nth {A} (chs : list (list A)) : forall i l, NoDup (concat chs) -> nth_error chs i = Some l -> NoDup l.
Proof.
  induction chs as [|c chs IH]; intros [|i] l Hn Hi; simpl in *; try discriminate; apply nodup_app in Hn as (H1 & H2 & H3).
  - now injection Hi as ->.
  - eauto.
Qed.
Lemma nodup_concat_disjoint {A} (chs : list (list A)) : forall i j l l' x, NoDup (concat chs) -> nth_error chs i = Some l -> nth_error chs j = Some l' ->
  In x l -> In x l' -> i = j.
Proof.
  induction chs as [|c chs IH]; intros [|i] [|j] l l' x Hn Hi Hj Hx Hx'; simpl in *; try discriminate; auto; apply nodup_app in Hn as (H1 & H2 & H3).
  - injection Hi as ->. exfalso. apply (H3 x Hx). apply in_concat_nth. eauto.
  - injection Hj as ->. exfalso. apply (H3 x Hx'). apply in_concat_nth. eauto.
  - f_equal. eauto.
Qed.
