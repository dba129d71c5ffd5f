(** Algorithms of the C++ standard library, given by their specification.  This file models no code of mathic. *)
From Coq Require Import List Arith Bool Lia Permutation.
From Verif.Base Require Import Res Order Sort.
Import ListNotations.

(** std::upper_bound(begin, end, x, lt): the range must be partitioned into entries that [x] is not less than, followed by entries
    that [x] is less than, and the position of the first of the latter is returned.  On any other range the behaviour is undefined. *)
Fixpoint upper_bound {A B : Type} (lt : B -> A -> bool) (l : list A) (x : B) : res nat :=
  match l with
  | [] => Ok 0
  | y :: l' => if lt x y then (if forallb (lt x) l' then Ok 0 else UB)
               else let* i := upper_bound lt l' x in Ok (S i)
  end.

Lemma upper_bound_ok {A B} (lt : B -> A -> bool) l (x : B) i : upper_bound lt l x = Ok i ->
  i <= length l /\ (forall y, In y (firstn i l) -> lt x y = false) /\ (forall y, In y (skipn i l) -> lt x y = true).
Proof.
  revert i. induction l as [|y l IH]; intros i H; cbn [upper_bound] in H.
  - injection H as <-. cbn. repeat split; auto; intros ? [].
  - destruct (lt x y) eqn:Hxy.
    + destruct (forallb (lt x) l) eqn:Hf; [|discriminate]. injection H as <-. cbn [firstn skipn length]. split; [lia|]. split; [intros ? []|].
      rewrite forallb_forall in Hf. intros z [<-|Hz]; auto.
    + destruct (upper_bound lt l x) as [j| | |] eqn:Hu; cbn [bind] in H; try discriminate. injection H as <-.
      destruct (IH j eq_refl) as (H1 & H2 & H3). cbn [firstn skipn length]. split; [lia|]. split; [|auto]. intros z [<-|Hz]; auto.
Qed.

(** A sorted range is partitioned. *)
Lemma upper_bound_sorted {A} (lt : A -> A -> bool) l x : strict_weak lt -> in_order lt l -> exists i, upper_bound lt l x = Ok i.
Proof.
  intros Hsw H. induction H as [|y l H IH Hf]; cbn [upper_bound]; [eauto|].
  destruct (lt x y) eqn:Hxy.
  - replace (forallb (lt x) l) with true; [eauto|]. symmetry. apply forallb_forall. intros z Hz. rewrite Forall_forall in Hf.
    eapply sw_lt_le; eauto.
  - destruct IH as [i ->]. cbn [bind]. eauto.
Qed.

(** std::partition(begin, end, p): the entries that satisfy [p], in some order, followed by the others in some order. *)
Definition partitions {A : Type} (part : (A -> bool) -> list A -> list A * list A) : Prop :=
  forall p l, Permutation (fst (part p l)) (filter p l) /\ Permutation (snd (part p l)) (filter (fun x => negb (p x)) l).
Definition keep_order {A : Type} (p : A -> bool) (l : list A) : list A * list A := (filter p l, filter (fun x => negb (p x)) l).
Lemma keep_order_partitions {A} : partitions (@keep_order A).
Proof. intros p l. split; apply Permutation_refl. Qed.
