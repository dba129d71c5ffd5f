(** Computations that count something: how often a function of the configuration is called.  This file models no particular C++ code. *)
From Coq Require Import List.
From Verif.Base Require Import Res.

(** An outcome together with a number *)
Definition counted (A : Type) : Type := res (A * nat).
(** Nothing is counted *)
Definition free {A : Type} (m : res A) : counted A := let* a := m in Ok (a, 0).
(** One after the other: the numbers are added *)
Definition cbind {A B : Type} (m : counted A) (k : A -> counted B) : counted B :=
  let* (a, c) := m in let* (b, d) := k a in Ok (b, c + d).
Notation "'let@' x ':=' m 'in' k" := (cbind m (fun x => k))
  (at level 200, x pattern, m at level 100, k at level 200, right associativity).
(** The outcome without the number *)
Definition forget {A : Type} (m : counted A) : res A := let* (a, _) := m in Ok a.

Lemma forget_free {A} (m : res A) : forget (free m) = m.
Proof. now destruct m. Qed.
Lemma forget_bind {A B} (m : counted A) (k : A -> counted B) : forget (cbind m k) = bind (forget m) (fun a => forget (k a)).
Proof. unfold forget, cbind. destruct m as [[a c]| | |]; simpl; auto. now destruct (k a) as [[b d]| | |]. Qed.
Lemma bind_ext {A B} (m m' : res A) (k k' : A -> res B) : m = m' -> (forall a, k a = k' a) -> bind m k = bind m' k'.
Proof. intros -> H. destruct m'; simpl; auto. Qed.
Lemma cbind_ok {A B} (m : counted A) (k : A -> counted B) b n : cbind m k = Ok (b, n) ->
  exists a c d, m = Ok (a, c) /\ k a = Ok (b, d) /\ n = c + d.
Proof.
  unfold cbind. destruct m as [[a c]| | |]; simpl; try discriminate. destruct (k a) as [[b' d]| | |] eqn:H; simpl; try discriminate.
  intros H1. injection H1 as <- <-. exists a, c, d. auto.
Qed.
Lemma free_ok {A} (m : res A) a n : free m = Ok (a, n) -> m = Ok a /\ n = 0.
Proof. destruct m; simpl; try discriminate. intros H. injection H as <- <-. auto. Qed.
