(** Loops over lists in the outcome monad.  This file models no C++ code. *)
From Coq Require Import List Arith Lia.
From Verif.Base Require Import Res.
Import ListNotations.

Fixpoint mapM {A B : Type} (f : A -> res B) (l : list A) : res (list B) :=
  match l with
  | [] => Ok []
  | a :: l' => let* b := f a in let* r := mapM f l' in Ok (b :: r)
  end.

Lemma mapM_forall2 {A B} (f : A -> res B) l : forall r, mapM f l = Ok r -> Forall2 (fun a b => f a = Ok b) l r.
Proof.
  induction l as [|a l IH]; intros r H; cbn [mapM] in H.
  - injection H as <-. constructor.
  - destruct (f a) as [b| | |] eqn:Ha; cbn [bind] in H; try discriminate.
    destruct (mapM f l) as [r'| | |]; cbn [bind] in H; try discriminate. injection H as <-. constructor; auto.
Qed.
Lemma mapM_ok {A B} (f : A -> res B) (g : A -> B) l : (forall a, In a l -> f a = Ok (g a)) -> mapM f l = Ok (map g l).
Proof.
  induction l as [|a l IH]; intros H; cbn [mapM map]; auto. rewrite (H a) by now left. cbn [bind].
  rewrite IH by (intros b Hb; apply H; now right). reflexivity.
Qed.
Lemma mapM_exists {A B} (f : A -> res B) l : (forall a, In a l -> exists b, f a = Ok b) -> exists r, mapM f l = Ok r.
Proof.
  induction l as [|a l IH]; intros H; cbn [mapM]; [eauto|]. destruct (H a) as [b ->]; [now left|]. cbn [bind].
  destruct IH as [r ->]; [intros c Hc; apply H; now right|]. cbn [bind]. eauto.
Qed.
Lemma mapM_length {A B} (f : A -> res B) l r : mapM f l = Ok r -> length r = length l.
Proof. intros H. apply mapM_forall2 in H. induction H; simpl; auto. Qed.
