(** Reasoning about functions of the client that throw (Base/Fault.v).  This file models no particular C++ code. *)
From Coq Require Import Arith Lia.
From Verif.Base Require Import Res Fault.

Lemma bind_inv {A B} (m : res A) (f : A -> res B) r : bind m f = Ok r -> exists a, m = Ok a /\ f a = Ok r.
Proof. destruct m; cbn; intros H; try discriminate; eauto. Qed.
Lemma fbind_fine {S A B} (m : res (fout S A)) (f : nat -> A -> res (fout S B)) b r : fbind m f = Ok (Fine b r) ->
  exists b1 a, m = Ok (Fine b1 a) /\ f b1 a = Ok (Fine b r).
Proof. unfold fbind. destruct m as [[b1 a|s]| | |]; cbn; intros H; try discriminate; eauto. Qed.
Lemma fbind_left {S A B} (m : res (fout S A)) (f : nat -> A -> res (fout S B)) s : fbind m f = Ok (Left s) ->
  m = Ok (Left s) \/ exists b1 a, m = Ok (Fine b1 a) /\ f b1 a = Ok (Left s).
Proof. unfold fbind. destruct m as [[b1 a|s']| | |]; cbn; intros H; try discriminate; eauto. left. congruence. Qed.
Lemma fleft_fine {S S' A} (g : S -> S') (m : res (fout S A)) b r : fleft g m = Ok (Fine b r) -> m = Ok (Fine b r).
Proof. unfold fleft. destruct m as [[b1 a|s']| | |]; cbn; intros H; try discriminate; congruence. Qed.
Lemma fleft_left {S S' A} (g : S -> S') (m : res (fout S A)) s : fleft g m = Ok (Left s) -> exists s0, m = Ok (Left s0) /\ s = g s0.
Proof. unfold fleft. destruct m as [[b1 a|s']| | |]; cbn; intros H; try discriminate. exists s'. split; congruence. Qed.
Lemma client_fine {S A} b (s : S) (k : nat -> res (fout S A)) b' r : client b s k = Ok (Fine b' r) -> exists b1, b = Datatypes.S b1 /\ k b1 = Ok (Fine b' r).
Proof. destruct b; cbn; intros H; try discriminate; eauto. Qed.
Lemma client_left {S A} b (s : S) (k : nat -> res (fout S A)) s' : client b s k = Ok (Left s') -> s' = s \/ exists b1, b = Datatypes.S b1 /\ k b1 = Ok (Left s').
Proof. destruct b; cbn; intros H; eauto. left. congruence. Qed.

Ltac fine1 :=
  match goal with
  | H : bind _ _ = Ok _ |- _ => let a := fresh "a" in let H1 := fresh "H" in let H2 := fresh "H" in apply bind_inv in H as (a & H1 & H2); rewrite ?H1; cbn [bind]
  | H : fbind _ _ = Ok (Fine _ _) |- _ => let b := fresh "b" in let a := fresh "a" in let H1 := fresh "H" in let H2 := fresh "H" in apply fbind_fine in H as (b & a & H1 & H2)
  | H : fleft _ _ = Ok (Fine _ _) |- _ => apply fleft_fine in H
  | H : client _ _ _ = Ok (Fine _ _) |- _ => let b := fresh "b" in let H1 := fresh "H" in apply client_fine in H as (b & -> & H1)
  | H : Ok (Fine _ _) = Ok (Fine _ _) |- _ => injection H as ? ?; subst
  | H : Ok (Left _) = Ok (Fine _ _) |- _ => discriminate H
  | H : UB = Ok _ |- _ => discriminate H
  | H : NoFuel = Ok _ |- _ => discriminate H
  end.
Ltac fine := repeat (fine1; cbv beta iota zeta in *).

Ltac use L := match goal with H : _ |- _ => apply L in H; rewrite H; cbn [bind] end.
Ltac again := repeat match goal with H : ?m = Ok _ |- context [bind ?m _] => rewrite H; cbn [bind] end.

(** If the model without exceptions returns [r] then the one with exceptions returns [r] or throws. *)
Definition tot {S A : Type} (m : res (fout S A)) (n : res A) : Prop :=
  forall r, n = Ok r -> exists f, m = Ok f /\ match f with Fine _ a => a = r | Left _ => True end.

Lemma tot_ok {S A} b (a : A) : tot (Ok (@Fine S A b a)) (Ok a).
Proof. intros r H. injection H as <-. eexists. split; [reflexivity|]. reflexivity. Qed.
Lemma tot_ub {S A} (m : res (fout S A)) : tot m UB.
Proof. intros r H. discriminate H. Qed.
Lemma tot_nofuel {S A} (m : res (fout S A)) : tot m NoFuel.
Proof. intros r H. discriminate H. Qed.
Lemma tot_bind {S A B} (n : res A) (f : A -> res (fout S B)) (g : A -> res B) : (forall a, n = Ok a -> tot (f a) (g a)) -> tot (bind n f) (bind n g).
Proof. intros Hf r H. apply bind_inv in H as (a & -> & H). cbn [bind]. now apply (Hf a). Qed.
Lemma tot_fbind {S A B} (m : res (fout S A)) n (f : nat -> A -> res (fout S B)) g : tot m n -> (forall b a, n = Ok a -> tot (f b a) (g a)) -> tot (fbind m f) (bind n g).
Proof.
  intros Hm Hf r H. apply bind_inv in H as (a & Ha & H). destruct (Hm a Ha) as ([b a'|s] & -> & He); unfold fbind; cbn [bind].
  - subst a'. now apply (Hf b a Ha).
  - eexists. split; [reflexivity|]. exact I.
Qed.
Lemma tot_fleft {S S' A} (g : S -> S') (m : res (fout S A)) n : tot m n -> tot (fleft g m) n.
Proof. intros Hm r H. destruct (Hm r H) as ([b a|s] & -> & He); unfold fleft; cbn [bind]; eexists; (split; [reflexivity|]); auto. Qed.
Lemma tot_client {S A} b (s : S) (k : nat -> res (fout S A)) n : (forall b', tot (k b') n) -> tot (client b s k) n.
Proof. intros Hk. destruct b as [|b]; cbn [client]; [|apply Hk]. intros r _. eexists. split; [reflexivity|]. exact I. Qed.
Lemma tot_right {S A} (m : res (fout S A)) n : tot m n -> tot m (let* a := n in Ok a).
Proof. intros Hm r H. apply bind_inv in H as (a & Ha & H). injection H as <-. now apply Hm. Qed.

Lemma clients_fine {S A} n b (s : S) (k : nat -> res (fout S A)) b' r : clients n b s k = Ok (Fine b' r) -> n <= b /\ k (b - n) = Ok (Fine b' r).
Proof. unfold clients. destruct (Nat.leb_spec n b); intros Hk; try discriminate; auto. Qed.
Lemma clients_left {S A} n b (s : S) (k : nat -> res (fout S A)) s' : clients n b s k = Ok (Left s') -> s' = s \/ n <= b /\ k (b - n) = Ok (Left s').
Proof. unfold clients. destruct (Nat.leb_spec n b); intros Hk; auto. left. congruence. Qed.
Lemma tot_clients {S A} n b (s : S) (k : nat -> res (fout S A)) m : (forall b', tot (k b') m) -> tot (clients n b s k) m.
Proof. intros Hk. unfold clients. destruct (Nat.leb n b); [apply Hk|]. intros r _. eexists. split; [reflexivity|]. exact I. Qed.

Ltac tot1 :=
  match goal with
  | |- tot (Ok (Fine _ ?a)) (Ok ?a) => apply tot_ok
  | |- tot _ UB => apply tot_ub
  | |- tot _ NoFuel => apply tot_nofuel
  | |- tot (client _ _ _) _ => apply tot_client; intros
  | |- tot (clients _ _ _ _) _ => apply tot_clients; intros
  | |- tot (bind ?n _) (bind ?n _) => apply tot_bind; intros
  | |- tot (fbind _ _) (bind _ _) => apply tot_fbind; [|intros]
  | |- tot (fleft _ _) _ => apply tot_fleft
  | |- tot (if ?c then _ else _) (if ?c then _ else _) => destruct c eqn:?
  end.
Ltac tots := repeat (tot1; cbv beta iota zeta).
