(** Proofs about searches made in the callback of a search of DivList. *)
From Coq Require Import List Arith Bool ZArith NArith.
From Verif.Base Require Import Res StdAlg.
From Verif.DivMask Require Import Model.
From Verif.Spec Require Import DivFinder.
From Verif.DivList Require Import Model Nested.
Import ListNotations.

Section Nested.
  Context {M : Type}.
  Variable ex : M -> nat -> Z.
  Variable use : bool.
  Variable divides : M -> M -> bool.
  Variable less : M -> M -> bool.
  Variable linked : bool.
  Variable sorted : bool.
  Variable call : dlist M -> dop M -> res (dlist M * dout M).
  Variable cb : callback M.
  Variable inner : list M -> list (dop M).
  Variable s : dlist M.
  Hypothesis Hinner : forall xs o, In o (inner xs) -> exists r, call s o = Ok (s, r).
  Notation log := (list (dop M * dout M)).

  Definition log_ok (l : log) : Prop := Forall (fun c => call s (fst c) = Ok (s, snd c)) l.
  Lemma calls_l_ok : forall ops l, log_ok l -> (forall o, In o ops -> exists r, call s o = Ok (s, r)) -> exists l', calls_l call (s, l) ops = Ok (s, l') /\ log_ok l'.
  Proof.
    induction ops as [|o ops IH]; intros l Hl Ho; cbn [calls_l fst snd]; [eauto|]. destruct (Ho o) as (r & E); [now left|]. rewrite E. cbn [bind]. apply IH.
    - apply Forall_app. split; auto.
    - intros o' H. apply Ho. now right.
  Qed.
  Lemma feed_l_ok p : forall l log seen, log_ok log -> exists log', feed_l call cb inner p l (s, log) seen = Ok ((s, log'), fst (feed M cb p l seen)) /\ log_ok log'.
  Proof.
    induction l as [|x l IH]; intros log seen Hl; cbn [feed_l feed]; [eauto|]. destruct (p x); [|now apply IH]. cbv zeta.
    destruct (calls_l_ok (inner (seen ++ [x_t x])) log Hl) as (log1 & -> & H1); [apply Hinner|]. cbn [bind]. destruct (cb (seen ++ [x_t x])); [now apply IH|eauto].
  Qed.
  Lemma feed_list_l_ok m : forall l count log seen, log_ok log ->
    exists log', feed_list_l use divides less call cb inner m count l (s, log) seen = Ok ((s, log'), feed_list M use divides less cb m count l seen) /\ log_ok log'.
  Proof.
    induction l as [|x l IH]; intros count log seen Hl; cbn [feed_list_l feed_list]; [eauto|]. cbv zeta. destruct (if S count =? 35 then less (x_t m) (x_t x) else false); [eauto|].
    destruct (ext_divides M use divides x m); [|now apply IH].
    destruct (calls_l_ok (inner (seen ++ [x_t x])) log Hl) as (log1 & -> & H1); [apply Hinner|]. cbn [bind]. destruct (cb (seen ++ [x_t x])); [now apply IH|eauto].
  Qed.
  Lemma all_divisors_l_ok m xs : all_divisors M ex use divides less linked sorted s m cb = Ok xs ->
    exists log, all_divisors_l ex use divides less linked sorted call cb inner s m = Ok ((s, log), xs) /\ log_ok log.
  Proof.
    unfold all_divisors, all_divisors_l. cbv zeta. destruct (negb sorted); [intros H; injection H as <-; apply feed_l_ok; constructor|].
    destruct linked; [intros H; injection H as <-; apply feed_list_l_ok; constructor|].
    destruct (upper_bound (comp M less) (l_list s) (extend M ex use (l_bits s) m)) as [i| | |]; cbn [bind]; try discriminate. intros H. injection H as <-. apply feed_l_ok. constructor.
  Qed.
End Nested.
