(** What it means for two divisor finders to answer a history alike, independent of any implementation. *)
From Coq Require Import List Arith Bool Permutation.
From Verif.Base Require Import Res.
From Verif.Spec Require Import DivFinder.
Import ListNotations.

Section Agree.
  Context {M : Type}.
  Variable same : M -> M -> bool.

  (** The same entries up to equal exponents, in any order. *)
  Definition alike (l l' : list M) : Prop := forall a, copies same a l = copies same a l'.

  Definition answers_alike (r r' : dout M) : Prop :=
    match r, r' with
    | DONone, DONone => True
    | DOBool b, DOBool c => b = c
    | DORemoved b xs, DORemoved c ys => b = c /\ alike xs ys
    | DOFound (Some _), DOFound (Some _) => True
    | DOFound None, DOFound None => True
    | DOList xs, DOList ys => alike xs ys
    | DOSize n, DOSize m => n = m
    | _, _ => False
    end.
  (** The same answer, up to order and, for searches, up to the choice of the divisor. *)
  Definition answers_same (r r' : dout M) : Prop :=
    match r, r' with
    | DORemoved b xs, DORemoved c ys => b = c /\ Permutation xs ys
    | DOFound (Some _), DOFound (Some _) => True
    | DOList xs, DOList ys => Permutation xs ys
    | _, _ => r = r'
    end.

  (** The callbacks never decline. *)
  Definition full (o : dop M) : Prop :=
    match o with DAllDivisors _ cb | DAllMultiples _ cb | DForAll cb => forall p, cb p = true | _ => True end.

  (** Explicit rebuilds, and what a history answers apart from them. *)
  Definition is_rebuild (o : dop M) : bool := match o with DRebuild => true | _ => false end.
  Definition without_rebuilds (ops : list (dop M)) : list (dop M) := filter (fun o => negb (is_rebuild o)) ops.
  Definition observed (ops : list (dop M)) (rs : list (dout M)) : list (dout M) :=
    map snd (filter (fun p => negb (is_rebuild (fst p))) (combine ops rs)).

  (** Two finders answer a history alike unless the caller breaks a rule of one of them. *)
  Definition agree (R : dout M -> dout M -> Prop) {A B : Type} (stepA : A -> dop M -> res (A * dout M)) (initA : res A) (absA : A -> list M)
    (preA : list M -> dop M -> bool) (stepB : B -> dop M -> res (B * dout M)) (initB : res B) (absB : B -> list M)
    (preB : list M -> dop M -> bool) (ops : list (dop M)) : Prop :=
    exists a0 b0, initA = Ok a0 /\ initB = Ok b0 /\
    ((exists a b rs rs', run stepA a0 ops = Ok (a, rs) /\ run stepB b0 ops = Ok (b, rs') /\ Forall2 R rs rs') \/
     (exists ops1 o ops2 a rs, ops = ops1 ++ o :: ops2 /\ run stepA a0 ops1 = Ok (a, rs) /\ preA (absA a) o = false) \/
     (exists ops1 o ops2 b rs, ops = ops1 ++ o :: ops2 /\ run stepB b0 ops1 = Ok (b, rs) /\ preB (absB b) o = false)).
End Agree.
