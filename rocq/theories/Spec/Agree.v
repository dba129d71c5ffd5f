(** What it means for two priority queues to answer a history alike, independent of any implementation. *)
From Coq Require Import List Arith Bool Permutation.
From Verif.Base Require Import Res.
From Verif.Spec Require Import PQ.
Import ListNotations.

Section Agree.
  Context {E : Type}.
  Variable lt : E -> E -> bool.

  (** How many entries of [l] are equivalent to [a]. *)
  Definition occurrences (a : E) (l : list E) : nat := length (filter (fun y => negb (lt a y) && negb (lt y a)) l).
  (** The same entries up to equivalence, in any order. *)
  Definition alike (l l' : list E) : Prop := forall a, occurrences a l = occurrences a l'.

  (** The same answer up to equivalence of entries and, for forAll, up to order. *)
  Definition answers_alike (r r' : out E) : Prop :=
    match r, r' with
    | ONone, ONone => True
    | OEntry x, OEntry y => lt x y = false /\ lt y x = false
    | OSize n, OSize m => n = m
    | OBool b, OBool c => b = c
    | OList xs, OList ys => alike xs ys
    | _, _ => False
    end.

  (** The same answer, for forAll up to order. *)
  Definition answers_same (r r' : out E) : Prop :=
    match r, r' with OList xs, OList ys => Permutation xs ys | _, _ => r = r' end.

  (** Two implementations run a history with answers related by [R], or both break the rules at the same call, which needs a non-empty
      queue. *)
  Definition agree (R : out E -> out E -> Prop) {A B : Type} (stepA : A -> op E -> res (A * out E)) (initA : A)
    (stepB : B -> op E -> res (B * out E)) (initB : B) (ops : list (op E)) : Prop :=
    match run stepA initA ops, run stepB initB ops with
    | Ok (_, rs), Ok (_, rs') => Forall2 R rs rs'
    | UB, UB => exists pre o post, ops = pre ++ o :: post /\ needs_nonempty o = true /\
                  exists s rs s' rs', run stepA initA pre = Ok (s, rs) /\ run stepB initB pre = Ok (s', rs') /\ Forall2 R rs rs' /\
                    stepA s o = UB /\ stepB s' o = UB
    | _, _ => False
    end.
End Agree.
