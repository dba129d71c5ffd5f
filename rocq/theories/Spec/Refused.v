(** Specification of a priority queue whose memory may run out, where the client catches the exceptions and goes on. *)
From Coq Require Import List Permutation Arith Bool.
From Verif.Spec Require Import PQ.
Import ListNotations.

Section Refused.
  Context {E : Type}.
  Variable lt : E -> E -> bool.
  Variable dd : E -> E -> E -> Prop.

  (** The call answers [Some r], or throws ([None]).  A push that throws leaves the contents as they are.  A push of a range that throws has pushed the entries
      before one of the range, and neither that one nor any after it. *)
  Inductive mstep (l : list E) : op E -> option (out E) -> list E -> Prop :=
  | m_ok o r l' : sstep lt dd l o r l' -> mstep l o (Some r) l'
  | m_refused x : mstep l (Push x) None l
  | m_cut xs x ys l' : merges dd (xs ++ l) l' -> mstep l (PushRange (xs ++ x :: ys)) None l'.

  Inductive mtrace : list E -> list (op E) -> list (option (out E)) -> list E -> Prop :=
  | mt_nil l : mtrace l [] [] l
  | mt_cons l o r l1 ops rs l2 : mstep l o r l1 -> mtrace l1 ops rs l2 -> mtrace l (o :: ops) (r :: rs) l2.

  Lemma mtrace_app l ops rs l1 ops' rs' l2 : mtrace l ops rs l1 -> mtrace l1 ops' rs' l2 -> mtrace l (ops ++ ops') (rs ++ rs') l2.
  Proof. induction 1; intros H'; [exact H'|]. cbn [app]. econstructor; eauto. Qed.
End Refused.
