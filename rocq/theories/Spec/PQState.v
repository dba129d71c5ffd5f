(** Specification of a maximum priority queue whose configuration has a state that [deduplicate] may read and change.

    This is Spec/PQ.v with a state [P] of the configuration carried along.  [dd p a b c p'] says that with the configuration in state
    [p] the entries [a] and [b] may be replaced by [c], which leaves the configuration in state [p'].  Each replacement is one call of
    the client's deduplicate: nothing else changes the configuration. *)
From Coq Require Import List Permutation Bool.
From Verif.Base Require Import Res.
From Verif.Spec Require Import PQ.
Import ListNotations.

Section Spec.
  Context {E P : Type}.
  Variable lt : E -> E -> bool.
  Variable dd : P -> E -> E -> E -> P -> Prop.

  (** [smerges p l p' l']: [l'] results from the multiset [l] by zero or more replacements of two entries by their de-duplicate, and
      these take the configuration from [p] to [p']. *)
  Inductive smerges : P -> list E -> P -> list E -> Prop :=
  | sm_perm p l l' : Permutation l l' -> smerges p l p l'
  | sm_dd p l a b c p1 m p' l' : Permutation l (a :: b :: m) -> dd p a b c p1 -> smerges p1 (c :: m) p' l' -> smerges p l p' l'.

  (** [pstep p l o r p' l']: on a queue holding [l] the call [o] may answer [r] and leave [l'], and take the configuration from [p] to
      [p']. *)
  Inductive pstep (p : P) (l : list E) : op E -> out E -> P -> list E -> Prop :=
  | ps_push x p' l' : smerges p (x :: l) p' l' -> pstep p l (Push x) ONone p' l'
  | ps_range xs p' l' : smerges p (xs ++ l) p' l' -> pstep p l (PushRange xs) ONone p' l'
  | ps_pop x p1 m p' l' : smerges p l p1 (x :: m) -> is_max lt x (x :: m) -> smerges p1 m p' l' -> pstep p l Pop (OEntry x) p' l'
  | ps_top x p' l' : smerges p l p' l' -> is_max lt x l' -> pstep p l Top (OEntry x) p' l'
  | ps_dec x t p1 m p' l' : smerges p l p1 (t :: m) -> is_max lt t (t :: m) -> smerges p1 (x :: m) p' l' ->
      pstep p l (DecreaseTop x) ONone p' l'
  | ps_clear : pstep p l Clear ONone p []
  | ps_size l' : Permutation l l' -> pstep p l Size (OSize (length l)) p l'
  | ps_empty l' : Permutation l l' -> pstep p l Empty (OBool (match l with [] => true | _ => false end)) p l'
  | ps_forall xs l' : Permutation l l' -> Permutation xs l -> pstep p l ForAll (OList xs) p l'.

  Inductive ptrace : P -> list E -> list (op E) -> list (out E) -> P -> list E -> Prop :=
  | pt_nil p l : ptrace p l [] [] p l
  | pt_cons p l o r p1 l1 ops rs p2 l2 : pstep p l o r p1 l1 -> ptrace p1 l1 ops rs p2 l2 -> ptrace p l (o :: ops) (r :: rs) p2 l2.

  (** As [pq_correct] in Spec/PQ.v. *)
  Definition spq_correct {St : Type} (step : St * P -> op E -> res ((St * P) * out E)) (init : St) (abs : St -> list E)
    (api : op E -> bool) : Prop :=
    forall p ops, forallb api ops = true ->
    match run step (init, p) ops with
    | Ok ((s, p'), rs) => ptrace p [] ops rs p' (abs s)
    | UB => exists pre o post s p' rs,
              ops = pre ++ o :: post /\ needs_nonempty o = true /\
              run step (init, p) pre = Ok ((s, p'), rs) /\ abs s = [] /\ ptrace p [] pre rs p' []
    | Throw _ => False
    | NoFuel => False
    end.
End Spec.

(** De-duplication by a client function that has access to the state, allowed when the client calls the entries equal. *)
Definition state_dd {E P : Type} (on : bool) (eqv : E -> E -> bool) (dedup : P -> E -> E -> E * P) : P -> E -> E -> E -> P -> Prop :=
  fun p a b c p' => on = true /\ eqv a b = true /\ dedup p a b = (c, p').
