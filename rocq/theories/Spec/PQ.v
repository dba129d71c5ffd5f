(** Specification of a maximum priority queue, independent of any implementation.

    A queue is a finite multiset, written as a list up to permutation.  Some of mathic's queues may replace two entries [a], [b]
    that the client's configuration calls equal by the client's [deduplicate(a,b)], at a time the queue chooses.  [dd a b c]
    says that [a] and [b] may be replaced by [c]; a queue without de-duplication is the case [no_dd]. *)
From Coq Require Import List Permutation Arith Bool.
From Verif.Base Require Import Res.
Import ListNotations.

Inductive op (E : Type) : Type :=
| Push (x : E)            (* push(x) *)
| PushRange (xs : list E) (* push(begin, end) *)
| Pop                     (* pop() *)
| Top                     (* top() *)
| DecreaseTop (x : E)     (* decreaseTop(x) *)
| Clear                   (* clear() *)
| Size                    (* size() *)
| Empty                   (* empty() *)
| ForAll.                 (* forAll(t) with a callback that always returns true *)
Arguments Push {E} x. Arguments PushRange {E} xs. Arguments Pop {E}. Arguments Top {E}.
Arguments DecreaseTop {E} x. Arguments Clear {E}. Arguments Size {E}. Arguments Empty {E}. Arguments ForAll {E}.

Inductive out (E : Type) : Type :=
| ONone                   (* returns void *)
| OEntry (x : E)
| OSize (n : nat)
| OBool (b : bool)
| OList (xs : list E).    (* the entries handed to the callback, in order *)
Arguments ONone {E}. Arguments OEntry {E} x. Arguments OSize {E} n. Arguments OBool {E} b. Arguments OList {E} xs.

(** These calls are undefined on an empty queue. *)
Definition needs_nonempty {E} (o : op E) : bool :=
  match o with Pop | Top | DecreaseTop _ => true | _ => false end.

Section Spec.
  Context {E : Type}.
  Variable lt : E -> E -> bool.
  Variable dd : E -> E -> E -> Prop.

  (** [merges l l']: [l'] results from the multiset [l] by zero or more replacements of two entries by their de-duplicate. *)
  Inductive merges : list E -> list E -> Prop :=
  | merges_perm l l' : Permutation l l' -> merges l l'
  | merges_dd l a b c m l' : Permutation l (a :: b :: m) -> dd a b c -> merges (c :: m) l' -> merges l l'.

  (** [x] is held and nothing held is greater. *)
  Definition is_max (x : E) (l : list E) : Prop :=
    In x l /\ forall y, In y l -> lt x y = false.

  (** [sstep l o r l']: on a queue holding [l] the call [o] may answer [r] and leave [l']. *)
  Inductive sstep (l : list E) : op E -> out E -> list E -> Prop :=
  | s_push x l' : merges (x :: l) l' -> sstep l (Push x) ONone l'
  | s_range xs l' : merges (xs ++ l) l' -> sstep l (PushRange xs) ONone l'
  | s_pop x m l' : merges l (x :: m) -> is_max x (x :: m) -> merges m l' -> sstep l Pop (OEntry x) l'
  | s_top x l' : merges l l' -> is_max x l' -> sstep l Top (OEntry x) l'
  | s_dec x t m l' : merges l (t :: m) -> is_max t (t :: m) -> merges (x :: m) l' -> sstep l (DecreaseTop x) ONone l'
  | s_clear : sstep l Clear ONone []
  | s_size l' : Permutation l l' -> sstep l Size (OSize (length l)) l'
  | s_empty l' : Permutation l l' -> sstep l Empty (OBool (match l with [] => true | _ => false end)) l'
  | s_forall xs l' : Permutation l l' -> Permutation xs l -> sstep l ForAll (OList xs) l'.

  (** A history of calls with their answers, from contents [l] to contents [l']. *)
  Inductive trace : list E -> list (op E) -> list (out E) -> list E -> Prop :=
  | t_nil l : trace l [] [] l
  | t_cons l o r l1 ops rs l2 : sstep l o r l1 -> trace l1 ops rs l2 -> trace l (o :: ops) (r :: rs) l2.

  (** The implementation [step], started in [init], is a correct priority queue on the calls in [api]: every history of such
      calls either runs to its end with answers the specification allows, ending in a state whose contents [abs] the
      specification allows, or reaches, after answers the specification allows, an empty queue on which it then makes a call
      that needs a non-empty one.  No other undefined behaviour, no exception and no endless loop is possible. *)
  Definition pq_correct {St : Type} (step : St -> op E -> res (St * out E)) (init : St) (abs : St -> list E)
    (api : op E -> bool) : Prop :=
    forall ops, forallb api ops = true ->
    match run step init ops with
    | Ok (s, rs) => trace [] ops rs (abs s)
    | UB => exists pre o post s rs,
              ops = pre ++ o :: post /\ needs_nonempty o = true /\
              run step init pre = Ok (s, rs) /\ abs s = [] /\ trace [] pre rs []
    | Throw _ => False
    | NoFuel => False
    end.
End Spec.

(** No de-duplication. *)
Definition no_dd {E : Type} : E -> E -> E -> Prop := fun _ _ _ => False.

(** De-duplication by a client function [dedup], allowed when the client calls the entries equal. *)
Definition dedup_dd {E : Type} (on : bool) (eqv : E -> E -> bool) (dedup : E -> E -> E) : E -> E -> E -> Prop :=
  fun a b c => on = true /\ eqv a b = true /\ c = dedup a b.

(** Everything a history pushes, and everything its [Pop] calls return. *)
Fixpoint pushed {E : Type} (ops : list (op E)) : list E :=
  match ops with
  | [] => []
  | Push x :: ops' => x :: pushed ops'
  | PushRange xs :: ops' => xs ++ pushed ops'
  | _ :: ops' => pushed ops'
  end.
Fixpoint popped {E : Type} (ops : list (op E)) (rs : list (out E)) : list E :=
  match ops, rs with
  | Pop :: ops', OEntry x :: rs' => x :: popped ops' rs'
  | _ :: ops', _ :: rs' => popped ops' rs'
  | _, _ => []
  end.
(** Calls other than clear and decreaseTop, which drop entries without returning them. *)
Definition keeps {E : Type} (o : op E) : bool :=
  match o with DecreaseTop _ | Clear => false | _ => true end.

(** [weigh add zero w l] is the sum of the weights [w x] over [l]. *)
Definition weigh {E M : Type} (add : M -> M -> M) (zero : M) (w : E -> M) (l : list E) : M :=
  fold_right (fun x acc => add (w x) acc) zero l.

(** Non-increasing sequences. *)
Fixpoint descending {E : Type} (lt : E -> E -> bool) (l : list E) : Prop :=
  match l with
  | [] => True
  | x :: l' => (forall y, In y l' -> lt x y = false) /\ descending lt l'
  end.

(** The same as a check of neighbours. *)
Fixpoint non_increasing {E : Type} (lt : E -> E -> bool) (l : list E) : bool :=
  match l with
  | [] => true
  | x :: l' => match l' with [] => true | y :: _ => negb (lt x y) end && non_increasing lt l'
  end.
(** The calls of a queue whose range push takes a non-empty range in non-increasing order; [with_clear] says whether clear() is one. *)
Definition range_calls {E : Type} (lt : E -> E -> bool) (with_clear : bool) (o : op E) : bool :=
  match o with
  | PushRange [] => false
  | PushRange xs => non_increasing lt xs
  | Clear => with_clear
  | _ => true
  end.

(** The calls that remove or replace the top entry, and how many of them a history makes. *)
Definition takes_top {E : Type} (o : op E) : bool := match o with Pop | DecreaseTop _ => true | _ => false end.
Definition removals {E : Type} (ops : list (op E)) : nat := length (filter takes_top ops).
