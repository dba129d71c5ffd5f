(** Model of src/mathic/StlSet.h.

    The std::multiset (StlSet.h:64) is modelled by the sequence of its elements in iteration order.  Its insert puts the new element
    at the upper bound of the range of equivalent elements, as the C++11 standard requires ([associative.reqmts], a_eq.insert). *)
From Coq Require Import List Bool.
From Verif.Base Require Import Res.
From Verif.Spec Require Import PQ.
Import ListNotations.

Section StlSet.
  Variable E : Type.
  (** [lt a b] is cmpLessThan(compare(a,b)) of the configuration. *)
  Variable lt : E -> E -> bool.

  (** StlSet.h:57-63 Cmp *)
  Definition stl_cmp (a b : E) : bool := lt b a.

  (** std::multiset::insert: before the first element that the new one must precede (StlSet.h:22) *)
  Fixpoint ms_insert (x : E) (m : list E) : list E :=
    match m with
    | [] => [x]
    | y :: m' => if stl_cmp x y then x :: m else y :: ms_insert x m'
    end.

  (** StlSet.h:22 push *)
  Definition stl_push (m : list E) (x : E) : list E := ms_insert x m.
  (** StlSet.h:23-26 push(begin, end) *)
  Fixpoint stl_push_range (m : list E) (xs : list E) : list E :=
    match xs with [] => m | x :: xs' => stl_push_range (stl_push m x) xs' end.
  (** StlSet.h:27-31 pop; dereferencing begin() of an empty set is undefined *)
  Definition stl_pop (m : list E) : res (list E * E) := match m with [] => UB | x :: m' => Ok (m', x) end.
  (** StlSet.h:32-34 top *)
  Definition stl_top (m : list E) : res E := match m with [] => UB | x :: _ => Ok x end.
  (** StlSet.h:35 empty *)
  Definition stl_empty (m : list E) : bool := match m with [] => true | _ => false end.
  (** StlSet.h:36-42 print: the entries in the order they are written.  [ForAll] below stands for this call, the only one of StlSet
      that visits all entries. *)
  Definition stl_print (m : list E) : list E := m.

  (** StlSet.h:19-35: the calls StlSet has *)
  Definition stl_api (o : op E) : bool :=
    match o with Push _ | PushRange _ | Pop | Top | Empty | ForAll => true | _ => false end.
  (** One call: StlSet.h:19-35 *)
  Definition stl_step (m : list E) (o : op E) : res (list E * out E) :=
    match o with
    | Push x => Ok (stl_push m x, ONone)
    | PushRange xs => Ok (stl_push_range m xs, ONone)
    | Pop => let* (m', x) := stl_pop m in Ok (m', OEntry x)
    | Top => let* x := stl_top m in Ok (m, OEntry x)
    | Empty => Ok (m, OBool (stl_empty m))
    | ForAll => Ok (m, OList (stl_print m))
    | _ => UB
    end.
End StlSet.
