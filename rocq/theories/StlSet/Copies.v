(** StlSet objects with the pointer to a configuration that their comparator holds: construction, destruction, copies and moves (StlSet.h:16-17, 56-64). *)
From Coq Require Import List Bool Arith.
From Verif.Base Require Import Res Arr.
From Verif.Spec Require Import PQ.
From Verif.StlSet Require Import Model.
Import ListNotations.

Section Copies.
  Variables C E : Type.
  (** [lt c a b] is c.cmpLessThan(c.compare(a, b)) for the configuration [c]. *)
  Variable lt : C -> E -> E -> bool.

  (** An object, StlSet.h:56-64: its own configuration (line 56), the object whose configuration the pointer in the comparator (lines 57-63) points to, and the
      elements of the multiset (line 64) *)
  Record stl := mk_stl { own_conf : C; points_to : nat; elements : list E }.
  (** The objects of a program in the order of their construction; [None] is an object that was destroyed *)
  Local Notation objects := (list (option stl)).
  (** An object that is alive; using one that was destroyed is undefined.  The pointer of StlSet.h:62 is an index here. *)
  Definition object (w : objects) (i : nat) : res stl := let* o := vget w i in of_option o.
  (** The comparison StlSet.h:59-61, which reads the configuration pointed to *)
  Definition cmp_conf (w : objects) (s : stl) : res C := let* t := object w (points_to s) in Ok (own_conf t).
  (** StlSet.h:22 push: inserting into an empty multiset compares nothing, inserting into any other compares at least once *)
  Definition o_push (w : objects) (s : stl) (x : E) : res stl :=
    match elements s with
    | [] => Ok (mk_stl (own_conf s) (points_to s) [x])
    | _ => let* c := cmp_conf w s in Ok (mk_stl (own_conf s) (points_to s) (stl_push E (lt c) (elements s) x))
    end.
  (** StlSet.h:23-26 push(begin, end) *)
  Fixpoint o_push_range (w : objects) (s : stl) (xs : list E) : res stl :=
    match xs with [] => Ok s | x :: xs' => let* s' := o_push w s x in o_push_range w s' xs' end.
  (** One call, StlSet.h:19-42: only push compares *)
  Definition o_call (w : objects) (s : stl) (o : op E) : res (stl * out E) :=
    match o with
    | Push x => let* s' := o_push w s x in Ok (s', ONone)
    | PushRange xs => let* s' := o_push_range w s xs in Ok (s', ONone)
    | Pop => let* (m, x) := stl_pop E (elements s) in Ok (mk_stl (own_conf s) (points_to s) m, OEntry x)
    | Top => let* x := stl_top E (elements s) in Ok (s, OEntry x)
    | Empty => Ok (s, OBool (stl_empty E (elements s)))
    | ForAll => Ok (s, OList (stl_print E (elements s)))
    | _ => UB
    end.

  (** What a program does with StlSet objects: StlSet.h:14-45 and the implicit special members *)
  Inductive sop :=
  | SNew (c : C)               (* StlSet s(c) *)
  | SDestroy (i : nat)         (* the end of object i *)
  | SCall (i : nat) (o : op E) (* a call on object i *)
  | SCopy (i : nat)            (* StlSet s(object i) *)
  | SMove (i : nat).           (* StlSet s(std::move(object i)) *)
  (** StlSet.h:16-17 the constructor, which makes the comparator point to the new object's configuration, and the implicit destructor, copy constructor and move
      constructor.  The last two copy the comparator and so the pointer.  The standard leaves open what a multiset that was moved from holds; libstdc++ and libc++
      leave it empty.  Moving a configuration is taken to leave it as it was. *)
  Definition s_step (w : objects) (o : sop) : res (objects * out E) :=
    match o with
    | SNew c => Ok (w ++ [Some (mk_stl c (length w) [])], ONone)
    | SDestroy i => let* s := object w i in Ok (upd w i None, ONone)
    | SCall i o => let* s := object w i in let* (s', r) := o_call w s o in Ok (upd w i (Some s'), r)
    | SCopy i => let* s := object w i in Ok (w ++ [Some s], ONone)
    | SMove i => let* s := object w i in Ok (upd w i (Some (mk_stl (own_conf s) (points_to s) [])) ++ [Some s], ONone)
    end.

  (** What a user expects, the specification: each object is a value with a configuration of its own. *)
  Local Notation values := (list (option (C * list E))).
  (** The value of an object; no C++ counterpart *)
  Definition value (w : values) (i : nat) : res (C * list E) := let* o := vget w i in of_option o.
  (** What a use of StlSet.h:14-45 does to values *)
  Definition v_step (w : values) (o : sop) : res (values * out E) :=
    match o with
    | SNew c => Ok (w ++ [Some (c, [])], ONone)
    | SDestroy i => let* s := value w i in Ok (upd w i None, ONone)
    | SCall i o => let* (c, m) := value w i in let* (m', r) := stl_step E (lt c) m o in Ok (upd w i (Some (c, m')), r)
    | SCopy i => let* s := value w i in Ok (w ++ [Some s], ONone)
    | SMove i => let* (c, m) := value w i in Ok (upd w i (Some (c, [])) ++ [Some (c, m)], ONone)
    end.
End Copies.
Arguments mk_stl {C E}. Arguments own_conf {C E}. Arguments points_to {C E}. Arguments elements {C E}. Arguments object {C E}. Arguments cmp_conf {C E}.
Arguments o_push {C E}. Arguments o_push_range {C E}. Arguments o_call {C E}. Arguments SNew {C E}. Arguments SDestroy {C E}. Arguments SCall {C E}. Arguments SCopy {C E}.
Arguments SMove {C E}. Arguments s_step {C E}. Arguments v_step {C E}. Arguments value {C E}.
