(** What is asked of the queues and of the builder of the pq simulation. *)
From Coq Require Import List Arith NArith Bool.
From Verif.Base Require Import Res.
From Verif.Spec Require Import PQ.
From Verif.Geobucket Require Import Model.
From Verif.PqSim Require Import Model.
Import ListNotations.
Local Open Scope N_scope.

(** A call: values to push at once, or a pop. *)
Inductive call := CPush (l : list N) | CPop.

(** ** Queues *)

(** The calls on the queue [m] and what the pops return. *)
Fixpoint drive (m : subject) (fuel : nat) (cs : list call) (s : m_state m) : res (list N) :=
  match cs with
  | [] => Ok []
  | CPush l :: cs' => let* s1 := m_push m s l in drive m fuel cs' s1
  | CPop :: cs' => let* (s1, v) := m_pop m fuel s in let* vs := drive m fuel cs' s1 in Ok (v :: vs)
  end.

(** What they should return: each pop the largest value pushed and not popped since, which is then gone however often it was pushed.
    [None] if there is nothing to pop. *)
Fixpoint expected (cs : list call) (live : list N) : option (list N) :=
  match cs with
  | [] => Some []
  | CPush l :: cs' => expected cs' (l ++ live)
  | CPop :: cs' =>
      match live with
      | [] => None
      | _ =>
          let v := fold_right N.max 0 live in
          match expected cs' (filter (fun z => negb (z =? v)) live) with Some vs => Some (v :: vs) | None => None end
      end
  end.

(** Simulator.cpp:71 sorts what is pushed together, and an empty push would be taken for a pop (Simulator.h:69). *)
Definition sorted_push (c : call) : bool := match c with CPush [] => false | CPush l => non_increasing N.ltb l | CPop => true end.

Definition pushes (cs : list call) : nat := fold_right (fun c n => match c with CPush l => length l | CPop => O end + n)%nat O cs.

(** The queues: those of HeapModel.h, TourTreeModel.h, StlSetModel.h and, for all sizes and settings, GeobucketModel.h, except that spans
    in a Geobucket are taken without de-duplication. *)
Inductive sim_queue : subject -> Prop :=
| sq_heap_values d : sim_queue (heap_on_values d)
| sq_heap_spans d : sim_queue (heap_on_spans d)
| sq_tree_values : sim_queue tourtree_on_values
| sq_tree_spans : sim_queue tourtree_on_spans
| sq_set_values : sim_queue stlset_on_values
| sq_set_spans : sim_queue stlset_on_spans
| sq_geo_values C : (2 <= geoBase C)%nat -> (1 <= minBucketSize C)%nat -> (1 <= insertFactor C)%nat -> sim_queue (geobucket_on_values C)
| sq_geo_spans C : (2 <= geoBase C)%nat -> (1 <= minBucketSize C)%nat -> (1 <= insertFactor C)%nat -> supportDeduplication C = false ->
    sim_queue (geobucket_on_spans C).

(** ** The builder *)
Definition legal (c : call) : bool := match c with CPush [] => false | _ => true end.
Definition b_call (b : builder) (c : call) : res builder := match c with CPush l => b_pushRange b l | CPop => b_pop b end.
Fixpoint builds (b : builder) (cs : list call) : res builder :=
  match cs with [] => Ok b | c :: cs' => let* b1 := b_call b c in builds b1 cs' end.
