(** Model of src/mathic/TourTree.h when memory runs out: TourTree.h:108-150 push and 222-236 reallocate, with an operator new that throws.

    A function with a budget [b] is what happens when the first [b] allocations succeed and the next one throws (Base/Fault.v).  Allocations are those of the
    array of _tree and of the memory of _players; that copying an entry may throw is not modelled. *)
From Coq Require Import List Arith Bool.
From Verif.Base Require Import Res Arr Fault.
From Verif.Spec Require Import PQ.
From Verif.TourTree Require Import Model.
From Verif.TourMem Require Import Model.
Import ListNotations.

Section TourAlloc.
  Variable E : Type.
  Variable lt : E -> E -> bool.
  (** The players and the tree of TourTree.h:76-78 *)
  Notation state := (mem E * mtour)%type.

  (** TourTree.h:222-236 reallocate.  The new array of _tree is allocated before anything changes (ComTree.h:318); when _players.reserve (TourTree.h:227 and 230)
      throws, _tree has its new array already. *)
  Definition m_reallocate_a (b : nat) (m : mem E) (s : mtour) : res (fout state state) :=
    let newCapacity := if Nat.eqb (m_cap s) 0 then 16 else m_cap s * 2 in
    client b (m, s) (fun b =>
      if newCapacity / 2 + 2 <=? v_cap (m_vec s) then let* r := m_reallocate m s in Ok (Fine b r)
      else client b (m, mk_mt (m_tree s) newCapacity (m_vec s) true) (fun b => let* r := m_reallocate m s in Ok (Fine b r))).

  (** TourTree.h:118-122: push has moved a leaf down when it comes to _players.push_back *)
  Definition m_moved_down (m : mem E) (s : mtour) : res state :=
    match m_tree s with
    | [] => Ok (m, s)
    | _ =>
        let* moveDown := node s ((length (m_tree s) + 1) / 2) in
        let* s1 := mtree_push s moveDown in
        let* m1 := store_leaf m moveDown (length (m_tree s1)) in
        Ok (m1, s1)
    end.
  (** TourTree.h:108-143 push.  _players.push_back (lines 113 and 126) allocates when _players is full.  [m_push] looks once more whether _tree has room, which
      it has then. *)
  Definition m_push_a (b : nat) (m0 : mem E) (s0 : mtour) (x : E) : res (fout state state) :=
    fbind (if 2 <=? m_cap s0 - length (m_tree s0) then Ok (Fine b (m0, s0)) else m_reallocate_a b m0 s0) (fun b st =>
    let (m, s) := st in
    let* ps := v_elements m (m_vec s) in
    if length ps <? v_cap (m_vec s) then let* r := m_push lt m s x in Ok (Fine b r)
    else let* moved := m_moved_down m s in client b moved (fun b => let* r := m_push lt m s x in Ok (Fine b r))).
  (** TourTree.h:145-150 push(begin, end) *)
  Fixpoint m_push_range_a (b : nat) (m : mem E) (s : mtour) (xs : list E) : res (fout state state) :=
    match xs with
    | [] => Ok (Fine b (m, s))
    | x :: xs' => fbind (m_push_a b m s x) (fun b st => m_push_range_a b (fst st) (snd st) xs')
    end.

  (** One call of the interface of TourTree.h:21-56 with a number of allocations that succeed; no call but push allocates.  [None] is an exception, which the
      client catches. *)
  Definition m_catch (st : state) (o : op E * nat) : res (state * option (out E)) :=
    let push := fun (r : res (fout state state)) =>
      let* q := r in match q with Fine _ st' => Ok (st', Some ONone) | Left st' => Ok (st', None) end in
    match fst o with
    | Push x => push (m_push_a (snd o) (fst st) (snd st) x)
    | PushRange xs => push (m_push_range_a (snd o) (fst st) (snd st) xs)
    | _ => let* (m, s, r) := m_call lt (fst st) (snd st) (fst o) in Ok ((m, s), Some r)
    end.
  (** TourTree.h:96-98: a program with one new tree *)
  Definition m_start : res state := m_new [].
  (** The entries of _players (TourTree.h:36-52) *)
  Definition m_held (st : state) : list E := match v_elements (fst st) (m_vec (snd st)) with Ok ps => map entry ps | _ => [] end.
End TourAlloc.
Arguments m_reallocate_a {E}. Arguments m_moved_down {E}. Arguments m_push_a {E}. Arguments m_push_range_a {E}. Arguments m_catch {E}. Arguments m_start {E}.
Arguments m_held {E}.
