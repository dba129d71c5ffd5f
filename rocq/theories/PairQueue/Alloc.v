(** Model of src/mathic/PairQueue.h when memory runs out: PairQueue.h:544-577 addColumnDescending, the only call that allocates.

    A function with a budget [b] is what happens when the first [b] allocations succeed and the next one throws (Base/Fault.v).  The vector of retired flags and the
    arena ask for memory only now and then; here they ask each time, and when the program would not ask the allocation counts as one that succeeds.  The
    configuration throws nothing (for that see Faults.v). *)
From Coq Require Import List Arith NArith Bool String.
From Verif.Base Require Import Res Arr Fault.
From Verif.TourTree Require Import Model.
From Verif.PairQueue Require Import Model.
Import ListNotations.
Local Notation length := List.length.

(** TourTree.h:108-143 push with 222-236 reallocate.  The new array of the tree is allocated before anything changes (ComTree.h:318); when _players.reserve
    (TourTree.h:227, 230) throws, the tree has its new array already.  A push_back on players that are full is undefined, as in TourTree/Model.v: it moves the
    players, and the tree keeps pointing to where they were. *)
Definition tt_push_a {E : Type} (lt : E -> E -> bool) (b : nat) (s : tourtree E) (x : E) : res (fout (tourtree E) (tourtree E)) :=
  let push := fun b => let* s' := tt_push E lt s x in Ok (Fine b s') in
  if Nat.leb 2 (tt_cap s - length (tt_tree s)) then push b else
  let newCapacity := if Nat.eqb (tt_cap s) 0 then 16 else tt_cap s * 2 in
  client b s (fun b =>
    if Nat.leb (newCapacity / 2 + 2) (tt_pcap s) then push b
    else client b (mk_tt (tt_tree s) newCapacity (tt_players s) (tt_pcap s)) push).

Section Alloc.
  Variable P : Type.
  Variable pdata : N -> N -> P.
  Variable lt : N * N * P -> N * N * P -> bool.
  Variable supportRetirement : bool.
  Notation pairqueue := (pairqueue P).
  Local Open Scope N_scope.

  (** PairQueue.h:152, 180 addNextIndex *)
  Definition add_next (ret : list bool) : list bool := if supportRetirement then ret ++ [false] else ret.
  (** PairQueue.h:153-156, 181 undoAdd *)
  Definition undo_add (ret : list bool) : list bool := if supportRetirement then removelast ret else ret.
  (** PairQueue.h:571-575, the outer handler; [s] has its next index already *)
  Definition undone (s : pairqueue) : pairqueue := mk_pq (pq_queue s) (pq_count s - 1) (undo_add (pq_ret s)) (pq_log s).

  (** PairQueue.h:544-577 addColumnDescending: the allocations are those of 152 push_back, 388 allocObjectNoCon, 425 or 439 allocArrayNoCon, and of the push of
      565.  The inner handler destructs the column (566-569), the guard gives its memory back. *)
  Definition aq_add (b : nat) (s : pairqueue) (rows : list N) : res (fout pairqueue pairqueue) :=
    if index_max <=? pq_count s then Ok (Left s) else
    let newColumnIndex := to_index (pq_count s) in
    (if supportRetirement then client b s else fun k => k b) (fun b =>
      let s1 := mk_pq (pq_queue s) (pq_count s + 1) (add_next (pq_ret s)) (pq_log s) in
      match rows with
      | [] => Ok (Fine b s1)
      | _ =>
          client b (undone s1) (fun b =>
          client b (undone s1) (fun b =>
            let* (c, e) := c_create P pdata newColumnIndex rows in
            let* o := tt_push_a (col_lt P lt) b (pq_queue s1) c in
            match o with
            | Fine b q => Ok (Fine b (mk_pq q (pq_count s1) (pq_ret s1) (e :: pq_log s1)))
            | Left q =>
                let* r := c_rowIndex P c in
                Ok (Left (undone (mk_pq q (pq_count s1) (pq_ret s1) (EDestruct (c_col c) r :: e :: pq_log s1))))
            end))
      end).

  (** One call of PairQueue.h:203-268 with a number of allocations that succeed.  [None] is an exception, which the caller catches. *)
  Definition aq_step (s : pairqueue) (o : pq_op * nat) : res (pairqueue * option (pq_out P)) :=
    match fst o with
    | PAdd rows => let* q := aq_add (snd o) s rows in match q with Fine _ s' => Ok (s', Some PNone) | Left s' => Ok (s', None) end
    | o' => let* (s', r) := pq_step P pdata lt supportRetirement s o' in Ok (s', Some r)
    end.
End Alloc.
