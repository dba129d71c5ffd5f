(** Property theorems about the assertions of Heap, TourTree and PairQueue (C71). *)
From Coq Require Import List Arith NArith Bool.
From Verif.Base Require Import Res Order.
From Verif.Spec Require Import PQ Reach Pairs.
From Verif.Heap Require Import Model Properties Debug DebugProofs.
From Verif.TourTree Require Import Model Debug DebugProofs.
From Verif.PairQueue Require Import Model Proofs Properties Debug DebugProofs.
Import ListNotations.

(** C71.  A build of Heap with all assertions answers every sequence of calls as the release build does: no assertion fails unless the
    release build is undefined as well, which means that top, pop or decreaseTop is called for an empty heap (C02). *)
Theorem C71_heap_no_assertion_fails :
  forall (E : Type) (lt eqv : E -> E -> bool) (supportDedup : bool) (dedup : E -> E -> E),
  strict_weak lt ->
  (supportDedup = true -> forall a b, lt a b = false -> eqv a b = true -> equivalent lt (dedup a b) a) ->
  forall ops, run (heap_step_d E lt eqv supportDedup dedup) [] ops = run (heap_step E lt eqv supportDedup dedup) [] ops.
Proof. exact @hrun_new. Qed.
Print Assumptions C71_heap_no_assertion_fails.

(** C71.  The same of TourTree, from its constructor on (C04). *)
Theorem C71_tourtree_no_assertion_fails :
  forall (E : Type) (lt : E -> E -> bool), strict_weak lt -> forall ops, forallb (tt_api E) ops = true ->
  (let* s := tt_new_d E (fun a b => Ok (lt a b)) in run (tt_step_d E (fun a b => Ok (lt a b))) s ops)
    = run (tt_step E lt) (tt_new E) ops.
Proof. exact @run_new. Qed.
Print Assumptions C71_tourtree_no_assertion_fails.

(** C71.  In a legal history no assertion of PairQueue fails, nor one of the tournament in it, and no column is compared whose PairData
    object is destroyed: the build with assertions ends in the same state with the same answers, the next legal call does what it does in
    the release build, be it the exception for a column too many, and so does the destructor. *)
Theorem C71_pairqueue_no_assertion_fails :
  forall (P : Type) (pdata : N -> N -> P) (lt : N * N * P -> N * N * P -> bool) (sup : bool), strict_weak lt ->
  forall ops s rs, legal P pdata lt sup ops s rs ->
  (let* q := tt_new_d _ (col_lt_d P lt) in run (pq_step_d P pdata lt sup) (mk_pq q 0%N [] []) ops) = Ok (s, rs) /\
  (forall o, pallowed pdata lt sup (pq_abs sup s) o -> pq_step_d P pdata lt sup s o = pq_step P pdata lt sup s o) /\
  destroy_d P (tt_forAll _ (pq_queue s)) (pq_log s) = Ok (pq_destroy P s).
Proof. exact @pairqueue_d_ok. Qed.
Print Assumptions C71_pairqueue_no_assertion_fails.

(** PairQueue.h:246-249: "You must not retire an index twice (that could be a bug and we want to assert in that case to surface the
    issue)."  There is no such assertion: an index that is retired already may be retired again without notice. *)
Theorem C71_second_retirement_unnoticed :
  forall (P : Type) (pdata : N -> N -> P) (lt : N * N * P -> N * N * P -> bool), strict_weak lt ->
  forall ops s rs i, legal P pdata lt true ops s rs -> (i < pq_count s)%N -> is_dead true s i = true ->
  exists s', pq_step_d P pdata lt true s (PRetire i) = Ok (s', PNone).
Proof. exact @second_retirement. Qed.
Print Assumptions C71_second_retirement_unnoticed.

(** Histories that pass all assertions, and calls that fail one. *)
Definition ex_heap_d (dedup : nat * nat -> nat * nat -> nat * nat) (ops : list (op (nat * nat))) : option (list (out (nat * nat))) :=
  match run (heap_step_d _ ex_lt ex_eqv true dedup) [] ops with Ok (_, rs) => Some rs | _ => None end.
Definition ex_tt_d (ltd : nat * nat -> nat * nat -> res bool) (ops : list (op (nat * nat))) : option (list (out (nat * nat))) :=
  match (let* s := tt_new_d _ ltd in run (tt_step_d _ ltd) s ops) with Ok (_, rs) => Some rs | _ => None end.
Definition ex_pq_d (sup : bool) (ops : list pq_op) : option (list (pq_out N)) :=
  match run (pq_step_d N ex_data ex_order sup) (pq_new N) ops with Ok (_, rs) => Some rs | _ => None end.
Definition ex_cols : list pq_op := [PAdd []; PAdd [0%N]; PAdd [1; 0]%N; PAdd [2; 1; 0]%N].
Definition ex_sorts : list (op (nat * nat)) :=
  [Push (3, 0); PushRange [(5, 1); (4, 2); (8, 3); (6, 4)]; Top; Pop; DecreaseTop (1, 5); Pop; ForAll; Clear; Empty].
Example C71_nonvacuous :
  ex_heap_d ex_dedup ex_sorts =
    Some [ONone; ONone; OEntry (8, 3); OEntry (8, 3); ONone; OEntry (5, 1); OList [(4, 2); (3, 0); (1, 5)]; ONone; OBool true] /\
  ex_tt_d (fun a b => Ok (ex_lt a b)) ex_sorts =
    Some [ONone; ONone; OEntry (8, 3); OEntry (8, 3); ONone; OEntry (5, 1); OList [(1, 5); (3, 0); (4, 2)]; ONone; OBool true] /\
  ex_heap_d (fun a b => (fst a + 10, 0)) [PushRange [(9, 1); (8, 1); (8, 1)]; Push (8, 1)] = None /\
  ex_tt_d (fun a b => Ok (negb (ex_lt a b))) [Push (1, 1); Push (1, 2)] = None /\
  ex_pq_d true (ex_cols ++ [PTop; PPop; PRetire 1%N; PTop; PPop; PEmpty; PPairCount; PPop; PEmpty]) =
    Some [PNone; PNone; PNone; PNone; PPairData (3, 2)%N 32%N; PPair (3, 2)%N; PNone; PPairData (3, 0)%N 30%N; PPair (3, 0)%N; PBool false;
          PNat 2; PPair (2, 0)%N; PBool true] /\
  ex_pq_d true (ex_cols ++ [PRetire 3%N; PRetire 3%N; PPop]) = Some [PNone; PNone; PNone; PNone; PNone; PNone; PPair (2, 1)%N] /\
  ex_pq_d true [PPop] = None /\ ex_pq_d true [PTop] = None /\
  ex_pq_d true [PAdd [0%N]] = None /\
  ex_pq_d true [PAdd []; PAdd []; PAdd [0; 1]%N] = None /\
  ex_pq_d true [PAdd []; PRetire 0%N; PAdd [0%N]] = None /\
  ex_pq_d true [PAdd []; PRetire 1%N] = None /\ ex_pq_d true [PAdd []; PRetired 1%N] = None /\
  ex_pq_d false [PAdd []; PRetire 0%N] = None /\ ex_pq_d false [PAdd []; PRetired 0%N] = Some [PNone; PBool false].
Proof. repeat split; vm_compute; reflexivity. Qed.
