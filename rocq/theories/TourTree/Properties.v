(** Property theorems about TourTree (C04, C05). *)
From Coq Require Import List Arith Bool Permutation.
From Verif.Base Require Import Res Order.
From Verif.Spec Require Import PQ PQFacts.
From Verif.Heap Require Import Model Properties.
From Verif.TourTree Require Import Model Proofs.
Import ListNotations.

(** C04.  See [pq_correct] in Spec/PQ.v for the meaning.  The entries held are those of the players. *)
Theorem C04_tourtree_is_priority_queue : forall (E : Type) (lt : E -> E -> bool),
  strict_weak lt ->
  pq_correct lt no_dd (tt_step E lt) (tt_new E) (fun s => map entry (tt_players s)) (tt_api E).
Proof. exact @tt_pq_correct. Qed.
Print Assumptions C04_tourtree_is_priority_queue.

(** The history grows the tree, pops with and without the swap of the last two players, and replaces the top by a larger and by a
    smaller entry. *)
Example C04_nonvacuous :
  exists s rs, run (tt_step _ ex_lt) (tt_new _)
    [PushRange [(3, 0); (1, 0); (4, 0); (1, 1); (5, 0); (9, 0); (2, 0); (6, 0); (5, 1); (3, 1); (5, 2)]; Pop; Top;
     DecreaseTop (0, 0); Push (7, 0); DecreaseTop (8, 0); Pop; Pop; Empty; ForAll] = Ok (s, rs) /\
    nth_error rs 1 = Some (OEntry (9, 0)) /\ nth_error rs 2 = Some (OEntry (6, 0)) /\ nth_error rs 6 = Some (OEntry (8, 0)) /\
    length (tt_players s) = 9 /\ tt_cap s = 32.
Proof. eexists; eexists; split; [vm_compute; reflexivity|repeat split; reflexivity]. Qed.

(** Pushing all of [xs] and then popping as often returns a non-increasing permutation of [xs]. *)
Theorem C04_tourtree_sorts : forall (E : Type) (lt : E -> E -> bool), strict_weak lt ->
  forall xs, exists s ys,
    run (tt_step E lt) (tt_new E) (map Push xs ++ repeat Pop (length xs))
      = Ok (s, repeat ONone (length xs) ++ map OEntry ys) /\
    Permutation ys xs /\ descending lt ys.
Proof.
  exact (fun E lt H => pq_correct_sorts lt _ _ _ _ (tt_pq_correct lt H) (fun _ => eq_refl) eq_refl).
Qed.
Print Assumptions C04_tourtree_sorts.

(** C05.  isValid() holds in every reachable state. *)
Theorem C05_tourtree_always_valid : forall (E : Type) (lt : E -> E -> bool), strict_weak lt ->
  forall ops s rs, forallb (tt_api E) ops = true -> run (tt_step E lt) (tt_new E) ops = Ok (s, rs) -> tt_isValid E lt s = true.
Proof. exact @tt_reachable_valid. Qed.
Print Assumptions C05_tourtree_always_valid.

(** C05.  No pointer into the player storage ever dangles: a push onto any reachable tree succeeds.  In the model a push_back onto
    the player storage without room, which would relocate all players and leave the tree with dangling pointers, is [UB]. *)
Theorem C05_tourtree_push_never_relocates : forall (E : Type) (lt : E -> E -> bool), strict_weak lt ->
  forall ops s rs x, forallb (tt_api E) ops = true -> run (tt_step E lt) (tt_new E) ops = Ok (s, rs) ->
  exists s', tt_step E lt s (Push x) = Ok (s', ONone).
Proof. exact @tt_push_ok. Qed.
Print Assumptions C05_tourtree_push_never_relocates.

Example C05_nonvacuous :
  (exists s rs, run (tt_step _ ex_lt) (tt_new _) [PushRange [(1, 0); (2, 0); (3, 0)]; Pop] = Ok (s, rs) /\
     tt_isValid _ ex_lt s = true) /\
  tt_isValid _ ex_lt (mk_tt [0; 0; 1] 16 [mk_player (1, 0) 2; mk_player (2, 0) 3] 10) = false /\
  tt_isValid _ ex_lt (mk_tt [1; 0; 1] 16 [mk_player (1, 0) 2; mk_player (2, 0) 2] 10) = false /\
  players_push _ (mk_tt [] 16 [mk_player (1, 0) 2] 1) (mk_player (2, 0) 2) = UB.
Proof. split; [eexists; eexists; split; [vm_compute; reflexivity|reflexivity]|repeat split; reflexivity]. Qed.
