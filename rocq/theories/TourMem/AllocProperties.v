(** What a failed allocation leaves behind in TourTree, Heap and BitTriangle (C91). *)
From Coq Require Import List Arith Bool Lia Permutation.
From Verif.Base Require Import Res Arr Order Fault.
From Verif.Spec Require Import PQ PQFacts Refused Triangle TriangleHurt.
From Verif.ComTree Require Import Model Proofs.
From Verif.TourTree Require Import Model Proofs.
From Verif.TourMem Require Import Model Proofs Alloc AllocProofs.
From Verif.HeapMem Require Import Model Memory Alloc AllocProofs.
From Verif.BitTriangle Require Import Model Alloc AllocProofs.
Import ListNotations.

(** C91, tournament tree.  Every call of a history has its own number of allocations that succeed, and the client catches the exceptions and goes on.  The history
    runs to its end as Spec/Refused.v says, unless it comes to a call that needs an entry when there is none, or to a push that is not safe: after some call threw,
    the players have less memory than the tree has nodes for, and too little for the entries held and those to push.
    Missing from the full claim: that the history goes on after that, which is false ([C91_push_after_failure_refuted]). *)
Theorem C91_tourtree_goes_on_partial : forall (E : Type) (lt : E -> E -> bool), strict_weak lt ->
  exists st0, m_start = Ok st0 /\ forall ops : list (op E * nat), forallb (fun o => tt_api E (fst o)) ops = true ->
  (exists st rs, run (m_catch lt) st0 ops = Ok (st, rs) /\ mtrace lt no_dd [] (map fst ops) rs (m_held st)) \/
  (exists pre o post st rs, ops = pre ++ o :: post /\ run (m_catch lt) st0 pre = Ok (st, rs) /\ mtrace lt no_dd [] (map fst pre) rs (m_held st) /\
     (needs_nonempty (fst o) = true /\ m_held st = [] \/ In None rs /\ cramped st (fst o))).
Proof.
  intros E lt Hsw. destruct (@start_at E) as (st0 & H0 & Ha & Hn). exists st0. split; [exact H0|]. intros ops Hapi.
  pose proof (tt_new_inv lt) as Hi. pose proof (TourMem.AllocProofs.catch_run lt Hsw ops st0 _ Ha (inv_sound lt _ Hi) Hapi) as Hc. rewrite Hn in Hc.
  destruct Hc as [?|(pre & o & post & st & rs & A1 & A2 & A3 & A4)]; [left; auto|].
  right. exists pre, o, post, st, rs. repeat (split; [assumption|]). destruct A4 as [A4|[A4 A5]]; [now left|right]. split; [apply A5; apply Hi|exact A4].
Qed.
Print Assumptions C91_tourtree_goes_on_partial.

(** C91.  Whatever the compiler makes of it, the full claim is false: a push of which the second allocation failed leaves a tree on which the second push after it
    works and the third is undefined, although all allocations succeed then. *)
Theorem C91_push_after_failure_refuted : ~ (forall (ops : list (op nat * nat)) st0 st rs, forallb (fun o => tt_api nat (fst o)) ops = true -> m_start = Ok st0 ->
  run (m_catch Nat.ltb) st0 ops = Ok (st, rs) -> forall x b, m_catch Nat.ltb st (Push x, b) <> UB).
Proof.
  intros H. destruct (@start_at nat) as (st0 & H0 & _). set (ops := map (fun x => (Push x, 9)) (seq 0 8) ++ [(Push 8, 1); (Push 8, 9); (Push 9, 9)]).
  assert (H1 : exists st rs, run (m_catch Nat.ltb) st0 ops = Ok (st, rs) /\ m_catch Nat.ltb st (Push 10, 9) = UB).
  { injection H0 as <-. eexists; eexists. split; vm_compute; reflexivity. }
  destruct H1 as (st & rs & H1 & H2). exact (H ops st0 st rs eq_refl H0 H1 10 9 H2).
Qed.
Print Assumptions C91_push_after_failure_refuted.

(** C91.  With enough memory the calls are those of TourMem/Model.v, of which C77 speaks. *)
Theorem C91_tourtree_enough_memory : forall (E : Type) (lt : E -> E -> bool), strict_weak lt -> forall (ops : list (op E)) b st0,
  forallb (tt_api E) ops = true -> (forall o, In o ops -> 2 * length (pushes_of o) <= b) -> m_start = Ok st0 ->
  run (m_catch lt) st0 (map (fun o => (o, b)) ops) = rmap (fun r => (fst r, map Some (snd r))) (run (fun st o => m_call lt (fst st) (snd st) o) st0 ops).
Proof.
  intros E lt Hsw ops b st0 Hapi Hb H0. destruct (@start_at E) as (st & H & Ha & _). rewrite H in H0. injection H0 as <-.
  exact (catch_enough_run lt Hsw b ops st _ Ha (tt_new_inv lt) Hapi Hb).
Qed.
Print Assumptions C91_tourtree_enough_memory.

(** C91, heap.  The history runs to its end as Spec/Refused.v says, unless it comes to a call that needs an entry when there is none. *)
Theorem C91_heap_goes_on : forall (E : Type) (lt eqv : E -> E -> bool) (supportDedup : bool) (dedup : E -> E -> E), strict_weak lt ->
  (supportDedup = true -> forall a b, lt a b = false -> eqv a b = true -> equivalent lt (dedup a b) a) ->
  let step := hm_catch E lt eqv supportDedup dedup in let dd := dedup_dd supportDedup eqv dedup in
  forall ops : list (op E * nat),
  (exists t rs, run step (hm_new E) ops = Ok (t, rs) /\ mtrace lt dd [] (map fst ops) rs (stored t)) \/
  (exists pre o post t rs, ops = pre ++ o :: post /\ run step (hm_new E) pre = Ok (t, rs) /\ mtrace lt dd [] (map fst pre) rs (stored t) /\
     needs_nonempty (fst o) = true /\ stored t = []).
Proof.
  intros E lt eqv sd dedup Hsw Hd step dd ops. destruct (new_heaped lt sd) as [Hh Hn]. pose proof (HeapMem.AllocProofs.catch_run lt eqv sd dedup Hsw Hd ops _ Hh) as Hc. now rewrite Hn in Hc.
Qed.
Print Assumptions C91_heap_goes_on.

(** C91, triangle of bits.  The history runs to its end as Spec/TriangleHurt.v says, or comes to a call that is not usable there, which is undefined: a column may be
    counted and have no bits. *)
Theorem C91_triangle_goes_on_partial : forall ops : list (bt_op * (nat * bool)),
  (exists t rs h u, run bt_catch [] ops = Ok (t, rs) /\ htrace [] [] (map fst ops) rs h u) \/
  (exists pre o post t rs h u, ops = pre ++ o :: post /\ run bt_catch [] pre = Ok (t, rs) /\ htrace [] [] (map fst pre) rs h u /\ ~ usable h u (fst o) /\ bt_catch t o = UB).
Proof. intros ops. destruct (hurt_run ops [] [] [] hurt_new) as [(t & rs & h & u & A & B & _)|?]; [left; exists t, rs, h, u|right]; auto. Qed.
Print Assumptions C91_triangle_goes_on_partial.

(** C91.  The full claim is false: a refused column is counted, and the bits a triangle with that many columns has cannot be read. *)
Theorem C91_refused_column_refuted : ~ (forall ops t rs p t', run bt_catch [] ops = Ok (t, rs) -> bt_catch t (BAddColumn, p) = Ok (t', None) ->
  bt_columnCount t' = bt_columnCount t).
Proof. intros H. specialize (H [(BAddColumn, (2, true))] [[]] [Some BNone] (1, true) [[]; []] eq_refl eq_refl). discriminate H. Qed.
Print Assumptions C91_refused_column_refuted.
Theorem C91_counted_column_refuted : ~ (forall ops t rs c r, run bt_catch [] ops = Ok (t, rs) -> r < c < bt_columnCount t -> exists v, bt_bit t c r = Ok v).
Proof.
  intros H. destruct (H [(BAddColumn, (2, true)); (BAddColumn, (1, true))] [[]; []] [Some BNone; None] 1 0 eq_refl) as [v Hv]; [cbn; lia|discriminate Hv].
Qed.
Print Assumptions C91_counted_column_refuted.

(** Refused pushes before, between and after others; the tenth entry needs no memory that was refused, and a range that is cut. *)
Example C91_nonvacuous_tourtree : exists st0 st rs, m_start = Ok st0 /\
  run (m_catch Nat.ltb) st0 [(PushRange [3; 1; 4; 1; 5; 9; 2; 6], 0); (Push 7, 0); (Push 7, 1); (PushRange [5; 3], 0); (Pop, 0); (Pop, 0); (Push 8, 0); (Push 9, 0); (ForAll, 0);
    (Pop, 0); (Pop, 0); (Pop, 0); (PushRange [1; 1; 1], 0)] = Ok (st, rs) /\
  rs = [Some ONone; None; None; Some ONone; Some (OEntry 9); Some (OEntry 6); Some ONone; Some ONone; Some (OList [5; 1; 4; 1; 5; 3; 2; 3; 8; 9]);
    Some (OEntry 9); Some (OEntry 8); Some (OEntry 5); Some ONone] /\ length (m_held st) = 10 /\ cramped st (Push 0) /\ ~ cramped st Pop.
Proof.
  destruct (@start_at nat) as (st0 & H0 & _). exists st0. injection H0 as <-. eexists; eexists. split; [reflexivity|]. split; [vm_compute; reflexivity|]. split; [reflexivity|].
  split; [reflexivity|]. unfold cramped. split; [|intros [_ H]; revert H]; vm_compute; lia.
Qed.
Example C91_nonvacuous_heap : exists t rs, run (hm_catch nat Nat.ltb Nat.eqb false Nat.add) (hm_new nat)
    [(Push 3, 0); (Push 3, 1); (PushRange (seq 4 20), 0); (ForAll, 0); (PushRange (seq 40 20), 2); (Top, 0)] = Ok (t, rs) /\
  nth_error rs 0 = Some None /\ nth_error rs 2 = Some None /\ nth_error rs 4 = Some (Some ONone) /\ nth_error rs 5 = Some (Some (OEntry 59)) /\ length (stored t) = 36.
Proof. eexists; eexists. split; [vm_compute; reflexivity|]. repeat split; vm_compute; reflexivity. Qed.
Example C91_nonvacuous_triangle : run bt_catch []
    [(BAddColumn, (2, true)); (BAddColumn, (0, true)); (BAddColumn, (0, false)); (BCount, (0, false)); (BAddColumn, (1, false)); (BSetU 0 2 true, (0, false)); (BGet 2 0, (0, false))] =
  Ok ([[]; []; [true; false]], [Some BNone; None; None; Some (BNat 2); Some BNone; Some BNone; Some (BBool true)]).
Proof. reflexivity. Qed.
