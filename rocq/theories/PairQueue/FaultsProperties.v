(** Property theorems about PairQueue with a configuration that throws (C52). *)
From Coq Require Import List NArith Bool String.
From Verif.Base Require Import Res Order.
From Verif.TourTree Require Import Model.
From Verif.PairQueue Require Import Model Properties Faults FaultsProofs.
Import ListNotations.
Local Open Scope N_scope.

(** A configuration that never throws: every call, and the destructor, does what the model without exceptions says. *)
Theorem C52_no_exception_no_change :
  forall (P : Type) (pdata : N -> N -> P) (lt : N * N * P -> N * N * P -> bool) (sup : bool) ops s rs,
  run (pq_step P pdata lt sup) (pq_new P) ops = Ok (s, rs) ->
  exists s', run (fq_step P (fun c r => Some (pdata c r)) (fun a b => Some (lt a b)) sup) (fq_new P) ops = Ok (s', map Some rs) /\
    fq_count s' = pq_count s /\ fq_ret s' = pq_ret s /\ fq_log s' = pq_log s /\ fq_leaked s' = 0%nat /\
    tt_forAll _ (fq_queue s') = map Live (tt_forAll _ (pq_queue s)) /\ fq_destroy P s' = Ok (pq_destroy P s).
Proof.
  intros * H. exists (of_pq 0 s). split; [exact (frun_quiet pdata lt sup 0 ops (pq_new P) s rs H)|].
  repeat split; [apply FaultsProofs.tt_forAll_map|apply fdestroy_quiet].
Qed.
Print Assumptions C52_no_exception_no_change.

(** C52.  If addColumnDescending throws because computePairData did, or because there are too many columns, it has changed nothing. *)
Theorem C52_add_strong_guarantee :
  forall (P : Type) (pdata : N -> N -> option P) (cmp : N * N * P -> N * N * P -> option bool) (sup : bool) s rows s' e,
  (forall a b, cmp a b <> None) -> fq_add P pdata cmp sup s rows = Ok (s', Some e) ->
  fq_queue s' = fq_queue s /\ fq_count s' = fq_count s /\ fq_ret s' = fq_ret s /\ fq_log s' = fq_log s.
Proof. exact @add_strong. Qed.
Print Assumptions C52_add_strong_guarantee.

(** C52.  So a caller who catches the exception and goes on sees the same answers as if the call had not been made. *)
Theorem C52_failed_add_invisible :
  forall (P : Type) (pdata : N -> N -> option P) (cmp : N * N * P -> N * N * P -> option bool) (sup : bool) ops s rs,
  (forall a b, cmp a b <> None) -> run (fq_step P pdata cmp sup) (fq_new P) ops = Ok (s, rs) ->
  exists s', run (fq_step P pdata cmp sup) (fq_new P) (map fst (kept ops rs)) = Ok (s', map snd (kept ops rs)) /\
    fq_queue s' = fq_queue s /\ fq_count s' = fq_count s /\ fq_ret s' = fq_ret s /\ fq_log s' = fq_log s.
Proof.
  intros P pdata cmp sup ops s rs Hc H. apply (kept_run pdata cmp sup Hc ops (fq_new P) (fq_new P) s rs); auto. repeat split.
Qed.
Print Assumptions C52_failed_add_invisible.

Definition ex_throws (c r : N) : option N := if (c =? 2) && (r =? 0) then None else Some (ex_data c r).
Definition ex_cmp (a b : N * N * N) : option bool := Some (ex_order a b).
Definition ex_cmp_throws (a b : N * N * N) : option bool := if fst (fst b) =? 2 then None else Some (ex_order a b).

Example C52_nonvacuous :
  (forall a b, ex_cmp a b <> None) /\
  exists s rs, run (fq_step N ex_throws ex_cmp true) (fq_new N)
    [PAdd []; PAdd [0]; PAdd [0]; PColumnCount; PAdd [1]; PTop; PPop; PTop] = Ok (s, rs) /\
    rs = [Some PNone; Some PNone; None; Some (PIndex 2); Some PNone; Some (PPairData (2, 1) 21); Some (PPair (2, 1));
          Some (PPairData (1, 0) 10)].
Proof. split; [discriminate|]. eexists; eexists; split; vm_compute; reflexivity. Qed.

(** C52.  The PairData object that constructPairData made before computePairData threw is never destructed. *)
Theorem C52_construct_leaks_refuted :
  exists ops s rs log, run (fq_step N ex_throws ex_cmp true) (fq_new N) ops = Ok (s, rs) /\
    fq_destroy N s = Ok log /\ fq_leaked s = 1%nat /\ In None rs.
Proof.
  exists [PAdd []; PAdd [0]; PAdd [0]]. eexists; eexists; eexists.
  split; [vm_compute; reflexivity|]. split; [vm_compute; reflexivity|]. split; [reflexivity|]. simpl; auto.
Qed.
Print Assumptions C52_construct_leaks_refuted.

(** C52.  If compare throws in addColumnDescending, the column is destructed and its memory given back, but the tournament still points
    to it: a later pop and the destructor use the destructed column. *)
Theorem C52_throwing_compare_refuted :
  exists ops s rs, run (fq_step N (fun c r => Some (ex_data c r)) ex_cmp_throws true) (fq_new N) ops = Ok (s, rs) /\
    rs = [Some PNone; Some PNone; None; Some (PIndex 2); Some (PPairData (1, 0) 10)] /\
    fq_step N (fun c r => Some (ex_data c r)) ex_cmp_throws true s PPop = UB /\ fq_destroy N s = UB.
Proof.
  exists [PAdd []; PAdd [0]; PAdd [1; 0]; PColumnCount; PTop]. eexists; eexists.
  split; [vm_compute; reflexivity|]. repeat split; vm_compute; reflexivity.
Qed.
Print Assumptions C52_throwing_compare_refuted.

(** C52.  If computePairData throws in pop, the queue goes on with the new pair and the data of the old one. *)
Theorem C52_throwing_pop_refuted :
  exists ops s rs, run (fq_step N ex_throws ex_cmp true) (fq_new N) ops = Ok (s, rs) /\
    rs = [Some PNone; Some PNone; Some PNone; None; Some (PPairData (2, 0) 21)] /\ ex_throws 2 1 = Some 21 /\ ex_throws 2 0 = None.
Proof.
  exists [PAdd []; PAdd [0]; PAdd [1; 0]; PPop; PTop]. eexists; eexists.
  split; [vm_compute; reflexivity|]. repeat split; vm_compute; reflexivity.
Qed.
Print Assumptions C52_throwing_pop_refuted.
