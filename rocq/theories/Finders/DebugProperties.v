(** Property theorems about the assertions of ComTree, BitTriangle, HashTable and DivList (C72). *)
From Coq Require Import List Arith NArith ZArith Bool.
From Verif.Base Require Import Res.
From Verif.Spec Require Import Seq Triangle HMap DivFinder.
From Verif.ComTree Require Import Model Debug DebugProofs.
From Verif.BitTriangle Require Import Model Proofs Debug DebugProofs.
From Verif.HashTable Require Import Model Properties Debug DebugProofs.
From Verif.DivList Require Import Model Properties Debug DebugProofs.
Import ListNotations.

(** C72.  In a history of calls on a ComTree that the plain sequence allows no assertion fails, neither that of the destructor afterwards
    nor that of pushBackWithCapacity if there is room: the build with assertions ends in the same state with the same answers. *)
Theorem C72_comtree_no_assertion_fails : forall (E : Type) (c : nat) (ops : list (ct_op E)) l rs, seq_run [] ops = Some (l, rs) ->
  exists t, (let* t0 := ct_new_d c in run ct_step_d t0 ops) = Ok (t, rs) /\ run ct_step (ct_new c) ops = Ok (t, rs) /\
    ct_destroy_d t = Ok tt /\
    (forall v, ct_size t < ct_capacity t -> ct_pushBackWithCapacity_d t v = ct_pushBackWithCapacity t v).
Proof. exact @ct_no_assertion. Qed.
Print Assumptions C72_comtree_no_assertion_fails.

(** C72.  Nor does one in swap. *)
Theorem C72_comtree_swap_no_assertion_fails : forall (E : Type) (c1 c2 : nat) (ops1 ops2 : list (ct_op E)) l1 l2 rs1 rs2 t1 t2,
  seq_run [] ops1 = Some (l1, rs1) -> run ct_step (ct_new c1) ops1 = Ok (t1, rs1) ->
  seq_run [] ops2 = Some (l2, rs2) -> run ct_step (ct_new c2) ops2 = Ok (t2, rs2) ->
  ct_swap_d t1 t2 = Ok (ct_swap t1 t2).
Proof. exact @ct_swap_no_assertion. Qed.
Print Assumptions C72_comtree_swap_no_assertion_fails.

(** C72, move: "no assertion fails after the move constructor" is false.  Whenever the source has an array, the destructors of both trees
    fail their assertion. *)
Theorem C72_comtree_move_no_assertion_refuted : forall (E : Type) (c : nat) (ops : list (ct_op E)) l rs t,
  seq_run [] ops = Some (l, rs) -> run ct_step (ct_new c) ops = Ok (t, rs) -> ct_capacity t <> 0 ->
  ct_destroy_d (fst (ct_move t)) = UB /\ ct_destroy_d (snd (ct_move t)) = UB.
Proof. exact @ct_move_assertions. Qed.
Print Assumptions C72_comtree_move_no_assertion_refuted.

Example C72_comtree_nonvacuous :
  exists t rs, (let* t0 := ct_new_d 0 in run ct_step_d t0 (map CPushBack (seq 0 20) ++ [CPopBack; CSet 3 99; CCopy 100; CGrow; CGet 3; CSize])) = Ok (t, rs) /\
    ct_size t = 19 /\ ct_size t < ct_capacity t /\ ct_destroy_d (fst (ct_move t)) = UB.
Proof. eexists; eexists; split; [vm_compute; reflexivity|]. repeat split; try reflexivity. cbn. repeat constructor. Qed.


(** C72.  The assertions of BitTriangle fail for exactly those calls that are undefined in the release build (C13). *)
Theorem C72_triangle_assertions_exact : forall ops, run bt_step_d [] ops = run bt_step [] ops.
Proof. exact (fun ops => bt_run_same ops [] [] bt_inv_nil). Qed.
Print Assumptions C72_triangle_assertions_exact.

Example C72_triangle_nonvacuous :
  (exists t, run bt_step_d [] [BAddColumn; BAddColumn; BAddColumn; BSet 2 0 true; BSetU 1 2 true; BGetU 0 2; BGet 2 1] =
     Ok (t, [BNone; BNone; BNone; BNone; BNone; BBool true; BBool true])) /\
  run bt_step_d [] [BAddColumn; BAddColumn; BGetU 1 1] = UB.
Proof. split; [eexists|]; vm_compute; reflexivity. Qed.


(** C72.  No assertion of HashTable fails: the number of nodes is always the number counted, before and after growing. *)
Theorem C72_hashtable_no_assertion_fails : forall (K V : Type) (keq : K -> K -> bool) (hash : K -> N), key_rules keq hash ->
  forall (nbits : nat) (ops : list (hop K V)),
  run (ht_step_d K V keq hash) (ht_new K V nbits) ops = run (ht_step K V keq hash) (ht_new K V nbits) ops.
Proof. exact (fun K V keq hash '(conj _ (conj Hs (conj Ht Hh))) => ht_no_assertion keq hash Hs Ht Hh). Qed.
Print Assumptions C72_hashtable_no_assertion_fails.

(** The call that grows the table is checked before and after growing; a table with a wrong count fails. *)
Example C72_hashtable_nonvacuous :
  (exists t rs, run (ht_step_d _ _ ex_keq ex_hash) (ht_new _ _ 0) ex_ops = Ok (t, rs) /\ t_log t = 6 /\ t_count t = 5) /\
  ht_insert_d _ _ ex_keq ex_hash (mk_table 2 (repeat None 4) [] 1 0 1%N) (5%N, 0) 10 = UB.
Proof. split; [eexists; eexists; split; [vm_compute; reflexivity|split; reflexivity]|vm_compute; reflexivity]. Qed.


(** DivList with assertions; [positive] says whether getRebuildRatio() > 0. *)
Definition lstep_d {M} (c : config M) (positive : bool) : dlist M -> dop M -> res (dlist M * dout M) :=
  step_d M (f_ex c) (f_nvars c) (f_type c) (f_sort_data c) (f_use c) (f_divides c) (f_less c) (f_linked c) (f_sorted c) (f_auto c) positive (f_ratio c) (f_min c) (f_sort_ext c).
Definition linit_d {M} (c : config M) (positive : bool) : res (dlist M) :=
  construct_d M (f_ex c) (f_nvars c) (f_type c) (f_sort_data c) (f_use c) (f_auto c) positive (f_ratio c) (f_min c).

(** C72.  No assertion of DivList and of the divmask calculator in it fails, in whatever state, if the rebuild ratio is positive or
    automatic rebuilds are off.  Otherwise that of the constructor does. *)
Theorem C72_divlist_no_assertion_fails : forall (M : Type) (c : config M) (positive : bool), legal c ->
  ((f_auto c = true -> positive = true) ->
     linit_d c positive = linit c /\ forall s o, lstep_d c positive s o = lstep c s o) /\
  (f_auto c = true -> positive = false -> forall s, linit c = Ok s -> linit_d c positive = UB).
Proof.
  intros M c positive H. split.
  - intros Hp. split.
    + exact (construct_same _ _ _ _ (fun l => proj1 (k_sort c H l)) _ _ _ Hp _ _).
    + exact (step_same _ _ _ _ (fun l => proj1 (k_sort c H l)) _ _ _ _ _ _ _ Hp _ _ _).
  - intros Ha Hp s Hs. unfold linit_d, construct_d. unfold linit, construct in Hs.
    rewrite (calc_same _ _ _ _ (fun l => proj1 (k_sort c H l))). destruct (calc_rebuild M (f_ex c) (f_nvars c) (f_type c) (f_sort_data c) (f_use c) []); try discriminate.
    unfold reset_left_d. rewrite Ha, Hp. reflexivity.
Qed.
Print Assumptions C72_divlist_no_assertion_fails.

Example C72_divlist_nonvacuous :
  legal (mono_config lex true false false true) /\ f_auto (mono_config lex true false false true) = true /\
  (let* s := linit_d (mono_config lex true false false true) true in let* (_, rs) := run (lstep_d (mono_config lex true false false true) true) s demo in Ok (length rs)) = Ok 13 /\
  linit_d (mono_config lex true false false true) false = UB.
Proof. split; [apply mono_legal|split; [reflexivity|split; vm_compute; reflexivity]]. Qed.

