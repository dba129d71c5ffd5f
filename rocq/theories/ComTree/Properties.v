(** Property theorems about ComTree (C11, C12). *)
From Coq Require Import List Arith NArith Bool.
From Verif.Base Require Import Res.
From Verif.ComTree Require Import Model Proofs.
From Verif.Spec Require Import Seq.
Import ListNotations.

(** C11.  [fi] is FastIndex and sizeof(Entry) is [2^k].  The node with plain index [n] is stored as [n * sizeof(Entry)] with
    FastIndex and as [n] without.  Every node operation on the stored number gives the stored number of the plain result, with
    64-bit wrap-around of all intermediate results, provided the stored results fit into 64 bits. *)
Theorem C11_node_arithmetic : forall (fi : bool) (k n : N), (k < 63)%N -> (n * (if fi then 2 ^ k else 1) < 2 ^ 64)%N ->
  let S := (2 ^ k)%N in
  let node m := (m * (if fi then 2 ^ k else 1))%N in
  n_root fi S = node 1%N /\
  n_normal fi S (node n) = n /\
  n_parent fi S (node n) = Ok (node (n / 2)%N) /\
  n_sibling fi S (node n) = node (if N.even n then n + 1 else n - 1)%N /\
  n_leftSibling fi S (node n) = node (2 * (n / 2))%N /\
  n_isLeft fi S (node n) = N.even n /\
  n_isRight fi S (node n) = N.odd n /\
  n_isRoot fi S (node n) = (n =? 1)%N /\
  (1 <= n -> n_prev fi S (node n) = node (n - 1))%N /\
  (node (n + 1) < 2 ^ 64 -> n_next fi S (node n) = node (n + 1))%N /\
  (forall c, node (n + c) < 2 ^ 64 -> n_next_count fi S (node n) c = node (n + c))%N /\
  (node (2 * n) < 2 ^ 64 -> n_left (node n) = node (2 * n))%N /\
  (node (2 * n + 1) < 2 ^ 64 -> n_right fi S (node n) = node (2 * n + 1))%N /\
  (forall m, n_lt (node n) (node m) = (n <? m) /\ n_le (node n) (node m) = (n <=? m) /\
             n_eq (node n) (node m) = (n =? m))%N.
Proof. exact node_arithmetic. Qed.
Print Assumptions C11_node_arithmetic.

Example C11_nonvacuous : (5 < 63)%N /\ (12345 * 2 ^ 5 < 2 ^ 64)%N /\ n_parent true (2 ^ 5) (12345 * 32) = Ok (6172 * 32)%N.
Proof. repeat split; vm_compute; reflexivity. Qed.

(** Without the power of two the sibling computation is wrong, so the documented condition is needed. *)
Theorem C11_power_of_two_needed_refuted :
  exists S n, (n_sibling true S (n * S) <> (if N.even n then n + 1 else n - 1) * S)%N.
Proof. exists 3%N, 2%N. vm_compute. discriminate. Qed.
Print Assumptions C11_power_of_two_needed_refuted.

(** C12.  Any history of calls that the plain sequence allows runs, gives the answers of the plain sequence, and leaves every
    node reading as the entry at that position of the sequence, whatever the initial capacity was. *)
Theorem C12_comtree_is_a_sequence : forall (E : Type) (c : nat) (ops : list (ct_op E)) (l : list E) (rs : list (ct_out E)),
  seq_run [] ops = Some (l, rs) ->
  exists t, run ct_step (ct_new c) ops = Ok (t, rs) /\
    ct_size t = length l /\ ct_size t <= ct_capacity t /\
    (forall n, 1 <= n <= length l -> exists v, nth_error l (n - 1) = Some v /\ ct_get t n = Ok v).
Proof. exact @ct_history. Qed.
Print Assumptions C12_comtree_is_a_sequence.

Example C12_nonvacuous :
  exists l rs, seq_run [] (map CPushBack (seq 0 20) ++ [CPopBack; CSet 3 99; CCopy 100; CGrow; CGet 3; CSize]) = Some (l, rs)
               /\ length l = 19.
Proof. eexists; eexists; split; vm_compute; reflexivity. Qed.

(** C12, swap: after [t1.swap(t2)] each tree continues as the other one. *)
Theorem C12_comtree_swap : forall (E : Type) (c1 c2 : nat) (ops1 ops2 : list (ct_op E)) l1 l2 rs1 rs2 t1 t2,
  seq_run [] ops1 = Some (l1, rs1) -> run ct_step (ct_new c1) ops1 = Ok (t1, rs1) ->
  seq_run [] ops2 = Some (l2, rs2) -> run ct_step (ct_new c2) ops2 = Ok (t2, rs2) ->
  forall ops l rs,
    (seq_run l2 ops = Some (l, rs) -> exists t, run ct_step (fst (ct_swap t1 t2)) ops = Ok (t, rs)) /\
    (seq_run l1 ops = Some (l, rs) -> exists t, run ct_step (snd (ct_swap t1 t2)) ops = Ok (t, rs)).
Proof. exact @ct_swap_history. Qed.
Print Assumptions C12_comtree_swap.

(** C12, move: "moving a tree gives the target all entries of the source" is false of the code.  The witness is a tree with one
    entry. *)
Theorem C12_move_keeps_entries_refuted :
  exists (ops : list (ct_op nat)) t rs, run ct_step (ct_new 0) ops = Ok (t, rs) /\
    ct_get t 1 = Ok 7 /\ ct_size (fst (ct_move t)) <> ct_size t.
Proof.
  exists [CPushBack 7]. eexists. eexists. split; [vm_compute; reflexivity|].
  split; vm_compute; [reflexivity|discriminate].
Qed.
Print Assumptions C12_move_keeps_entries_refuted.

(** In fact every move of a non-empty tree loses all entries, and leaves a source that claims its old size while reading any of its
    nodes is undefined. *)
Theorem C12_move_always_loses : forall (E : Type) (c : nat) (ops : list (ct_op E)) l rs,
  seq_run [] ops = Some (l, rs) -> l <> [] ->
  exists t, run ct_step (ct_new c) ops = Ok (t, rs) /\
    ct_size (fst (ct_move t)) = 0 /\ ct_size (snd (ct_move t)) = length l /\
    forall n, ct_get (snd (ct_move t)) n = UB.
Proof.
  exact (fun E c ops l rs H Hn =>
    match ct_run_holds ops (ct_new c) [] l rs (ct_new_holds c) H with
    | ex_intro _ t (conj Hr Hh) => ex_intro _ t (conj Hr (ct_move_loses t l Hh Hn))
    end).
Qed.
Print Assumptions C12_move_always_loses.

(** pushBack takes its argument by reference: pushing an entry of the tree itself is undefined when the tree is full. *)
Theorem C12_push_own_entry_refuted :
  exists (ops : list (ct_op nat)) t rs, run ct_step (ct_new 0) ops = Ok (t, rs) /\
    ct_get t 1 = Ok 0 /\ ct_pushBack_alias t 1 = UB.
Proof.
  exists (map CPushBack (seq 0 16)). eexists. eexists. split; [vm_compute; reflexivity|].
  split; vm_compute; reflexivity.
Qed.
Print Assumptions C12_push_own_entry_refuted.
