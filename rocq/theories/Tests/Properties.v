(** The unit tests of the repository on the model (C63). *)
From Coq Require Import List Arith NArith ZArith Bool String.
From Verif.Base Require Import Res Arr.
From Verif.Spec Require Import HMap.
From Verif.BitTriangle Require Import Model.
From Verif.HashTable Require Import Model Properties.
From Verif.PairQueue Require Import Model.
From Verif.DivSim Require Import Model.
From Verif.Tests Require Import Model.
Import ListNotations.

(** C63.  Every assertion of test/BitTriangle.cpp holds. *)
Theorem C63_bit_triangle_tests :
  script bt_step [] (map fst bt_empty_script) = Ok (map snd bt_empty_script) /\
  script bt_step [] (map fst (bt_getset_script 20)) = Ok (map snd (bt_getset_script 20)).
Proof. split; vm_compute; reflexivity. Qed.
Print Assumptions C63_bit_triangle_tests.

(** C63.  Every assertion of test/HashTable.cpp holds, whatever std::hash<std::string> is. *)
Theorem C63_hash_table_tests :
  (exists t, run (ht_step Z Z Z.eqb Z.to_N) (ht_new Z Z 10) (map fst ht_int_script) = Ok (t, map snd ht_int_script)) /\
  (forall hash, exists t, run (ht_step string nat String.eqb hash) (ht_new string nat 10) (map fst ht_string_script) = Ok (t, map snd ht_string_script)).
Proof.
  split; [eexists; vm_compute; reflexivity|]. intros hash.
  assert (Hr : key_rules String.eqb hash).
  { split; [apply String.eqb_refl|]. split; [intros a b; now rewrite String.eqb_sym|]. split; intros a b; [intros c H1 H2; apply String.eqb_eq in H1, H2; apply String.eqb_eq; congruence|].
    intros H. apply String.eqb_eq in H. now subst. }
  destruct (C17_hashtable_is_map string nat String.eqb hash Hr 10 (map fst ht_string_script)) as (t & Ht & _). exists t. exact Ht.
Qed.
Print Assumptions C63_hash_table_tests.

(** C63.  Every assertion of test/PairQueue.cpp holds.  The pairs come out in the order of their strings. *)
Definition pq_drain_order : list (N * N) := flat_map (fun col => map (fun row => (N.of_nat col, row)) (rows_to col)) (seq 1 6) ++ [(8, 0); (8, 1)]%N.
Theorem C63_pair_queue_counts :
  script (string_step 1) (pq_new string) (map fst pq_count_script ++ pq_drain_script ++ map fst pq_drained_script) =
  Ok (map snd pq_count_script ++ flat_map (fun i => [PNat (23 - i); PBool false; PPair (nth i pq_drain_order (0, 0)%N)]) (seq 0 23) ++ map snd pq_drained_script).
Proof. vm_compute. reflexivity. Qed.
Print Assumptions C63_pair_queue_counts.
Theorem C63_pair_queue_ordering :
  pq_order_test = Ok (Some " 109 1109 11109 11109 1111009 1159 13129 1339 1379 20009 2001119"%string) /\
  script (string_step 9) (pq_new string) (pq_order_columns ++ repeat PPop 5 ++ map fst (pq_order_detour (11, 5)%N "1159")) =
  Ok (repeat PNone 112 ++ map PPair [(1, 0); (11, 0); (11, 10); (111, 0); (111, 100)]%N ++ map snd (pq_order_detour (11, 5)%N "1159")).
Proof. split; vm_compute; reflexivity. Qed.
Print Assumptions C63_pair_queue_ordering.
Theorem C63_pair_queue_large_indices : (let* s := pq_large_start in script (string_step 7) s (map fst pq_large_script)) = Ok (map snd pq_large_script).
Proof. vm_compute. reflexivity. Qed.
Print Assumptions C63_pair_queue_large_indices.
Theorem C63_pair_queue_constructions :
  pq_condecon [] = Ok 0%Z /\ pq_condecon (repeat PPop 3) = Ok 0%Z /\ pq_condecon (flat_map (fun _ => [PTop; PPop]) (seq 0 23)) = Ok 0%Z /\
  (let* s := after_script row_step (pq_new N) (pq_condecon_columns ++ flat_map (fun _ => [PTop; PPop]) (seq 0 23)) in Ok (pq_empty N s)) = Ok true.
Proof. repeat split; vm_compute; reflexivity. Qed.
Print Assumptions C63_pair_queue_constructions.
Theorem C63_pair_queue_retirement :
  script (string_step 421) (pq_new string) (map fst pq_retire_false_script) = Ok (map snd pq_retire_false_script) /\
  script row_step (pq_new N) (map fst pq_retire_true_script) = Ok (map snd pq_retire_true_script) /\
  script row_step (pq_new N) (pq_retirement_ops ++ pq_retirement_rest 3) =
    Ok ([PNone; PNone; PPairData (1, 0) 0; PNone; PBool true; PNone; PPairData (2, 0) 0; PNone; PPairData (2, 0) 0; PNone; PPairData (2, 0) 0; PNone; PBool false; PPairData (3, 2) 2]
        ++ [PNone; PPairData (3, 2) 2; PBool false; PPair (3, 2); PBool true])%N.
Proof. repeat split; vm_compute; reflexivity. Qed.
Print Assumptions C63_pair_queue_retirement.

(** C63.  The remaining test, test/DivFinder.cpp, is undefined: with one variable, computing the default thresholds overflows an int. *)
Theorem C63_div_finder_test_refuted : forall std, df_noop std = UB.
Proof. intros std. vm_compute. reflexivity. Qed.
Print Assumptions C63_div_finder_test_refuted.
