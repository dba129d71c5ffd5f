(** Model of the unit tests in src/test, as calls on the models of the data structures and what the assertions expect. *)
From Coq Require Import List Arith NArith ZArith Bool String Ascii DecimalString.
From Verif.Base Require Import Res.
From Verif.BitTriangle Require Import Model.
From Verif.PairQueue Require Import Model.
From Verif.KD Require Import EntryArray Model.
From Verif.Finders Require Import Model.
From Verif.DivSim Require Import Model.
From Verif.Spec Require Import HMap.
Import ListNotations.

(** ** test/BitTriangle.cpp *)

(** test/BitTriangle.cpp:8-20 emptyAndColumnCount *)
Definition bt_empty_script : list (bt_op * bt_out) :=
  [(BEmpty, BBool true); (BCount, BNat 0); (BAddColumn, BNone); (BEmpty, BBool false); (BCount, BNat 1);
   (BAddColumn, BNone); (BEmpty, BBool false); (BCount, BNat 2)].
(** test/BitTriangle.cpp:28-30 and the like: all three ways to read a bit *)
Definition bt_read (col row : nat) (v : bool) : list (bt_op * bt_out) := [(BGet col row, BBool v); (BGetU col row, BBool v); (BGetU row col, BBool v)].
(** test/BitTriangle.cpp:50 *)
Definition bt_value (row col : nat) : bool := negb ((row + col) mod 11 =? 0).
(** test/BitTriangle.cpp:28-55 *)
Definition bt_row (col row : nat) : list (bt_op * bt_out) :=
  bt_read col row false ++ [(BSet col row true, BNone)] ++ bt_read col row true ++ [(BSetU col row false, BNone)] ++ bt_read col row false ++
  [(BSetU row col true, BNone)] ++ bt_read col row true ++ [(BSet col row (bt_value row col), BNone)] ++ bt_read col row (bt_value row col).
(** test/BitTriangle.cpp:22-70 getSetBit; colCount is 20 in the test *)
Definition bt_getset_script (colCount : nat) : list (bt_op * bt_out) :=
  flat_map (fun col => (BAddColumn, BNone) :: flat_map (bt_row col) (seq 0 col)) (seq 0 colCount) ++ [(BCount, BNat colCount)] ++
  flat_map (fun col => flat_map (fun row => bt_read col row (bt_value row col)) (seq 0 col)) (seq 0 colCount).

(** ** test/HashTable.cpp *)

(** test/HashTable.cpp:20-33 NoOp *)
Definition ht_int_script : list (hop Z Z * hout Z Z) :=
  ([(HInsert 1 3, HOInserted true 0%nat); (HInsert 14 7, HOInserted true 1%nat); (HInsert 17 7, HOInserted true 2%nat); (HInsert 14 4, HOInserted false 1%nat);
    (HLookup 14, HOFound (Some 1%nat)); (HKey 1, HOKey 14); (HValue 1, HOValue 7)])%Z.
(** test/HashTable.cpp:53-70 StringKeys *)
Definition ht_string_script : list (hop string nat * hout string nat) :=
  ([(HInsert "hi there" 3, HOInserted true 0); (HInsert "whooa" 7, HOInserted true 1); (HInsert "whoah" 7, HOInserted true 2); (HInsert "hi there" 4, HOInserted false 0);
    (HLookup "hi there", HOFound (Some 0)); (HKey 0, HOKey "hi there"); (HValue 0, HOValue 3); (HLookup "hi There", HOFound None)])%string.

(** ** test/PairQueue.cpp *)
Local Open Scope N_scope.

(** Writing a number to a stream (test/PairQueue.cpp:31) *)
Definition digits (n : N) : string := NilZero.string_of_uint (N.to_uint n).
(** test/PairQueue.cpp:29-33 pairString *)
Definition pair_string (id : N) (col row : N) : string := digits col ++ digits row ++ digits id.
(** test/PairQueue.cpp:20-26 compare and cmpLessThan *)
Definition string_lt (a b : N * N * string) : bool := String.ltb (snd b) (snd a).
(** test/PairQueue.cpp:9-37, 42-45: PairQueue<PQConf> *)
Definition string_step (id : N) := pq_step string (pair_string id) string_lt false.

(** Many calls (PairQueue.h:203-268), and what they answer *)
Fixpoint script {S O R : Type} (step : S -> O -> res (S * R)) (s : S) (ops : list O) : res (list R) :=
  match ops with
  | [] => Ok []
  | o :: ops' => let* (s', r) := step s o in let* rs := script step s' ops' in Ok (r :: rs)
  end.
(** The state behind them (test/PairQueue.cpp:60-107) *)
Fixpoint after_script {S O R : Type} (step : S -> O -> res (S * R)) (s : S) (ops : list O) : res S :=
  match ops with
  | [] => Ok s
  | o :: ops' => let* (s', _) := step s o in after_script step s' ops'
  end.
(** rows (test/PairQueue.cpp:67, 315) from the first to before the [n]th *)
Definition rows_to (n : nat) : list N := map N.of_nat (seq 0 n).

(** test/PairQueue.cpp:60-107 emptyAndPairCountAndColumnCount *)
Definition pq_count_script : list (pq_op * pq_out string) :=
  [(PEmpty, PBool true); (PPairCount, PNat 0); (PColumnCount, PIndex 0)] ++
  flat_map (fun i => [(PAdd (rows_to i), PNone); (PEmpty, PBool (i =? 0)%nat); (PPairCount, PNat ((i * (i + 1)) / 2)); (PColumnCount, PIndex (N.of_nat (i + 1)))]) (seq 0 7) ++
  [(PEmpty, PBool false); (PPairCount, PNat 21); (PColumnCount, PIndex 7)] ++
  [(PAdd [], PNone); (PEmpty, PBool false); (PPairCount, PNat 21); (PColumnCount, PIndex 8)] ++
  [(PAdd (rows_to 2), PNone); (PEmpty, PBool false); (PPairCount, PNat 23); (PColumnCount, PIndex 9)].
(** test/PairQueue.cpp:95-99 *)
Definition pq_drain_script : list pq_op := flat_map (fun _ => [PPairCount; PEmpty; PPop]) (seq 0 23).
(** test/PairQueue.cpp:100-106 *)
Definition pq_drained_script : list (pq_op * pq_out string) :=
  [(PEmpty, PBool true); (PPairCount, PNat 0); (PColumnCount, PIndex 9); (PAdd [], PNone); (PEmpty, PBool true)].

(** test/PairQueue.cpp:118-140 *)
Definition pq_order_rows (col : N) : list N :=
  if col =? 1 then [0] else if col =? 11 then [0; 10; 5] else if col =? 13 then [12; 3; 7] else if col =? 111 then [0; 100] else [].
(** test/PairQueue.cpp:118-140 *)
Definition pq_order_columns : list pq_op := map (fun col => PAdd (pq_order_rows (N.of_nat col))) (seq 0 112).
(** test/PairQueue.cpp:157-185: the calls made when (11, 5) is on top, and what they are expected to answer *)
Definition pq_order_detour (p : N * N) (pd : string) : list (pq_op * pq_out string) :=
  [(PAdd [0; 111], PNone); (PTop, PPairData (112, 0) "11209"%string); (PPop, PPair (112, 0)); (PTop, PPairData (112, 111) "1121119"%string); (PPop, PPair (112, 111)); (PTop, PPairData p pd)] ++
  repeat (PAdd [], PNone) 87 ++ [(PAdd [0; 111], PNone); (PTop, PPairData p pd)].
(** test/PairQueue.cpp:143-199 the loop; the answer is what was written, or [None] if an assertion fails *)
Fixpoint pq_order_loop (fuel : nat) (s : pairqueue string) (out : string) : res (option string) :=
  match fuel with
  | O => NoFuel
  | S f =>
      if pq_empty string s then Ok (Some out) else
      let* p := pq_topPair string s in
      let* pd := pq_topPairData string s in
      let* s1 := (if ((fst p =? 11) && (snd p =? 5))%bool then after_script (string_step 9) s (map fst (pq_order_detour p pd)) else Ok s) in
      if negb (String.eqb (pair_string 9 (fst p) (snd p)) pd) then Ok None else
      let* s2 := pq_pop string (pair_string 9) string_lt false s1 in
      pq_order_loop f s2 (out ++ String " " pd)
  end.
(** test/PairQueue.cpp:110-202 Ordering *)
Definition pq_order_test : res (option string) :=
  let* s := after_script (string_step 9) (pq_new string) pq_order_columns in pq_order_loop 20 s "".

(** test/PairQueue.cpp:205-227 LargeIndices *)
Definition pq_large_start : res (pairqueue string) :=
  N.iter 100098 (fun s => let* s := s in let* (s', _) := string_step 7 s (PAdd []) in Ok s') (after_script (string_step 7) (pq_new string) [PAdd []; PAdd [0]]).
(** test/PairQueue.cpp:205-227 *)
Definition pq_large_script : list (pq_op * pq_out string) :=
  [(PColumnCount, PIndex 100100); (PAdd [0; 100000], PNone); (PTop, PPairData (100100, 0) "10010007"%string); (PPop, PPair (100100, 0));
   (PTop, PPairData (100100, 100000) "1001001000007"%string); (PPop, PPair (100100, 100000)); (PTop, PPairData (1, 0) "107"%string); (PPop, PPair (1, 0))].

(** test/PairQueue.cpp:229-311: PairQueue<PQConDeconCounterConf>; the pair data is the row *)
Definition row_lt (a b : N * N * N) : bool := snd b <? snd a.
(** test/PairQueue.cpp:229-311 *)
Definition row_step := pq_step N (fun _ row => row) row_lt true.
(** test/PairQueue.cpp:320-330 the columns that are added *)
Definition pq_condecon_columns : list pq_op := map (fun i => PAdd (rows_to i)) (seq 0 7) ++ [PAdd []; PAdd (rows_to 2)].
(** mLive.size() (test/PairQueue.cpp:268-297): the objects constructed and not destructed by the calls on pair data *)
Definition live_count (log : list PairQueue.Model.event) : Z :=
  fold_right (fun e n => match e with EConstruct _ _ => (n + 1)%Z | EDestruct _ _ => (n - 1)%Z | ECompute _ _ => n end) 0%Z log.
(** test/PairQueue.cpp:314-365 ConDeconOfPairData, one of the three blocks, where [ops] follow the columns *)
Definition pq_condecon (ops : list pq_op) : res Z :=
  let* s := after_script row_step (pq_new N) (pq_condecon_columns ++ ops) in Ok (live_count (pq_destroy N s)).

(** test/PairQueue.cpp:367-378 RetirementSetToTrue *)
Definition pq_retire_true_script : list (pq_op * pq_out N) :=
  [(PAdd [], PNone); (PEmpty, PBool true); (PRetired 0, PBool false); (PRetire 0, PNone); (PRetired 0, PBool true); (PEmpty, PBool true)].
(** test/PairQueue.cpp:48-54 RetirementSetToFalse *)
Definition pq_retire_false_script : list (pq_op * pq_out string) := [(PAdd [], PNone); (PRetired 0, PBool false)].
(** test/PairQueue.cpp:380-451 Retirement, up to the choice at line 440 *)
Definition pq_retirement_ops : list pq_op :=
  [PAdd []; PAdd [0]; PTop; PRetire 1; PEmpty; PAdd [0]; PTop; PAdd [0; 2]; PTop; PAdd [0; 2; 3]; PTop; PRetire 0; PEmpty; PTop].
(** test/PairQueue.cpp:440-450 the rest *)
Definition pq_retirement_rest (first : N) : list pq_op := [PRetire (if first =? 3 then 4 else 3); PTop; PEmpty; PPop; PEmpty].

(** ** test/DivFinder.cpp *)

(** test/DivFinder.cpp:8-10 NoOp: the constructor of KDTreeModel<1,1,1,1,1> for one variable *)
Definition df_noop (std : stdlib) : res (d_state (tree_model std 1 true true true 1 true true false false ratio_1 1000)) :=
  d_new (tree_model std 1 true true true 1 true true false false ratio_1 1000).
