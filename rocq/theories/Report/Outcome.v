(** Model of how the two simulation programs print their results: src/pqsim/Simulator.cpp and src/divsim/Simulation.cpp.

    The times are data here.  std::sort is any function that sorts, given as a parameter. *)
From Coq Require Import List Arith NArith Bool Ascii String.
From Verif.Base Require Import Res Text.
From Verif.Output Require Import Columns.
Import ListNotations.
Local Notation length := List.length.

(** ** pqsim *)

(** Simulator.h:37-44 SimData *)
Record sim_data := mk_data { d_name : text; d_comparisons : N; d_ms : N; d_memory : N }.
(** Simulator.cpp:324-326 operator< *)
Definition data_lt (a b : sim_data) : bool := (d_ms a <? d_ms b)%N.

(** Simulator.cpp:15-19, one step of the loop *)
Definition commafy_step (s : text) (str : text) (i : nat) : text :=
  let str := str ++ [nth i s null_char] in
  if negb (i =? length s - 1) && ((length s - i) mod 3 =? 1) then str ++ [","%char] else str.
(** Simulator.cpp:11-21 commafy *)
Definition sim_commafy (l : N) : text := let s := decimal l in fold_left (commafy_step s) (seq 0 (length s)) [].

(** pr[i] << t << '\n' (Simulator.cpp:286-289, Simulation.cpp:46-48) *)
Definition write_line (p : printer) (i : nat) (t : text) : res printer := let* p1 := write p i t in write p1 i [newline].
(** Simulator.cpp:284-290 *)
Fixpoint pq_fill (p : printer) (ds : list sim_data) : res printer :=
  match ds with
  | [] => Ok p
  | d :: ds' =>
      let* p0 := write_line p 0 (d_name d) in
      let* p1 := write_line p0 1 (sim_commafy (d_ms d)) in
      let* p2 := write_line p1 2 (sim_commafy (d_comparisons d)) in
      let* p3 := write_line p2 3 (sim_commafy (d_memory d / 1024)) in
      pq_fill p3 ds'
  end.
(** Simulator.cpp:279-283 *)
Definition pq_printer : printer :=
  let p0 := add_column (new_printer 0) true default_prefix [] in
  let p1 := add_column p0 false (txt " ") (txt "ms") in
  let p2 := add_column p1 false (txt " ") (txt "cmps") in
  add_column p2 false (txt " ") (txt "kb").
(** Simulator.cpp:275-292 printData *)
Definition pq_print_data (sort : list sim_data -> list sim_data) (ds : list sim_data) : res text :=
  let* p := pq_fill pq_printer (sort ds) in
  let* t := print p in
  Ok (txt "*** Simulation outcome ***" ++ [newline] ++ t).
(** Simulator.cpp:316-322 SimData::print *)
Definition pq_print_one (d : sim_data) : text :=
  d_name d ++ txt " " ++ sim_commafy (d_ms d) ++ txt " ms" ++ txt " " ++ sim_commafy (d_comparisons d) ++ txt " cmps" ++
  txt " " ++ sim_commafy (d_memory d / 1024) ++ txt " kb" ++ [newline].

(** ** divsim *)

(** Simulation.h:39-46 SimData *)
Record div_data := mk_div_data { v_name : text; v_ms : N; v_queries : N }.
(** Simulation.cpp:60-62 operator< *)
Definition div_lt (a b : div_data) : bool := (v_ms a <? v_ms b)%N.
(** Simulation.cpp:44-49 *)
Fixpoint div_fill (p : printer) (ds : list div_data) : res printer :=
  match ds with
  | [] => Ok p
  | d :: ds' =>
      let* p0 := write_line p 0 (v_name d) in
      let* p1 := write_line p0 1 (commafy (v_ms d)) in
      let* p2 := write_line p1 2 (commafy (v_queries d)) in
      div_fill p2 ds'
  end.
(** Simulation.cpp:40-43 *)
Definition div_printer : printer :=
  let p0 := add_column (new_printer 0) true default_prefix [] in
  let p1 := add_column p0 false (txt " ") (txt "ms") in
  add_column p1 false (txt " ") (txt "eqs").
(** Simulation.cpp:35-51 printData *)
Definition div_print_data (sort : list div_data -> list div_data) (repeats : N) (ds : list div_data) : res text :=
  let* p := div_fill div_printer (sort ds) in
  let* t := print p in
  Ok (txt "*** Simulation outcome for " ++ decimal repeats ++ txt " repeats ***" ++ [newline] ++ t).
(** Simulation.cpp:53-58 SimData::print *)
Definition div_print_one (d : div_data) : text :=
  v_name d ++ txt " " ++ commafy (v_ms d) ++ txt " ms" ++ txt " " ++ commafy (v_queries d) ++ txt " eqs" ++ [newline].
