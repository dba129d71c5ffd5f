(** The summary and the list that the pq simulation prints of the generated events, and what they should say. *)
From Coq Require Import List Arith NArith Bool Ascii String.
From Coq Require Import Permutation.
From Verif.Base Require Import Res Text.
From Verif.Spec Require Import PQ.
From Verif.PqSim Require Import Model Calls.
Import ListNotations.
Local Notation length := List.length.
Local Open Scope N_scope.

(** ** The text *)

(** Simulator.cpp:128-140 makeDescription; line 136 prints the number of values pushed *)
Definition description_text (b : builder) (repeats : N) (name : text) : res text :=
  let* (spans, perSpan, live, traffic, percent) := description b in
  Ok (txt "*** Simulation """ ++ name ++ txt """" ++ [newline] ++ txt " " ++
      decimal spans ++ txt " spans" ++ [newline] ++ txt " " ++
      decimal perSpan ++ txt " per span on average" ++ [newline] ++ txt " " ++
      decimal live ++ txt " elements in queue on average" ++ [newline] ++ txt " " ++
      decimal traffic ++ txt " entries popped in total." ++ [newline] ++ txt " " ++
      decimal percent ++ txt "% duplicates" ++ [newline] ++ txt " " ++
      decimal repeats ++ txt " repeats." ++ [newline]).

(** Simulator.cpp:262-273 print of an event.  The popValue of the event of an empty push is never set, and reading it is undefined. *)
Definition print_event (mem : list N) (e : event) : res text :=
  if e_size e =? 0 then
    match e_pop e with
    | Some v => Ok (txt "Pop " ++ decimal v ++ [newline])
    | None => UB
    end
  else
    let* l := span mem (e_begin e) (e_size e) in
    Ok (txt "Insert" ++ flat_map (fun v => txt " " ++ decimal v) l ++ [newline]).
(** Simulator.cpp:258-259 *)
Fixpoint print_events_loop (mem : list N) (evs : list event) : res text :=
  match evs with
  | [] => Ok []
  | e :: evs' => let* t := print_event mem e in let* ts := print_events_loop mem evs' in Ok (t ++ ts)
  end.
(** Simulator.cpp:256-260 printEvents *)
Definition print_events (b : builder) : res text :=
  let* ts := print_events_loop (b_mem b) (b_events b) in
  Ok (txt "*** The " ++ decimal (N.of_nat (length (b_events b))) ++ txt " events are" ++ [newline] ++ ts).

(** ** What they should say.  The rest of this file models no C++ code. *)

Definition largest (l : list N) : N := fold_right N.max 0 l.
Fixpoint take_out (v : N) (l : list N) : list N :=
  match l with [] => [] | x :: l' => if x =? v then l' else x :: take_out v l' end.
(** What is live after a call; a pop takes out the largest value, either all copies of it or one. *)
Definition live_after (all : bool) (live : list N) (c : call) : list N :=
  match c with
  | CPush l => l ++ live
  | CPop => if all then filter (fun z => negb (z =? largest live)) live else take_out (largest live) live
  end.
(** What is live before each call *)
Fixpoint history (all : bool) (live : list N) (cs : list call) : list (list N) :=
  match cs with [] => [] | c :: cs' => live :: history all (live_after all live c) cs' end.
(** What is live in the end *)
Definition left_over (all : bool) (cs : list call) : list N := fold_left (live_after all) cs [].

Definition push_calls (cs : list call) : nat := length (filter (fun c => match c with CPush _ => true | CPop => false end) cs).
Definition pop_calls (cs : list call) : nat := length (filter (fun c => match c with CPush _ => false | CPop => true end) cs).
(** How many of the values [l] are live when they are pushed one after the other *)
Fixpoint again (live l : list N) : nat :=
  match l with [] => O | v :: l' => ((if existsb (N.eqb v) live then 1 else 0) + again (v :: live) l')%nat end.
(** How many values are live already when they are pushed *)
Fixpoint duplicates (all : bool) (live : list N) (cs : list call) : nat :=
  match cs with
  | [] => O
  | c :: cs' => (match c with CPush l => again live l | CPop => O end + duplicates all (live_after all live c) cs')%nat
  end.
(** No value occurs twice in one push. *)
Definition distinct_push (c : call) : Prop := match c with CPush l => NoDup l | CPop => True end.

(** What a line of the list of events tells *)
Inductive told := TPush (l : list N) | TPop (v : N).
Definition line_of (s : told) : text :=
  match s with
  | TPush l => txt "Insert" ++ flat_map (fun v => txt " " ++ decimal v) l
  | TPop v => txt "Pop " ++ decimal v
  end.
(** It tells the values of a push from the largest to the smallest, and what a pop takes out. *)
Inductive tells (all : bool) : list N -> list call -> list told -> Prop :=
| tells_nil live : tells all live [] []
| tells_push live l l' cs ts : Permutation l l' -> non_increasing N.ltb l' = true -> tells all (l ++ live) cs ts ->
    tells all live (CPush l :: cs) (TPush l' :: ts)
| tells_pop live cs ts : live <> [] -> tells all (live_after all live CPop) cs ts -> tells all live (CPop :: cs) (TPop (largest live) :: ts).
