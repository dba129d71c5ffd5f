(** Model of src/mathic/PairQueue.h on top of the model of TourTree.

    A [Column*] in the tournament is held by exactly one player, so it is modelled by the column itself.  pop changes the top column in
    place and then calls decreaseTop or pop of the tournament, neither of which compares the old top entry: that is decreaseTop of the
    changed column.  The configuration's computePairData is a function of the pair; failed allocations are
    modelled in Alloc.v, exceptions thrown by the configuration in Faults.v and the code under MATHIC_DEBUG (391-420, 547-551) in Debug.v.

    [pq_log] is not part of the program: it records, latest first, the calls made on PairData objects. *)
From Coq Require Import List Arith NArith Bool String.
From Verif.Base Require Import Res Arr.
From Verif.TourTree Require Import Model.
Import ListNotations.
Local Open Scope N_scope.

(** Calls on PairData objects: constructPairData (87-91), computePairData (491), destructPairData (121-125), with the pair passed. *)
Inductive event : Type := EConstruct (c r : N) | ECompute (c r : N) | EDestruct (c r : N).

(** PairQueue.h:58 Index, 271 SmallIndex: the casts to unsigned int and unsigned short *)
Definition index_max : N := 4294967295.
(** PairQueue.h:271, 513: the greatest unsigned short, of 16 bits *)
Definition small_max : N := 65535.
(** PairQueue.h:434, 554: conversion to Index *)
Definition to_index (n : N) : N := n mod (index_max + 1).
(** PairQueue.h:448: conversion to SmallIndex *)
Definition to_small (n : N) : N := n mod (small_max + 1).

Section PairQueue.
  Variable P : Type.
  (** computePairData(col, row) *)
  Variable pdata : N -> N -> P.
  (** [lt a b] is cmpLessThan(compare(a, b)) on triples (col, row, pd) *)
  Variable lt : N * N * P -> N * N * P -> bool.
  (** PairQueue.h:133-136 SupportRetirement<Configuration>::value *)
  Variable supportRetirement : bool.

  (** PairQueue.h:275-326 Column; [c_rows] is the range [begin, end) of row indexes *)
  Record column := mk_col { c_col : N; c_rows : list N; c_pd : P }.

  (** PairQueue.h:511-514 big *)
  Definition c_big (col : N) : bool := small_max <=? col.

  (** PairQueue.h:459-465 rowIndex; reading past the end is undefined *)
  Definition c_rowIndex (c : column) : res N := match c_rows c with [] => UB | r :: _ => Ok r end.

  (** PairQueue.h:358-364 compare and cmpLessThan of QueueConfiguration.  The default 0 for an empty range is never used, see
      [C14_columns_nonempty]. *)
  Definition triple (c : column) : N * N * P := (c_col c, hd 0 (c_rows c), c_pd c).
  (** PairQueue.h:358-364 compare and cmpLessThan of the queue of columns *)
  Definition col_lt (a b : column) : bool := lt (triple a) (triple b).

  (** PairQueue.h:383-456 Column::create on a non-empty range; 453 reads *rowsBegin *)
  Definition c_create (col : N) (rows : list N) : res (column * event) :=
    match rows with
    | [] => UB
    | r :: _ =>
        let stored := if c_big col then map to_index rows else map to_small rows in
        Ok (mk_col col stored (pdata col (to_index r)), EConstruct col (to_index r))
    end.

  (** PairQueue.h:373-377.  [pq_ret] is mRetired (174). *)
  Record pairqueue := mk_pq { pq_queue : tourtree column; pq_count : N; pq_ret : list bool; pq_log : list event }.
  (** PairQueue.h:516-521 the constructor *)
  Definition pq_new : pairqueue := mk_pq (tt_new column) 0 [] [].

  (** PairQueue.h:163-169, 187-189 and 635-638 retired *)
  Definition pq_retired (ret : list bool) (i : N) : res bool :=
    if supportRetirement then vget ret (N.to_nat i) else Ok false.

  (** PairQueue.h:468-492 incrementRowIndex, the do-while loop: [rows] are the rows after ++begin, [prev] is *(begin - 1).
      Returns the rows left and *(begin - 1). *)
  Fixpoint skip_rows (ret : list bool) (prev : N) (rows : list N) : res (list N * N) :=
    match rows with
    | [] => Ok ([], prev)
    | r :: rows' =>
        let* dead := (if supportRetirement then pq_retired ret r else Ok false) in
        if (dead : bool) then skip_rows ret r rows' else Ok (rows, prev)
    end.
  (** The column after incrementRowIndex, [None] if it is empty now, and the call made on its PairData (PairQueue.h:467-492) *)
  Definition c_increment (ret : list bool) (c : column) : res (option column * event) :=
    match c_rows c with
    | [] => UB
    | r :: rows =>
        let* (rows', prev) := skip_rows ret r rows in
        match rows' with
        | [] => Ok (None, EDestruct (c_col c) prev)
        | r' :: _ => Ok (Some (mk_col (c_col c) rows' (pdata (c_col c) r')), ECompute (c_col c) r')
        end
    end.

  (** PairQueue.h:530-533 empty *)
  Definition pq_empty (s : pairqueue) : bool := tt_empty _ (pq_queue s).

  (** PairQueue.h:536-540 pairCount with ColumnSizeSummer (328-338) *)
  Definition pq_pairCount (s : pairqueue) : nat :=
    fold_left (fun sum c => (sum + List.length (c_rows c))%nat) (tt_forAll _ (pq_queue s)) 0%nat.

  (** PairQueue.h:544-577 addColumnDescending *)
  Definition pq_add (s : pairqueue) (rows : list N) : res pairqueue :=
    if index_max <=? pq_count s then Throw "Too large column index in PairQueue." else
    let newColumnIndex := to_index (pq_count s) in
    let ret := if supportRetirement then pq_ret s ++ [false] else pq_ret s in
    match rows with
    | [] => Ok (mk_pq (pq_queue s) (pq_count s + 1) ret (pq_log s))
    | _ =>
        let* (c, e) := c_create newColumnIndex rows in
        let* q := tt_push _ col_lt (pq_queue s) c in
        Ok (mk_pq q (pq_count s + 1) ret (e :: pq_log s))
    end.

  (** PairQueue.h:589-602, one round of the do loop of pop *)
  Definition pop_round (q : tourtree column) (ret : list bool) (log : list event) (topColumn : column)
    : res (tourtree column * list event) :=
    let* dead := pq_retired ret (c_col topColumn) in
    if (negb supportRetirement || negb dead)%bool then
      let* (c', e) := c_increment ret topColumn in
      match c' with
      | Some c' => let* q' := tt_decreaseTop _ col_lt q c' in Ok (q', e :: log)
      | None => let* (q', _) := tt_pop _ col_lt q in Ok (q', e :: log) (* 600: the column is empty, nothing to destruct *)
      end
    else
      let* r := c_rowIndex topColumn in (* 290-294 destruct *)
      let* (q', _) := tt_pop _ col_lt q in Ok (q', EDestruct (c_col topColumn) r :: log).

  (** PairQueue.h:583-607, the do loop of pop *)
  Fixpoint pop_loop (fuel : nat) (q : tourtree column) (ret : list bool) (log : list event) (topColumn : column)
    : res (tourtree column * list event) :=
    match fuel with
    | O => NoFuel
    | S f =>
        let* (q', log') := pop_round q ret log topColumn in
        if (negb supportRetirement || tt_empty _ q')%bool then Ok (q', log') else
        let* topColumn' := tt_top _ q' in
        let* d1 := pq_retired ret (c_col topColumn') in
        let* again :=
          (if (d1 : bool) then Ok true else let* r := c_rowIndex topColumn' in pq_retired ret r) in
        if (again : bool) then pop_loop f q' ret log' topColumn' else Ok (q', log')
    end.

  (** PairQueue.h:580-610 pop; each round removes at least one pair *)
  Definition pq_pop (s : pairqueue) : res pairqueue :=
    let* topColumn := tt_top _ (pq_queue s) in
    let* (q, log) := pop_loop (pq_pairCount s) (pq_queue s) (pq_ret s) (pq_log s) topColumn in
    Ok (mk_pq q (pq_count s) (pq_ret s) log).

  (** PairQueue.h:641-647 topPair, 650-656 topPairData *)
  Definition pq_topPair (s : pairqueue) : res (N * N) :=
    let* c := tt_top _ (pq_queue s) in
    let* r := c_rowIndex c in
    Ok (c_col c, r).
  (** PairQueue.h:649-656 topPairData *)
  Definition pq_topPairData (s : pairqueue) : res P :=
    let* c := tt_top _ (pq_queue s) in Ok (c_pd c).

  (** PairQueue.h:623-632 retireIndex with 158-161, 183-185 *)
  Definition pq_retireIndex (s : pairqueue) (index : N) : res pairqueue :=
    let* ret := (if supportRetirement then vset (pq_ret s) (N.to_nat index) true else Ok (pq_ret s)) in
    let s' := mk_pq (pq_queue s) (pq_count s) ret (pq_log s) in
    if pq_empty s' then Ok s' else
    let* p := pq_topPair s' in
    if ((fst p =? index) || (snd p =? index))%bool then pq_pop s' else Ok s'.

  (** PairQueue.h:524-527 the destructor, with ColumnDestructor (340-349) and Column::destruct (290-294) *)
  Definition pq_destroy (s : pairqueue) : list event :=
    fold_left (fun log c => match c_rows c with [] => log | r :: _ => EDestruct (c_col c) r :: log end)
      (tt_forAll _ (pq_queue s)) (pq_log s).

  (** The calls on a queue, for histories: PairQueue.h:203-268 *)
  Inductive pq_op : Type :=
  | PAdd (rows : list N)  (* addColumnDescending *)
  | PPop                  (* p = topPair(); pop(); the answer is p *)
  | PTop                  (* topPair(); the answer is also topPairData() *)
  | PRetire (i : N)       (* retireIndex(i) *)
  | PRetired (i : N)      (* retired(i) *)
  | PEmpty | PPairCount | PColumnCount.
  (** What the calls return: PairQueue.h:203-268 *)
  Inductive pq_out : Type :=
  | PNone | PPair (p : N * N) | PPairData (p : N * N) (d : P) | PBool (b : bool) | PNat (n : nat) | PIndex (n : N).

  (** One call: PairQueue.h:203-268 *)
  Definition pq_step (s : pairqueue) (o : pq_op) : res (pairqueue * pq_out) :=
    match o with
    | PAdd rows => let* s' := pq_add s rows in Ok (s', PNone)
    | PPop => let* p := pq_topPair s in let* s' := pq_pop s in Ok (s', PPair p)
    | PTop => let* p := pq_topPair s in let* d := pq_topPairData s in Ok (s, PPairData p d)
    | PRetire i => let* s' := pq_retireIndex s i in Ok (s', PNone)
    | PRetired i => let* b := pq_retired (pq_ret s) i in Ok (s, PBool b)
    | PEmpty => Ok (s, PBool (pq_empty s))
    | PPairCount => Ok (s, PNat (pq_pairCount s))
    | PColumnCount => Ok (s, PIndex (pq_count s))
    end.
End PairQueue.
Arguments mk_col {P}. Arguments c_col {P}. Arguments c_rows {P}. Arguments c_pd {P}.
Arguments mk_pq {P}. Arguments pq_queue {P}. Arguments pq_count {P}. Arguments pq_ret {P}. Arguments pq_log {P}.
Arguments PNone {P}. Arguments PPair {P}. Arguments PPairData {P}. Arguments PBool {P}. Arguments PNat {P}. Arguments PIndex {P}.
