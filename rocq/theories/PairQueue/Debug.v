(** PairQueue.h compiled with MATHIC_DEBUG, MATHIC_SLOW_DEBUG and DEBUG (the macro of line 546): the model with its assertions.

    As in TourTree/Debug.v a failed assertion counts as [UB].  Here the column at the top is really changed in place before the
    tournament is asked to remove or replace it, and comparing a column whose PairData object is destroyed counts as [UB] too.  Such a
    column has an empty range, or pop has just destroyed it because its index is retired: the range is made empty in the model in this
    case as well.  The PairData objects that the debug code of Column::create makes for itself and destroys again (396-418) are not
    logged in [pq_log]. *)
From Coq Require Import List Arith NArith Bool String.
From Verif.Base Require Import Res Arr.
From Verif.TourTree Require Import Model Debug.
From Verif.Queues Require Import InPlace.
From Verif.PairQueue Require Import Model.
Import ListNotations.
Local Open Scope N_scope.

Section Debug.
  Variable P : Type.
  Variable pdata : N -> N -> P.
  Variable lt : N * N * P -> N * N * P -> bool.
  Variable supportRetirement : bool.
  Notation column := (column P).
  Notation pairqueue := (pairqueue P).

  (** PairQueue.h:495-500 empty *)
  Definition c_empty (c : column) : bool := match c_rows c with [] => true | _ => false end.

  (** PairQueue.h:358-361 compare of the queue of columns, with 281 and 460: rowIndex and pairData of both columns *)
  Definition col_lt_d (a b : column) : res bool :=
    let* _ := check (negb (c_empty a)) in
    let* _ := check (negb (c_empty b)) in
    Ok (col_lt P lt a b).

  (** PairQueue.h:82-86, 117-119 constructPairData and destructPairData with 81, 116 *)
  Definition pair_checked (col row : N) : res unit := check (row <? col).

  (** PairQueue.h:391-420, the debug code of create: 81, 116 and 412-414 *)
  Fixpoint check_descending (col : N) (rows : list N) : res unit :=
    match rows with
    | [] => Ok tt
    | prev :: rows' =>
        match rows' with
        | [] => Ok tt
        | cur :: _ =>
            let* _ := pair_checked col (to_index prev) in
            let* _ := pair_checked col (to_index cur) in
            let* _ := check (negb (lt (col, to_index prev, pdata col (to_index prev)) (col, to_index cur, pdata col (to_index cur)))) in
            let* _ := pair_checked col (to_index prev) in (* 415-416: currentPd, destructed as if it was of the previous row *)
            let* _ := pair_checked col (to_index prev) in
            check_descending col rows'
        end
    end.
  (** PairQueue.h:430-435, 444-449 the loops that store the rows *)
  Fixpoint check_rows (col max : N) (rows : list N) : res unit :=
    match rows with
    | [] => Ok tt
    | r :: rows' =>
        let* _ := check (r <? col) in
        let* _ := check (r <? max) in
        check_rows col max rows'
    end.
  (** PairQueue.h:383-456 Column::create with 81, 431-433, 445-447, 451-452 *)
  Definition c_create_d (col : N) (rows : list N) : res (column * event) :=
    let* _ := check_descending col rows in
    let* _ := check_rows col (if c_big col then index_max else small_max) rows in
    let* (c, e) := c_create P pdata col rows in
    let* _ := check (Nat.eqb (List.length (c_rows c)) (List.length rows)) in
    let* _ := check (Bool.eqb (c_empty c) (Nat.eqb (List.length rows) 0)) in
    let* _ := pair_checked col (to_index (hd 0 rows)) in
    Ok (c, e).

  (** PairQueue.h:635-638 retired with 164, 636; [cnt] is columnCount() *)
  Definition pq_retired_d (cnt : N) (ret : list bool) (i : N) : res bool :=
    let* _ := check (i <? cnt) in pq_retired supportRetirement ret i.

  (** PairQueue.h:468-492 incrementRowIndex, the do-while loops *)
  Fixpoint skip_rows_d (cnt : N) (ret : list bool) (prev : N) (rows : list N) : res (list N * N) :=
    match rows with
    | [] => Ok ([], prev)
    | r :: rows' =>
        let* dead := (if supportRetirement then pq_retired_d cnt ret r else Ok false) in
        if (dead : bool) then skip_rows_d cnt ret r rows' else Ok (rows, prev)
    end.
  (** PairQueue.h:467-492 incrementRowIndex with 116, 469, 489-490: the column afterwards, which may be empty *)
  Definition c_increment_d (cnt : N) (ret : list bool) (c : column) : res (column * event) :=
    match c_rows c with
    | [] => UB
    | r :: rows =>
        let* (rows', prev) := skip_rows_d cnt ret r rows in
        match rows' with
        | [] => let* _ := pair_checked (c_col c) prev in Ok (mk_col (c_col c) [] (c_pd c), EDestruct (c_col c) prev)
        | r' :: _ =>
            let* dead := pq_retired_d cnt ret r' in
            let* _ := check (negb dead) in
            Ok (mk_col (c_col c) rows' (pdata (c_col c) r'), ECompute (c_col c) r')
        end
    end.

  (** PairQueue.h:530-533 empty with 531 *)
  Definition empty_d (q : tourtree column) : res bool :=
    if tt_empty _ q then Ok true else
    let* t := tt_top_d _ q in
    let* _ := check (negb (c_empty t)) in
    Ok false.

  (** PairQueue.h:641-647 topPair with 642, 644, 645 *)
  Definition topPair_d (q : tourtree column) : res (N * N) :=
    let* _ := check (negb (tt_empty _ q)) in
    let* c := tt_top_d _ q in
    let* _ := check (negb (c_empty c)) in
    let* r := c_rowIndex P c in
    Ok (c_col c, r).
  (** PairQueue.h:650-656 topPairData with 281, 651, 653, 654 *)
  Definition topPairData_d (q : tourtree column) : res P :=
    let* _ := check (negb (tt_empty _ q)) in
    let* c := tt_top_d _ q in
    let* _ := check (negb (c_empty c)) in
    Ok (c_pd c).

  (** PairQueue.h:584-602, one round of the do loop of pop.  The column indexes tell columns apart in 585. *)
  Definition pop_round_d (cnt : N) (q : tourtree column) (ret : list bool) (log : list event) (topColumn : column)
    : res (tourtree column * list event) :=
    let* e := empty_d q in
    let* _ := check (negb e) in
    let* t := tt_top_d _ q in
    let* _ := check (c_col t =? c_col topColumn) in
    let* _ := check (negb (c_empty topColumn)) in
    let* dead := (if supportRetirement then pq_retired_d cnt ret (c_col topColumn) else Ok false) in
    if (negb supportRetirement || negb dead)%bool then
      let* (c', e) := c_increment_d cnt ret topColumn in
      let* qc := tt_change q c' in
      if c_empty c' then
        let* (q', _) := tt_pop_d _ col_lt_d qc in Ok (q', e :: log)
      else
        let* d1 := pq_retired_d cnt ret (c_col c') in
        let* _ := check (negb d1) in
        let* r := c_rowIndex P c' in
        let* d2 := pq_retired_d cnt ret r in
        let* _ := check (negb d2) in
        let* q' := tt_decreaseTop_d _ col_lt_d qc c' in Ok (q', e :: log)
    else
      let* r := c_rowIndex P topColumn in
      let* _ := pair_checked (c_col topColumn) r in
      let* qc := tt_change q (mk_col (c_col topColumn) [] (c_pd topColumn)) in
      let* (q', _) := tt_pop_d _ col_lt_d qc in Ok (q', EDestruct (c_col topColumn) r :: log).

  (** PairQueue.h:583-607, the do loop of pop *)
  Fixpoint pop_loop_d (fuel : nat) (cnt : N) (q : tourtree column) (ret : list bool) (log : list event) (topColumn : column)
    : res (tourtree column * list event) :=
    match fuel with
    | O => NoFuel
    | S f =>
        let* (q', log') := pop_round_d cnt q ret log topColumn in
        if (negb supportRetirement || tt_empty _ q')%bool then Ok (q', log') else
        let* topColumn' := tt_top_d _ q' in
        let* d1 := pq_retired_d cnt ret (c_col topColumn') in
        let* again :=
          (if (d1 : bool) then Ok true else let* r := c_rowIndex P topColumn' in pq_retired_d cnt ret r) in
        if (again : bool) then pop_loop_d f cnt q' ret log' topColumn' else Ok (q', log')
    end.

  (** PairQueue.h:608-609 the assertions at the end of pop; [part] takes the first or the second index of the pair *)
  Definition top_not_retired (part : N * N -> N) (cnt : N) (q : tourtree column) (ret : list bool) : res unit :=
    if negb supportRetirement then Ok tt else
    let* e := empty_d q in
    if (e : bool) then Ok tt else
    let* p := topPair_d q in
    let* d := pq_retired_d cnt ret (part p) in
    check (negb d).

  (** PairQueue.h:580-610 pop with 581 *)
  Definition pq_pop_d (s : pairqueue) : res pairqueue :=
    let* e := empty_d (pq_queue s) in
    let* _ := check (negb e) in
    let* topColumn := tt_top_d _ (pq_queue s) in
    let* (q, log) := pop_loop_d (pq_pairCount P s) (pq_count s) (pq_queue s) (pq_ret s) (pq_log s) topColumn in
    let* _ := top_not_retired fst (pq_count s) q (pq_ret s) in
    let* _ := top_not_retired snd (pq_count s) q (pq_ret s) in
    Ok (mk_pq q (pq_count s) (pq_ret s) log).

  (** PairQueue.h:546-551, under DEBUG *)
  Fixpoint check_alive (cnt : N) (ret : list bool) (rows : list N) : res unit :=
    match rows with
    | [] => Ok tt
    | r :: rows' =>
        let* d := pq_retired_d cnt ret r in
        let* _ := check (negb d) in
        check_alive cnt ret rows'
    end.

  (** PairQueue.h:544-577 addColumnDescending *)
  Definition pq_add_d (s : pairqueue) (rows : list N) : res pairqueue :=
    let* _ := (if supportRetirement then check_alive (pq_count s) (pq_ret s) rows else Ok tt) in
    if index_max <=? pq_count s then Throw "Too large column index in PairQueue." else
    let newColumnIndex := to_index (pq_count s) in
    let ret := if supportRetirement then pq_ret s ++ [false] else pq_ret s in
    match rows with
    | [] => Ok (mk_pq (pq_queue s) (pq_count s + 1) ret (pq_log s))
    | _ =>
        let* (c, e) := c_create_d newColumnIndex rows in
        let* q := tt_push_d _ col_lt_d (pq_queue s) c in
        Ok (mk_pq q (pq_count s + 1) ret (e :: pq_log s))
    end.

  (** PairQueue.h:623-632 retireIndex with 159, 184, 624, 625 *)
  Definition pq_retireIndex_d (s : pairqueue) (index : N) : res pairqueue :=
    let* _ := check supportRetirement in
    let* _ := check (index <? pq_count s) in
    let* ret := vset (pq_ret s) (N.to_nat index) true in
    let s' := mk_pq (pq_queue s) (pq_count s) ret (pq_log s) in
    let* e := empty_d (pq_queue s) in
    if (e : bool) then Ok s' else
    let* p := topPair_d (pq_queue s) in
    if ((fst p =? index) || (snd p =? index))%bool then pq_pop_d s' else Ok s'.

  (** PairQueue.h:524-527 the destructor, with ColumnDestructor (340-349) and Column::destruct (290-294): 116 and 460 *)
  Fixpoint destroy_d (l : list column) (log : list event) : res (list event) :=
    match l with
    | [] => Ok log
    | c :: l =>
        match c_rows c with
        | [] => destroy_d l log
        | r :: _ => let* _ := pair_checked (c_col c) r in destroy_d l (EDestruct (c_col c) r :: log)
        end
    end.

  (** One call: PairQueue.h:203-268 *)
  Definition pq_step_d (s : pairqueue) (o : pq_op) : res (pairqueue * pq_out P) :=
    match o with
    | PAdd rows => let* s' := pq_add_d s rows in Ok (s', PNone)
    | PPop => let* p := topPair_d (pq_queue s) in let* s' := pq_pop_d s in Ok (s', PPair p)
    | PTop => let* p := topPair_d (pq_queue s) in let* d := topPairData_d (pq_queue s) in Ok (s, PPairData p d)
    | PRetire i => let* s' := pq_retireIndex_d s i in Ok (s', PNone)
    | PRetired i => let* b := pq_retired_d (pq_count s) (pq_ret s) i in Ok (s, PBool b)
    | PEmpty => let* b := empty_d (pq_queue s) in Ok (s, PBool b)
    | PPairCount => Ok (s, PNat (pq_pairCount P s))
    | PColumnCount => Ok (s, PIndex (pq_count s))
    end.
End Debug.
