(** The model of src/mathic/PairQueue.h once more, with the calls of the configuration's compare counted.

    Every call of QueueConfiguration::compare (PairQueue.h:358-364) makes one call of Configuration::compare, and only the tournament calls it; so the
    tournament is that of TourTree/Counted.v.  The calls of computePairData are in [pq_log].  [PairQueue/CountedProofs.v] shows that forgetting the counter gives
    the functions of PairQueue/Model.v. *)
From Coq Require Import List Arith NArith Bool String.
From Verif.Base Require Import Res Arr.
From Verif.TourTree Require Import Model Counted.
From Verif.PairQueue Require Import Model.
Import ListNotations.
Local Open Scope N_scope.

Section Counted.
  Variable P : Type.
  Variable pdata : N -> N -> P.
  Variable lt : N * N * P -> N * N * P -> bool.
  Variable sup : bool.
  Notation column := (column P).
  Notation pairqueue := (pairqueue P).
  Notation clt := (col_lt P lt).

  (** PairQueue.h:544-577 addColumnDescending *)
  Definition pq_add_c (s : pairqueue) (rows : list N) (n : nat) : res (pairqueue * nat) :=
    if index_max <=? pq_count s then Throw "Too large column index in PairQueue." else
    let newColumnIndex := to_index (pq_count s) in
    let ret := if sup then pq_ret s ++ [false] else pq_ret s in
    match rows with
    | [] => Ok (mk_pq (pq_queue s) (pq_count s + 1) ret (pq_log s), n)
    | _ =>
        let* (c, e) := c_create P pdata newColumnIndex rows in
        let* (q, n') := tt_push_c _ clt (pq_queue s) c n in
        Ok (mk_pq q (pq_count s + 1) ret (e :: pq_log s), n')
    end.

  (** PairQueue.h:589-602, one round of the do loop of pop *)
  Definition pop_round_c (q : tourtree column) (ret : list bool) (log : list event) (topColumn : column) (n : nat)
    : res (tourtree column * list event * nat) :=
    let* dead := pq_retired sup ret (c_col topColumn) in
    if (negb sup || negb dead)%bool then
      let* (c', e) := c_increment P pdata sup ret topColumn in
      match c' with
      | Some c' => let* (q', n') := tt_decreaseTop_c _ clt q c' n in Ok (q', e :: log, n')
      | None => let* (q', _, n') := tt_pop_c _ clt q n in Ok (q', e :: log, n')
      end
    else
      let* r := c_rowIndex P topColumn in
      let* (q', _, n') := tt_pop_c _ clt q n in Ok (q', EDestruct (c_col topColumn) r :: log, n').

  (** PairQueue.h:583-607, the do loop of pop *)
  Fixpoint pop_loop_c (fuel : nat) (q : tourtree column) (ret : list bool) (log : list event) (topColumn : column) (n : nat)
    : res (tourtree column * list event * nat) :=
    match fuel with
    | O => NoFuel
    | S f =>
        let* (q', log', n') := pop_round_c q ret log topColumn n in
        if (negb sup || tt_empty _ q')%bool then Ok (q', log', n') else
        let* topColumn' := tt_top _ q' in
        let* d1 := pq_retired sup ret (c_col topColumn') in
        let* again :=
          (if (d1 : bool) then Ok true else let* r := c_rowIndex P topColumn' in pq_retired sup ret r) in
        if (again : bool) then pop_loop_c f q' ret log' topColumn' n' else Ok (q', log', n')
    end.

  (** PairQueue.h:580-610 pop *)
  Definition pq_pop_c (s : pairqueue) (n : nat) : res (pairqueue * nat) :=
    let* topColumn := tt_top _ (pq_queue s) in
    let* (q, log, n') := pop_loop_c (pq_pairCount P s) (pq_queue s) (pq_ret s) (pq_log s) topColumn n in
    Ok (mk_pq q (pq_count s) (pq_ret s) log, n').

  (** PairQueue.h:623-632 retireIndex *)
  Definition pq_retireIndex_c (s : pairqueue) (index : N) (n : nat) : res (pairqueue * nat) :=
    let* ret := (if sup then vset (pq_ret s) (N.to_nat index) true else Ok (pq_ret s)) in
    let s' := mk_pq (pq_queue s) (pq_count s) ret (pq_log s) in
    if pq_empty P s' then Ok (s', n) else
    let* p := pq_topPair P s' in
    if ((fst p =? index) || (snd p =? index))%bool then pq_pop_c s' n else Ok (s', n).

  (** One call, PairQueue.h:203-268, with the calls of compare made so far *)
  Definition pq_step_c (sn : pairqueue * nat) (o : pq_op) : res (pairqueue * nat * pq_out P) :=
    let (s, n) := sn in
    match o with
    | PAdd rows => let* (s', n') := pq_add_c s rows n in Ok (s', n', PNone)
    | PPop => let* p := pq_topPair P s in let* (s', n') := pq_pop_c s n in Ok (s', n', PPair p)
    | PRetire i => let* (s', n') := pq_retireIndex_c s i n in Ok (s', n', PNone)
    | PTop | PRetired _ | PEmpty | PPairCount | PColumnCount => let* (s', r) := pq_step P pdata lt sup s o in Ok (s', n, r)
    end.
End Counted.
