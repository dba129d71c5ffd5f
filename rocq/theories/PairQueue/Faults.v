(** The model of src/mathic/PairQueue.h once more, for a configuration whose computePairData and compare may throw.

    [pdata c r] is [None] if computePairData(c, r) throws.  [cmp a b] is [None] if compare(a, b) throws.  A [Column*] whose column was
    destructed and whose memory was given back to the arena is [Freed]; using it is [UB].  As in TourTree/Faults.v, [Ok (s, Some e)] is
    the state left behind by an exception.  Allocation failures are in Alloc.v. *)
From Coq Require Import List Arith NArith Bool String.
From Verif.Base Require Import Res Arr.
From Verif.Heap Require Import Model.
From Verif.TourTree Require Import Model Faults.
From Verif.PairQueue Require Import Model.
Import ListNotations.
Local Open Scope N_scope.
Local Notation length := List.length.

Section Faults.
  Variable P : Type.
  Variable pdata : N -> N -> option P.
  Variable cmp : N * N * P -> N * N * P -> option bool.
  Variable supportRetirement : bool.
  Notation column := (column P).

  (** What a Column* in the tournament points to: PairQueue.h:355, 373 *)
  Inductive slot : Type := Live (c : column) | Freed.

  (** PairQueue.h:358-364 compare *)
  Definition slot_lt (a b : slot) : res bool :=
    match a, b with
    | Live c, Live d => match cmp (triple P c) (triple P d) with Some less => Ok less | None => Throw "compare" end
    | _, _ => UB
    end.

  (** PairQueue.h:373-377.  [fq_leaked] is no part of the program: it counts the PairData objects that were constructed (82) and will
      never be destructed because computePairData (83) threw. *)
  Record faultqueue := mk_fq { fq_queue : tourtree slot; fq_count : N; fq_ret : list bool; fq_log : list event; fq_leaked : nat }.
  (** PairQueue.h:516-521 the constructor *)
  Definition fq_new : faultqueue := mk_fq (tt_new slot) 0 [] [] 0.

  (** PairQueue.h:383-456 Column::create on a non-empty range; [None] if constructPairData (453) throws *)
  Definition c_create_f (col : N) (rows : list N) : res (option (column * event)) :=
    match rows with
    | [] => UB
    | r :: _ =>
        let stored := if c_big col then map to_index rows else map to_small rows in
        Ok (match pdata col (to_index r) with
            | Some d => Some (mk_col col stored d, EConstruct col (to_index r))
            | None => None
            end)
    end.

  (** The slot that holds the column just pushed is the one of the last player.  After destruct() and the guard (568-569, 558) it dangles:
      PairQueue.h:565-570. *)
  Definition free_last (q : tourtree slot) : tourtree slot :=
    mk_tt (tt_tree q) (tt_cap q)
      (match rev (tt_players q) with [] => [] | p :: ps => rev (mk_player Freed (leaf p) :: ps) end) (tt_pcap q).

  (** PairQueue.h:544-577 addColumnDescending with both handlers *)
  Definition fq_add (s : faultqueue) (rows : list N) : res (faultqueue * option string) :=
    if index_max <=? fq_count s then Ok (s, Some "Too large column index in PairQueue."%string) else
    let newColumnIndex := to_index (fq_count s) in
    let ret := if supportRetirement then fq_ret s ++ [false] else fq_ret s in
    let count := fq_count s + 1 in
    let undone (ret : list bool) := if supportRetirement then removelast ret else ret in (* 572 undoAdd, 151-154 *)
    match rows with
    | [] => Ok (mk_fq (fq_queue s) count ret (fq_log s) (fq_leaked s), None)
    | r :: _ =>
        let* c := c_create_f newColumnIndex rows in
        match c with
        | None => (* 571-574 *)
            Ok (mk_fq (fq_queue s) (count - 1) (undone ret) (fq_log s) (S (fq_leaked s)), Some "computePairData"%string)
        | Some (c, e) =>
            let* (q, thrown) := tt_push_f slot slot_lt (fq_queue s) (Live c) in
            match thrown with
            | None => Ok (mk_fq q count ret (e :: fq_log s) (fq_leaked s), None)
            | Some x => (* 565-574 *)
                let* row := c_rowIndex P c in
                Ok (mk_fq (free_last q) (count - 1) (undone ret) (EDestruct (c_col c) row :: e :: fq_log s) (fq_leaked s), Some x)
            end
        end
    end.

  (** PairQueue.h:467-492 incrementRowIndex: the new column, [None] if it is empty now, and whether computePairData (491) threw; then the
      column has its new row and its old PairData *)
  Definition c_increment_f (ret : list bool) (c : column) : res (option column * list event * bool) :=
    match c_rows c with
    | [] => UB
    | r :: rows =>
        let* (rows', prev) := skip_rows supportRetirement ret r rows in
        match rows' with
        | [] => Ok (None, [EDestruct (c_col c) prev], false)
        | r' :: _ =>
            match pdata (c_col c) r' with
            | Some d => Ok (Some (mk_col (c_col c) rows' d), [ECompute (c_col c) r'], false)
            | None => Ok (Some (mk_col (c_col c) rows' (c_pd c)), [], true)
            end
        end
    end.

  (** The top column changed in place, PairQueue.h:591-593 *)
  Definition set_top (q : tourtree slot) (c : column) : res (tourtree slot) :=
    let* root := tget (tt_tree q) 1 in
    let* ps := set_entry slot (tt_players q) root (Live c) in
    Ok (mk_tt (tt_tree q) (tt_cap q) ps (tt_pcap q)).

  (** Following a Column*: PairQueue.h:583, 604 *)
  Definition live (x : slot) : res column := match x with Live c => Ok c | Freed => UB end.
  (** PairQueue.h:583, 604, 643, 652: top() of the tournament *)
  Definition fq_topColumn (q : tourtree slot) : res column := let* x := tt_top _ q in live x.

  (** PairQueue.h:589-602, one round of the do loop of pop *)
  Definition pop_round_f (q : tourtree slot) (ret : list bool) (log : list event) (topColumn : column)
    : res (tourtree slot * list event * option string) :=
    let* dead := pq_retired supportRetirement ret (c_col topColumn) in
    if (negb supportRetirement || negb dead)%bool then
      let* (c', e, threw) := c_increment_f ret topColumn in
      match c' with
      | Some c' =>
          if (threw : bool) then let* q' := set_top q c' in Ok (q', e ++ log, Some "computePairData"%string) else
          let* (q', x) := tt_decreaseTop_f slot slot_lt q (Live c') in Ok (q', e ++ log, x)
      | None => let* (q', _, x) := tt_pop_f slot slot_lt q in Ok (q', e ++ log, x)
      end
    else
      let* r := c_rowIndex P topColumn in
      let* (q', _, x) := tt_pop_f slot slot_lt q in Ok (q', EDestruct (c_col topColumn) r :: log, x).

  (** PairQueue.h:583-607, the do loop of pop *)
  Fixpoint pop_loop_f (fuel : nat) (q : tourtree slot) (ret : list bool) (log : list event) (topColumn : column)
    : res (tourtree slot * list event * option string) :=
    match fuel with
    | O => NoFuel
    | S f =>
        let* (q', log', x) := pop_round_f q ret log topColumn in
        match x with
        | Some _ => Ok (q', log', x)
        | None =>
            if (negb supportRetirement || tt_empty _ q')%bool then Ok (q', log', None) else
            let* topColumn' := fq_topColumn q' in
            let* d1 := pq_retired supportRetirement ret (c_col topColumn') in
            let* again :=
              (if (d1 : bool) then Ok true else let* r := c_rowIndex P topColumn' in pq_retired supportRetirement ret r) in
            if (again : bool) then pop_loop_f f q' ret log' topColumn' else Ok (q', log', None)
        end
    end.

  (** PairQueue.h:536-540 pairCount with ColumnSizeSummer (328-338); a dangling pointer is undefined *)
  Fixpoint sum_sizes (l : list slot) : res nat :=
    match l with
    | [] => Ok 0%nat
    | x :: l' => let* c := live x in let* n := sum_sizes l' in Ok (length (c_rows c) + n)%nat
    end.
  (** PairQueue.h:536-540 pairCount *)
  Definition fq_pairCount (s : faultqueue) : res nat := sum_sizes (tt_forAll _ (fq_queue s)).

  (** Fuel for pop: each round removes at least one pair.  No C++ counterpart (PairQueue.h:580-610). *)
  Definition size_bound (l : list slot) : nat :=
    fold_right (fun x n => match x with Live c => (length (c_rows c) + n)%nat | Freed => n end) 0%nat l.

  (** PairQueue.h:580-610 pop *)
  Definition fq_pop (s : faultqueue) : res (faultqueue * option string) :=
    let* topColumn := fq_topColumn (fq_queue s) in
    let* (q, log, x) := pop_loop_f (size_bound (tt_forAll _ (fq_queue s))) (fq_queue s) (fq_ret s) (fq_log s) topColumn in
    Ok (mk_fq q (fq_count s) (fq_ret s) log (fq_leaked s), x).

  (** PairQueue.h:641-647 topPair *)
  Definition fq_topPair (s : faultqueue) : res (N * N) :=
    let* c := fq_topColumn (fq_queue s) in
    let* r := c_rowIndex P c in
    Ok (c_col c, r).
  (** PairQueue.h:649-656 topPairData *)
  Definition fq_topPairData (s : faultqueue) : res P :=
    let* c := fq_topColumn (fq_queue s) in Ok (c_pd c).

  (** PairQueue.h:623-632 retireIndex *)
  Definition fq_retireIndex (s : faultqueue) (index : N) : res (faultqueue * option string) :=
    let* ret := (if supportRetirement then vset (fq_ret s) (N.to_nat index) true else Ok (fq_ret s)) in
    let s' := mk_fq (fq_queue s) (fq_count s) ret (fq_log s) (fq_leaked s) in
    if tt_empty _ (fq_queue s') then Ok (s', None) else
    let* p := fq_topPair s' in
    if ((fst p =? index) || (snd p =? index))%bool then fq_pop s' else Ok (s', None).

  (** PairQueue.h:524-527 the destructor *)
  Fixpoint destruct_all (log : list event) (l : list slot) : res (list event) :=
    match l with
    | [] => Ok log
    | x :: l' =>
        let* c := live x in
        destruct_all (match c_rows c with [] => log | r :: _ => EDestruct (c_col c) r :: log end) l'
    end.
  (** PairQueue.h:524-527 the destructor *)
  Definition fq_destroy (s : faultqueue) : res (list event) := destruct_all (fq_log s) (tt_forAll _ (fq_queue s)).

  (** One call: PairQueue.h:203-268.  The answer is [None] if the call threw; the caller catches the exception and goes on. *)
  Definition fq_step (s : faultqueue) (o : pq_op) : res (faultqueue * option (pq_out P)) :=
    let answer (r : pq_out P) (sx : faultqueue * option string) :=
      (fst sx, match snd sx with None => Some r | Some _ => None end) in
    match o with
    | PAdd rows => let* sx := fq_add s rows in Ok (answer PNone sx)
    | PPop => let* p := fq_topPair s in let* sx := fq_pop s in Ok (answer (PPair p) sx)
    | PTop => let* p := fq_topPair s in let* d := fq_topPairData s in Ok (s, Some (PPairData p d))
    | PRetire i => let* sx := fq_retireIndex s i in Ok (answer PNone sx)
    | PRetired i => let* b := pq_retired supportRetirement (fq_ret s) i in Ok (s, Some (PBool b))
    | PEmpty => Ok (s, Some (PBool (tt_empty _ (fq_queue s))))
    | PPairCount => let* n := fq_pairCount s in Ok (s, Some (PNat n))
    | PColumnCount => Ok (s, Some (PIndex (fq_count s)))
    end.
End Faults.
Arguments Live {P}. Arguments Freed {P}.
Arguments mk_fq {P}. Arguments fq_queue {P}. Arguments fq_count {P}. Arguments fq_ret {P}. Arguments fq_log {P}. Arguments fq_leaked {P}.
