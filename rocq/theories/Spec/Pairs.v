(** Specification of PairQueue: a multiset of live pairs (column, row), a number of columns and a set of retired indexes. *)
From Coq Require Import List NArith Permutation.
From Verif.Spec Require Import PQ.
From Verif.TourTree Require Import Model.
From Verif.PairQueue Require Import Model.
Import ListNotations.
Local Open Scope N_scope.

Section Spec.
  Context {P : Type}.
  Variable pdata : N -> N -> P.
  Variable lt : N * N * P -> N * N * P -> bool.
  Variable supportRetirement : bool.

  (** The client's order on pairs, each with its pair data. *)
  Definition pair_lt (p q : N * N) : bool :=
    lt (fst p, snd p, pdata (fst p) (snd p)) (fst q, snd q, pdata (fst q) (snd q)).

  Record pstate := mk_ps { live : list (N * N); cols : N; dead : N -> bool }.

  Definition involves (i : N) (p : N * N) : bool := (fst p =? i) || (snd p =? i).

  (** What the documentation asks of the caller (222-226, 246-263). *)
  Definition pallowed (st : pstate) (o : pq_op) : Prop :=
    match o with
    | PAdd rows => (forall r, In r rows -> r < cols st /\ dead st r = false) /\ descending pair_lt (map (pair (cols st)) rows)
    | PPop | PTop => live st <> []
    | PRetire i => i < cols st /\ supportRetirement = true
    | PRetired i => i < cols st
    | _ => True
    end.

  (** [pstep st o r st']: in state [st] the call [o] may answer [r] and leave [st']. *)
  Inductive pstep (st : pstate) : pq_op -> pq_out P -> pstate -> Prop :=
  | p_add rows st' :
      Permutation (live st') (map (pair (cols st)) rows ++ live st) -> cols st' = cols st + 1 -> (forall i, dead st' i = dead st i) ->
      pstep st (PAdd rows) PNone st'
  | p_pop p st' :
      is_max pair_lt p (live st) -> Permutation (live st) (p :: live st') -> cols st' = cols st -> (forall i, dead st' i = dead st i) ->
      pstep st PPop (PPair p) st'
  | p_top p :
      is_max pair_lt p (live st) -> pstep st PTop (PPairData p (pdata (fst p) (snd p))) st
  | p_retire i st' :
      Permutation (live st') (filter (fun p => negb (involves i p)) (live st)) -> cols st' = cols st ->
      (forall j, dead st' j = (j =? i) || dead st j)%bool ->
      pstep st (PRetire i) PNone st'
  | p_retired i : pstep st (PRetired i) (PBool (dead st i)) st
  | p_empty : pstep st PEmpty (PBool (match live st with [] => true | _ => false end)) st
  | p_pairCount n :
      (length (live st) <= n)%nat -> ((forall i, dead st i = false) -> n = length (live st)) ->
      pstep st PPairCount (PNat n) st
  | p_columnCount : pstep st PColumnCount (PIndex (cols st)) st.

  (** The pairs held by the model's columns that do not involve a retired index. *)
  Definition is_dead (s : pairqueue P) (i : N) : bool := (supportRetirement && nth (N.to_nat i) (pq_ret s) false)%bool.
  Definition pq_abs (s : pairqueue P) : pstate :=
    mk_ps
      (filter (fun p => negb (is_dead s (fst p) || is_dead s (snd p)))
         (flat_map (fun c => map (pair (c_col c)) (c_rows c)) (tt_forAll _ (pq_queue s))))
      (pq_count s)
      (is_dead s).

  Inductive ptrace : pstate -> list pq_op -> list (pq_out P) -> pstate -> Prop :=
  | pt_nil st : ptrace st [] [] st
  | pt_snoc st ops rs st1 o r st2 : ptrace st ops rs st1 -> pstep st1 o r st2 -> ptrace st (ops ++ [o]) (rs ++ [r]) st2.
End Spec.
