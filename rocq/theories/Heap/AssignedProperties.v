(** Property theorems about the number of assignments to entries in Heap (C107). *)
From Coq Require Import List Arith Bool Lia.
From Verif.Base Require Import Res Count.
From Verif.Spec Require Import PQ.
From Verif.Heap Require Import Model Properties Counted CountedProofs CountedProperties Assigned AssignedProofs.
Import ListNotations.

(** C107.  A call that pushes one entry, pops or decreases the top makes at most two assignments more than comparisons; with de-duplication at most two more than twice the
    comparisons.  It does the same as without counting. *)
Theorem C107_assignments_against_comparisons :
  forall (E : Type) (lt eqv : E -> E -> bool) (supportDedup : bool) (dedup : E -> E -> E) t n o t' n' r,
  heap_step_c E lt eqv supportDedup dedup (t, n) o = Ok (t', n', r) ->
  exists a, heap_step_a E lt eqv supportDedup dedup t o = Ok ((t', r), a) /\
    a <= (if supportDedup then 2 else 1) * (n' - n) + 2 * (length (pushed [o]) + removals [o]).
Proof.
  intros * H. destruct (step_assigns lt eqv supportDedup dedup _ _ _ _ _ _ H) as (_ & a & G & B). exists a. split; [exact G|].
  replace (length (pushed [o]) + removals [o]) with (moves o); [exact B|]. destruct o; cbn; rewrite ?app_nil_r; cbn; lia.
Qed.
Print Assumptions C107_assignments_against_comparisons.

(** C107.  push makes at most log2 (size + 1) + 2 assignments and pop at most 2 log2 (size - 1) + 2, without de-duplication. *)
Theorem C107_push_and_pop :
  forall (E : Type) (lt eqv : E -> E -> bool) (dedup : E -> E -> E) t o t' r, heap_step E lt eqv false dedup t o = Ok (t', r) ->
  exists a, heap_step_a E lt eqv false dedup t o = Ok ((t', r), a) /\
    match o with
    | Push _ => a <= Nat.log2 (length t + 1) + 2
    | PushRange _ => True
    | Pop => a <= 2 * Nat.log2 (length t - 1) + 2
    | DecreaseTop _ => True
    | _ => a = 0
    end.
Proof.
  intros * H. pose proof (C50_counting_changes_nothing E lt eqv false dedup [o] t 0) as F. cbn [run] in F. rewrite H in F. cbn [bind] in F.
  destruct (heap_step_c E lt eqv false dedup (t, 0) o) as [[[t1 n1] r1]| | |] eqn:Hc; cbn [bind] in F; try discriminate. cbn in F. injection F as -> ->.
  destruct (C107_assignments_against_comparisons _ _ _ _ _ _ _ _ _ _ _ Hc) as (a & G & B). exists a. split; [exact G|].
  destruct o as [x|xs| | |x| | | |]; cbn in B; auto; try lia.
  - apply C50_push_comparisons in Hc. lia.
  - apply C50_pop_comparisons in Hc. destruct Hc as [_ Hc]. specialize (Hc eq_refl). lia.
  - cbn in Hc. destruct (Arr.vget t 0); cbn [bind] in Hc; try discriminate. assert (n1 = 0) by congruence. lia.
  - cbn in Hc. assert (n1 = 0) by congruence. lia.
  - cbn in Hc. assert (n1 = 0) by congruence. lia.
  - cbn in Hc. assert (n1 = 0) by congruence. lia.
  - cbn in Hc. assert (n1 = 0) by congruence. lia.
Qed.
Print Assumptions C107_push_and_pop.

(** C107.  A history that pushes [p] entries and pops or decreases the top [q] times makes at most (p + 2q) log2 p + 2 (p + q) assignments, and at most 4 (p + q) log2 p +
    2 (p + q) with de-duplication. *)
Theorem C107_history :
  forall (E : Type) (lt eqv : E -> E -> bool) (supportDedup : bool) (dedup : E -> E -> E) ops t rs,
  run (heap_step E lt eqv supportDedup dedup) [] ops = Ok (t, rs) ->
  let p := length (pushed ops) in let q := removals ops in
  exists a, heap_run_a E lt eqv supportDedup dedup [] ops = Ok ((t, rs), a) /\
    a <= (if supportDedup then 4 * (p + q) else p + 2 * q) * Nat.log2 p + 2 * (p + q).
Proof.
  intros * H p q. pose proof (C50_counting_changes_nothing E lt eqv supportDedup dedup ops [] 0) as F. rewrite H in F.
  match type of F with context [run ?s ?x ops] => destruct (run s x ops) as [[[t1 n1] rs1]| | |] eqn:Hc end; cbn [bind] in F; try discriminate. cbn [fst] in F. injection F as -> ->.
  destruct (run_assigns lt eqv supportDedup dedup _ _ _ _ _ _ Hc) as (_ & a & G & B). exists a. split; [exact G|].
  destruct (C50_history_comparisons _ _ _ _ _ _ _ _ _ Hc) as [H1 H2]. fold p in H1, H2. fold q in H1, H2.
  assert (Em : list_sum (map moves ops) = p + q).
  { subst p q. clear. induction ops as [|o ops IH]; [reflexivity|]. change (list_sum (map moves (o :: ops))) with (moves o + list_sum (map moves ops)). rewrite IH. unfold removals.
    destruct o; cbn [moves pushed filter takes_top length]; rewrite ?app_length; lia. }
  rewrite Em in B. destruct supportDedup; [nia|]. specialize (H2 eq_refl). nia.
Qed.
Print Assumptions C107_history.

(** C107 on an example: ascending pushes are moved up to the root, so a push onto 31 entries makes 1 + 5 + 1 assignments; then all is popped; and a heap with de-duplication. *)
Definition assigns {E} lt eqv sd dd (ops : list (op E)) : res nat := let* (_, a) := heap_run_a E lt eqv sd dd [] ops in Ok a.
Example C107_nonvacuous :
  map (assigns Nat.ltb Nat.eqb false (fun a _ => a)) [map Push (seq 0 31); map Push (seq 0 32); map Push (seq 0 31) ++ repeat Pop 31] = [Ok 160; Ok 167; Ok 288] /\
  assigns ex_lt ex_eqv true ex_dedup [PushRange [(9, 1); (5, 1); (7, 1); (3, 1)]; Push (9, 1); Top; DecreaseTop (7, 1)] = Ok 14.
Proof. split; vm_compute; reflexivity. Qed.
