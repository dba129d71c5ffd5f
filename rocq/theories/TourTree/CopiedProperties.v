(** Property theorems about the number of entries that TourTree copies (C108). *)
From Coq Require Import List Arith Bool Lia.
From Verif.Base Require Import Res Count.
From Verif.Spec Require Import PQ.
From Verif.TourTree Require Import Model Copied CopiedProofs.
Import ListNotations.

(** C108.  Counting changes nothing. *)
Theorem C108_same : forall (E : Type) (lt : E -> E -> bool) (s : tourtree E) ops, forget (tt_run_k E lt s ops) = run (tt_step E lt) s ops.
Proof. intros. apply tt_run_k_forget. Qed.
Print Assumptions C108_same.

(** C108.  However many entries there are: a push that finds room in the tree copies one entry and any other push at most one more than there are players, pop copies at most
    three, decreaseTop one, and the other calls none. *)
Theorem C108_call :
  forall (E : Type) (lt : E -> E -> bool) (s : tourtree E) o s' r a, tt_step_k E lt s o = Ok ((s', r), a) ->
  match o with
  | Push _ => 1 <= a <= 1 + length (tt_players s) /\ (length (tt_tree s) + 2 <= tt_cap s -> a = 1)
  | PushRange _ => True
  | Pop => a <= 3
  | DecreaseTop _ => a = 1
  | _ => a = 0
  end.
Proof.
  intros * H. destruct o as [x|xs| | |x| | | |]; unfold tt_step_k in H; auto; try (now apply free_ok in H as [_ ->]).
  - apply cbind_ok in H. destruct H as (s1 & c & d & H1 & H2 & ->). injection H2 as _ _ <-. apply push_copies in H1. destruct H1 as [-> _]. unfold moved.
    destruct (Nat.leb_spec 2 (tt_cap s - length (tt_tree s))); [|destruct (_ <? _)]; split; lia.
  - apply cbind_ok in H. destruct H as ((s1 & x) & c & d & H1 & H2 & ->). injection H2 as _ _ <-. apply pop_copies in H1. lia.
  - apply cbind_ok in H. destruct H as (s1 & c & d & H1 & H2 & ->). injection H2 as _ _ <-. apply decreaseTop_copies in H1. lia.
Qed.
Print Assumptions C108_call.

(** C108.  A history from a new tournament tree that pushes [p] entries and takes the top [q] times copies at most 3 p + 3 q entries, so a call copies amortised constantly many. *)
Theorem C108_amortised :
  forall (E : Type) (lt : E -> E -> bool) ops s rs, run (tt_step E lt) (tt_new E) ops = Ok (s, rs) ->
  exists a, tt_run_k E lt (tt_new E) ops = Ok ((s, rs), a) /\ a <= 3 * length (pushed ops) + 3 * removals ops.
Proof.
  intros * H. rewrite <- C108_same in H. destruct (tt_run_k E lt (tt_new E) ops) as [[[s1 rs1] a]| | |] eqn:G; try discriminate H. cbn in H. injection H as -> ->. exists a. split; [reflexivity|].
  destruct (run_paid lt ops _ _ _ _ _ _ paid_new G) as (m & (_ & _ & _ & D & F & _) & L). cbn [Nat.add] in *. lia.
Qed.
Print Assumptions C108_amortised.

(** C108 on an example: eight entries fill the first tree of sixteen nodes but one, so the ninth push moves eight players; popping copies at most three entries each time. *)
Definition copies (ops : list (op nat)) : res nat := let* (_, a) := tt_run_k nat Nat.ltb (tt_new nat) ops in Ok a.
Example C108_nonvacuous :
  map copies [map Push (seq 0 8); map Push (seq 0 9); map Push (seq 0 17); map Push (seq 0 40) ++ repeat Pop 40; [PushRange (rev (seq 0 12)); DecreaseTop 3; Pop; Top; Clear; Push 5]]
  = [Ok 8; Ok 17; Ok 41; Ok 213; Ok 23].
Proof. vm_compute. reflexivity. Qed.
