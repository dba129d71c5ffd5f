(** Properties of TourTree with its memory (C77), and of copying and moving a TourTree (C78). *)
From Coq Require Import List Arith Bool Lia Permutation.
From Verif.Base Require Import Res Arr Order.
From Verif.Spec Require Import PQ.
From Verif.TourTree Require Import Model Proofs.
From Verif.TourMem Require Import Model Proofs WorldProofs CopyProofs.
Import ListNotations.

(** C77.  A program with any number of tour trees in one memory, made, called and destroyed in any order: every tree is a priority queue of its own ([qtrace]),
    whatever is done with the others.  The only ways to go wrong are a call on a tree that is gone and one that needs an entry on an empty tree. *)
Theorem C77_trees_are_separate : forall (E : Type) (lt : E -> E -> bool), strict_weak lt -> forall ops : list (wop E), forallb plain ops = true ->
  match run (w_step lt) start ops with
  | Ok (_, rs) => exists qs, qtrace lt [] ops rs qs
  | UB => exists pre o post w rs qs, ops = pre ++ o :: post /\ run (w_step lt) start pre = Ok (w, rs) /\ qtrace lt [] pre rs qs /\ misuse qs o
  | _ => False
  end.
Proof.
  intros E lt Hsw ops Hp. pose proof (worlds_run lt Hsw ops start [] (good_start lt) Hp) as H. destruct (run (w_step lt) start ops) as [[w rs]| | |]; auto.
  destruct H as (ts & _ & H). eauto.
Qed.
Print Assumptions C77_trees_are_separate.
(** C77.  Every pointer in a tree points to a living player in the memory of that tree. *)
Theorem C77_pointers : forall (E : Type) (lt : E -> E -> bool), strict_weak lt -> forall ops w rs, forallb plain ops = true -> run (w_step lt) start ops = Ok (w, rs) ->
  forall i s p, nth_error (w_trees w) i = Some (Some s) -> In p (m_tree s) -> fst p = v_block (m_vec s) /\ exists x, load (w_mem w) p = Ok x.
Proof. intros E lt Hsw ops w rs Hp Hr i s p Hs Hi. destruct (reached_good lt Hsw ops w rs Hp Hr) as [ts G]. exact (good_pointers lt w ts i s p G Hs Hi). Qed.
Print Assumptions C77_pointers.
(** C77.  The memory that is allocated is what the living trees own, each piece by one tree. *)
Theorem C77_no_leak : forall (E : Type) (lt : E -> E -> bool), strict_weak lt -> forall ops w rs, forallb plain ops = true -> run (w_step lt) start ops = Ok (w, rs) ->
  Permutation (allocated w) (owned w) /\ NoDup (owned w).
Proof.
  intros E lt Hsw ops w rs Hp Hr. destruct (reached_good lt Hsw ops w rs Hp Hr) as [ts G]. pose proof (good_memory lt w ts G) as H. split; auto.
  eapply Permutation_NoDup; [exact H|]. apply NoDup_filter, seq_NoDup.
Qed.
Print Assumptions C77_no_leak.
(** C77.  When all trees have been destroyed nothing is left allocated. *)
Theorem C77_all_freed : forall (E : Type) (lt : E -> E -> bool), strict_weak lt -> forall ops w rs, forallb plain ops = true -> run (w_step lt) start ops = Ok (w, rs) ->
  (forall i, nth_error (w_trees w) i = None \/ nth_error (w_trees w) i = Some None) -> allocated w = [].
Proof.
  intros E lt Hsw ops w rs Hp Hr Hd. destruct (C77_no_leak E lt Hsw ops w rs Hp Hr) as [H _]. apply Permutation_nil. symmetry.
  replace (owned w) with (@nil nat) in H; auto. symmetry. destruct (owned w) as [|b l] eqn:Eo; auto. exfalso. assert (Hb : In b (owned w)) by (rewrite Eo; now left).
  apply owned_in in Hb as (i & s & Hs & _). destruct (Hd i); congruence.
Qed.
Print Assumptions C77_all_freed.

Lemma ltb_sw : strict_weak Nat.ltb.
Proof.
  split.
  - intros a. apply Nat.ltb_irrefl.
  - intros a b c H1 H2. apply Nat.ltb_lt in H1, H2. apply Nat.ltb_lt. eapply Nat.lt_trans; eauto.
  - intros a b c H1 H2. apply Nat.ltb_ge in H1, H2. apply Nat.ltb_ge. eapply Nat.le_trans; eauto.
Qed.
(** Two trees, one of them grown past its first memory; the other is destroyed in between. *)
Definition two_trees : list (wop nat) :=
  [WNew; WNew; WCall 1 (Push 4); WCall 0 (PushRange [3; 7; 5; 1; 9; 2; 8; 6; 4; 0]); WCall 1 (Push 6); WCall 1 Pop; WCall 0 Pop; WDestroy 1; WCall 0 (DecreaseTop 2);
   WCall 0 Top; WCall 0 Empty; WCall 0 Clear; WDestroy 0].
Example C77_nonvacuous : strict_weak Nat.ltb /\ forallb plain two_trees = true /\
  match run (w_step Nat.ltb) start two_trees with
  | Ok (w, rs) => rs = [ONone; ONone; ONone; ONone; ONone; OEntry 6; OEntry 9; ONone; ONone; OEntry 7; OBool false; ONone; ONone] /\ allocated w = [] /\ length (w_mem w) = 5
  | _ => False
  end.
Proof. split; [exact ltb_sw|vm_compute; auto]. Qed.

(** C78.  A copy of a tour tree answers the calls that only read as the original does. *)
Theorem C78_tourtree_copy_reads_partial : forall (E : Type) (lt : E -> E -> bool), strict_weak lt -> forall ops w rs, forallb plain ops = true -> run (w_step lt) start ops = Ok (w, rs) ->
  forall i o w' r, reads o = true -> w_step lt w (WCall i o) = Ok (w', r) ->
  exists w1 w2, w_step lt w (WCopy i) = Ok (w1, ONone) /\ w_step lt w1 (WCall (length (w_trees w)) o) = Ok (w2, r).
Proof.
  intros E lt Hsw ops w rs Hp Hr i o w' r Ho Hs. destruct (reached_good lt Hsw ops w rs Hp Hr) as [ts G].
  destruct (reached_tree lt Hsw w ts i o w' r G ltac:(now destruct o) Hs) as (t & t' & Ht & He). pose proof (reads_state lt t o t' r Ho He). subst t'.
  exact (copy_reads lt w ts i t o r G Ht Ho He).
Qed.
Print Assumptions C78_tourtree_copy_reads_partial.
(** C78.  Its nodes point to the players of the original: push onto a copy of any tree that is not empty is undefined ... *)
Theorem C78_tourtree_copy_push_refuted : forall (E : Type) (lt : E -> E -> bool), strict_weak lt -> forall ops w rs, forallb plain ops = true -> run (w_step lt) start ops = Ok (w, rs) ->
  forall i w' x, w_step lt w (WCall i Empty) = Ok (w', OBool false) ->
  exists w1, w_step lt w (WCopy i) = Ok (w1, ONone) /\ w_step lt w1 (WCall (length (w_trees w)) (Push x)) = UB.
Proof.
  intros E lt Hsw ops w rs Hp Hr i w' x Hs. destruct (reached_good lt Hsw ops w rs Hp Hr) as [ts G]. destruct (nonempty_tree lt Hsw w ts i w' G Hs) as (t & Ht & Hn).
  exact (copy_push lt w ts i t x G Ht Hn).
Qed.
Print Assumptions C78_tourtree_copy_push_refuted.
(** C78.  ... and when the original is gone so are top, pop and decreaseTop of the copy. *)
Theorem C78_tourtree_copy_dangles_refuted : forall (E : Type) (lt : E -> E -> bool), strict_weak lt -> forall ops w rs, forallb plain ops = true -> run (w_step lt) start ops = Ok (w, rs) ->
  forall i w' o, w_step lt w (WCall i Empty) = Ok (w', OBool false) -> needs_nonempty o = true ->
  exists w1 w2, w_step lt w (WCopy i) = Ok (w1, ONone) /\ w_step lt w1 (WDestroy i) = Ok (w2, ONone) /\ w_step lt w2 (WCall (length (w_trees w)) o) = UB.
Proof.
  intros E lt Hsw ops w rs Hp Hr i w' o Hs Ho. destruct (reached_good lt Hsw ops w rs Hp Hr) as [ts G]. destruct (nonempty_tree lt Hsw w ts i w' G Hs) as (t & Ht & Hn).
  exact (copy_dangles lt w ts i t o G Ht Hn Ho).
Qed.
Print Assumptions C78_tourtree_copy_dangles_refuted.
(** C78.  A call on the copy changes the original: after decreaseTop(1) on a copy of the tree with 2 and 7, top of the original is 1, which is not even an entry of it. *)
Theorem C78_tourtree_copy_independent_refuted : exists w rs,
  run (w_step Nat.ltb) start [WNew; WCall 0 (Push 2); WCall 0 (Push 7); WCopy 0; WCall 0 Top; WCall 1 (DecreaseTop 1); WCall 0 Top] = Ok (w, rs) /\
  nth_error rs 4 = Some (OEntry 7) /\ nth_error rs 6 = Some (OEntry 1).
Proof. eexists. eexists. vm_compute. repeat split. Qed.
Print Assumptions C78_tourtree_copy_independent_refuted.
(** C78.  Moving a tour tree that is not empty makes the new one say that it is empty while its forAll still hands out all entries; the old one says that it is not empty, and
    top, pop and decreaseTop of both are undefined. *)
Theorem C78_tourtree_move_refuted : forall (E : Type) (lt : E -> E -> bool), strict_weak lt -> forall ops w rs, forallb plain ops = true -> run (w_step lt) start ops = Ok (w, rs) ->
  forall i w' w'' xs, w_step lt w (WCall i Empty) = Ok (w', OBool false) -> w_step lt w (WCall i ForAll) = Ok (w'', OList xs) -> exists w1,
  w_step lt w (WMove i) = Ok (w1, ONone) /\
  (exists w2, w_step lt w1 (WCall (length (w_trees w)) Empty) = Ok (w2, OBool true)) /\
  (exists w2, w_step lt w1 (WCall (length (w_trees w)) ForAll) = Ok (w2, OList xs)) /\
  (exists w2, w_step lt w1 (WCall i Empty) = Ok (w2, OBool false)) /\
  (forall o, needs_nonempty o = true -> w_step lt w1 (WCall (length (w_trees w)) o) = UB /\ w_step lt w1 (WCall i o) = UB).
Proof.
  intros E lt Hsw ops w rs Hp Hr i w' w'' xs Hs Hf. destruct (reached_good lt Hsw ops w rs Hp Hr) as [ts G]. destruct (nonempty_tree lt Hsw w ts i w' G Hs) as (t & Ht & Hn).
  destruct (reached_tree lt Hsw w ts i ForAll w'' _ G eq_refl Hf) as (u & u' & Hu & He). rewrite Ht in Hu. injection Hu as <-. injection He as _ <-.
  exact (move_step lt w ts i t G Ht Hn).
Qed.
Print Assumptions C78_tourtree_move_refuted.
Example C78_nonvacuous : exists w w' rs, run (w_step Nat.ltb) start [WNew; WCall 0 (PushRange [2; 7; 5])] = Ok (w, rs) /\
  w_step Nat.ltb w (WCall 0 Empty) = Ok (w', OBool false) /\ w_step Nat.ltb w (WCall 0 ForAll) = Ok (w', OList [2; 7; 5]).
Proof. do 3 eexists. vm_compute. repeat split. Qed.
