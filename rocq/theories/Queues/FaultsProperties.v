(** Property theorems about client functions that throw (C74).

    In the functions with a budget ([heap_step_x] and so on) the first [b] calls of client functions return and the next one throws; [Left s] is
    the container that the exception leaves behind (Base/Fault.v). *)
From Coq Require Import List Arith Bool NArith String Permutation.
From Verif.Base Require Import Res Order Fault.
From Verif.Spec Require Import PQ HMap.
From Verif.Heap Require Import Model Proofs Faults FaultsProofs.
From Verif.TourTree Require Import Model Budget BudgetProofs.
From Verif.Geobucket Require Import Model Faults FaultsProofs.
From Verif.HashTable Require Import Model Debug Faults FaultsProofs.
Import ListNotations.
Local Notation length := List.length.

(** ** Heap *)

(** On every Heap, whatever calls and exceptions made it, every call ends.  If no client function throws, it returns what the Heap without
    exceptions returns. *)
Theorem C74_heap_normal : forall (E : Type) (lt eqv : E -> E -> bool) (on : bool) (dedup : E -> E -> E) b t o, t <> [] \/ needs_nonempty o = false ->
  match heap_step_x E lt eqv on dedup b t o with
  | Ok (Fine _ r) => heap_step E lt eqv on dedup t o = Ok r
  | Ok (Left _) => True
  | _ => False
  end.
Proof.
  exact (fun E lt eqv on dedup b t o H => match heap_step_x E lt eqv on dedup b t o as x return faulty x _ _ -> match x with Ok (Fine _ r) => _ = Ok r | Ok (Left _) => True | _ => False end
    with Ok (Fine _ r) => fun h => h | Ok (Left _) => fun _ => I | _ => fun h => h end (heap_step_x_any lt eqv on dedup b t o H)).
Qed.
Print Assumptions C74_heap_normal.

(** If a client function throws in push(x), the Heap holds one entry more than before, as after a normal push, and all the entries it held; but the
    additional one may be a second copy of one of those instead of x. *)
Theorem C74_heap_push : forall (E : Type) (lt eqv : E -> E -> bool) (dedup : E -> E -> E) b t x t',
  heap_push_x E lt eqv false dedup b t x = Ok (Left t') -> exists y, In y (x :: t) /\ Permutation t' (y :: t).
Proof.
  intros E lt eqv dedup b t x t' H. pose proof (heap_push_x_any lt eqv false dedup b t x) as F. rewrite H in F. exact (proj2 F eq_refl).
Qed.
Print Assumptions C74_heap_push.

(** In pop() and decreaseTop(x): the entries are those of the normal call, except that one of them (the last one of the array, or x) is
    replaced by a second copy of an entry, or by the entry that was to be removed. *)
Theorem C74_heap_pop : forall (E : Type) (lt eqv : E -> E -> bool) (dedup : E -> E -> E) b top t t',
  heap_pop_x E lt eqv false dedup b (top :: t) = Ok (Left t') ->
  exists w R y, Permutation t (w :: R) /\ In y (top :: t) /\ Permutation t' (y :: R).
Proof.
  intros E lt eqv dedup b top t t' H. pose proof (heap_pop_x_any lt eqv false dedup b (top :: t) top eq_refl) as F. rewrite H in F.
  destruct F as (w & R & Hp & _ & Hy). destruct (Hy eq_refl) as (y & Hi & Hq). exists w, R, y. split; auto. now apply Permutation_cons_inv with top.
Qed.
Print Assumptions C74_heap_pop.
Theorem C74_heap_decreaseTop : forall (E : Type) (lt eqv : E -> E -> bool) (dedup : E -> E -> E) b top t x t',
  heap_decreaseTop_x E lt eqv false dedup b (top :: t) x = Ok (Left t') -> exists y, In y (top :: t) /\ Permutation t' (y :: t).
Proof.
  intros E lt eqv dedup b top t x t' H. pose proof (heap_decreaseTop_x_any lt eqv false dedup b (top :: t) top t x eq_refl (Permutation_refl _)) as F.
  rewrite H in F. exact (proj2 F eq_refl).
Qed.
Print Assumptions C74_heap_decreaseTop.

(** With de-duplication: the entries that the call works on are merged as far as deduplicate was called, and one is replaced by some [y]. *)
Theorem C74_heap_dedup : forall (E : Type) (lt eqv : E -> E -> bool) (on : bool) (dedup : E -> E -> E) b t o t',
  t <> [] \/ needs_nonempty o = false -> heap_step_x E lt eqv on dedup b t o = Ok (Left t') ->
  let left_of l t' := exists v R y, merges (dedup_dd on eqv dedup) l (v :: R) /\ Permutation t' (y :: R) in
  match o with
  | Push x => left_of (x :: t) t'
  | PushRange xs => exists ys x zs m, xs = ys ++ x :: zs /\ merges (dedup_dd on eqv dedup) (ys ++ t) m /\ left_of (x :: m) t'
  | Pop => exists top R, hd_error t = Some top /\ Permutation t (top :: R) /\ left_of R t'
  | DecreaseTop x => exists top R, hd_error t = Some top /\ Permutation t (top :: R) /\ left_of (x :: R) t'
  | _ => False
  end.
Proof.
  intros E lt eqv on dedup b t o t' Hne H. pose proof (heap_step_x_any lt eqv on dedup b t o Hne) as F. rewrite H in F. destruct o; exact F || (destruct t; exact F).
Qed.
Print Assumptions C74_heap_dedup.

(** No entry is larger than the one at its parent's place; places start at 0 *)
Definition heap_ordered {E : Type} (lt : E -> E -> bool) (t : list E) : Prop :=
  forall i parent x, 1 <= i -> nth_error t ((i - 1) / 2) = Some parent -> nth_error t i = Some x -> lt parent x = false.
(** The heap order is kept by exceptions in pop() and decreaseTop(), and in push() except by one thrown by its first comparison. *)
Theorem C74_heap_order : forall (E : Type) (lt eqv : E -> E -> bool) (dedup : E -> E -> E), strict_weak lt -> forall b t, heap_ordered lt t ->
  (forall t', heap_pop_x E lt eqv false dedup b t = Ok (Left t') -> heap_ordered lt t') /\
  (forall x t', t <> [] -> heap_decreaseTop_x E lt eqv false dedup b t x = Ok (Left t') -> heap_ordered lt t') /\
  (forall x t', heap_push_x E lt eqv false dedup b t x = Ok (Left t') -> t' = t ++ [x] \/ heap_ordered lt t').
Proof.
  intros E lt eqv dedup Hsw b t Hv. apply (valid_ordered lt t) in Hv. split; [|split].
  - intros t' H. pose proof (heap_pop_x_valid lt eqv dedup Hsw b t Hv) as F. rewrite H in F. exact (proj1 (valid_ordered lt t') F).
  - intros x t' Hne H. pose proof (heap_down_up_valid lt eqv dedup Hsw b t x Hv Hne) as F. rewrite H in F. exact (proj1 (valid_ordered lt t') F).
  - intros x t' H. pose proof (heap_push_x_valid lt eqv dedup Hsw b t x Hv) as F. rewrite H in F. destruct F as [F|F]; [now left|]. right. exact (proj1 (valid_ordered lt t') F).
Qed.
Print Assumptions C74_heap_order.

Definition hx := [9; 7; 8; 3; 5; 1; 2].
Example C74_heap_example :
  heap_ordered Nat.ltb hx /\
  heap_push_x nat Nat.ltb Nat.eqb false (fun a _ => a) 0 hx 6 = Ok (Left [9; 7; 8; 3; 5; 1; 2; 6]) /\
  heap_push_x nat Nat.ltb Nat.eqb false (fun a _ => a) 1 hx 10 = Ok (Left [9; 7; 8; 3; 5; 1; 2; 3]) /\
  heap_push_x nat Nat.ltb Nat.eqb false (fun a _ => a) 2 hx 10 = Ok (Left [9; 7; 8; 7; 5; 1; 2; 3]) /\
  heap_push_x nat Nat.ltb Nat.eqb false (fun a _ => a) 3 hx 10 = Ok (Fine 0 [10; 9; 8; 7; 5; 1; 2; 3]) /\
  heap_pop_x nat Nat.ltb Nat.eqb false (fun a _ => a) 0 hx = Ok (Left [9; 7; 8; 3; 5; 1]) /\
  heap_pop_x nat Nat.ltb Nat.eqb false (fun a _ => a) 1 hx = Ok (Left [8; 7; 1; 3; 5; 1]) /\
  heap_decreaseTop_x nat Nat.ltb Nat.eqb false (fun a _ => a) 1 hx 4 = Ok (Left [8; 7; 8; 3; 5; 1; 2]).
Proof.
  split; [|repeat split]. intros i u x Hi. do 8 (destruct i as [|i]; [cbn; inversion Hi; intros; try discriminate; repeat match goal with h : Some _ = Some _ |- _ => injection h as <- end; reflexivity|]).
  intros _ H. now destruct i.
Qed.

(** An exception does have an effect: pop() that throws has lost the entry 2 and has not removed the entry 9. *)
Theorem C74_heap_strong_guarantee_refuted : exists b t', heap_pop_x nat Nat.ltb Nat.eqb false (fun a _ => a) b hx = Ok (Left t') /\ ~ In 2 t' /\ In 9 t'.
Proof. exists 0, [9; 7; 8; 3; 5; 1]. split; [reflexivity|]. cbn. intuition discriminate. Qed.
Print Assumptions C74_heap_strong_guarantee_refuted.
(** After the first comparison of push(10) has thrown, top() is not the largest entry. *)
Theorem C74_heap_push_order_refuted : exists t', heap_push_x nat Nat.ltb Nat.eqb false (fun a _ => a) 0 hx 10 = Ok (Left t') /\
  heap_top nat t' = Ok 9 /\ In 10 t'.
Proof. exists (hx ++ [10]). split; [reflexivity|]. cbn. intuition. Qed.
Print Assumptions C74_heap_push_order_refuted.

(** ** TourTree *)

(** If compare does not throw, the calls return what they return without exceptions. *)
Theorem C74_tourtree_normal : forall (E : Type) (lt : E -> E -> bool) b s b',
  (forall x s', tt_push_x E lt b s x = Ok (Fine b' s') -> tt_push E lt s x = Ok s') /\
  (forall x s', tt_decreaseTop_x E lt b s x = Ok (Fine b' s') -> tt_decreaseTop E lt s x = Ok s') /\
  (forall r, tt_pop_x E lt b s = Ok (Fine b' r) -> tt_pop E lt s = Ok r).
Proof.
  intros E lt b s b'. split; [|split].
  - intros x s' H. pose proof (tt_push_x_follows lt b s x) as F. now rewrite H in F.
  - intros x s' H. pose proof (tt_decreaseTop_x_follows lt b s x) as F. now rewrite H in F.
  - intros r H. pose proof (tt_pop_x_follows lt b s) as F. now rewrite H in F.
Qed.
Print Assumptions C74_tourtree_normal.
(** If it throws, forAll still meets the same entries in the same order as after the normal call. *)
Theorem C74_tourtree_players : forall (E : Type) (lt : E -> E -> bool) b s s' s'',
  (forall x, tt_push_x E lt b s x = Ok (Left s') -> tt_push E lt s x = Ok s'' -> tt_forAll E s' = tt_forAll E s'') /\
  (forall x, tt_decreaseTop_x E lt b s x = Ok (Left s') -> tt_decreaseTop E lt s x = Ok s'' -> tt_forAll E s' = tt_forAll E s'') /\
  (forall top, tt_pop_x E lt b s = Ok (Left s') -> tt_pop E lt s = Ok (s'', top) -> tt_forAll E s' = tt_forAll E s'').
Proof.
  intros E lt b s s' s''. unfold tt_forAll. split; [|split].
  - intros x H H'. pose proof (tt_push_x_follows lt b s x) as F. rewrite H in F. now destruct (F _ H') as [-> _].
  - intros x H H'. pose proof (tt_decreaseTop_x_follows lt b s x) as F. rewrite H in F. now destruct (F _ H') as [-> _].
  - intros top H H'. pose proof (tt_pop_x_follows lt b s) as F. rewrite H in F. now destruct (F _ H') as [-> _].
Qed.
Print Assumptions C74_tourtree_players.
(** But the tree over those entries may be left inconsistent.  After the second comparison of decreaseTop() has thrown, the next pop() uses a
    player that it has just removed. *)
Theorem C74_tourtree_refuted : exists s s',
  run (tt_step nat Nat.ltb) (tt_new nat) [Push 1; Push 2; Push 5] = Ok (s, [ONone; ONone; ONone]) /\
  tt_decreaseTop_x nat Nat.ltb 1 s 0 = Ok (Left s') /\ tt_forAll nat s' = [1; 2; 0] /\ tt_pop nat Nat.ltb s' = UB.
Proof. eexists; eexists. repeat (split; [vm_compute; reflexivity|]). vm_compute. reflexivity. Qed.
Print Assumptions C74_tourtree_refuted.
(** After the second comparison of push(7) has thrown, pop() delivers 5 twice and 7 never. *)
Theorem C74_tourtree_push_refuted : exists s s' s'',
  run (tt_step nat Nat.ltb) (tt_new nat) [Push 5; Push 1] = Ok (s, [ONone; ONone]) /\
  tt_push_x nat Nat.ltb 1 s 7 = Ok (Left s') /\ tt_forAll nat s' = [5; 1; 7] /\
  run (tt_step nat Nat.ltb) s' [Pop; Pop; Pop; Empty] = Ok (s'', [OEntry 5; OEntry 5; OEntry 1; OBool true]).
Proof. eexists; eexists; eexists. repeat (split; [vm_compute; reflexivity|]). vm_compute. reflexivity. Qed.
Print Assumptions C74_tourtree_push_refuted.

(** ** Geobucket *)

(** If compare throws while push(x) looks for the place of x, the entries stay as they were, but the count is one too high. *)
Theorem C74_geobucket_push : forall (E : Type) (lt eqv : E -> E -> bool) (dedup : E -> E -> E) C b g x g',
  gb_push_x E lt eqv dedup C b g x = Ok (Left g') ->
  gb_forAll E g' = gb_forAll E g /\ g_front g' = g_front g /\ gb_size E g' = S (gb_size E g).
Proof. intros E lt eqv dedup C b g x g' H. apply gb_push_x_left in H as ->. auto. Qed.
Print Assumptions C74_geobucket_push.
Definition gx_config := mk_config 2 4 1 false false true false false Plain.
(** So a Geobucket from which everything was popped does not call itself empty, and top() is undefined. *)
Theorem C74_geobucket_refuted : exists g g' g'',
  run (gb_step nat Nat.ltb Nat.eqb (fun a _ => a) gx_config) (gb_new nat gx_config) [Push 1] = Ok (g, [ONone]) /\
  gb_push_x nat Nat.ltb Nat.eqb (fun a _ => a) gx_config 0 g 2 = Ok (Left g') /\
  run (gb_step nat Nat.ltb Nat.eqb (fun a _ => a) gx_config) g' [Pop; Empty; ForAll] = Ok (g'', [OEntry 1; OBool false; OList []]) /\
  gb_top nat Nat.ltb Nat.eqb (fun a _ => a) gx_config g'' = UB.
Proof. eexists; eexists; eexists. repeat (split; [vm_compute; reflexivity|]). vm_compute. reflexivity. Qed.
Print Assumptions C74_geobucket_refuted.

(** ** HashTable *)

(** If no client function throws, the calls return what they return without exceptions. *)
Theorem C74_hashtable_normal : forall (K V : Type) (keq : K -> K -> bool) (hash : K -> N) b (t : table K V) k v b' r,
  (ht_insert_x K V keq hash b t k v = Ok (Fine b' r) -> ht_insert K V keq hash t k v = Ok r).
Proof. intros K V keq hash b t k v b' r H. pose proof (ht_insert_x_agrees K V keq hash b t k v) as F. now rewrite H in F. Qed.
Print Assumptions C74_hashtable_normal.
(** An exception thrown in lookup leaves the table as it is. *)
Theorem C74_hashtable_lookup : forall (K V : Type) (keq : K -> K -> bool) (hash : K -> N) b (t : table K V) k t',
  ht_lookup_x K V keq hash b t k = Ok (Left t') -> t' = t.
Proof. exact ht_lookup_x_left. Qed.
Print Assumptions C74_hashtable_lookup.
(** So does one thrown in an insert for which the table need not grow, except that mNodeCount may be one too high; every lookup answers as before. *)
Theorem C74_hashtable_insert : forall (K V : Type) (keq : K -> K -> bool) (hash : K -> N) b (t : table K V) k v t',
  (N.of_nat (S (t_count t)) <= t_max t)%N -> ht_insert_x K V keq hash b t k v = Ok (Left t') ->
  t_bins t' = t_bins t /\ t_nodes t' = t_nodes t /\ (t_count t' = t_count t \/ t_count t' = S (t_count t)) /\
  forall k', ht_lookup K V keq hash t' k' = ht_lookup K V keq hash t k'.
Proof.
  intros K V keq hash b t k v t' Hm H. destruct (ht_insert_x_left K V keq hash b t k v t' Hm H) as [->| ->]; repeat split; auto.
Qed.
Print Assumptions C74_hashtable_insert.

Definition hop_keys (l : list nat) : list (hop nat nat) := map (fun k => HInsert k k) l.
Definition hx_hash (k : nat) : N := N.of_nat k.
Notation hx_run nbits l := (run (ht_step nat nat Nat.eqb hx_hash) (ht_new nat nat nbits) (hop_keys l)).
(** The count is wrong after a node could not be made, and then the assertion at the end of the next insert fails. *)
Theorem C74_hashtable_count_refuted : exists t rs t',
  hx_run 5 [1] = Ok (t, rs) /\ ht_insert_x nat nat Nat.eqb hx_hash 1 t 2 2 = Ok (Left t') /\
  ht_computeNodeCount nat nat t' = Ok 1 /\ t_count t' = 2 /\ ht_insert_d nat nat Nat.eqb hx_hash t' 3 3 = UB.
Proof. eexists; eexists; eexists. repeat (split; [vm_compute; reflexivity|]). vm_compute. reflexivity. Qed.
Print Assumptions C74_hashtable_count_refuted.
(** If hash throws while the table grows, entries are lost: a lookup of the key 2 that was inserted before finds nothing. *)
Theorem C74_hashtable_grow_refuted : exists t rs t' h,
  hx_run 5 [1; 2; 3] = Ok (t, rs) /\ ht_lookup nat nat Nat.eqb hx_hash t 2 = Ok (Some h) /\
  ht_insert_x nat nat Nat.eqb hx_hash 4 t 4 4 = Ok (Left t') /\ ht_lookup nat nat Nat.eqb hx_hash t' 2 = Ok None.
Proof. eexists; eexists; eexists; eexists. repeat (split; [vm_compute; reflexivity|]). vm_compute. reflexivity. Qed.
Print Assumptions C74_hashtable_grow_refuted.
(** If there is no memory for the larger array of bins, the hash mask no longer fits the array: a lookup reads past its end. *)
Theorem C74_hashtable_memory_refuted : exists t rs t',
  hx_run 5 [1; 2; 3] = Ok (t, rs) /\ ht_insert_x nat nat Nat.eqb hx_hash 2 t 4 4 = Ok (Left t') /\
  ht_lookup nat nat Nat.eqb hx_hash t 40 = Ok None /\ ht_lookup nat nat Nat.eqb hx_hash t' 40 = UB.
Proof. eexists; eexists; eexists. repeat (split; [vm_compute; reflexivity|]). vm_compute. reflexivity. Qed.
Print Assumptions C74_hashtable_memory_refuted.
