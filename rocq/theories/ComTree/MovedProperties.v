(** Property theorems about the work on entries in ComTree (C106). *)
From Coq Require Import List Arith Lia.
From Verif.Base Require Import Res Arr Count.
From Verif.ComTree Require Import Model Moved MovedProofs.
Import ListNotations.

(** C106.  A call with counting does the same as without. *)
Lemma forget_set {E} wa (t : comtree E) n v : forget (set_w E wa t n v) = ct_set t n v.
Proof. unfold set_w. rewrite forget_bind, forget_free. now destruct (ct_set t n v). Qed.
Lemma forget_copy_loop {E} wa (t : comtree E) : forall fuel new i, forget (copy_loop_w E wa fuel t new i) = ct_copy_loop fuel t new i.
Proof.
  induction fuel as [|fuel IH]; intros new i; cbn [copy_loop_w ct_copy_loop]; destruct (Nat.leb i (ct_last t)); auto.
  rewrite forget_bind, forget_free. apply bind_ext; [reflexivity|]. intros v. destruct (Nat.eqb (ct_last new) (ct_cap new)); [reflexivity|]. rewrite forget_bind. apply bind_ext; [apply forget_set|auto].
Qed.
Lemma forget_increase {E} wa wc wn (t : comtree E) : forget (increaseCapacity_w E wa wc wn t) = ct_increaseCapacity t.
Proof. unfold increaseCapacity_w, ct_increaseCapacity. rewrite forget_bind. cbn [new_w forget bind]. rewrite forget_bind. apply bind_ext; [apply forget_copy_loop|reflexivity]. Qed.
Lemma forget_assign_loop {E} wa (t : comtree E) : forall fuel new i, forget (assign_loop_w E wa fuel t new i) = ct_assign_loop fuel t new i.
Proof.
  induction fuel as [|fuel IH]; intros new i; cbn [assign_loop_w ct_assign_loop]; destruct (Nat.leb i (ct_last t)); auto.
  rewrite forget_bind, forget_free. apply bind_ext; [reflexivity|]. intros v. rewrite forget_bind. apply bind_ext; [apply forget_set|auto].
Qed.
Theorem C106_same : forall (E : Type) (wa wc wn : nat) (t : comtree E) (o : ct_op E), forget (step_w E wa wc wn t o) = ct_step t o.
Proof.
  intros E wa wc wn t o. destruct o; cbn [step_w]; try apply forget_free; unfold ct_step; rewrite forget_bind; (apply bind_ext; [|reflexivity]).
  - unfold pushBack_w, ct_pushBack. rewrite forget_bind. apply bind_ext; [|intros t1; apply forget_set]. destruct (Nat.eqb (ct_last t) (ct_cap t)); [apply forget_increase|reflexivity].
  - apply forget_set.
  - apply forget_increase.
  - unfold copy_w, ct_copy. cbv zeta. destruct (Nat.eqb (if _ : bool then _ else _) 0); [reflexivity|]. rewrite forget_bind. cbn [forget bind]. apply forget_assign_loop.
Qed.
Print Assumptions C106_same.

(** How often the client calls pushBack, and how often it assigns to an entry *)
Definition pushes_of {E} (ops : list (ct_op E)) : nat := length (filter (fun o => match o with CPushBack _ => true | _ => false end) ops).
Definition assigns_of {E} (ops : list (ct_op E)) : nat := length (filter (fun o => match o with CSet _ _ => true | _ => false end) ops).
Definition neither_grows_nor_copies {E} (ops : list (ct_op E)) : Prop := forall o, In o ops -> match o with CGrow | CCopy _ => False | _ => True end.

(** C106.  A history with p pushes, and any number of other calls except copies and calls of increaseCapacity, makes at most 3 p assignments to entries beside those of the
    client, default-constructs at most 4 p + 16 entries and allocates at most log2 p + 1 arrays, whatever the initial capacity: the weights may be chosen at will. *)
Theorem C106_amortised : forall (E : Type) (wa wc wn c0 : nat) (ops : list (ct_op E)) t rs, neither_grows_nor_copies ops -> run ct_step (ct_new c0) ops = Ok (t, rs) ->
  let p := pushes_of ops in
  exists n, run_w E wa wc wn (ct_new c0) ops = Ok ((t, rs), n) /\ n <= wa * (assigns_of ops + 3 * p) + wc * (16 + 4 * p) + wn * S (Nat.log2 p).
Proof.
  intros E wa wc wn c0 ops t rs Hc H. cbv zeta.
  assert (Hc' : forallb calm ops = true) by (apply forallb_forall; intros o Ho; specialize (Hc o Ho); destruct o; tauto).
  destruct (run_spent wa wc wn c0 ops _ 0 0 0 t rs Hc' (spent_new wa wc wn c0) H) as (d & E1 & S1). exists d. split; [exact E1|]. exact (spent_bound wa wc wn _ _ _ _ _ S1).
Qed.
Print Assumptions C106_amortised.

(** C106.  One pushBack is not constant: it makes one assignment, and if the array is full it first allocates one of twice the size (16 entries the first time) and
    assigns every entry. *)
Theorem C106_single_push : forall (E : Type) (wa wc wn : nat) (t t' : comtree E) v, ct_pushBack t v = Ok t' ->
  pushBack_w E wa wc wn t v = Ok (t', if ct_size t =? ct_capacity t then wn + wc * ct_capacity t' + wa * ct_size t + wa else wa) /\
  ct_capacity t' = if ct_size t =? ct_capacity t then (if ct_capacity t =? 0 then 16 else 2 * ct_capacity t) else ct_capacity t.
Proof.
  intros E wa wc wn t t' v H. unfold ct_pushBack in H. unfold pushBack_w, ct_size, ct_capacity. destruct (ct_last t =? ct_cap t) eqn:Ef.
  - destruct (ct_increaseCapacity t) as [t1| | |] eqn:H1; cbn [bind] in H; try discriminate. destruct (increase_ok wa wc wn _ _ H1) as (E4 & E5 & E6). destruct (set_w_ok wa _ _ _ _ H) as (E1 & E2 & E3). cbn [ct_last ct_cap] in *.
    rewrite E4. unfold cbind. cbn [bind]. rewrite E1. cbn [bind]. rewrite E3, E6. split; [reflexivity|]. destruct (ct_cap t =? 0); lia.
  - cbn [bind] in H. destruct (set_w_ok wa _ _ _ _ H) as (E1 & E2 & E3). unfold cbind. cbn [bind]. rewrite E1. cbn [bind]. auto.
Qed.
Print Assumptions C106_single_push.

(** C106.  Calls of increaseCapacity double the array even when it is empty: n of them on a new tree construct 16 (2^n - 1) entries. *)
Theorem C106_grow_doubles : forall (E : Type) n, exists t rs, run_w E 0 1 0 (ct_new 0) (repeat CGrow n) = Ok ((t, rs), 16 * (2 ^ n - 1)).
Proof.
  intros E n. assert (G : forall m t, ct_last t = 0 -> exists t' rs, run_w E 0 1 0 t (repeat CGrow m) = Ok ((t', rs), (if ct_cap t =? 0 then 16 else ct_cap t * 2) * (2 ^ m - 1))).
  { induction m as [|m IH]; intros t Hl; cbn [repeat run_w].
    - exists t, []. cbn [Nat.pow]. rewrite Nat.sub_diag, Nat.mul_0_r. reflexivity.
    - assert (Hi : exists t1, ct_increaseCapacity t = Ok t1) by (unfold ct_increaseCapacity; rewrite Hl; cbn [ct_copy_loop]; rewrite Hl; cbn [Nat.leb bind]; eauto). destruct Hi as [t1 Hi].
      destruct (increase_ok 0 1 0 _ _ Hi) as (E1 & E2 & E3). destruct (IH t1 ltac:(lia)) as (t2 & rs & E4). cbn [step_w]. rewrite E1. unfold cbind. cbn [bind]. rewrite E4. cbn [bind].
      eexists. eexists. f_equal. f_equal. rewrite E3. set (c := if ct_cap t =? 0 then 16 else ct_cap t * 2). assert (Hc : 0 < c) by (subst c; destruct (Nat.eqb_spec (ct_cap t) 0); lia). destruct (Nat.eqb_spec c 0); [lia|].
      rewrite Nat.pow_succ_r'. pose proof (Nat.pow_nonzero 2 m ltac:(lia)). nia. }
  exact (G n (ct_new 0) eq_refl).
Qed.
Print Assumptions C106_grow_doubles.

(** C106 on an example: 33 pushes make 33 + 16 + 32 assignments, in three arrays with 112 entries; the same with removals and pushes at the edge. *)
Definition work (wa wc wn : nat) (ops : list (ct_op nat)) : res nat := let* (_, n) := run_w nat wa wc wn (ct_new 0) ops in Ok n.
Example C106_nonvacuous :
  let ops := map CPushBack (seq 0 33) in
  neither_grows_nor_copies ops /\ work 1 0 0 ops = Ok 81 /\ work 0 1 0 ops = Ok 112 /\ work 0 0 1 ops = Ok 3 /\
  work 1 0 0 (ops ++ [CPopBack; CPushBack 5; CPopBack; CPushBack 6; CSet 3 7; CClear; CPushBack 1]) = Ok 85.
Proof. cbv zeta. split; [|vm_compute; auto]. intros o Ho. apply in_map_iff in Ho. destruct Ho as (i & <- & _). exact I. Qed.
