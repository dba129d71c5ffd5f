(** C75: the memory of the leaves of the KD trees. *)
From Coq Require Import List Arith Bool ZArith NArith Lia Permutation.
From Verif.Base Require Import Res Arr StdAlg.
From Verif.DivMask Require Import Model.
From Verif.DivList Require Import Properties.
From Verif.KD Require Import EntryArray Legal Properties.
From Verif.KDMem Require Import Raw RawProofs.
Import ListNotations.

(** The places of the array that hold objects are the first ones, they hold the entries [l] in order, every other place is raw memory, and as many
    objects have been destroyed as were constructed and are no longer there. *)
Definition leaf_holds {M} (C : kconf M) (l : list (ext M)) (r : raw M) : Prop :=
  (forall i, i < length l -> nth_error (r_slots r) i = Some (nth_error l i)) /\
  (forall i, length l <= i < c_leaf C -> nth_error (r_slots r) i = Some None) /\
  length (r_slots r) = c_leaf C /\ length l <= c_leaf C /\ r_end r = length l /\ r_made r = r_gone r + length l.

Lemma stores_holds {M} (C : kconf M) a r : stores C a r -> leaf_holds C (a_list a) r /\ r_mask r = a_mask a.
Proof.
  intros [Hf [g ->]]. unfold fits in Hf. split; [|reflexivity]. unfold leaf_holds. cbn [holding r_slots r_end r_made r_gone]. repeat split; auto.
  - intros i Hi. rewrite nth_error_app1 by now rewrite map_length. rewrite nth_error_map. destruct (nth_error_lt (a_list a) i Hi) as [x ->]. reflexivity.
  - intros i Hi. rewrite nth_error_app2 by (rewrite map_length; lia). rewrite map_length. apply nth_error_repeat. lia.
  - rewrite app_length, map_length, repeat_length. lia.
Qed.
Lemma leaf_calls {M} (C : kconf M) : (c_sorted C = true -> forall l, Permutation (c_sort_ext C l) l) -> partitions (c_part_ext C) -> forall cs,
  match a_calls C [] cs with
  | Ok arrs => exists mem, r_calls C [] cs = Ok mem /\ Forall2 (fun a r => leaf_holds C (a_list a) r /\ r_mask r = a_mask a) arrs mem
  | UB => r_calls C [] cs = UB
  | Throw e => r_calls C [] cs = Throw e
  | NoFuel => r_calls C [] cs = NoFuel
  end.
Proof.
  intros Hs Hp cs.
  assert (Hs' : forall l, Permutation (c_sort_ext C l) l \/ c_sorted C = false) by (intros l; destruct (c_sorted C); auto).
  pose proof (calls_agree C Hs' Hp cs [] [] (Forall2_nil _)) as H.
  destruct (a_calls C [] cs), (r_calls C [] cs); cbn in H; try tauto; try congruence. eexists; split; [reflexivity|].
  induction H; constructor; auto. now apply stores_holds.
Qed.

(** C75.  Whatever sequence of calls constructs and changes the arrays of leaves, the arrays with memory do what the arrays of KD/EntryArray.v do, and fail where
    they fail: no object is read, assigned to or destroyed where there is none, and none is constructed over another.  Afterwards each array holds its
    entries and nothing else. *)
Theorem C75_leaf_memory : forall (M : Type) (C : kconf M), (c_sorted C = true -> forall l, Permutation (c_sort_ext C l) l) -> partitions (c_part_ext C) ->
  forall cs : list (call M),
  match a_calls C [] cs with
  | Ok arrs => exists mem, r_calls C [] cs = Ok mem /\ Forall2 (fun a r => leaf_holds C (a_list a) r /\ r_mask r = a_mask a) arrs mem
  | UB => r_calls C [] cs = UB
  | Throw e => r_calls C [] cs = Throw e
  | NoFuel => r_calls C [] cs = NoFuel
  end.
Proof. exact (@leaf_calls). Qed.
Print Assumptions C75_leaf_memory.

(** Clearing every array in turn *)
Definition clear_all {M} (n : nat) : list (call M) := map CClear (seq 0 n).
Lemma r_calls_app {M} (C : kconf M) cs cs' : forall mem, r_calls C mem (cs ++ cs') = let* mem' := r_calls C mem cs in r_calls C mem' cs'.
Proof. induction cs as [|c cs IH]; intros; cbn [app r_calls]; [reflexivity|]. destruct (r_call C mem c); cbn [bind]; auto. Qed.
Lemma a_calls_app {M} (C : kconf M) cs cs' : forall mem, a_calls C mem (cs ++ cs') = let* mem' := a_calls C mem cs in a_calls C mem' cs'.
Proof. induction cs as [|c cs IH]; intros; cbn [app a_calls]; [reflexivity|]. destruct (a_call C mem c); cbn [bind]; auto. Qed.
Lemma a_clear_all {M} (C : kconf M) arrs : a_calls C arrs (clear_all (length arrs)) = Ok (map (fun a => mk_arr [] (a_mask a)) arrs).
Proof.
  unfold clear_all. assert (H : forall k done rest, k = length rest -> a_calls C (done ++ rest) (map CClear (seq (length done) k)) = Ok (done ++ map (fun a => mk_arr [] (a_mask a)) rest)).
  { induction k as [|k IH]; intros done rest Hk; cbn [seq map a_calls].
    - destruct rest; [|discriminate]. reflexivity.
    - destruct rest as [|a rest]; [discriminate|]. cbn [a_call]. unfold on, vget. rewrite nth_error_app2, Nat.sub_diag by lia. cbn [nth_error of_option bind].
      rewrite vset_ok by (rewrite app_length; cbn; lia). cbn [bind]. rewrite upd_app_r, Nat.sub_diag by lia. cbn [upd].
      change (mk_arr [] (a_mask a) :: rest) with ([mk_arr [] (a_mask a)] ++ rest). rewrite app_assoc.
      replace (S (length done)) with (length (done ++ [@mk_arr M [] (a_mask a)])) by (rewrite app_length; cbn; lia). rewrite IH by (cbn in Hk; lia).
      cbn [map]. now rewrite <- app_assoc. }
  apply (H (length arrs) [] arrs eq_refl).
Qed.
Lemma clear_holds {M} (C : kconf M) : (c_sorted C = true -> forall l, Permutation (c_sort_ext C l) l) -> partitions (c_part_ext C) -> forall cs mem,
  r_calls C [] cs = Ok mem ->
  exists mem', r_calls C [] (cs ++ clear_all (length mem)) = Ok mem' /\
    Forall (fun r => r_slots r = repeat None (c_leaf C) /\ r_end r = 0 /\ r_made r = r_gone r) mem' /\ map r_made mem' = map r_made mem.
Proof.
  intros Hs Hp cs mem Hr.
  assert (Hs' : forall l, Permutation (c_sort_ext C l) l \/ c_sorted C = false) by (intros l; destruct (c_sorted C); auto).
  pose proof (calls_agree C Hs' Hp cs [] [] (Forall2_nil _)) as H. rewrite Hr in H. destruct (a_calls C [] cs) as [arrs| | |] eqn:Ea; cbn in H; try tauto.
  rewrite r_calls_app, Hr. cbn [bind].
  assert (E : forall k done rest arrs, k = length rest -> Forall2 (stores C) arrs rest -> exists out, r_calls C (done ++ rest) (map CClear (seq (length done) k)) = Ok (done ++ out) /\
    Forall (fun r => r_slots r = repeat None (c_leaf C) /\ r_end r = 0 /\ r_made r = r_gone r) out /\ map r_made out = map r_made rest).
  { clear. induction k as [|k IH]; intros done rest arrs Hk HF; cbn [seq map r_calls].
    - destruct rest; [|discriminate]. exists []. auto.
    - destruct HF as [|a r arrs rest [Hf [g ->]] HF]; [discriminate|]. cbn [r_call]. unfold on, vget. rewrite nth_error_app2, Nat.sub_diag by lia.
      cbn [nth_error of_option bind]. rewrite holding_clear by auto. cbn [bind]. rewrite vset_ok by (rewrite app_length; cbn; lia). cbn [bind].
      rewrite upd_app_r, Nat.sub_diag by lia. cbn [upd]. set (r' := holding C (mk_arr [] (a_mask a)) (g + length (a_list a))).
      change (r' :: rest) with ([r'] ++ rest). rewrite app_assoc. replace (S (length done)) with (length (done ++ [r'])) by (rewrite app_length; cbn; lia).
      destruct (IH (done ++ [r']) rest arrs) as (out & -> & H1 & H2); [cbn in Hk; lia|auto|]. exists (r' :: out). rewrite <- app_assoc. split; [reflexivity|]. split.
      + constructor; auto. unfold r'. cbn. rewrite Nat.sub_0_r, Nat.add_0_r. auto.
      + cbn [map]. rewrite H2. f_equal. unfold r'. cbn. lia. }
  destruct (E (length mem) [] mem arrs eq_refl H) as (out & E1 & E2 & E3). exists out. unfold clear_all. cbn [length app] in E1. auto.
Qed.
(** C75.  Clearing every array leaves nothing but raw memory: each object that was ever constructed has been destroyed exactly once. *)
Theorem C75_clear_destroys_all : forall (M : Type) (C : kconf M), (c_sorted C = true -> forall l, Permutation (c_sort_ext C l) l) -> partitions (c_part_ext C) ->
  forall cs mem, r_calls C [] cs = Ok mem ->
  exists mem', r_calls C [] (cs ++ clear_all (length mem)) = Ok mem' /\
    Forall (fun r => r_slots r = repeat None (c_leaf C) /\ r_end r = 0 /\ r_made r = r_gone r) mem' /\ map r_made mem' = map r_made mem.
Proof. exact (@clear_holds). Qed.
Print Assumptions C75_clear_destroys_all.

(** C75.  removeMultiples destroys one object for each entry it removes and reports, wherever the entries are. *)
Theorem C75_remove_multiples : forall (M : Type) (C : kconf M) a g m, length (a_list a) <= c_leaf C ->
  r_remove C (holding C a g) m = let* (a', out, n) := arr_remove C a m in Ok (holding C a' (g + n), out, n).
Proof. exact (@holding_remove). Qed.
Print Assumptions C75_remove_multiples.

(** Leaves of two entries: one is split by either tree, entries are removed by both functions, and two arrays are cleared. *)
Definition leaf_demo : list (call mono) :=
  [CFrom [mk_ext (3, 1)%Z 0%N; mk_ext (1, 3)%Z 0%N]; CBinary 0 (mk_ext (2, 2)%Z 0%N) None; CInsert 0 (mk_ext (2, 2)%Z 0%N);
   CFrom [mk_ext (0, 3)%Z 0%N; mk_ext (5, 0)%Z 0%N]; CPacked 2 (mk_ext (2, 2)%Z 0%N) None; CRemove 0 (mk_ext (1, 1)%Z 0%N);
   CElement 1 (3, 1)%Z; CInsert 1 (mk_ext (4, 4)%Z 0%N)].
Example C75_nonvacuous : let C := mono_tree true true 2 true true true true in
  (forall l, Permutation (c_sort_ext C l) l) /\ partitions (c_part_ext C) /\
  (let* mem := r_calls C [] leaf_demo in Ok (map (fun r => (r_end r, r_made r, r_gone r)) mem)) = Ok [(0, 3, 3); (1, 2, 1); (1, 2, 1); (1, 1, 0)] /\
  (let* mem := r_calls C [] (leaf_demo ++ clear_all 4) in Ok (map (fun r => (r_slots r, r_made r, r_gone r)) mem)) =
    Ok [([None; None], 3, 3); ([None; None], 2, 2); ([None; None], 2, 2); ([None; None], 1, 1)] /\
  r_calls C [] [CNew; CPop 0] = UB /\ r_calls C [] [CFrom [mk_ext (3, 1)%Z 0%N; mk_ext (1, 3)%Z 0%N]; CInsert 0 (mk_ext (2, 2)%Z 0%N)] = UB.
Proof.
  cbn zeta. split; [|split].
  - intros l. apply (kl_sort_ext _ _ (mono_tree_legal true true 2 true true true true ltac:(auto) ltac:(lia))). reflexivity.
  - apply keep_order_partitions.
  - vm_compute. repeat split; reflexivity.
Qed.
