(** Property theorems about the assignments to entries of a DivList (C109). *)
From Coq Require Import List Arith Bool ZArith NArith Lia.
From Verif.Base Require Import Res Arr StdAlg Count FaultFacts.
From Verif.DivMask Require Import Model.
From Verif.Spec Require Import Reach DivFinder.
From Verif.DivList Require Import Model Proofs Properties Shifted ShiftedProofs.
Import ListNotations.

(** A call, and a history, with the number of assignments to entries that it makes *)
Definition lshifted {M} (c : config M) : dlist M -> dop M -> counted (dlist M * dout M) :=
  step_m M (f_ex c) (f_nvars c) (f_type c) (f_sort_data c) (f_use c) (f_divides c) (f_less c) (f_linked c) (f_sorted c) (f_auto c) (f_ratio c) (f_min c) (f_sort_ext c).
Definition lshifted_run {M} (c : config M) : dlist M -> list (dop M) -> counted (dlist M * list (dout M)) :=
  run_m M (f_ex c) (f_nvars c) (f_type c) (f_sort_data c) (f_use c) (f_divides c) (f_less c) (f_linked c) (f_sorted c) (f_auto c) (f_ratio c) (f_min c) (f_sort_ext c).

(** C109.  Counting changes nothing. *)
Theorem C109_same : forall (M : Type) (c : config M) s ops, forget (lshifted_run c s ops) = run (lstep c) s ops.
Proof. intros. apply run_m_forget. Qed.
Print Assumptions C109_same.

(** C109.  An insertion stores the new entry and, into a sorted vector, moves the entries behind it. *)
Theorem C109_insert : forall (M : Type) (c : config M) s e s' r a, lshifted c s (DInsert e) = Ok ((s', r), a) ->
  exists before after, contents s = before ++ after /\ contents s' = before ++ e :: after /\
    a = 1 + (if f_sorted c && negb (f_linked c) then length after else 0).
Proof.
  intros * H. unfold lshifted, step_m in H. apply cbind_ok in H. destruct H as (s1 & n & d & H & H2 & ->). injection H2 as -> _ <-. apply insert_moves in H. destruct H as (_ & b & f & E1 & E2 & ->).
  exists b, f. repeat split; auto. destruct (f_sorted c), (f_linked c); cbn; lia.
Qed.
Print Assumptions C109_insert.

(** C109.  removeMultiples on a vector moves every entry at most once, however many it removes: those that stay behind the first one removed.  Nothing is moved if nothing is
    removed, or in a linked list. *)
Theorem C109_remove_multiples : forall (M : Type) (c : config M) s m s' b out a, lshifted c s (DRemoveMultiples m) = Ok ((s', DORemoved b out), a) ->
  length (contents s') + length out = length (contents s) /\ a <= length (contents s') /\ (out = [] -> a = 0) /\ (f_linked c = true -> a = 0).
Proof.
  intros * H. unfold lshifted, step_m in H. apply cbind_ok in H. destruct H as (((s1 & b1) & out1) & n & d & H & H2 & ->). injection H2 as -> -> -> <-. unfold remove_multiples_m in H. cbv zeta in H.
  apply cbind_ok in H. destruct H as (((l & out2) & k) & n1 & n2 & H1 & H & ->). apply cbind_ok in H. destruct H as (s2 & n3 & n4 & H3 & H & ->). injection H as -> _ -> <-. apply free_ok in H3. destruct H3 as [H3 ->].
  apply report_length in H3. cbn [l_list] in H3. unfold contents. rewrite !map_length, H3. destruct (f_linked c).
  - cbn [free bind] in H1. injection H1 as E <-. cut (length l + length out = length (l_list s)); [intros; repeat split; lia|].
    clear - E. revert l out k E. generalize (l_list s). intros l0. induction l0 as [|x l0 IH]; intros l out k E; cbn [remove_multiples_list] in E; [injection E as <- <- <-; reflexivity|].
    destruct (remove_multiples_list _ _ _ _ l0) as [[kept o2] c2] eqn:R. specialize (IH _ _ _ eq_refl). destruct (ext_divides _ _ _ _ _); injection E as <- <- <-; cbn [length]; lia.
  - apply rmv_moves in H1. destruct H1 as (L & E0 & E1). destruct out as [|x out]; [destruct (E0 eq_refl); repeat split; auto; try lia|]. destruct E1 as (it & _ & _ & E1); [discriminate|].
    repeat split; try lia; discriminate.
Qed.
Print Assumptions C109_remove_multiples.

(** C109.  removeElement on a vector moves the entries behind the one it removes, moveToFront those before the one it moves, and that one.  Neither assigns entries of a linked
    list.  All other calls but insertions assign nothing. *)
Theorem C109_other_calls : forall (M : Type) (c : config M) s o s' r a, lshifted c s o = Ok ((s', r), a) ->
  match o with
  | DRemoveElement _ => (exists before x after, contents s = before ++ x :: after /\ contents s' = before ++ after /\ a = (if f_linked c then 0 else length after)) \/ contents s' = contents s /\ a = 0
  | DToFront _ => length (contents s') = length (contents s) /\ a <= (if f_linked c then 0 else length (contents s))
  | DInsert _ | DInsertRange _ | DRemoveMultiples _ => True
  | _ => a = 0
  end.
Proof.
  intros * H. destruct o as [e|es|m|m|m|m cb|m cb|cb|m| |]; auto; unfold lshifted, step_m in H; try (now apply free_ok in H as [_ ->]).
  - unfold remove_element_m, remove_element in H. destruct (scan _ _ _) as [i|] eqn:Hs; unfold cbind in H; cbn [bind] in H; [|injection H as <- _ <-; now right]. left. apply scan_lt in Hs.
    remember (firstn i (l_list s) ++ skipn (S i) (l_list s)) as q eqn:Eq. injection H as <- _ <-.
    destruct (nth_error (l_list s) i) as [x|] eqn:Hn; [|apply nth_error_None in Hn; lia]. apply nth_error_split in Hn. destruct Hn as (b & f & E & <-). exists (map x_t b), (x_t x), (map x_t f). unfold contents. cbn [l_list].
    rewrite E in *. rewrite firstn_app, Nat.sub_diag, firstn_all, skipn_app in Eq. replace (S (length b) - length b) with 1 in Eq by lia. rewrite skipn_all2 in Eq by lia. cbn in Eq. rewrite app_nil_r in Eq. subst q.
    rewrite !map_app, map_length, app_length. cbn. repeat split; auto. destruct (f_linked c); lia.
  - apply cbind_ok in H. destruct H as ((s1 & r1) & n & d & H & H2 & ->). injection H2 as -> _ <-. unfold to_front_m in H. apply cbind_ok in H. destruct H as (it & n1 & n2 & H1 & H & ->). apply free_ok in H1. destruct H1 as [_ ->].
    destruct it as [i|]; [|injection H as -> _ <-; split; [reflexivity|lia]]. apply cbind_ok in H. destruct H as (l & n3 & n4 & H3 & H & ->). apply cbind_ok in H. destruct H as (x & n5 & n6 & H5 & H & ->). apply free_ok in H5. destruct H5 as [_ ->].
    injection H as <- _ <-. unfold contents. cbn [l_list]. rewrite !map_length. unfold move_to_front_m in H3. destruct (f_linked c).
    + apply free_ok in H3. destruct H3 as [H3 ->]. split; [|lia]. unfold move_to_front in H3. apply bind_inv in H3. destruct H3 as (y & Hy & H3). remember (firstn i (l_list s) ++ skipn (S i) (l_list s)) as q eqn:Eq. injection H3 as <-. unfold vget in Hy. destruct (nth_error (l_list s) i) as [z|] eqn:Hn; [|discriminate].
      apply nth_error_split in Hn. destruct Hn as (b & f & E & <-). rewrite E in *. rewrite firstn_app, Nat.sub_diag, firstn_all, skipn_app in Eq. replace (S (length b) - length b) with 1 in Eq by lia. rewrite skipn_all2 in Eq by lia.
      cbn in Eq. rewrite app_nil_r in Eq. subst q. cbn [length]. rewrite !app_length. cbn. lia.
    + apply cbind_ok in H3. destruct H3 as (y & n7 & n8 & Hy & H3 & ->). apply free_ok in Hy. destruct Hy as [Hy ->]. apply cbind_ok in H3. destruct H3 as (a1 & n9 & n10 & H9 & H3 & ->). apply shift_moves in H9. destruct H9 as [-> E].
      apply vset_m_inv in H3. destruct H3 as [-> E2]. unfold vget in Hy. destruct (nth_error (l_list s) i) as [z|] eqn:Hn; [|discriminate]. apply nth_error_some_lt in Hn. lia.
Qed.
Print Assumptions C109_other_calls.

(** What is inserted, and how many calls remove entries or move one to the front *)
Definition stored {M} (ops : list (dop M)) : list M := flat_map (fun o => match o with DInsert e => [e] | DInsertRange es => es | _ => [] end) ops.
Definition shifts {M} (ops : list (dop M)) : nat := length (filter (fun o => match o with DRemoveMultiples _ | DRemoveElement _ | DToFront _ => true | _ => false end) ops).

Lemma contents_len {M} (s : dlist M) : length (contents s) = length (l_list s).
Proof. apply map_length. Qed.
Lemma step_shifts {M} (c : config M) : (forall l, length (f_sort_ext c l) = length l) -> forall s o s' r a, lshifted c s o = Ok ((s', r), a) ->
  length (contents s') <= length (contents s) + length (stored [o]) /\
  a <= length (stored [o]) * (if f_sorted c && negb (f_linked c) then length (contents s) + length (stored [o]) else 1) + (if f_linked c then 0 else shifts [o] * length (contents s)).
Proof.
  intros Hs s o s' r a H. destruct o as [e|es|m|m|m|m cb|m cb|cb|m| |]; cbn [stored flat_map length shifts filter app]; rewrite ?app_nil_r.
  - apply C109_insert in H. destruct H as (b & f & E1 & E2 & ->). rewrite E1, E2, !app_length. cbn [length]. destruct (f_sorted c && negb (f_linked c)), (f_linked c); lia.
  - unfold lshifted, step_m in H. apply cbind_ok in H. destruct H as (s1 & n & d & H & H2 & ->). injection H2 as -> _ <-. rewrite !contents_len. unfold insert_range_m in H. destruct (l_list s) as [|x l] eqn:E.
    + apply cbind_ok in H. destruct H as (s2 & n1 & n2 & H1 & H & ->). injection H as -> <-. apply free_ok in H1. destruct H1 as [H1 ->]. unfold insert_range in H1. rewrite E in H1. destruct es as [|e es].
      * injection H1 as <-. rewrite E. cbn. lia.
      * apply bind_inv in H1. destruct H1 as (bits & _ & H1). unfold reset_left in H1. cbn [l_list l_bits l_rebuilds] in H1.
        assert (F : length (l_list s') = length (e :: es)). { destruct (negb (f_auto c)), (f_sorted c); injection H1 as <-; cbn [l_list]; rewrite ?Hs; apply (map_length _ (e :: es)). }
        rewrite F. cbn [length]. destruct (f_sorted c && negb (f_linked c)); destruct (f_linked c); cbn; lia.
    + apply insert_each_moves in H. rewrite E in H. destruct H as [H1 H2]. rewrite H1. split; [lia|]. destruct (f_linked c); lia.
  - assert (exists b out, r = DORemoved b out) as (b & out & ->). { unfold lshifted, step_m in H. apply cbind_ok in H. destruct H as (((s1 & b1) & out1) & n & d & _ & H2 & _). injection H2 as _ <- _. eauto. }
    apply C109_remove_multiples in H. destruct H as (L & A & _ & B). destruct (f_linked c); [rewrite (B eq_refl)|]; lia.
  - apply C109_other_calls in H. destruct H as [(b & x & f & E1 & E2 & ->)|[-> ->]]; [|destruct (f_linked c); lia]. rewrite E1, E2, !app_length. cbn [length]. destruct (f_linked c); lia.
  - pose proof H as G. apply C109_other_calls in G. subst a. unfold lshifted, step_m in H. apply free_ok in H. destruct H as [H _]. unfold step in H. apply bind_inv in H. destruct H as (y & _ & H). injection H as <- _. lia.
  - pose proof H as G. apply C109_other_calls in G. subst a. unfold lshifted, step_m in H. apply free_ok in H. destruct H as [H _]. unfold step in H. apply bind_inv in H. destruct H as (y & _ & H). injection H as <- _. lia.
  - pose proof H as G. apply C109_other_calls in G. subst a. unfold lshifted, step_m in H. apply free_ok in H. destruct H as [H _]. unfold step in H. injection H as <- _. lia.
  - pose proof H as G. apply C109_other_calls in G. subst a. unfold lshifted, step_m in H. apply free_ok in H. destruct H as [H _]. unfold step in H. injection H as <- _. lia.
  - apply C109_other_calls in H. destruct H as [L B]. destruct (f_linked c); lia.
  - pose proof H as G. apply C109_other_calls in G. subst a. unfold lshifted, step_m in H. apply free_ok in H. destruct H as [H _]. unfold step in H. apply bind_inv in H. destruct H as (y & Hy & H). injection H as <- _.
    unfold rebuild_list, reset_left in Hy. apply bind_inv in Hy. destruct Hy as (bits & _ & Hy). split; [|lia]. destruct (negb (f_auto c)); injection Hy as <-; unfold contents; cbn [l_list]; rewrite !map_length; lia.
  - pose proof H as G. apply C109_other_calls in G. subst a. unfold lshifted, step_m in H. apply free_ok in H. destruct H as [H _]. unfold step in H. injection H as <- _. lia.
Qed.
Lemma run_shifts {M} (c : config M) : (forall l, length (f_sort_ext c l) = length l) -> forall ops s s' rs a, lshifted_run c s ops = Ok ((s', rs), a) ->
  let N := length (contents s) + length (stored ops) in
  a <= length (stored ops) * (if f_sorted c && negb (f_linked c) then N else 1) + (if f_linked c then 0 else shifts ops * N).
Proof.
  intros Hs ops. induction ops as [|o ops IH]; intros s s' rs a H; unfold lshifted_run in *; cbn [run_m] in H; [injection H as _ _ <-; lia|].
  apply cbind_ok in H. destruct H as ((s1 & r) & n & d & H1 & H & ->). apply cbind_ok in H. destruct H as ((s2 & rs2) & n2 & d2 & H2 & H & ->). injection H as _ _ <-.
  apply (step_shifts c Hs) in H1. destruct H1 as [L1 B1]. apply IH in H2. cbv zeta in *.
  assert (E1 : length (stored (o :: ops)) = length (stored [o]) + length (stored ops)) by (unfold stored; cbn [flat_map]; rewrite app_nil_r, app_length; reflexivity).
  assert (E2 : shifts (o :: ops) = shifts [o] + shifts ops) by (unfold shifts; cbn [filter]; destruct (match o with DRemoveMultiples _ | DRemoveElement _ | DToFront _ => true | _ => false end); reflexivity).
  rewrite E1, E2. destruct (f_linked c); rewrite ?andb_false_r in *; [lia|]. destruct (f_sorted c); cbn [andb negb] in *; nia.
Qed.

(** C109.  A history that inserts n entries and q times removes multiples, removes an element or moves one to the front assigns at most n entries if the list is linked, at most
    n + q n on a vector, and at most n n + q n on a sorted vector. *)
Theorem C109_history : forall (M : Type) (c : config M), (forall l, length (f_sort_ext c l) = length l) ->
  forall s0 ops s rs, linit c = Ok s0 -> run (lstep c) s0 ops = Ok (s, rs) ->
  let n := length (stored ops) in let q := shifts ops in
  exists a, lshifted_run c s0 ops = Ok ((s, rs), a) /\ a <= (if f_linked c then n else if f_sorted c then n * n + q * n else n + q * n).
Proof.
  intros M c Hs s0 ops s rs H0 H n q. rewrite <- C109_same in H. destruct (lshifted_run c s0 ops) as [[[s1 rs1] a]| | |] eqn:G; try discriminate H. cbn in H. injection H as -> ->. exists a. split; [reflexivity|].
  apply (run_shifts c Hs) in G. cbv zeta in G. fold n q in G.
  assert (E : length (contents s0) = 0). { unfold linit, construct in H0. apply bind_inv in H0. destruct H0 as (b & _ & H0). unfold reset_left in H0. destruct (negb (f_auto c)); injection H0 as <-; reflexivity. }
  rewrite E in G. cbn [Nat.add] in G. destruct (f_linked c); rewrite ?andb_false_r in *; [lia|]. destruct (f_sorted c); cbn [andb negb] in *; lia.
Qed.
Print Assumptions C109_history.

(** C109 on an example: seven entries are inserted in descending order, the multiples of x and then one entry are removed; in a vector, in a sorted vector, and in a linked list. *)
Definition shift_demo : list (dop mono) :=
  map (fun k => DInsert (k, 3 - k)%Z) [6; 5; 4; 3; 2; 1; 0]%Z ++ [DRemoveMultiples (4, -9)%Z; DRemoveElement (1, 2)%Z; DFindDivisor (2, 2)%Z].
Definition shift_count (c : config mono) (ops : list (dop mono)) : res nat := let* s0 := linit c in let* (_, a) := lshifted_run c s0 ops in Ok a.
Example C109_nonvacuous :
  shift_count (mono_config lex true false false false) shift_demo = Ok 12 /\
  shift_count (mono_config lex true false true false) shift_demo = Ok 30 /\
  shift_count (mono_config lex true true true false) shift_demo = Ok 7 /\
  shift_count (mono_config lex true false false true) (shift_demo ++ [DToFront (2, 2)%Z]) = Ok 14 /\
  (forall l, length (f_sort_ext (mono_config lex true false true false) l) = length l).
Proof.
  repeat split; try (vm_compute; reflexivity). intros l. apply Permutation.Permutation_length.
  apply (k_sort_ext _ (mono_legal lex true false true false)). apply lex_sw.
Qed.
