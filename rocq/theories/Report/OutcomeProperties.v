(** Properties of the tables in which the simulation programs print their results (C84). *)
From Coq Require Import List Arith NArith Bool Ascii String Lia Permutation Sorted.
From Verif.Base Require Import Res Text.
From Verif.Spec Require Import Table.
From Verif.Output Require Import Columns.
From Verif.Report Require Import Names NamesProofs PrintProofs Outcome OutcomeProofs.
Import ListNotations.
Local Notation length := List.length.

(** What is known of std::sort: the result is a permutation in which no element is less than one before it. *)
Definition sorts {D : Type} (lt : D -> D -> bool) (sort : list D -> list D) : Prop :=
  forall l, Permutation (sort l) l /\ StronglySorted (fun a b => lt b a = false) (sort l).

(** Both functions named commafy print the same. *)
Theorem C84_commafy_same : forall n, sim_commafy n = commafy n.
Proof. exact commafy_same. Qed.
Print Assumptions C84_commafy_same.

(** Text filled up with spaces on the right or on the left to the width of the longest of all texts *)
Definition to_left {D : Type} (f : D -> text) (ds : list D) (d : D) : text := f d ++ repeat space (list_max (map (fun d => length (f d)) ds) - length (f d)).
Definition to_right {D : Type} (f : D -> text) (ds : list D) (d : D) : text := repeat space (list_max (map (fun d => length (f d)) ds) - length (f d)) ++ f d.

(** The table has a row for each result, the fastest first, with the name, the time, the comparisons and the memory. *)
Theorem C84_pq_table : forall sort ds, sorts data_lt sort -> Forall (fun d => plain (d_name d)) ds ->
  pq_print_data sort ds = Ok (txt "*** Simulation outcome ***" ++ [newline] ++
    List.concat (map (fun d => txt "  " ++ to_left d_name (sort ds) d ++ txt " " ++ to_right (fun d => commafy (d_ms d)) (sort ds) d ++ txt "ms" ++
      txt " " ++ to_right (fun d => commafy (d_comparisons d)) (sort ds) d ++ txt "cmps" ++
      txt " " ++ to_right (fun d => commafy (d_memory d / 1024)) (sort ds) d ++ txt "kb" ++ [newline]) (sort ds))) /\
  Permutation (sort ds) ds /\ StronglySorted (fun a b => d_ms a <= d_ms b)%N (sort ds).
Proof.
  intros sort ds Hs Hp. destruct (Hs ds) as [P S]. split; [|split; auto].
  - rewrite pq_data_ok by (eapply Permutation_Forall; [symmetry; exact P|exact Hp]). do 3 f_equal. f_equal. apply map_ext. intros d. rewrite pq_row.
    unfold named, number, to_left, to_right, widest. rewrite <- !app_assoc. reflexivity.
  - clear -S. induction S as [|a l _ IH H]; constructor; auto. revert H. apply Forall_impl. intros b H. unfold data_lt in H. now apply N.ltb_ge in H.
Qed.
Print Assumptions C84_pq_table.
Theorem C84_div_table : forall sort repeats ds, sorts div_lt sort -> Forall (fun d => plain (v_name d)) ds ->
  div_print_data sort repeats ds = Ok (txt "*** Simulation outcome for " ++ decimal repeats ++ txt " repeats ***" ++ [newline] ++
    List.concat (map (fun d => txt "  " ++ to_left v_name (sort ds) d ++ txt " " ++ to_right (fun d => commafy (v_ms d)) (sort ds) d ++ txt "ms" ++
      txt " " ++ to_right (fun d => commafy (v_queries d)) (sort ds) d ++ txt "eqs" ++ [newline]) (sort ds))) /\
  Permutation (sort ds) ds /\ StronglySorted (fun a b => v_ms a <= v_ms b)%N (sort ds).
Proof.
  intros sort repeats ds Hs Hp. destruct (Hs ds) as [P S]. split; [|split; auto].
  - rewrite div_data_ok by (eapply Permutation_Forall; [symmetry; exact P|exact Hp]). do 5 f_equal. f_equal. apply map_ext. intros d. rewrite div_row.
    unfold named, number, to_left, to_right, widest. rewrite <- !app_assoc. reflexivity.
  - clear -S. induction S as [|a l _ IH H]; constructor; auto. revert H. apply Forall_impl. intros b H. unfold div_lt in H. now apply N.ltb_ge in H.
Qed.
Print Assumptions C84_div_table.

(** The table determines the results: if two look the same, then they show the same names with the same numbers.  Names must be without line
    breaks and null characters and must not end in a space; the names of all queues and finders are so. *)
Definition pq_shown (d : sim_data) : text * N * N * N := (d_name d, d_ms d, d_comparisons d, d_memory d / 1024)%N.
Definition div_shown (d : div_data) : text * N * N := (v_name d, v_ms d, v_queries d).
Theorem C84_pq_table_determines : forall sort sort' ds ds' t, sorts data_lt sort -> sorts data_lt sort' ->
  Forall (fun d => good_name (d_name d)) ds -> Forall (fun d => good_name (d_name d)) ds' ->
  pq_print_data sort ds = Ok t -> pq_print_data sort' ds' = Ok t ->
  map pq_shown (sort ds) = map pq_shown (sort' ds') /\ Permutation (map pq_shown ds) (map pq_shown ds').
Proof.
  intros sort sort' ds ds' t Hs Hs' Hg Hg' H H'. destruct (Hs ds) as [P _], (Hs' ds') as [P' _].
  assert (G : Forall (fun d => good_name (d_name d)) (sort ds)) by (eapply Permutation_Forall; [symmetry; exact P|exact Hg]).
  assert (G' : Forall (fun d => good_name (d_name d)) (sort' ds')) by (eapply Permutation_Forall; [symmetry; exact P'|exact Hg']).
  assert (Q : Forall (fun d => plain (d_name d)) (sort ds)) by (revert G; apply Forall_impl; now intros d [X _]).
  assert (Q' : Forall (fun d => plain (d_name d)) (sort' ds')) by (revert G'; apply Forall_impl; now intros d [X _]).
  rewrite pq_data_ok in H, H' by auto. rewrite <- H' in H. clear H'. apply (f_equal (fun r => match r with Ok x => x | _ => [] end)) in H. apply app_inv_head, app_inv_head in H. apply (f_equal Lines.lines) in H.
  rewrite <- (app_nil_r (List.concat (map _ (sort ds)))), <- (app_nil_r (List.concat (map _ (sort' ds')))) in H.
  rewrite (rows_lines pq_specs (sort ds)), (rows_lines pq_specs (sort' ds')), !app_nil_r in H by now apply pq_rows_no_newline.
  apply (rows_same pq_specs _ _ pq_shown (fun d => trimmed (d_name d))) in H.
  - split; auto. rewrite <- P, <- P', H. reflexivity.
  - intros d d' Hd Hd' E. apply pq_row_inj in E as (E1 & E2 & E3 & E4); auto. unfold pq_shown. congruence.
  - revert G. apply Forall_impl. now intros d [_ X].
  - revert G'. apply Forall_impl. now intros d [_ X].
Qed.
Print Assumptions C84_pq_table_determines.
Theorem C84_div_table_determines : forall sort sort' repeats ds ds' t, sorts div_lt sort -> sorts div_lt sort' ->
  Forall (fun d => good_name (v_name d)) ds -> Forall (fun d => good_name (v_name d)) ds' ->
  div_print_data sort repeats ds = Ok t -> div_print_data sort' repeats ds' = Ok t ->
  map div_shown (sort ds) = map div_shown (sort' ds') /\ Permutation (map div_shown ds) (map div_shown ds').
Proof.
  intros sort sort' repeats ds ds' t Hs Hs' Hg Hg' H H'. destruct (Hs ds) as [P _], (Hs' ds') as [P' _].
  assert (G : Forall (fun d => good_name (v_name d)) (sort ds)) by (eapply Permutation_Forall; [symmetry; exact P|exact Hg]).
  assert (G' : Forall (fun d => good_name (v_name d)) (sort' ds')) by (eapply Permutation_Forall; [symmetry; exact P'|exact Hg']).
  assert (Q : Forall (fun d => plain (v_name d)) (sort ds)) by (revert G; apply Forall_impl; now intros d [X _]).
  assert (Q' : Forall (fun d => plain (v_name d)) (sort' ds')) by (revert G'; apply Forall_impl; now intros d [X _]).
  rewrite div_data_ok in H, H' by auto. rewrite <- H' in H. clear H'. apply (f_equal (fun r => match r with Ok x => x | _ => [] end)) in H.
  apply app_inv_head, app_inv_head, app_inv_head, app_inv_head in H. apply (f_equal Lines.lines) in H.
  rewrite <- (app_nil_r (List.concat (map _ (sort ds)))), <- (app_nil_r (List.concat (map _ (sort' ds')))) in H.
  rewrite (rows_lines div_specs (sort ds)), (rows_lines div_specs (sort' ds')), !app_nil_r in H by now apply div_rows_no_newline.
  apply (rows_same div_specs _ _ div_shown (fun d => trimmed (v_name d))) in H.
  - split; auto. rewrite <- P, <- P', H. reflexivity.
  - intros d d' Hd Hd' E. apply div_row_inj in E as (E1 & E2 & E3); auto. unfold div_shown. congruence.
  - revert G. apply Forall_impl. now intros d [_ X].
  - revert G'. apply Forall_impl. now intros d [_ X].
Qed.
Print Assumptions C84_div_table_determines.
Theorem C84_names_good : (forall q, good_name (name_of_queue q)) /\ (forall std f, plain (shown_ratio f) -> good_name (name_of_finder std f)).
Proof. split; [exact queue_name_good|exact finder_name_good]. Qed.
Print Assumptions C84_names_good.

(** So does the line that is printed after each run, whatever the name is. *)
Theorem C84_line_determines : (forall d d', pq_print_one d = pq_print_one d' -> pq_shown d = pq_shown d') /\
  (forall d d', div_print_one d = div_print_one d' -> div_shown d = div_shown d').
Proof.
  split; intros d d' H.
  - apply pq_one_inj in H as (E1 & E2 & E3 & E4). unfold pq_shown. congruence.
  - apply div_one_inj in H as (E1 & E2 & E3). unfold div_shown. congruence.
Qed.
Print Assumptions C84_line_determines.

(** Results with equal times have no order: std::sort may put either first, and the tables differ. *)
Definition first_wins : list sim_data -> list sim_data :=
  fun l => fold_right (fix ins x l := match l with [] => [x] | y :: l' => if data_lt y x then y :: ins x l' else x :: y :: l' end) [] l.
Definition last_wins : list sim_data -> list sim_data :=
  fun l => fold_right (fix ins x l := match l with [] => [x] | y :: l' => if data_lt x y then x :: y :: l' else y :: ins x l' end) [] l.
Lemma first_wins_sorts : sorts data_lt first_wins.
Proof.
  intros l. induction l as [|x l [P S]]; [split; [reflexivity|constructor]|]. cbn [first_wins fold_right]. fold (first_wins l). set (m := first_wins l) in *. clearbody m.
  set (ins := fix ins x l := match l with [] => [x] | y :: l' => if data_lt y x then y :: ins x l' else x :: y :: l' end).
  assert (Pi : forall m, Permutation (ins x m) (x :: m)).
  { induction m0 as [|y m0 IH]; [reflexivity|]. cbn [ins]. destruct (data_lt y x); [|reflexivity]. fold ins. rewrite IH. apply perm_swap. }
  split; [rewrite Pi; now constructor|]. clear P. induction S as [|y m S IH H]; [repeat constructor|]. cbn [ins]. fold ins. destruct (data_lt y x) eqn:E.
  - constructor; auto. eapply Permutation_Forall; [symmetry; apply Pi|]. constructor; auto. unfold data_lt in *. apply N.ltb_lt in E. apply N.ltb_ge. lia.
  - constructor; [now constructor|]. constructor; auto. revert H. apply Forall_impl. intros z Hz. unfold data_lt in *. apply N.ltb_ge in E, Hz. apply N.ltb_ge. lia.
Qed.
Lemma last_wins_sorts : sorts data_lt last_wins.
Proof.
  intros l. induction l as [|x l [P S]]; [split; [reflexivity|constructor]|]. cbn [last_wins fold_right]. fold (last_wins l). set (m := last_wins l) in *. clearbody m.
  set (ins := fix ins x l := match l with [] => [x] | y :: l' => if data_lt x y then x :: y :: l' else y :: ins x l' end).
  assert (Pi : forall m, Permutation (ins x m) (x :: m)).
  { induction m0 as [|y m0 IH]; [reflexivity|]. cbn [ins]. destruct (data_lt x y); [reflexivity|]. fold ins. rewrite IH. apply perm_swap. }
  split; [rewrite Pi; now constructor|]. clear P. induction S as [|y m S IH H]; [repeat constructor|]. cbn [ins]. fold ins. destruct (data_lt x y) eqn:E.
  - constructor; [now constructor|]. unfold data_lt in *. apply N.ltb_lt in E. constructor; [apply N.ltb_ge; lia|]. revert H. apply Forall_impl. intros z Hz. apply N.ltb_ge in Hz. apply N.ltb_ge. lia.
  - constructor; auto. eapply Permutation_Forall; [symmetry; apply Pi|]. constructor; auto.
Qed.
Theorem C84_order_refuted : exists sort sort' ds, sorts data_lt sort /\ sorts data_lt sort' /\ Forall (fun d => good_name (d_name d)) ds /\
  pq_print_data sort ds <> pq_print_data sort' ds.
Proof.
  exists first_wins, last_wins, [mk_data (name_of_queue (QStl true)) 5 7 2048; mk_data (name_of_queue (QHeap false true false)) 12345 7 1000000].
  split; [exact first_wins_sorts|]. split; [exact last_wins_sorts|]. split; [repeat constructor; apply queue_name_good|]. vm_compute. discriminate.
Qed.
Print Assumptions C84_order_refuted.

Example C84_nonvacuous :
  pq_print_data first_wins [mk_data (name_of_queue (QHeap false true false)) 12345 1070 1000000; mk_data (name_of_queue (QStl true)) 5 7 2048] =
    Ok (List.concat (map (fun s => txt s ++ [newline])
      ["*** Simulation outcome ***"; "  stlset on spans                       7ms      5cmps   2kb"; "  heap(si dedup) dectop on elements 1,070ms 12,345cmps 976kb"]%string)) /\
  div_print_one (mk_div_data (txt "a b") 1000 7) = txt "a b 1,000 ms 7 eqs" ++ [newline].
Proof. split; vm_compute; reflexivity. Qed.
