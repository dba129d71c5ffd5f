(** Proofs about Cli/Help.v. *)
From Coq Require Import List Arith Bool NArith Ascii String Sorted Permutation Lia.
From Verif.Base Require Import Order Res Sort Text.
From Verif.Spec Require Import CommandLine Table Wrap.
From Verif.Output Require Import Columns ColumnsProofs ColumnsProperties Display DisplayProofs DisplayFits DisplayProperties.
From Verif.Cli Require Import Error Names Params Parser Proofs Help.
Import ListNotations.
Local Notation length := List.length.
Local Notation concat := List.concat.

(** ** Sorting by a key *)
Lemma isort_map {A B} (lt : B -> B -> bool) (f : A -> B) l : map f (isort (fun a b => lt (f a) (f b)) l) = isort lt (map f l).
Proof.
  induction l as [|a l IH]; auto. unfold isort in *. cbn [map fold_right]. rewrite <- IH. set (k := fold_right _ [] l). clearbody k. clear IH.
  induction k as [|b k IH]; auto. cbn [sinsert map]. destruct (lt (f b) (f a)); cbn [map]; [now rewrite IH|reflexivity].
Qed.
Lemma key_strict_weak {A B} (lt : B -> B -> bool) (f : A -> B) : strict_weak lt -> strict_weak (fun a b => lt (f a) (f b)).
Proof. intros [H1 H2 H3]. split; [intros a; apply H1|intros a b c; apply H2|intros a b c; apply H3]. Qed.

(** ** The actions of a parser *)
(** Every action is registered under the name it gives itself. *)
Definition registers (p : parser) (es : list entry) : Prop := f_pairs (actions p) = map (fun e => (e_name e, Ret (Some e))) es.
Definition by_name (a b : entry) : bool := tless (e_name a) (e_name b).
Lemma registers_names p es : registers p es -> map fst (f_pairs (actions p)) = map e_name es.
Proof. intros H. rewrite H, map_map. reflexivity. Qed.
Lemma registered_names_ok p es : registers p es -> registered_names p = map e_name (isort by_name es).
Proof.
  intros H. unfold registered_names, names_with_prefix. rewrite (registers_names p es H), (isort_map tless). cbn [app]. f_equal.
  induction (map e_name es) as [|n l IH]; auto. cbn. now rewrite IH.
Qed.
Lemma create_action_resolved p es prefix name e : registers p es -> NoDup (map e_name es) -> In e es -> name = e_name e -> resolves (map e_name es) prefix name -> create_action p prefix = Ret e.
Proof.
  intros H Hd Hin -> Hr. unfold create_action, create_with_prefix. rewrite <- (registers_names p es H) in Hr. apply (unique_name_iff (actions p)) in Hr. rewrite Hr. cbn [obind].
  unfold create_null. rewrite (create_loop_in (f_pairs (actions p)) (e_name e) (Ret (Some e))); auto.
  - now rewrite (registers_names p es H).
  - rewrite H. apply in_map_iff. eauto.
Qed.
Lemma create_action_own p es e : registers p es -> NoDup (map e_name es) -> In e es -> create_action p (e_name e) = Ret e.
Proof. intros H Hd Hin. apply (create_action_resolved p es (e_name e) (e_name e) e); auto. left. split; auto. now apply in_map. Qed.

(** ** The overview *)
Definition listed (f : entry -> text) (es : list entry) : text := concat (map (fun e => f e ++ [newline]) es).
Definition with_texts (t0 t1 : text) : printer := mk_printer [mk_col (txt " ") t0 [] false; mk_col (txt " - ") t1 [] true] [].
Lemma write_0 t0 t1 t : write (with_texts t0 t1) 0 t = Ok (with_texts (t0 ++ t) t1).
Proof. reflexivity. Qed.
Lemma write_1 t0 t1 t : write (with_texts t0 t1) 1 t = Ok (with_texts t0 (t1 ++ t)).
Proof. reflexivity. Qed.
Lemma list_actions_ok p es : registers p es -> NoDup (map e_name es) -> forall ks t0 t1, (forall e, In e ks -> In e es) ->
  list_actions p (map e_name ks) (with_texts t0 t1) = Ret (with_texts (t0 ++ listed e_name ks) (t1 ++ listed e_short ks)).
Proof.
  intros H Hd. induction ks as [|e ks IH]; intros t0 t1 Hk; cbn [map list_actions].
  - unfold listed. cbn. now rewrite !app_nil_r.
  - rewrite (create_action_own p es e) by (auto; apply Hk; now left). cbn [obind]. rewrite write_0, write_1.
    rewrite IH by (intros; apply Hk; now right). unfold listed. cbn [map List.concat]. now rewrite !app_assoc.
Qed.
Lemma listed_lines f es : Forall (fun e => plain (f e)) es -> column_lines (listed f es) (map (fun e => (f e, space)) es).
Proof.
  induction 1 as [|e es H _ IH]; [constructor|]. unfold listed. cbn [map List.concat]. rewrite <- app_assoc. cbn [app]. now apply cl_newline.
Qed.

Definition pad (n : nat) : text := repeat space n.
Definition name_width (es : list entry) : nat := list_max (map (fun e => length (e_name e)) es).
Definition short_width (es : list entry) : nat := list_max (map (fun e => length (e_short e)) es).
(** The line of an action in the overview, without and with what fills it up. *)
Definition overview_line (es : list entry) (e : entry) : text := txt " " ++ pad (name_width es - length (e_name e)) ++ e_name e ++ txt " - " ++ e_short e.
Definition overview_row (es : list entry) (e : entry) : text := overview_line es e ++ pad (short_width es - length (e_short e)) ++ [newline].

Lemma nth_seq_map {A B} (f : A -> B) (d : A) l : map (fun r => f (nth r l d)) (seq 0 (length l)) = map f l.
Proof.
  assert (G : forall s m, length m = s -> map (fun r => f (nth r (m ++ l) d)) (seq s (length l)) = map f l).
  { induction l as [|a l IH]; intros s m Hs; auto. cbn [List.length seq map]. f_equal.
    - rewrite app_nth2 by lia. now rewrite Hs, Nat.sub_diag.
    - rewrite <- (IH (S s) (m ++ [a])) by (rewrite app_length; cbn; lia). rewrite <- app_assoc. reflexivity. }
  exact (G 0 [] eq_refl).
Qed.
Lemma overview_table es : Forall (fun e => plain (e_name e) /\ plain (e_short e)) es ->
  print (with_texts (listed e_name es) (listed e_short es)) = Ok (concat (map (overview_row es) es)).
Proof.
  intros H. set (k0 := mk_column (txt " ") [] false (map (fun e => (e_name e, space)) es)). set (k1 := mk_column (txt " - ") [] true (map (fun e => (e_short e, space)) es)).
  rewrite (C42_prints_table _ [k0; k1]).
  - f_equal. unfold table. assert (Hr : row_count [k0; k1] = length es) by (unfold row_count; cbn; rewrite !map_length; lia). rewrite Hr.
    rewrite <- (nth_seq_map (overview_row es) (mk_entry [] [] [] [] no_direct) es). f_equal. apply map_ext_in. intros r Hin. apply in_seq in Hin.
    unfold row. cbn [map List.concat with_texts prefix app before after k0 k1]. unfold cell, fill. cbn [fill_right lines k0 k1].
    assert (N : forall f d, nth r (map (fun e : entry => (f e : text, space)) es) ([], space) = (f (nth r es d), space)).
    { intros f d. rewrite (nth_indep _ _ (f d, space)) by (rewrite map_length; lia). exact (map_nth (fun e => (f e, space)) es d r). }
    rewrite !(N _ (mk_entry [] [] [] [] no_direct)). cbn [fst snd]. unfold overview_row, overview_line, pad, width, name_width, short_width. cbn [lines k0 k1]. rewrite !map_map. cbn [fst].
    rewrite !app_nil_r, <- !app_assoc. reflexivity.
  - cbn [with_texts cols]. pose proof (Forall_and_inv _ _ H) as H0.
    constructor; [|constructor; [|constructor]]; (split; [reflexivity|split; [reflexivity|split; [reflexivity|]]]); cbn [lines c_text k0 k1]; apply listed_lines; tauto.
Qed.
Lemma overview_message p es : registers p es -> NoDup (map e_name es) -> Forall (fun e => plain (e_name e) /\ plain (e_short e)) es ->
  display_overview p = written (display (pre_message p ++ [newline] ++ concat (map (overview_row (isort by_name es)) (isort by_name es)) ++ [newline] ++ post_message p ++ [newline]) []).
Proof.
  intros H Hd Hp. unfold display_overview. rewrite (registered_names_ok p es H). cbv zeta.
  match goal with |- context [list_actions p ?n ?pr] => change pr with (with_texts [] []) end.
  rewrite (list_actions_ok p es H Hd (isort by_name es) [] []) by (intros e He; apply (Permutation_in _ (isort_perm by_name es)); auto). cbn [obind app].
  rewrite overview_table.
  - reflexivity.
  - apply Forall_forall. intros e He. rewrite Forall_forall in Hp. apply Hp. apply (Permutation_in _ (isort_perm by_name es)). auto.
Qed.

(** ** Words *)
Lemma words_sep a b : words (a ++ [newline] ++ b) = words a ++ words b.
Proof. now apply words_break. Qed.
Lemma pad_white n : Forall (fun c => white c = true) (pad n).
Proof. unfold pad. apply Forall_forall. intros c Hc. apply repeat_spec in Hc. now subst. Qed.
Lemma words_row es e : words (overview_row es e) = words (e_name e) ++ [txt "-"] ++ words (e_short e).
Proof.
  unfold overview_row, overview_line. change (txt " " ++ pad (name_width es - length (e_name e)) ++ e_name e ++ txt " - " ++ e_short e) with
    ([space] ++ pad (name_width es - length (e_name e)) ++ e_name e ++ txt " - " ++ e_short e).
  rewrite <- !app_assoc. rewrite (words_white [space]) by (repeat constructor). rewrite words_white by apply pad_white. change (txt " - ") with ([space] ++ txt "-" ++ [space]).
  rewrite <- !app_assoc. cbn [app]. rewrite (words_break (e_name e)) by reflexivity. f_equal. rewrite (words_break (txt "-")) by reflexivity. f_equal.
  remember (short_width es - length (e_short e)) as m. destruct m as [|m].
  - cbn [pad repeat app]. rewrite words_break by reflexivity. change (words []) with (@nil text). now rewrite app_nil_r.
  - change (pad (S m)) with (space :: pad m). cbn [app]. rewrite words_break by reflexivity. rewrite words_white by apply pad_white. change (words [newline]) with (@nil text). now rewrite app_nil_r.
Qed.
Lemma words_rows es ks rest : words (concat (map (overview_row es) ks) ++ rest) = concat (map (fun e => words (e_name e) ++ [txt "-"] ++ words (e_short e)) ks) ++ words rest.
Proof.
  induction ks as [|e ks IH]; auto. cbn [map List.concat]. rewrite <- app_assoc. rewrite <- (words_row es e).
  unfold overview_row at 1. rewrite <- !app_assoc, app_assoc. change ([newline] ++ concat (map (overview_row es) ks) ++ rest) with (newline :: (concat (map (overview_row es) ks) ++ rest)).
  rewrite words_break by reflexivity. rewrite IH. unfold overview_row at 1. rewrite (app_assoc (overview_line es e)), (words_break _ newline []) by reflexivity. change (words []) with (@nil text).
  rewrite app_nil_r. reflexivity.
Qed.

Lemma printable_app a b : printable (a ++ b) <-> printable a /\ printable b.
Proof. apply Forall_app. Qed.
Lemma printable_pad n : printable (pad n).
Proof. apply Forall_forall. intros c Hc. apply repeat_spec in Hc as ->. split; [cbn; lia|discriminate]. Qed.
Lemma printable_dec l : forallb (fun c => (N_of_ascii c <=? 127)%N && negb (Ascii.eqb c (ascii_of_N 0))) l = true -> printable l.
Proof.
  intros H. apply Forall_forall. intros c Hc. rewrite forallb_forall in H. apply H, andb_true_iff in Hc as [H1 H2]. apply N.leb_le in H1. apply negb_true_iff, Ascii.eqb_neq in H2. auto.
Qed.
Lemma printable_row es e : printable (e_name e) -> printable (e_short e) -> printable (overview_row es e).
Proof.
  intros H1 H2. unfold overview_row, overview_line. repeat (apply printable_app; split); auto using printable_pad; now apply printable_dec.
Qed.

(** ** Help on one action *)
Definition param_line (p : param) : text :=
  [newline] ++ txt " -" ++ p_name p ++ txt " " ++ argument_type p ++ txt "   (default is " ++ value_as_string p ++ txt ")" ++ [newline].
Definition silent (t : text) : Prop := ~ In (ascii_of_N 0) t.
Lemma argument_type_no_null p : silent (argument_type p).
Proof. unfold argument_type. destruct (p_value p); intros H; cbn in H; decompose [or] H; try discriminate; auto. Qed.
Lemma show_params_ok ps : Forall (fun p => silent (p_name (fst p)) /\ silent (value_as_string (fst p)) /\ printable (snd p)) ps ->
  exists abouts, show_params ps = Ok (concat (map (fun pa => param_line (fst (fst pa)) ++ snd pa) (combine ps abouts))) /\
  Forall2 (fun p about => display (snd p) (txt "   ") = Ok about /\ words about = words (snd p)) ps abouts.
Proof.
  induction 1 as [|p ps (H1 & H2 & H3) _ (abouts & E & F)]; [exists []; split; [reflexivity|constructor]|].
  destruct (C46_words (snd p) (txt "   ") H3) as (about & Ea & Wa).
  - intros X. cbn in X. decompose [or] X; try discriminate; auto.
  - repeat constructor.
  - exists (about :: abouts). split; [|constructor; auto]. cbn [show_params combine map List.concat fst snd]. unfold show_param. rewrite Ea. cbn [bind]. rewrite E. cbn [bind]. unfold param_line.
    rewrite (c_str_same _ H1), (c_str_same _ H2), (c_str_same _ (argument_type_no_null (fst p))). reflexivity.
Qed.
