(** Properties of the layout part of ColumnPrinter (C42) and of commafy (C43). *)
From Coq Require Import List Arith Bool NArith Ascii String Lia.
From Verif.Base Require Import Res Text.
From Verif.Spec Require Import Table.
From Verif.Output Require Import Columns ColumnsProofs.
Import ListNotations.
Local Notation length := List.length.

(** [k] is the column the user described with [c]. *)
Definition describes (c : col) (k : column) : Prop :=
  before k = c_prefix c /\ after k = c_suffix c /\ fill_right k = c_flushLeft c /\ column_lines (c_text c) (lines k).
Lemma describes_laid_out c k : describes c k <-> laid_out c k.
Proof.
  split.
  - intros (H1 & H2 & H3 & H4). exists (lines k). split; auto. destruct k; cbn in *. unfold to_column. congruence.
  - intros (ls & H & ->). repeat split; auto.
Qed.
Lemma describes_all cs ks : Forall2 describes cs ks -> Forall2 laid_out cs ks.
Proof. induction 1; constructor; auto. now apply describes_laid_out. Qed.

(** Every text has lines, in one way only, so that the columns meant are determined. *)
Theorem C42_columns_exist (cs : list col) : exists ks, Forall2 describes cs ks /\ forall ks', Forall2 describes cs ks' -> ks' = ks.
Proof.
  destruct (laid_out_exist cs) as [ks H]. exists ks. split; [induction H; constructor; auto; now apply describes_laid_out|].
  intros ks' H'. apply describes_all in H'. clear - H H'. revert ks' H'. induction H as [|c k cs ks (ls & H & ->) _ IH]; intros ks' H'; inversion H'; subst; auto.
  destruct H2 as (ls' & H2 & ->). rewrite (column_lines_unique _ _ _ H H2). f_equal. auto.
Qed.
Print Assumptions C42_columns_exist.

(** print() always succeeds and prints exactly the table. *)
Theorem C42_prints_table (p : printer) (ks : list column) : Forall2 describes (cols p) ks -> print p = Ok (table (prefix p) ks).
Proof. intros H. apply print_table. now apply describes_all. Qed.
Print Assumptions C42_prints_table.

(** In the output, the cell in row [r] of column number [i] begins [r * row_length + column_start i] characters from the start, where neither
    number depends on the row, and it is as wide as the column; it consists of the line and of filling on the chosen side. *)
Theorem C42_aligned (p : printer) (ks : list column) : Forall2 describes (cols p) ks ->
  exists out, print p = Ok out /\
  length out = row_count ks * row_length (prefix p) ks /\
  (forall r, r < row_count ks ->
     firstn (length (prefix p)) (skipn (r * row_length (prefix p) ks) out) = prefix p /\
     nth_error out (r * row_length (prefix p) ks + (row_length (prefix p) ks - 1)) = Some newline) /\
  (forall r i k, r < row_count ks -> nth_error ks i = Some k ->
     let line := fst (nth r (lines k) ([], space)) in
     let filler := snd (nth r (lines k) ([], space)) in
     let shown := firstn (width k) (skipn (r * row_length (prefix p) ks + column_start (prefix p) ks i) out) in
     length line <= width k /\ length shown = width k /\
     shown = if fill_right k then line ++ repeat filler (width k - length line) else repeat filler (width k - length line) ++ line) /\
  (forall k, In k ks -> lines k <> [] -> exists l, In l (lines k) /\ length (fst l) = width k).
Proof.
  intros H. exists (table (prefix p) ks). split; [now apply C42_prints_table|]. split; [|split; [|split]].
  - unfold table. generalize (row_count ks). intros n. generalize 0. induction n as [|n IH]; intros s; auto. cbn [seq map List.concat]. rewrite app_length, row_length_ok, IH. lia.
  - intros r Hr. pose proof (row_at (prefix p) ks r Hr) as E. set (L := row_length (prefix p) ks) in *.
    assert (HL : length (prefix p) + 1 <= L) by (unfold L, row_length; lia).
    assert (E1 : skipn (r * L) (table (prefix p) ks) = row (prefix p) ks r ++ skipn L (skipn (r * L) (table (prefix p) ks))) by (rewrite <- E; symmetry; apply firstn_skipn).
    split.
    + rewrite E1. unfold row. rewrite <- !app_assoc. apply firstn_app_exact.
    + assert (N : forall (l : text) a b, nth_error l (a + b) = nth_error (skipn a l) b).
      { intros l a. revert l. induction a as [|a IH]; intros l b; auto. destruct l; [now destruct b|]. apply IH. }
      rewrite N, E1, nth_error_app1 by (rewrite row_length_ok; fold L; lia). pose proof (row_length_ok (prefix p) ks r) as HR. fold L in HR. unfold row in *.
      rewrite app_assoc in *. set (x := prefix p ++ _) in *. rewrite app_length in HR. cbn [List.length] in HR. rewrite nth_error_app2 by lia. replace (L - 1 - length x) with 0 by lia. reflexivity.
  - intros r i k Hr Hk. cbv zeta. rewrite (cell_at (prefix p) ks r i k Hr Hk). split; [apply nth_width|]. split; [apply cell_length|]. reflexivity.
  - intros k _ Hk. unfold width. clear H. induction (lines k) as [|l ls IH]; [congruence|]. cbn [map]. change (list_max (?x :: ?l)) with (Nat.max x (list_max l)).
    destruct ls as [|l' ls]; [exists l; split; [now left|symmetry; apply Nat.max_0_r]|]. destruct (IH ltac:(discriminate)) as (m & Hm & E).
    unfold text in *. rewrite <- E. destruct (Nat.max_spec (length (fst l)) (length (fst m))) as [[_ X]|[_ X]]; rewrite X; [exists m; split; [now right|auto]|exists l; split; [now left|auto]].
Qed.
Print Assumptions C42_aligned.

(** What is written into columns: operator[] reaches the text of the column and of no other, and repeatToEndOfLine ends the current line
    of each column, to be filled up with the given character. *)
Theorem C42_write (p : printer) i c t : nth_error (cols p) i = Some c ->
  exists p', write p i t = Ok p' /\ prefix p' = prefix p /\ length (cols p') = length (cols p) /\
  (forall j, j <> i -> nth_error (cols p') j = nth_error (cols p) j) /\
  nth_error (cols p') i = Some (mk_col (c_prefix c) (c_text c ++ t) (c_suffix c) (c_flushLeft c)).
Proof.
  intros H. unfold write. rewrite (write_at_ok _ _ _ _ H). cbn [bind]. eexists. split; [reflexivity|]. cbn [cols prefix]. split; auto.
  pose proof (nth_error_firstn_split _ _ _ H) as E. assert (Hi : length (firstn i (cols p)) = i).
  { rewrite firstn_length. assert (i < length (cols p)) by (apply nth_error_Some; congruence). lia. }
  split; [|split].
  - rewrite E at 3. rewrite !app_length. reflexivity.
  - intros j Hj. rewrite E at 3. destruct (Nat.lt_ge_cases j i).
    + rewrite !nth_error_app1 by lia. reflexivity.
    + rewrite !nth_error_app2 by lia. rewrite Hi. destruct (j - i) as [|m] eqn:Hm; [lia|]. reflexivity.
  - rewrite nth_error_app2 by lia. rewrite Hi, Nat.sub_diag. reflexivity.
Qed.
Print Assumptions C42_write.

Theorem C42_repeat_to_end_of_line (p : printer) ch : ch <> newline ->
  repeat_all p ch = Ok (mk_printer (map (fun c => mk_col (c_prefix c) (c_text c ++ [nul; ch]) (c_suffix c) (c_flushLeft c)) (cols p)) (prefix p)) /\
  forall t ls l, closed_lines t ls -> plain l -> column_lines ((t ++ l) ++ [nul; ch]) (ls ++ [(l, ch)]).
Proof.
  intros Hc. split.
  - unfold repeat_all. destruct (Ascii.eqb_spec ch newline); [congruence|]. unfold column_count.
    assert (G : forall done todo, repeat_from (length todo) (length done) ch (mk_printer (done ++ todo) (prefix p)) =
      Ok (mk_printer (done ++ map (fun c => mk_col (c_prefix c) (c_text c ++ [nul; ch]) (c_suffix c) (c_flushLeft c)) todo) (prefix p))).
    { intros done todo. revert done. induction todo as [|c todo IH]; intros done; auto. cbn [List.length repeat_from]. unfold repeat_col, write. cbn [cols prefix].
      rewrite (write_at_ok _ _ _ c) by (rewrite nth_error_app2, Nat.sub_diag; auto). cbn [bind].
      rewrite firstn_app_exact. replace (skipn (S (length done)) (done ++ c :: todo)) with todo.
      - specialize (IH (done ++ [write_col c [null_char; ch]])). rewrite app_length in IH. cbn [List.length] in IH. rewrite Nat.add_1_r, <- !app_assoc in IH. cbn [app] in IH. rewrite IH. reflexivity.
      - change (c :: todo) with ([c] ++ todo). rewrite app_assoc. symmetry. apply skipn_app_exact. rewrite app_length. cbn. lia. }
    specialize (G [] (cols p)). cbn [app] in G. destruct p; exact G.
  - intros t ls l Ht Hl. rewrite <- app_assoc. apply closed_app; auto. apply cl_fill; auto. constructor.
Qed.
Print Assumptions C42_repeat_to_end_of_line.

(** The overload that prints to a FILE prints the same unless there is a null character in the output, where it stops. *)
Theorem C42_file (p : printer) out : print p = Ok out -> ~ In nul out -> print_file p = Ok out.
Proof. intros H Hn. unfold print_file. rewrite H. cbn [bind]. now rewrite c_str_same. Qed.
Print Assumptions C42_file.
Theorem C42_file_refuted : exists p out, print p = Ok out /\ print_file p <> Ok out.
Proof.
  exists (mk_printer [mk_col (txt "a") ([nul; nul] ++ txt "bc") (txt "d") true] (txt "")), (txt "a" ++ [nul; nul] ++ txt "d" ++ [newline] ++ txt "abcd" ++ [newline]).
  split; [reflexivity|]. vm_compute. discriminate.
Qed.
Print Assumptions C42_file_refuted.

Definition example_printer : printer :=
  mk_printer [mk_col (txt " ") (txt "ab" ++ [newline] ++ txt "c") (txt "|") true; mk_col (txt "") (txt "1" ++ [nul; "."%char] ++ txt "234" ++ [newline] ++ txt "56") (txt "") false] (txt ">").
Example C42_example : print example_printer = Ok (txt "> ab|..1" ++ [newline] ++ txt "> c |234" ++ [newline] ++ txt ">   | 56" ++ [newline]) /\
  exists ks, Forall2 describes (cols example_printer) ks /\ row_count ks = 3.
Proof.
  split; [reflexivity|]. destruct (C42_columns_exist (cols example_printer)) as (ks & H & _). exists ks. split; auto.
  inversion H as [|? k1 ? ? (_ & _ & _ & H1) Hr]; subst. inversion Hr as [|? k2 ? ? (_ & _ & _ & H2) He]; subst. inversion He; subst.
  assert (P : forall l, (forall c, In c l -> c <> newline /\ c <> nul) -> plain l) by (intros l Hl; split; intros X; apply Hl in X; tauto).
  assert (E1 : lines k1 = [(txt "ab", space); (txt "c", space)]).
  { eapply column_lines_unique; [exact H1|]. apply (cl_newline (txt "ab")); [|apply cl_last; [|discriminate]]; apply P; cbn; intros c X; decompose [or] X; try tauto; subst; split; discriminate. }
  assert (E2 : lines k2 = [(txt "1", "."%char); (txt "234", space); (txt "56", space)]).
  { eapply column_lines_unique; [exact H2|]. apply (cl_fill (txt "1")); [|apply (cl_newline (txt "234")); [|apply cl_last; [|discriminate]]];
      apply P; cbn; intros c X; decompose [or] X; try tauto; subst; split; discriminate. }
  unfold row_count. cbn [map]. rewrite E1, E2. reflexivity.
Qed.

(** commafy *)
Theorem C43_commafy (n : N) : exists digits, denotes digits n /\ grouped digits (commafy n) /\ filter (fun c => negb (Ascii.eqb c ","%char)) (commafy n) = digits.
Proof.
  exists (decimal n). split; [apply decimal_denotes|]. split; [apply commafy_grouped|]. apply grouped_strip; [apply commafy_grouped|apply decimal_no_comma].
Qed.
Print Assumptions C43_commafy.
Theorem C43_commafy_injective (n m : N) : commafy n = commafy m -> n = m.
Proof.
  intros H. apply decimal_inj. rewrite <- (grouped_strip _ _ (commafy_grouped n) (decimal_no_comma n)), <- (grouped_strip _ _ (commafy_grouped m) (decimal_no_comma m)). congruence.
Qed.
Print Assumptions C43_commafy_injective.
Example C43_example : commafy 123456789 = txt "123,456,789" /\ commafy 0 = txt "0" /\ commafy 999 = txt "999" /\ commafy 1000 = txt "1,000" /\
  commafy 18446744073709551615 = txt "18,446,744,073,709,551,615".
Proof. repeat split. Qed.
