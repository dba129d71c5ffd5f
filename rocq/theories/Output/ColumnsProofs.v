(** Proofs about Output/Columns.v. *)
From Coq Require Import List Arith Bool NArith Ascii String Lia.
From Verif.Base Require Import Res Text.
From Verif.Spec Require Import Table.
From Verif.Output Require Import Columns.
Import ListNotations.
Local Notation length := List.length.
Local Notation concat := List.concat.

Definition ends (c : ascii) : bool := Ascii.eqb c newline || Ascii.eqb c null_char.
Lemma plain_cons c l : plain (c :: l) <-> ends c = false /\ plain l.
Proof.
  unfold plain, ends. cbn [In]. rewrite orb_false_iff, !Ascii.eqb_neq. change nul with null_char. intuition congruence.
Qed.
Lemma line_width_app l t : plain l -> line_width (l ++ t) = length l + line_width t.
Proof.
  induction l as [|c l IH]; intros H; auto. apply plain_cons in H as [H1 H2]. cbn [app line_width length]. unfold ends in H1. rewrite H1, IH by auto. reflexivity.
Qed.
Lemma skipn_width l t : plain l -> line_width t = 0 -> skipn (line_width (l ++ t)) (l ++ t) = t.
Proof. intros H1 H2. rewrite line_width_app, H2, Nat.add_0_r by auto. now rewrite skipn_app, skipn_all, Nat.sub_diag. Qed.
Lemma print_line_app pad l t : plain l -> print_line pad (l ++ t) = let* (shown, rest) := print_line pad t in Ok (l ++ shown, rest).
Proof.
  induction l as [|c l IH]; intros H.
  - cbn [app]. now destruct (print_line pad t) as [[? ?]| | |].
  - apply plain_cons in H as [H1 H2]. cbn [app print_line]. unfold ends in H1. apply orb_false_iff in H1 as [-> ->]. rewrite IH by auto.
    now destruct (print_line pad t) as [[? ?]| | |].
Qed.

(** What is left after the first line, for all the ways in which it can end. *)
Inductive first_line : text -> text -> ascii -> text -> Prop :=
| fl_end l : plain l -> first_line l l space []
| fl_newline l t : plain l -> first_line (l ++ newline :: t) l space t
| fl_fill l c t : plain l -> first_line (l ++ nul :: c :: t) l c t
| fl_fill_end l : plain l -> first_line (l ++ [nul]) l space [].

Lemma first_line_split t : exists l pad rest, first_line t l pad rest /\ (t <> [] -> length rest < length t).
Proof.
  induction t as [|c t (l & pad & rest & H & Hl)].
  - exists [], space, []. split; [apply fl_end; split; intros []|congruence].
  - destruct (Ascii.eqb_spec c newline) as [->|Hn]; [|destruct (Ascii.eqb_spec c nul) as [->|H0]].
    + exists [], space, t. split; [apply (fl_newline []); split; intros []|cbn; lia].
    + destruct t as [|d t].
      * exists [], space, []. split; [apply (fl_fill_end []); split; intros []|cbn; lia].
      * exists [], d, t. split; [apply (fl_fill []); split; intros []|cbn; lia].
    + assert (Hp : forall k, plain k -> plain (c :: k)).
      { intros k Hk. apply plain_cons. split; auto. unfold ends. change null_char with nul. apply orb_false_iff. now rewrite !Ascii.eqb_neq. }
      exists (c :: l), pad, rest. split.
      * destruct H; [apply fl_end|apply (fl_newline (c :: l))|apply (fl_fill (c :: l))|apply (fl_fill_end (c :: l))]; auto.
      * intros _. destruct t; [inversion H; subst; try (destruct l; discriminate); cbn; lia|]. specialize (Hl ltac:(discriminate)). cbn [length] in *. lia.
Qed.

Lemma first_line_code t l pad rest : first_line t l pad rest ->
  line_width t = length l /\ pad_char t = pad /\ print_line pad t = Ok (l, rest).
Proof.
  assert (E0 : Ascii.eqb newline null_char = false) by reflexivity.
  intros H. unfold pad_char. destruct H as [l H|l t H|l c t H|l H].
  - pose proof (line_width_app l [] H) as E. cbn in E. rewrite app_nil_r in E. rewrite E, Nat.add_0_r, skipn_all. split; auto. split; auto.
    pose proof (print_line_app space l [] H) as E1. cbn in E1. now rewrite !app_nil_r in E1.
  - rewrite skipn_width by auto. rewrite line_width_app by auto. split; [cbn; lia|]. split; [destruct t; reflexivity|].
    rewrite print_line_app by auto. cbn. now rewrite app_nil_r.
  - rewrite skipn_width by auto. rewrite line_width_app by auto. split; [cbn; lia|]. split; [reflexivity|].
    rewrite print_line_app by auto. cbn [print_line bind]. change (Ascii.eqb nul newline) with false. change (Ascii.eqb nul null_char) with true. cbn [orb].
    rewrite Ascii.eqb_refl. cbn. now rewrite app_nil_r.
  - rewrite skipn_width by auto. rewrite line_width_app by auto. split; [cbn; lia|]. split; [reflexivity|].
    rewrite print_line_app by auto. cbn. now rewrite app_nil_r.
Qed.

(** Lines one after the other. *)
Lemma column_lines_cons t l pad rest ls : first_line t l pad rest -> t <> [] -> column_lines rest ls -> column_lines t ((l, pad) :: ls).
Proof.
  intros H Hn Hr. destruct H as [l H|l t H|l c t H|l H]; try (constructor; auto; fail).
  - inversion Hr; subst; try (destruct l0; discriminate); [now apply cl_last|congruence].
  - inversion Hr; subst; try (destruct l0; discriminate); [now apply cl_fill_end|congruence].
Qed.
Lemma column_lines_exist t : exists ls, column_lines t ls.
Proof.
  remember (length t) as n eqn:Hn. revert t Hn. induction n as [n IH] using lt_wf_ind. intros t ->.
  destruct t as [|c t]; [exists []; constructor|]. destruct (first_line_split (c :: t)) as (l & pad & rest & H & Hl). specialize (Hl ltac:(discriminate)).
  destruct (IH _ Hl rest eq_refl) as [ls Hls]. exists ((l, pad) :: ls). eapply column_lines_cons; eauto. discriminate.
Qed.
Lemma column_lines_inv t ls : column_lines t ls -> t <> [] ->
  exists l pad rest ls', ls = (l, pad) :: ls' /\ first_line t l pad rest /\ column_lines rest ls' /\ length rest < length t.
Proof.
  intros H Hn. destruct H as [|l H Hl|l t ls H Hr|l c t ls H Hr|l H]; [congruence| | | |].
  - exists l, space, [], []. repeat split; auto; try apply H; [now apply fl_end|constructor|]. destruct l; [congruence|cbn; lia].
  - exists l, space, t, ls. split; auto. split; [now apply fl_newline|]. split; auto. rewrite app_length. cbn. lia.
  - exists l, c, t, ls. split; auto. split; [now apply fl_fill|]. split; auto. rewrite app_length. cbn. lia.
  - exists l, space, [], []. split; auto. split; [now apply fl_fill_end|]. split; [constructor|]. rewrite app_length. cbn. lia.
Qed.
Lemma column_lines_nil t : column_lines t [] -> t = [].
Proof. intros H. inversion H; auto. Qed.
Lemma column_lines_of_nil ls : column_lines [] ls -> ls = [].
Proof.
  intros H. inversion H; auto; try (destruct l; discriminate). congruence.
Qed.
Lemma column_lines_count t ls : column_lines t ls -> length ls <= length t.
Proof.
  induction 1 as [|l H Hl|l t ls H Hr IH|l c t ls H Hr IH|l H]; rewrite ?app_length; cbn [length]; try lia. destruct l; [congruence|cbn; lia].
Qed.
Lemma column_lines_unique t : forall ls ks, column_lines t ls -> column_lines t ks -> ls = ks.
Proof.
  remember (length t) as n eqn:Hn. revert t Hn. induction n as [n IH] using lt_wf_ind. intros t -> ls ks H1 H2.
  destruct t as [|c t]; [apply column_lines_of_nil in H1, H2; congruence|].
  destruct (column_lines_inv _ _ H1 ltac:(discriminate)) as (l & pad & rest & ls' & -> & F1 & R1 & L1).
  destruct (column_lines_inv _ _ H2 ltac:(discriminate)) as (k & pad' & rest' & ks' & -> & F2 & R2 & L2).
  apply first_line_code in F1 as (W1 & P1 & E1), F2 as (W2 & P2 & E2). assert (pad' = pad) as -> by congruence.
  rewrite E1 in E2. injection E2 as <- <-. f_equal. eapply IH; eauto.
Qed.

Definition line_lengths (ls : list (text * ascii)) : list nat := map (fun l => length (fst l)) ls.
Lemma max_width_ok t : forall ls fuel acc, column_lines t ls -> length t <= fuel -> max_width fuel t acc = Ok (Nat.max acc (list_max (line_lengths ls))).
Proof.
  remember (length t) as n eqn:Hn. revert t Hn. induction n as [n IH] using lt_wf_ind. intros t -> ls fuel acc H Hf.
  destruct t as [|c0 t0]; [apply column_lines_of_nil in H as ->; destruct fuel; cbn; f_equal; lia|].
  destruct fuel as [|fuel]; [cbn in Hf; lia|]. set (t := c0 :: t0) in *.
  destruct (column_lines_inv _ _ H ltac:(discriminate)) as (l & pad & rest & ls' & -> & F & R & L).
  change (max_width (S fuel) t acc) with
    (let w := line_width t in
     let maxWidth' := if acc <? w then w else acc in
     match skipn w t with
     | [] => Ok maxWidth'
     | c :: rest =>
         if Ascii.eqb c null_char then match rest with [] => Ok maxWidth' | _ :: rest' => max_width fuel rest' maxWidth' end
         else if Ascii.eqb c newline then max_width fuel rest maxWidth' else max_width fuel (c :: rest) maxWidth'
     end).
  cbv zeta. change (list_max (line_lengths ((l, pad) :: ls'))) with (Nat.max (length l) (list_max (line_lengths ls'))).
  assert (Hw : (if acc <? length l then length l else acc) = Nat.max acc (length l)) by (destruct (Nat.ltb_spec acc (length l)); lia).
  pose proof (first_line_code _ _ _ _ F) as (W & _ & _). rewrite W, Hw, Nat.max_assoc. clearbody t. generalize dependent (Nat.max acc (length l)). intros acc' _. clear acc W.
  destruct F as [l F|l t F|l c t F|l F].
  - rewrite skipn_all. apply column_lines_of_nil in R as ->. cbn. now rewrite Nat.max_0_r.
  - rewrite skipn_app, skipn_all, Nat.sub_diag. cbn [skipn app]. change (Ascii.eqb newline null_char) with false. rewrite Ascii.eqb_refl. eapply IH; eauto. lia.
  - rewrite skipn_app, skipn_all, Nat.sub_diag. cbn [skipn app]. change (Ascii.eqb nul null_char) with true. eapply IH; eauto. lia.
  - rewrite skipn_app, skipn_all, Nat.sub_diag. cbn [skipn app]. change (Ascii.eqb nul null_char) with true. apply column_lines_of_nil in R as ->. cbn. now rewrite Nat.max_0_r.
Qed.

(** The column of the specification for a column of the code whose text has the lines [ls]. *)
Definition to_column (c : col) (ls : list (text * ascii)) : column := mk_column (c_prefix c) (c_suffix c) (c_flushLeft c) ls.
Definition laid_out (c : col) (k : column) : Prop := exists ls, column_lines (c_text c) ls /\ k = to_column c ls.

Lemma laid_out_exist cs : exists ks, Forall2 laid_out cs ks.
Proof.
  induction cs as [|c cs [ks H]]; [exists []; constructor|]. destruct (column_lines_exist (c_text c)) as [ls Hl]. exists (to_column c ls :: ks). constructor; auto. now exists ls.
Qed.
Lemma widths_ok cs ks : Forall2 laid_out cs ks -> widths cs = Ok (combine cs (map width ks)).
Proof.
  induction 1 as [|c k cs ks (ls & H & ->) _ IH]; auto. cbn [widths map combine]. rewrite (max_width_ok _ ls) by auto. cbn [bind]. rewrite IH. reflexivity.
Qed.

(** After [r] rows. *)
Definition after_rows (r : nat) (t : text) (k : column) : Prop := column_lines t (skipn r (lines k)).

Lemma nth_skipn_hd {A} (l : list A) r d : nth r l d = hd d (skipn r l).
Proof. revert r. induction l as [|a l IH]; intros [|r]; auto. cbn. apply IH. Qed.
Lemma skipn_S {A} (l : list A) r : skipn (S r) l = tl (skipn r l).
Proof. revert r. induction l as [|a l IH]; intros [|r]; auto. change (skipn (S (S r)) (a :: l)) with (skipn (S r) l). rewrite IH. reflexivity. Qed.
Lemma list_max_ge l x : In x l -> x <= list_max l.
Proof. intros H. pose proof (proj1 (list_max_le l (list_max l)) (le_n _)) as F. rewrite Forall_forall in F. auto. Qed.
Lemma nth_width k r : length (fst (nth r (lines k) ([], space))) <= width k.
Proof.
  destruct (Nat.lt_ge_cases r (length (lines k))) as [Hr|Hr].
  - apply list_max_ge. apply in_map_iff. exists (nth r (lines k) ([], space)). split; auto. now apply nth_In.
  - rewrite nth_overflow by auto. cbn. lia.
Qed.

Lemma print_cell_ok c k r t : (exists ls, k = to_column c ls) -> after_rows r t k ->
  exists rest, print_cell c (width k) t = Ok (before k ++ cell r k ++ after k, rest) /\ after_rows (S r) rest k.
Proof.
  intros (ls & Hk) H. pose proof (nth_width k r) as Hw. unfold cell. rewrite nth_skipn_hd in *. unfold after_rows in *. rewrite skipn_S.
  assert (E : exists rest, line_width t = length (fst (hd ([], space) (skipn r (lines k)))) /\ pad_char t = snd (hd ([], space) (skipn r (lines k))) /\
    print_line (pad_char t) t = Ok (fst (hd ([], space) (skipn r (lines k))), rest) /\ column_lines rest (tl (skipn r (lines k)))).
  { destruct t as [|c0 t0].
    - apply column_lines_of_nil in H as ->. exists []. cbn. repeat split; constructor.
    - destruct (column_lines_inv _ _ H ltac:(discriminate)) as (l & pad & rest & ls' & -> & F & R & _). apply first_line_code in F as (W & P & E).
      exists rest. cbn [hd fst snd tl]. rewrite P. auto. }
  destruct E as (rest & W & P & E & R). exists rest. split; auto. unfold print_cell, size_minus. rewrite W, E.
  destruct (Nat.leb_spec (length (fst (hd ([], space) (skipn r (lines k))))) (width k)); [|unfold text in *; lia]. cbn [bind]. f_equal. f_equal. rewrite P. subst k. unfold fill, print_chars, to_column.
  cbn [before after fill_right]. destruct (c_flushLeft c); cbn [app]; now rewrite <- ?app_assoc.
Qed.
Lemma print_cells_ok r cs : forall ks ts, Forall2 (fun c k => exists ls, k = to_column c ls) cs ks -> Forall2 (after_rows r) ts ks ->
  exists rests, print_cells (combine cs (map width ks)) ts = Ok (concat (map (fun c => before c ++ cell r c ++ after c) ks), rests) /\ Forall2 (after_rows (S r)) rests ks.
Proof.
  induction cs as [|c cs IH]; intros ks ts H1 H2; inversion H1; subst; inversion H2; subst.
  - exists []. split; [reflexivity|constructor].
  - cbn [map combine print_cells]. destruct (print_cell_ok c y r x) as (rest & -> & Hr); auto. cbn [bind].
    destruct (IH l' l) as (rests & -> & Hs); auto. cbn [bind]. exists (rest :: rests). split; [reflexivity|now constructor].
Qed.
Lemma all_done_ok r ts ks : Forall2 (after_rows r) ts ks -> all_done ts = (row_count ks <=? r).
Proof.
  unfold row_count, all_done. induction 1 as [|t k ts ks H _ IH]; auto. cbn [forallb map]. change (list_max (length (lines k) :: ?l)) with (Nat.max (length (lines k)) (list_max l)).
  rewrite IH. unfold after_rows in H. pose proof (skipn_length r (lines k)) as Hl. destruct t as [|c t]; cbn [andb].
  - apply column_lines_of_nil in H. rewrite H in Hl. cbn in Hl. destruct (Nat.leb_spec (list_max (map (fun c => length (lines c)) ks)) r), (Nat.leb_spec (Nat.max (length (lines k)) (list_max (map (fun c => length (lines c)) ks))) r); lia.
  - destruct (skipn r (lines k)) eqn:E; [apply column_lines_nil in H; discriminate|]. cbn in Hl. symmetry. apply Nat.leb_gt. lia.
Qed.
Lemma print_rows_ok pre cs ks : Forall2 (fun c k => exists ls, k = to_column c ls) cs ks -> forall fuel r ts, Forall2 (after_rows r) ts ks -> row_count ks - r <= fuel ->
  print_rows fuel pre (combine cs (map width ks)) ts = Ok (concat (map (row pre ks) (seq r (row_count ks - r)))).
Proof.
  intros Hc. induction fuel as [|fuel IH]; intros r ts H Hf; cbn [print_rows]; rewrite (all_done_ok r ts ks H).
  - destruct (Nat.leb_spec (row_count ks) r); [|lia]. replace (row_count ks - r) with 0 by lia. reflexivity.
  - destruct (Nat.leb_spec (row_count ks) r) as [Hd|Hd].
    + replace (row_count ks - r) with 0 by lia. reflexivity.
    + destruct (print_cells_ok r cs ks ts) as (rests & -> & Hr); auto. cbn [bind]. rewrite (IH (S r)) by (auto; lia). cbn [bind].
      replace (row_count ks - r) with (S (row_count ks - S r)) by lia. cbn [seq map List.concat]. f_equal. unfold row. now rewrite <- !app_assoc.
Qed.
Lemma rows_le_text cs ks : Forall2 laid_out cs ks -> row_count ks <= list_max (map (@List.length ascii) (map c_text cs)).
Proof.
  unfold row_count. induction 1 as [|c k cs ks (ls & H & ->) _ IH]; auto. cbn [map to_column lines]. change (list_max (?x :: ?l)) with (Nat.max x (list_max l)).
  apply column_lines_count in H. unfold text in *. lia.
Qed.
Lemma print_table p ks : Forall2 laid_out (cols p) ks -> print p = Ok (table (prefix p) ks).
Proof.
  intros H. unfold print, table. rewrite (widths_ok _ ks) by auto. cbn [bind]. rewrite (print_rows_ok _ _ ks) with (r := 0).
  - now rewrite Nat.sub_0_r.
  - induction H as [|? ? ? ? (? & ? & ?)]; constructor; eauto.
  - induction H as [|? ? ? ? (? & ? & ->)]; constructor; auto.
  - rewrite Nat.sub_0_r. now apply rows_le_text.
Qed.

(** Geometry of tables. *)
Lemma fill_length right w l : length (fst l) <= w -> length (fill right w l) = w.
Proof. intros H. unfold fill. destruct right; rewrite app_length, repeat_length; unfold text in *; lia. Qed.
Lemma cell_length r k : length (cell r k) = width k.
Proof. apply fill_length, nth_width. Qed.
Lemma cells_length r ks : length (concat (map (fun c => before c ++ cell r c ++ after c) ks)) = list_sum (map (fun c => length (before c) + width c + length (after c)) ks).
Proof.
  induction ks as [|k ks IH]; auto. cbn [map List.concat]. change (list_sum (?x :: ?l)) with (x + list_sum l). rewrite <- IH, !app_length, cell_length. lia.
Qed.
Lemma row_length_ok pre ks r : length (row pre ks r) = row_length pre ks.
Proof. unfold row, row_length. rewrite !app_length, cells_length. cbn. lia. Qed.
Lemma skipn_app_exact {A} (l m : list A) n : n = length l -> skipn n (l ++ m) = m.
Proof. intros ->. now rewrite skipn_app, Nat.sub_diag, skipn_all. Qed.
Lemma skipn_blocks {A} (f : nat -> list A) n (H : forall i, length (f i) = n) m : forall k s, k < m -> skipn (k * n) (concat (map f (seq s m))) = f (s + k) ++ skipn (S k * n) (concat (map f (seq s m))).
Proof.
  induction m as [|m IH]; intros k s Hk; [lia|]. cbn [seq map List.concat]. destruct k as [|k].
  - rewrite (skipn_app_exact (f s) _ (1 * n)) by (rewrite H; lia). rewrite Nat.add_0_r. reflexivity.
  - rewrite !skipn_app, !skipn_all2 by (rewrite H; cbn; lia). rewrite H. cbn [app]. replace (S k * n - n) with (k * n) by (cbn; lia). replace (S (S k) * n - n) with (S k * n) by (cbn; lia).
    rewrite IH by lia. replace (S s + k) with (s + S k) by lia. rewrite (skipn_all2 (f s)) by (rewrite H; cbn; lia). reflexivity.
Qed.
Lemma row_at pre ks r : r < row_count ks -> firstn (row_length pre ks) (skipn (r * row_length pre ks) (table pre ks)) = row pre ks r.
Proof.
  intros H. unfold table. pose proof (skipn_blocks (A := ascii) (row pre ks) _ (row_length_ok pre ks) (row_count ks) r 0 H) as E. unfold text in *. rewrite E. rewrite Nat.add_0_l, firstn_app, row_length_ok, Nat.sub_diag, firstn_O, app_nil_r.
  rewrite <- (row_length_ok pre ks r). apply firstn_all.
Qed.
Lemma firstn_app_exact {A} (l m : list A) : firstn (length l) (l ++ m) = l.
Proof. rewrite firstn_app, Nat.sub_diag, firstn_O, app_nil_r. apply firstn_all. Qed.
Lemma nth_error_firstn_split {A} (l : list A) k a : nth_error l k = Some a -> l = firstn k l ++ a :: skipn (S k) l.
Proof. revert k. induction l as [|b l IH]; intros [|k] H; try discriminate; cbn in *; [congruence|]. f_equal. now apply IH. Qed.
Lemma cell_in_row pre ks r i k : nth_error ks i = Some k -> exists tail, skipn (column_start pre ks i) (row pre ks r) = cell r k ++ tail /\ tail <> [].
Proof.
  intros H. unfold column_start. rewrite H. unfold row. pose proof (nth_error_firstn_split _ _ _ H) as E. apply (f_equal (fun l => concat (map (fun c => before c ++ cell r c ++ after c) l))) in E.
  rewrite map_app, concat_app in E. cbn [map List.concat] in E. rewrite E. clear E.
  eexists. split.
  - rewrite <- !app_assoc. rewrite app_assoc. rewrite app_assoc. apply skipn_app_exact. rewrite !app_length, cells_length. lia.
  - intros X. apply (f_equal (@List.length ascii)) in X. rewrite !app_length in X. cbn in X. lia.
Qed.
Lemma cell_at pre ks r i k : r < row_count ks -> nth_error ks i = Some k ->
  firstn (width k) (skipn (r * row_length pre ks + column_start pre ks i) (table pre ks)) = cell r k.
Proof.
  intros Hr Hk. unfold table. rewrite Nat.add_comm. 
  assert (E : forall {A} (l : list A) n m, skipn (n + m) l = skipn n (skipn m l)).
  { clear. intros A l n m. revert l. induction m as [|m IH]; intros l; [now rewrite Nat.add_0_r|]. rewrite Nat.add_succ_r. destruct l; [now rewrite !skipn_nil|]. apply IH. }
  pose proof (skipn_blocks (A := ascii) (row pre ks) _ (row_length_ok pre ks) (row_count ks) r 0 Hr) as B. unfold text in *. rewrite E, B. rewrite Nat.add_0_l, skipn_app.
  destruct (cell_in_row pre ks r i k Hk) as (tail & -> & _). rewrite <- app_assoc, <- (cell_length r k). apply firstn_app_exact.
Qed.

(** Writing into columns. *)
Lemma write_at_ok cs i t c : nth_error cs i = Some c -> write_at cs i t = Ok (firstn i cs ++ write_col c t :: skipn (S i) cs).
Proof.
  revert i. induction cs as [|b cs IH]; intros [|i] H; try discriminate; cbn [nth_error write_at] in *; [injection H as ->; reflexivity|].
  rewrite (IH _ H). reflexivity.
Qed.
(** Texts that end at the end of a line. *)
Inductive closed_lines : text -> list (text * ascii) -> Prop :=
| cs_none : closed_lines [] []
| cs_newline l t ls : plain l -> closed_lines t ls -> closed_lines (l ++ newline :: t) ((l, space) :: ls)
| cs_fill l c t ls : plain l -> closed_lines t ls -> closed_lines (l ++ nul :: c :: t) ((l, c) :: ls).
Lemma closed_app t ls u ks : closed_lines t ls -> column_lines u ks -> column_lines (t ++ u) (ls ++ ks).
Proof. intros H Hu. induction H; cbn [app]; auto; rewrite <- app_assoc; cbn [app]; now constructor. Qed.
Lemma closed_column_lines t ls : closed_lines t ls -> column_lines t ls.
Proof. induction 1; now constructor. Qed.

(** fputs *)
Lemma c_str_same t : ~ In null_char t -> c_str t = t.
Proof.
  induction t as [|c t IH]; intros H; auto. cbn [c_str]. destruct (Ascii.eqb_spec c null_char) as [->|_]; [destruct H; now left|]. f_equal. apply IH. intros X. apply H. now right.
Qed.

(** commafy *)
Fixpoint commas (s : text) : text :=
  match s with
  | [] => []
  | c :: rest => c :: (if negb (length rest =? 0) && (S (length rest) mod 3 =? 1) then [","%char] else []) ++ commas rest
  end.
Lemma commafy_loop_ok s : forall i, commafy_loop (length s + i) i s = commas s.
Proof.
  induction s as [|c s IH]; intros i; auto. cbn [commafy_loop commas length]. specialize (IH (S i)). rewrite Nat.add_succ_r in IH. change (S (length s) + i) with (S (length s + i)). rewrite IH.
  replace (S (length s + i) - i) with (S (length s)) by lia. replace (i =? S (length s + i) - 1) with (length s =? 0); auto.
  destruct (Nat.eqb_spec (length s) 0), (Nat.eqb_spec i (S (length s + i) - 1)); lia.
Qed.
Lemma commas_short s : length s <= 3 -> commas s = s.
Proof. destruct s as [|a [|b [|c [|d s]]]]; auto. cbn. lia. Qed.
Lemma commas_app d g : d <> [] -> length g = 3 -> commas (d ++ g) = commas d ++ ","%char :: g.
Proof.
  intros Hd Hg. induction d as [|c d IH]; [congruence|]. cbn [app commas]. rewrite app_length, Hg. destruct d as [|e d].
  - cbn [app length Nat.add]. rewrite commas_short by lia. reflexivity.
  - rewrite IH by discriminate. replace (length (e :: d) + 3 =? 0) with (length (e :: d) =? 0) by reflexivity.
    replace (S (length (e :: d) + 3) mod 3) with (S (length (e :: d)) mod 3).
    + destruct (_ && _); reflexivity.
    + replace (S (length (e :: d) + 3)) with (S (length (e :: d)) + 1 * 3) by lia. now rewrite Nat.mod_add.
Qed.
Lemma commas_grouped s : s <> [] -> grouped s (commas s).
Proof.
  remember (length s) as n eqn:Hn. revert s Hn. induction n as [n IH] using lt_wf_ind. intros s -> Hs. destruct (Nat.le_gt_cases (length s) 3) as [H|H].
  - rewrite commas_short by auto. apply gr_first. destruct s; [congruence|]. cbn in *. lia.
  - rewrite <- (firstn_skipn (length s - 3) s).
    assert (Hg : length (skipn (length s - 3) s) = 3) by (rewrite skipn_length; lia).
    assert (Hf : length (firstn (length s - 3) s) = length s - 3) by (rewrite firstn_length; lia).
    assert (Hd : firstn (length s - 3) s <> []) by (intros E; rewrite E in Hf; cbn in Hf; lia).
    rewrite commas_app by auto. apply gr_more; auto. eapply IH; [|reflexivity|auto]. lia.
Qed.
Lemma commafy_grouped n : grouped (decimal n) (commafy n).
Proof.
  unfold commafy. rewrite <- (Nat.add_0_r (length (decimal n))), commafy_loop_ok. apply commas_grouped, decimal_length_pos.
Qed.
Lemma grouped_strip d t : grouped d t -> ~ In ","%char d -> filter (fun c => negb (Ascii.eqb c ","%char)) t = d.
Proof.
  assert (F : forall g : text, ~ In ","%char g -> filter (fun c => negb (Ascii.eqb c ","%char)) g = g).
  { induction g as [|c g IH]; intros H; auto. cbn [filter]. destruct (Ascii.eqb_spec c ","%char) as [->|_]; [destruct H; now left|]. cbn. f_equal. apply IH. intros X. apply H. now right. }
  induction 1 as [g Hg|d t g H IH Hg]; intros Hn; [now apply F|]. rewrite filter_app. cbn [filter Ascii.eqb negb]. rewrite in_app_iff in Hn. rewrite IH, F; auto.
Qed.
Lemma decimal_no_comma n : ~ In ","%char (decimal n).
Proof.
  destruct (decimal_denotes n) as (ds & -> & H & _). intros X. apply in_map_iff in X as (d & E & Hd). rewrite Forall_forall in H. specialize (H _ Hd).
  apply (f_equal digit_value) in E. rewrite digit_value_digit in E by auto. discriminate.
Qed.
