(** Proofs about the tables of results. *)
From Coq Require Import List Arith NArith Bool Ascii String Lia Permutation.
From Verif.Base Require Import Res Text.
From Verif.Spec Require Import Table.
From Verif.Spec Require Lines.
From Verif.Output Require Import Columns ColumnsProofs ColumnsProperties.
From Verif.Report Require Import Names NamesProofs PrintProofs Outcome.
Import ListNotations.
Local Notation length := List.length.

(** * commafy *)
Lemma fold_commafy s : forall done todo, s = done ++ todo ->
  forall acc, fold_left (commafy_step s) (seq (length done) (length todo)) acc = acc ++ commafy_loop (length s) (length done) todo.
Proof.
  intros done todo. revert done. induction todo as [|c todo IH]; intros done Hs acc; cbn [length seq fold_left commafy_loop]; [now rewrite app_nil_r|].
  specialize (IH (done ++ [c])). rewrite app_length, Nat.add_1_r in IH. rewrite IH by (now rewrite <- app_assoc). unfold commafy_step.
  replace (nth (length done) s null_char) with c by (rewrite Hs, app_nth2, Nat.sub_diag; auto).
  destruct (negb (length done =? length s - 1) && ((length s - length done) mod 3 =? 1)); rewrite <- !app_assoc; reflexivity.
Qed.
Lemma commafy_same n : sim_commafy n = commafy n.
Proof. unfold sim_commafy, commafy. exact (fold_commafy (decimal n) [] (decimal n) eq_refl []). Qed.

Definition number_char (c : ascii) : bool := match digit_value c with Some _ => true | None => Ascii.eqb c ","%char end.
Lemma grouped_chars d t : grouped d t -> (forall c, In c d -> number_char c = true) -> forall c, In c t -> number_char c = true.
Proof.
  induction 1 as [g _|d t g _ IH _]; intros Hd c Hc; auto. apply in_app_or in Hc as [Hc|[<-|Hc]]; auto.
  - apply IH; auto. intros x Hx. apply Hd. apply in_or_app. now left.
  - apply Hd. apply in_or_app. now right.
Qed.
Lemma commafy_chars n c : In c (commafy n) -> number_char c = true.
Proof.
  apply (grouped_chars _ _ (commafy_grouped n)). intros x Hx. destruct (decimal_denotes n) as (ds & E & H & _). rewrite E in Hx.
  apply in_map_iff in Hx as (d & <- & Hd). rewrite Forall_forall in H. unfold number_char. now rewrite digit_value_digit by auto.
Qed.
Lemma commafy_not c n : number_char c = false -> ~ In c (commafy n).
Proof. intros H X. apply commafy_chars in X. congruence. Qed.
Lemma commafy_plain n : plain (commafy n).
Proof. split; now apply commafy_not. Qed.

(** * Tables *)
Section Tables.
  Context {D : Type}.
  (** A column: before, after, whether it is filled up on the right, and the cells *)
  Record spec := mk_spec { s_before : text; s_after : text; s_left : bool; s_cell : D -> text }.
  Definition column_text (s : spec) (ds : list D) : text := List.concat (map (fun d => s_cell s d ++ [newline]) ds).
  Definition filled (ss : list spec) (ds : list D) : printer :=
    mk_printer (map (fun s => mk_col (s_before s) (column_text s ds) (s_after s) (s_left s)) ss) [].
  Definition widest (f : D -> text) (ds : list D) : nat := list_max (map (fun d => length (f d)) ds).
  Definition row_text (ss : list spec) (ds : list D) (d : D) : text :=
    List.concat (map (fun s => s_before s ++ fill (s_left s) (widest (s_cell s) ds) (s_cell s d, space) ++ s_after s) ss).

  Lemma column_text_app s ds ds' : column_text s (ds ++ ds') = column_text s ds ++ column_text s ds'.
  Proof. unfold column_text. now rewrite map_app, concat_app. Qed.
  Lemma column_text_one s d : column_text s [d] = s_cell s d ++ [newline].
  Proof. unfold column_text. cbn [map List.concat]. apply app_nil_r. Qed.
  Lemma column_text_lines s ds : (forall d, In d ds -> plain (s_cell s d)) -> column_lines (column_text s ds) (map (fun d => (s_cell s d, space)) ds).
  Proof.
    induction ds as [|d ds IH]; intros H; [constructor|]. unfold column_text. cbn [map List.concat]. rewrite <- app_assoc. cbn [app]. apply cl_newline; [apply H; now left|].
    apply IH. intros x Hx. apply H. now right.
  Qed.
  Definition spec_column (ds : list D) (s : spec) : column := mk_column (s_before s) (s_after s) (s_left s) (map (fun d => (s_cell s d, space)) ds).
  Lemma rows_of ss ds : ss <> [] -> table [] (map (spec_column ds) ss) = List.concat (map (fun d => row_text ss ds d ++ [newline]) ds).
  Proof.
    intros Hs. unfold table. assert (Hc : row_count (map (spec_column ds) ss) = length ds).
    { unfold row_count. destruct ss as [|s ss]; [easy|]. rewrite map_map. cbn [spec_column lines]. clear Hs. cbn [map]. change (list_max (?x :: ?l)) with (Nat.max x (list_max l)).
      rewrite map_length. induction ss as [|s' ss IH]; cbn [map]; [apply Nat.max_0_r|]. change (list_max (?x :: ?l)) with (Nat.max x (list_max l)). rewrite map_length. lia. }
    rewrite Hc. f_equal.
    assert (G : forall (f : nat -> text) (g : D -> text) l k, (forall i d, nth_error l i = Some d -> f (k + i) = g d) -> map f (seq k (length l)) = map g l).
    { intros f g l. induction l as [|d l IH]; intros k H; auto. cbn [length seq map]. rewrite <- (H 0 d eq_refl), Nat.add_0_r. f_equal. apply IH.
      intros i x Hx. rewrite <- (H (S i) x Hx). f_equal. lia. }
    apply (G _ _ ds 0). intros i d Hd. cbn [Nat.add]. unfold row, row_text. cbn [app]. f_equal. f_equal. rewrite map_map. apply map_ext. intros s. f_equal. f_equal.
    unfold cell, width, widest. cbn [spec_column fill_right lines]. rewrite map_map. cbn [fst]. f_equal. now apply nth_error_nth, map_nth_error with (f := fun d => (s_cell s d, space)).
  Qed.
  Lemma filled_prints ss ds : ss <> [] -> (forall s d, In s ss -> In d ds -> plain (s_cell s d)) ->
    print (filled ss ds) = Ok (List.concat (map (fun d => row_text ss ds d ++ [newline]) ds)).
  Proof.
    intros Hs Hp. rewrite <- (rows_of ss ds Hs). apply C42_prints_table. cbn [filled cols]. clear Hs. induction ss as [|s ss IH]; constructor.
    - repeat split. cbn [c_text spec_column lines]. apply column_text_lines. intros d Hd. apply Hp; auto. now left.
    - apply IH. intros x d Hx. apply Hp. now right.
  Qed.
  Lemma rows_lines ss ds rest : (forall d, In d ds -> ~ In newline (row_text ss ds d)) ->
    Lines.lines (List.concat (map (fun d => row_text ss ds d ++ [newline]) ds) ++ rest) = map (row_text ss ds) ds ++ Lines.lines rest.
  Proof.
    assert (G : forall l, (forall d, In d l -> ~ In newline (row_text ss ds d)) ->
      Lines.lines (List.concat (map (fun d => row_text ss ds d ++ [newline]) l) ++ rest) = map (row_text ss ds) l ++ Lines.lines rest).
    { induction l as [|d l IH]; intros H; auto. cbn [map List.concat]. rewrite <- !app_assoc. cbn [app]. rewrite lines_line by (apply H; now left). f_equal. apply IH. intros x Hx. apply H. now right. }
    apply G.
  Qed.
  Lemma row_no_newline ss ds d : (forall s, In s ss -> plain (s_cell s d) /\ ~ In newline (s_before s) /\ ~ In newline (s_after s)) -> ~ In newline (row_text ss ds d).
  Proof.
    intros H X. unfold row_text in X. apply in_concat in X as (t & Ht & X). apply in_map_iff in Ht as (s & <- & Hs). destruct (H s Hs) as ([H1 _] & H2 & H3).
    apply in_app_or in X as [X|X]; auto. apply in_app_or in X as [X|X]; auto. unfold fill in X. cbn [fst snd] in X.
    assert (R : forall n, ~ In newline (repeat space n)) by (intros n Hn; apply repeat_spec in Hn; discriminate).
    destruct (s_left s); apply in_app_or in X as [X|X]; auto; exact (R _ X).
  Qed.
End Tables.
Arguments spec : clear implicits.

Definition pq_specs : list (spec sim_data) :=
  [mk_spec default_prefix [] true d_name; mk_spec (txt " ") (txt "ms") false (fun d => commafy (d_ms d));
   mk_spec (txt " ") (txt "cmps") false (fun d => commafy (d_comparisons d)); mk_spec (txt " ") (txt "kb") false (fun d => commafy (d_memory d / 1024))].
Lemma pq_fill_ok ds : forall done, pq_fill (filled pq_specs done) ds = Ok (filled pq_specs (done ++ ds)).
Proof.
  induction ds as [|d ds IH]; intros done; [now rewrite app_nil_r|]. specialize (IH (done ++ [d])). rewrite <- app_assoc in IH. cbn [app] in IH. rewrite <- IH.
  cbn [pq_fill]. rewrite !commafy_same. unfold filled, pq_specs, write_line, write. cbn [map s_before s_after s_left s_cell cols prefix write_at bind]. unfold write_col. cbn [c_prefix c_text c_suffix c_flushLeft].
  rewrite !column_text_app, !column_text_one. cbn [s_cell]. rewrite <- !app_assoc. reflexivity.
Qed.
Definition div_specs : list (spec div_data) :=
  [mk_spec default_prefix [] true v_name; mk_spec (txt " ") (txt "ms") false (fun d => commafy (v_ms d)); mk_spec (txt " ") (txt "eqs") false (fun d => commafy (v_queries d))].
Lemma div_fill_ok ds : forall done, div_fill (filled div_specs done) ds = Ok (filled div_specs (done ++ ds)).
Proof.
  induction ds as [|d ds IH]; intros done; [now rewrite app_nil_r|]. specialize (IH (done ++ [d])). rewrite <- app_assoc in IH. cbn [app] in IH. rewrite <- IH.
  cbn [div_fill]. unfold filled, div_specs, write_line, write. cbn [map s_before s_after s_left s_cell cols prefix write_at bind]. unfold write_col. cbn [c_prefix c_text c_suffix c_flushLeft].
  rewrite !column_text_app, !column_text_one. cbn [s_cell]. rewrite <- !app_assoc. reflexivity.
Qed.

(** * Reading a row *)
Fixpoint drop_spaces (t : text) : text := match t with [] => [] | c :: t' => if Ascii.eqb c space then drop_spaces t' else t end.
Definition strip (t : text) : text := rev (drop_spaces (rev t)).
Lemma strip_spaces t n : strip (t ++ repeat space n) = strip t.
Proof.
  unfold strip. f_equal. rewrite rev_app_distr. replace (rev (repeat space n)) with (repeat space n).
  - induction n as [|n IH]; auto.
  - induction n as [|n IH]; auto. cbn [repeat rev]. rewrite <- IH. clear. induction n as [|n IH]; auto. cbn [repeat app]. now rewrite <- IH.
Qed.
Lemma strip_last t c : c <> space -> strip (t ++ [c]) = t ++ [c].
Proof. intros H. unfold strip. rewrite rev_app_distr. cbn [rev app drop_spaces]. destruct (Ascii.eqb_spec c space); [easy|]. cbn [rev]. now rewrite rev_involutive. Qed.

Lemma space_repeat n : txt " " ++ repeat space n = repeat space n ++ txt " ".
Proof. change (txt " ") with [space]. induction n as [|n IH]; auto. cbn [repeat app] in *. now rewrite IH at 1. Qed.
(** The last number of a text and what is before it *)
Lemma last_number x x' n n' : x ++ space :: commafy n = x' ++ space :: commafy n' -> x = x' /\ n = n'.
Proof.
  intros H. apply (f_equal (@rev ascii)) in H. rewrite !rev_app_distr in H. cbn [rev] in H. rewrite <- !app_assoc in H. cbn [app] in H.
  apply split_at in H as [H1 H2].
  - apply (f_equal (@rev ascii)) in H1, H2. rewrite !rev_involutive in H1, H2. apply C43_commafy_injective in H1. auto.
  - intros X. apply in_rev in X. exact (commafy_not space n eq_refl X).
  - intros X. apply in_rev in X. exact (commafy_not space n' eq_refl X).
Qed.
Lemma peel x x' a a' n n' suf : x ++ txt " " ++ (repeat space a ++ commafy n) ++ suf = x' ++ txt " " ++ (repeat space a' ++ commafy n') ++ suf -> strip x = strip x' /\ n = n'.
Proof.
  intros H. rewrite !app_assoc in H. apply app_inv_tail in H. rewrite <- (app_assoc x), <- (app_assoc x'), !space_repeat, (app_assoc x), (app_assoc x'), <- !app_assoc in H. cbn [app txt list_ascii_of_string] in H.
  change " "%char with space in H. rewrite !app_assoc in H. apply last_number in H as [H ->]. split; auto. rewrite <- (strip_spaces x a), <- (strip_spaces x' a'). now f_equal.
Qed.

(** A name does not end in a space. *)
Definition trimmed (t : text) : Prop := forall u, t <> u ++ [space].
Lemma trimmed_name n n' a a' : trimmed n -> trimmed n' -> strip (default_prefix ++ n ++ repeat space a) = strip (default_prefix ++ n' ++ repeat space a') -> n = n'.
Proof.
  intros Hn Hn' H. rewrite !app_assoc, !strip_spaces in H.
  assert (E : forall t, trimmed t -> t = [] \/ (t <> [] /\ strip (default_prefix ++ t) = default_prefix ++ t)).
  { intros t Ht. destruct t as [|c t] using rev_ind; [now left|right]. split; [now destruct t|]. rewrite app_assoc. apply strip_last. intros ->. now apply (Ht t). }
  destruct (E n Hn) as [->|[Hz1 E1]], (E n' Hn') as [->|[Hz2 E2]]; auto.
  - exfalso. rewrite E2 in H. cbn in H. discriminate.
  - exfalso. rewrite E1 in H. cbn in H. discriminate.
  - rewrite E1, E2 in H. now apply app_inv_head in H.
Qed.

(** A row in which numbers follow a text *)
Definition number (w : nat) (n : N) : text := repeat space (w - length (commafy n)) ++ commafy n.
Definition named (w : nat) (name : text) : text := default_prefix ++ name ++ repeat space (w - length name).
Lemma pq_row ds d : row_text pq_specs ds d =
  ((named (widest d_name ds) (d_name d) ++ txt " " ++ number (widest (fun d => commafy (d_ms d)) ds) (d_ms d) ++ txt "ms") ++
   txt " " ++ number (widest (fun d => commafy (d_comparisons d)) ds) (d_comparisons d) ++ txt "cmps") ++
  txt " " ++ number (widest (fun d => commafy (d_memory d / 1024)) ds) (d_memory d / 1024) ++ txt "kb".
Proof.
  unfold row_text, pq_specs, named, number. cbn [map List.concat s_before s_after s_left s_cell]. unfold fill. cbn [fst snd]. cbn [app]. rewrite <- !app_assoc. cbn [app].
  rewrite ?app_nil_r. reflexivity.
Qed.
Lemma div_row ds d : row_text div_specs ds d =
  (named (widest v_name ds) (v_name d) ++ txt " " ++ number (widest (fun d => commafy (v_ms d)) ds) (v_ms d) ++ txt "ms") ++
  txt " " ++ number (widest (fun d => commafy (v_queries d)) ds) (v_queries d) ++ txt "eqs".
Proof.
  unfold row_text, div_specs, named, number. cbn [map List.concat s_before s_after s_left s_cell]. unfold fill. cbn [fst snd]. cbn [app]. rewrite <- !app_assoc. cbn [app].
  rewrite ?app_nil_r. reflexivity.
Qed.
Lemma ends_in x y t c : c <> space -> strip (x ++ txt " " ++ y ++ t ++ [c]) = x ++ txt " " ++ y ++ t ++ [c].
Proof. intros H. rewrite !app_assoc. now apply strip_last. Qed.
Lemma pq_row_inj ds ds' d d' : trimmed (d_name d) -> trimmed (d_name d') -> row_text pq_specs ds d = row_text pq_specs ds' d' ->
  d_name d = d_name d' /\ d_ms d = d_ms d' /\ d_comparisons d = d_comparisons d' /\ (d_memory d / 1024 = d_memory d' / 1024)%N.
Proof.
  intros Hn Hn' H. rewrite !pq_row in H. unfold number in H. apply peel in H as [H E3].
  change (txt "cmps") with (txt "cmp" ++ ["s"%char]) in H. rewrite !(ends_in _ _ (txt "cmp")) in H by discriminate. apply peel in H as [H E2].
  change (txt "ms") with (txt "m" ++ ["s"%char]) in H. rewrite !(ends_in _ _ (txt "m")) in H by discriminate. apply peel in H as [H E1].
  apply trimmed_name in H; auto.
Qed.
Lemma div_row_inj ds ds' d d' : trimmed (v_name d) -> trimmed (v_name d') -> row_text div_specs ds d = row_text div_specs ds' d' ->
  v_name d = v_name d' /\ v_ms d = v_ms d' /\ v_queries d = v_queries d'.
Proof.
  intros Hn Hn' H. rewrite !div_row in H. unfold number in H. apply peel in H as [H E2].
  change (txt "ms") with (txt "m" ++ ["s"%char]) in H. rewrite !(ends_in _ _ (txt "m")) in H by discriminate. apply peel in H as [H E1].
  apply trimmed_name in H; auto.
Qed.

(** * The tables of both programs *)
Definition good_name (t : text) : Prop := plain t /\ trimmed t.
Lemma pq_plain ds : Forall (fun d => plain (d_name d)) ds -> forall s d, In s pq_specs -> In d ds -> plain (s_cell s d).
Proof. intros H s d Hs Hd. rewrite Forall_forall in H. destruct Hs as [<-|[<-|[<-|[<-|[]]]]]; cbn [s_cell]; auto using commafy_plain. Qed.
Lemma div_plain ds : Forall (fun d => plain (v_name d)) ds -> forall s d, In s div_specs -> In d ds -> plain (s_cell s d).
Proof. intros H s d Hs Hd. rewrite Forall_forall in H. destruct Hs as [<-|[<-|[<-|[]]]]; cbn [s_cell]; auto using commafy_plain. Qed.
Lemma pq_data_ok sort ds : Forall (fun d => plain (d_name d)) (sort ds) ->
  pq_print_data sort ds = Ok (txt "*** Simulation outcome ***" ++ [newline] ++ List.concat (map (fun d => row_text pq_specs (sort ds) d ++ [newline]) (sort ds))).
Proof.
  intros H. unfold pq_print_data. change pq_printer with (filled pq_specs []). rewrite pq_fill_ok. cbn [bind app]. rewrite filled_prints; [reflexivity|discriminate|now apply pq_plain].
Qed.
Lemma div_data_ok sort repeats ds : Forall (fun d => plain (v_name d)) (sort ds) ->
  div_print_data sort repeats ds = Ok (txt "*** Simulation outcome for " ++ decimal repeats ++ txt " repeats ***" ++ [newline] ++
    List.concat (map (fun d => row_text div_specs (sort ds) d ++ [newline]) (sort ds))).
Proof.
  intros H. unfold div_print_data. change div_printer with (filled div_specs []). rewrite div_fill_ok. cbn [bind app]. rewrite filled_prints; [reflexivity|discriminate|now apply div_plain].
Qed.
Lemma pq_rows_no_newline ds : Forall (fun d => plain (d_name d)) ds -> forall d, In d ds -> ~ In newline (row_text pq_specs ds d).
Proof.
  intros H d Hd. apply row_no_newline. intros s Hs. split; [now apply (pq_plain ds)|]. destruct Hs as [<-|[<-|[<-|[<-|[]]]]]; cbn [s_before s_after]; split; try (now apply no_nl_txt); intros [].
Qed.
Lemma div_rows_no_newline ds : Forall (fun d => plain (v_name d)) ds -> forall d, In d ds -> ~ In newline (row_text div_specs ds d).
Proof.
  intros H d Hd. apply row_no_newline. intros s Hs. split; [now apply (div_plain ds)|]. destruct Hs as [<-|[<-|[<-|[]]]]; cbn [s_before s_after]; split; try (now apply no_nl_txt); intros [].
Qed.
Lemma rows_same {D K} (ss : list (spec D)) (ds ds' : list D) (key : D -> K) (P : D -> Prop) :
  (forall d d', P d -> P d' -> row_text ss ds d = row_text ss ds' d' -> key d = key d') -> Forall P ds -> Forall P ds' ->
  map (row_text ss ds) ds = map (row_text ss ds') ds' -> map key ds = map key ds'.
Proof.
  intros G. assert (F : forall l, Forall P l -> forall l', Forall P l' -> map (row_text ss ds) l = map (row_text ss ds') l' -> map key l = map key l').
  { induction 1 as [|d l Hd _ IH]; intros [|d' l'] H' E; try discriminate; auto. cbn [map] in *. injection E as E1 E2. inversion H'; subst. f_equal; auto. }
  intros H H'. now apply F.
Qed.

(** * Names *)
Lemma plain_app a b : plain a -> plain b -> plain (a ++ b).
Proof. intros [H1 H2] [H3 H4]. split; intros X; apply in_app_or in X; tauto. Qed.
Lemma plain_txt s : forallb (fun c => negb (Ascii.eqb c newline) && negb (Ascii.eqb c nul)) (txt s) = true -> plain (txt s).
Proof. intros H. rewrite forallb_forall in H. split; intros X; specialize (H _ X); rewrite Ascii.eqb_refl in H; [|rewrite andb_false_r in H]; discriminate. Qed.
Lemma plain_nil : plain []. Proof. split; intros []. Qed.
Lemma plain_decimal n : plain (decimal n). Proof. split; now apply digit_not. Qed.
Lemma plain_opt b s : forallb (fun c => negb (Ascii.eqb c newline) && negb (Ascii.eqb c nul)) (txt s) = true -> plain (opt b s).
Proof. destruct b; [apply plain_txt|intros _; apply plain_nil]. Qed.
Lemma plain_alt b s t : forallb (fun c => negb (Ascii.eqb c newline) && negb (Ascii.eqb c nul)) (txt s) = true ->
  forallb (fun c => negb (Ascii.eqb c newline) && negb (Ascii.eqb c nul)) (txt t) = true -> plain (alt b s t).
Proof. destruct b; intros H1 H2; now apply plain_txt. Qed.
Lemma trimmed_app a b : b <> [] -> trimmed b -> trimmed (a ++ b).
Proof.
  intros Hb H u E. destruct b as [|c b] using rev_ind; [easy|]. rewrite app_assoc in E. apply app_inj_tail in E as [_ ->]. now apply (H b).
Qed.
Lemma trimmed_txt s : match rev (txt s) with c :: _ => negb (Ascii.eqb c space) | [] => true end = true -> trimmed (txt s).
Proof. intros H u E. rewrite E, rev_app_distr in H. cbn [rev app] in H. rewrite Ascii.eqb_refl in H. discriminate. Qed.
Ltac plains := repeat apply plain_app; repeat first [now apply plain_txt|now apply plain_opt|now apply plain_alt|apply plain_decimal|apply plain_nil].
Lemma queue_name_good q : good_name (name_of_queue q).
Proof.
  split.
  - destruct q; unfold name_of_queue, queue_name, tour_name, heap_name, stlset_name, geobucket_name; plains.
  - assert (T : forall b, trimmed (alt b " on spans" " on elements")) by (intros []; now apply trimmed_txt).
    assert (Z : forall b, alt b " on spans" " on elements" <> []) by (now intros []).
    destruct q; unfold name_of_queue, queue_name; rewrite app_assoc; now apply trimmed_app.
Qed.
Definition shown_ratio (f : finder) : text := match f with FList _ _ _ _ _ _ shown _ => shown | FTree _ _ _ _ _ _ _ _ _ shown _ => shown end.
Lemma finder_name_good std f : plain (shown_ratio f) -> good_name (name_of_finder std f).
Proof.
  intros Hr. split.
  - assert (A : forall m a s n, plain s -> plain (autob m a s n)) by (intros m a s n Hs; unfold autob; destruct (m && a); plains; auto).
    destruct f; cbn [shown_ratio] in Hr; unfold name_of_finder, divlist_name, kdtree_name; repeat apply plain_app; auto; try (destruct (DivSim.Model.tree_conf _ _ _ _ _ _ _ _ _ _)); plains.
    destruct (EntryArray.c_removals _); plains.
  - assert (T : forall b, trimmed (alt b " remin" " nomin")) by (intros []; now apply trimmed_txt).
    assert (Z : forall b, alt b " remin" " nomin" <> []) by (now intros []).
    destruct f as [ULL UDM mini toFront sorted r shown rmin|]; unfold name_of_finder; [|now apply trimmed_app].
    destruct toFront; cbn [opt]; [rewrite app_assoc; now apply trimmed_app; [discriminate|apply trimmed_txt]|rewrite app_nil_r; now apply trimmed_app].
Qed.

(** * One line *)
Lemma pq_one_inj d d' : pq_print_one d = pq_print_one d' -> d_name d = d_name d' /\ d_ms d = d_ms d' /\ d_comparisons d = d_comparisons d' /\ (d_memory d / 1024 = d_memory d' / 1024)%N.
Proof.
  unfold pq_print_one. rewrite !commafy_same. intros H. rewrite !app_assoc in H. apply app_inv_tail, app_inv_tail in H. rewrite <- !(app_assoc _ (txt " ")) in H.
  change (txt " " ++ ?x) with (space :: x) in H. apply last_number in H as [H E3]. apply app_inv_tail in H. apply last_number in H as [H E2]. apply app_inv_tail in H. apply last_number in H as [H E1]. auto.
Qed.
Lemma div_one_inj d d' : div_print_one d = div_print_one d' -> v_name d = v_name d' /\ v_ms d = v_ms d' /\ v_queries d = v_queries d'.
Proof.
  unfold div_print_one. intros H. rewrite !app_assoc in H. apply app_inv_tail, app_inv_tail in H. rewrite <- !(app_assoc _ (txt " ")) in H.
  change (txt " " ++ ?x) with (space :: x) in H. apply last_number in H as [H E2]. apply app_inv_tail in H. apply last_number in H as [H E1]. auto.
Qed.
