(** Properties of display() (C46). *)
From Coq Require Import List Arith Bool NArith Ascii String Lia.
From Verif.Base Require Import Res Text.
From Verif.Spec Require Import Wrap.
From Verif.Output Require Import Columns ColumnsProofs Display DisplayProofs DisplayFits.
Import ListNotations.
Local Notation length := List.length.
Local Notation concat := List.concat.

(** What the functions need of their arguments: 7-bit characters in the message and no null characters. *)
Definition printable (msg : text) : Prop := Forall (fun c => (N_of_ascii c <= 127)%N /\ c <> ascii_of_N 0) msg.
Definition without_null (prefix : text) : Prop := ~ In (ascii_of_N 0) prefix.
Lemma printable_seven msg : printable msg -> seven_bit msg /\ no_null msg.
Proof.
  intros H. split; [eapply Forall_impl; [|exact H]; intros ? []; auto|]. intros X. unfold printable in H. rewrite Forall_forall in H. now apply H in X as [_ X].
Qed.

(** Every message consists of lines, and each of them is printed wrapped at 79 characters, every line followed by a newline.  If the
    message does not end in a newline, then one is added, unless the last line consists of white space. *)
Theorem C46_wraps (msg prefix : text) : printable msg -> without_null prefix ->
  exists ls last outs o, Forall line_ok ls /\ (forall l, last = Some l -> line_ok l /\ line_text l <> []) /\
  msg = concat (map (fun l => line_text l ++ [newline]) ls) ++ match last with Some l => line_text l | None => [] end /\
  display msg prefix = Ok (concat outs ++ o) /\
  Forall2 (fun l out => exists gs, wrapped 79 prefix (indent l) (content l) gs /\ out = concat (map (fun g => printed prefix (indent l) g ++ [newline]) gs)) ls outs /\
  match last with
  | None => o = []
  | Some l =>
      match content l with
      | [] => o = prefix ++ indent l
      | _ => exists gs, wrapped 79 prefix (indent l) (content l) gs /\ o = concat (map (fun g => printed prefix (indent l) g ++ [newline]) gs)
      end
  end.
Proof.
  intros Hm Hp. apply printable_seven in Hm as [H7 Hn]. destruct (message_exists msg) as (ls & last & Hls & Hlast & E). exists ls, last. rewrite E in *.
  destruct (print_lines_ok prefix Hp ls last (length (message ls last)) Hls Hlast H7 Hn (le_n _)) as (outs & o & H1 & H2 & H3).
  exists outs, o. repeat (split; [assumption|]). split; [reflexivity|]. split; [exact H3|]. split; [exact H1|exact H2].
Qed.
Print Assumptions C46_wraps.

(** No word is lost, added or moved: with a prefix of white space, the output has exactly the words of the message. *)
Theorem C46_words (msg prefix : text) : printable msg -> without_null prefix -> Forall (fun c => white c = true) prefix ->
  exists out, display msg prefix = Ok out /\ words out = words msg.
Proof.
  intros Hm Hp Hw. destruct (C46_wraps msg prefix Hm Hp) as (ls & last & outs & o & Hls & Hlast & -> & E & Ho & Hl). exists (concat outs ++ o). split; auto. clear E Hm.
  revert outs Ho. induction Hls as [|l ls Hok _ IH]; intros outs Ho; inversion Ho; subst.
  - cbn [map List.concat app]. destruct last as [l|]; [|now subst]. destruct (Hlast l eq_refl) as [Hok _]. destruct (content l) as [|gw ws] eqn:Hc.
    + subst o. rewrite words_white by auto. unfold line_text. rewrite Hc. cbn. destruct Hok as (Hi & _ & _ & Ht). rewrite Hc in Ht. now rewrite Ht, app_nil_r.
    + eapply wrapped_words; eauto. unfold shown. rewrite Hc. exact Hl.
  - cbn [map List.concat]. rewrite <- !app_assoc. cbn [app]. rewrite (words_break (line_text l)) by reflexivity. rewrite <- (IH l') by auto.
    rewrite <- (wrapped_words prefix l y) by auto. destruct H1 as (gs & W & ->).
    assert (Hlast' : exists z, concat (map (fun g => printed prefix (indent l) g ++ [newline]) gs) = z ++ [newline]).
    { exists (render prefix (indent l) gs). apply render_lines. apply W. }
    destruct Hlast' as [z ->]. rewrite <- app_assoc. cbn [app]. rewrite !words_break by reflexivity. change (words []) with (@nil text). now rewrite app_nil_r.
Qed.
Print Assumptions C46_words.

(** Every line of the output begins with the prefix and has at most 79 characters unless it has at most one word after prefix and
    indentation. *)
Theorem C46_lines (msg prefix : text) : printable msg -> without_null prefix ->
  exists lines last, display msg prefix = Ok (concat (map (fun l => l ++ [newline]) lines) ++ last) /\
  (last = [] \/ exists ind, last = prefix ++ ind /\ blank ind /\ ind <> []) /\
  Forall (fun l => exists ind g, blank ind /\ Forall (fun gw => blank (fst gw) /\ word (snd gw)) g /\ l = printed prefix ind g /\ (length l <= 79 \/ length g <= 1)) lines.
Proof.
  intros Hm Hp. destruct (C46_wraps msg prefix Hm Hp) as (ls & last & outs & o & Hls & Hlast & -> & E & Ho & Hl). rewrite E.
  set (good := fun l => exists ind g, blank ind /\ Forall (fun gw => blank (fst gw) /\ word (snd gw)) g /\ l = printed prefix ind g /\ (length l <= 79 \/ length g <= 1)).
  assert (One : forall l out, line_ok l -> (exists gs, wrapped 79 prefix (indent l) (content l) gs /\ out = concat (map (fun g => printed prefix (indent l) g ++ [newline]) gs)) ->
    exists lines, out = concat (map (fun l => l ++ [newline]) lines) /\ Forall good lines).
  { intros l out Hok (gs & [W1 _ _ W4 _] & ->). exists (map (printed prefix (indent l)) gs). split; [now rewrite map_map|]. apply Forall_forall. intros x Hx. apply in_map_iff in Hx as (g & <- & Hg).
    exists (indent l), g. pose proof (line_blank_gaps l Hok) as [Hb _]. destruct Hok as (Hi & _ & Hw & _). split; auto. split; [|split; auto].
    rewrite <- W1 in Hw, Hb. rewrite Forall_forall in *. intros x Hx. assert (In x (concat gs)) by (apply in_concat; eauto). auto. }
  clear E Hm. assert (Many : exists lines, concat outs = concat (map (fun l => l ++ [newline]) lines) /\ Forall good lines).
  { clear - Hls Ho One. revert outs Ho. induction Hls as [|l ls Hok _ IH]; intros outs Ho; inversion Ho; subst; [exists []; split; constructor|].
    destruct (One l y Hok H1) as (k1 & E1 & G1). destruct (IH l' H3) as (k2 & E2 & G2). exists (k1 ++ k2). split; [cbn [List.concat]; now rewrite E1, E2, map_app, concat_app|now apply Forall_app]. }
  destruct Many as (k1 & E1 & G1). destruct last as [l|].
  - destruct (Hlast l eq_refl) as [Hok Hne]. destruct (content l) as [|gw ws] eqn:Hc.
    + exists k1, o. rewrite E1. split; auto. split; auto. right. exists (indent l). split; auto. unfold line_text in Hne. rewrite Hc in Hne. destruct Hok as (Hi & _ & _ & Ht). rewrite Hc in Ht. rewrite Ht in Hne.
      cbn in Hne. rewrite app_nil_r in Hne. auto.
    + destruct (One l o Hok) as (k2 & E2 & G2); [now rewrite Hc|]. exists (k1 ++ k2), []. split; [now rewrite E1, E2, map_app, concat_app, app_nil_r|]. split; auto. now apply Forall_app.
  - subst o. exists k1, []. rewrite E1. auto.
Qed.
Print Assumptions C46_lines.

(** Lines that fit are printed as they are, without white space at their ends. *)
Theorem C46_short_lines (prefix : text) (ls : list (text * text)) : without_null prefix ->
  Forall (fun l => printable (fst l ++ snd l) /\ ~ In newline (fst l) /\ blank (snd l) /\ length prefix + length (fst l) <= 79 /\
                   (fst l ++ snd l = [] \/ exists s c, fst l = s ++ [c] /\ white c = false)) ls ->
  display (concat (map (fun l => fst l ++ snd l ++ [newline]) ls)) prefix = Ok (concat (map (fun l => prefix ++ fst l ++ [newline]) ls)).
Proof.
  intros Hp H. apply display_fits; auto. eapply Forall_impl; [|exact H]. intros l (H1 & H2 & H3 & H4 & H5). apply printable_seven in H1. rewrite app_length. split; [|split; [exact H4|exact H1]].
  split; auto. split; auto. destruct H5 as [H5|H5]; [left; now apply app_eq_nil|now right].
Qed.
Print Assumptions C46_short_lines.

(** displayNote, displayError and displayInternalError print the words of the message after a label. *)
Theorem C46_labels (msg : text) : printable msg ->
  (exists out, displayNote msg = Ok out /\ words out = txt "NOTE:" :: words msg) /\
  (exists out, displayError msg = Ok out /\ words out = txt "ERROR:" :: words msg) /\
  (exists out, displayInternalError msg = Ok out /\ words out = txt "INTERNAL" :: txt "ERROR:" :: words msg).
Proof.
  intros H. unfold displayNote, displayError, displayInternalError.
  assert (G : forall label, printable label -> exists out, display (label ++ msg ++ [newline]) [] = Ok out /\ words out = words (label ++ msg ++ [newline])).
  { intros label Hl. apply C46_words; [|intros []|constructor]. apply Forall_app. split; auto. apply Forall_app. split; auto. repeat constructor; cbn; try lia; discriminate. }
  assert (T : forall m, words (m ++ [newline]) = words m) by (intros m; rewrite words_break by reflexivity; change (words []) with (@nil text); apply app_nil_r).
  assert (P : forall l, forallb (fun c => (N_of_ascii c <=? 127)%N && negb (Ascii.eqb c (ascii_of_N 0))) l = true -> printable l).
  { intros l Hl. apply Forall_forall. intros c Hc. rewrite forallb_forall in Hl. apply Hl, andb_true_iff in Hc as [H1 H2]. apply N.leb_le in H1. apply negb_true_iff, Ascii.eqb_neq in H2. auto. }
  split; [|split].
  - destruct (G (txt "NOTE: ")) as (out & E & W); [now apply P|]. exists out. split; auto. rewrite W. change (txt "NOTE: ") with (txt "NOTE:" ++ [space]). rewrite <- app_assoc. cbn [app].
    rewrite (words_break (txt "NOTE:") space) by reflexivity. now rewrite T.
  - destruct (G (txt "ERROR: ")) as (out & E & W); [now apply P|]. exists out. split; auto. rewrite W. change (txt "ERROR: ") with (txt "ERROR:" ++ [space]). rewrite <- app_assoc. cbn [app].
    rewrite (words_break (txt "ERROR:") space) by reflexivity. now rewrite T.
  - destruct (G (txt "INTERNAL ERROR: ")) as (out & E & W); [now apply P|]. exists out. split; auto. rewrite W. change (txt "INTERNAL ERROR: ") with (txt "INTERNAL ERROR:" ++ [space]). rewrite <- app_assoc. cbn [app].
    rewrite (words_break (txt "INTERNAL ERROR:") space) by reflexivity. now rewrite T.
Qed.
Print Assumptions C46_labels.

(** The conditions are needed: a byte above 127 is undefined where char is signed, and what follows a null character is lost. *)
Theorem C46_conditions_refuted :
  (exists msg, display msg [] = UB) /\
  (exists msg out, display msg [] = Ok out /\ words out <> words msg).
Proof.
  split; [exists [ascii_of_N 233]; reflexivity|]. exists (txt "a" ++ [ascii_of_N 0] ++ txt "b c"), (txt "a c" ++ [newline]). split; [reflexivity|]. vm_compute. discriminate.
Qed.
Print Assumptions C46_conditions_refuted.

(** A comment in printWord says that a word that fits into no line is printed in the current line if it is the first thing in it.  This is
    so only without prefix and indentation; otherwise a line without words is printed before it. *)
Theorem C46_overlong_word_refuted : exists msg prefix out, Forall (fun c => white c = false) msg /\ display msg prefix = Ok out /\ out = prefix ++ [newline] ++ prefix ++ msg ++ [newline].
Proof. exists (repeat "x"%char 79), (txt "> "). eexists. split; [repeat constructor|]. split; reflexivity. Qed.
Print Assumptions C46_overlong_word_refuted.

Example C46_example :
  let w := repeat "x"%char 40 in
  let msg := txt "  " ++ w ++ txt " and  " ++ w ++ txt " end " ++ [newline; newline] ++ txt "last" in
  printable msg /\ without_null (txt "# ") /\
  display msg (txt "# ") = Ok (txt "#   " ++ w ++ txt " and" ++ [newline] ++ txt "#   " ++ w ++ txt " end" ++ [newline] ++ txt "# " ++ [newline] ++ txt "# last" ++ [newline]).
Proof. cbv zeta. split; [|split; [|reflexivity]]; [repeat constructor; cbn; try lia; discriminate|intros X; cbn in X; decompose [or] X; try discriminate; auto]. Qed.
