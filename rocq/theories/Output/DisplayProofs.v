(** Proofs about Output/Display.v. *)
From Coq Require Import List Arith Bool NArith Ascii String Lia.
From Verif.Base Require Import Res Text.
From Verif.Spec Require Import Wrap.
From Verif.Output Require Import Columns ColumnsProofs Display.
Import ListNotations.
Local Notation length := List.length.
Local Notation concat := List.concat.

(** Bytes that isspace may be asked about. *)
Definition seven_bit (t : text) : Prop := Forall (fun c => (N_of_ascii c <= 127)%N) t.
Definition no_null (t : text) : Prop := ~ In null_char t.

Lemma isspace_white c : (N_of_ascii c <= 127)%N -> isspace c = Ok (white c).
Proof. intros H. unfold isspace. destruct (N.ltb_spec 127 (N_of_ascii c)); [lia|]. reflexivity. Qed.
Lemma no_null_app a b : no_null (a ++ b) <-> no_null a /\ no_null b.
Proof. unfold no_null. rewrite in_app_iff. tauto. Qed.
Lemma word_no_newline w : word w -> ~ In newline w.
Proof. intros [_ H] X. rewrite Forall_forall in H. apply H in X. discriminate. Qed.

(** What may follow a line: nothing, or a newline and the rest. *)
Inductive follows : text -> text -> Prop :=
| fo_end : follows [] []
| fo_newline t : follows (newline :: t) t.

Lemma read_indentation_ok i : forall t, blank i -> seven_bit i -> (forall c r, t = c :: r -> c = newline \/ (white c = false /\ (N_of_ascii c <= 127)%N)) ->
  read_indentation (i ++ t) = Ok (i, t).
Proof.
  induction i as [|c i IH]; intros t Hb H7 Ht; cbn [app read_indentation].
  - destruct t as [|c r]; auto. cbn [read_indentation]. destruct (Ascii.eqb_spec c newline); auto. destruct (Ht c r eq_refl) as [?|[Hw Hc]]; [congruence|]. now rewrite isspace_white, Hw.
  - inversion Hb as [|? ? [Hw Hn] Hb']; inversion H7 as [|? ? Hc H7']; subst. destruct (Ascii.eqb_spec c newline); [congruence|]. rewrite isspace_white, Hw by auto. cbn [bind]. now rewrite IH.
Qed.
Lemma read_word_ok w : forall t, Forall (fun c => white c = false) w -> seven_bit w -> (forall c r, t = c :: r -> c = newline \/ (white c = true /\ (N_of_ascii c <= 127)%N)) ->
  read_word (w ++ t) = Ok (w, t).
Proof.
  induction w as [|c w IH]; intros t Hb H7 Ht; cbn [app read_word].
  - destruct t as [|c r]; auto. cbn [read_word]. destruct (Ascii.eqb_spec c newline); auto. destruct (Ht c r eq_refl) as [?|[Hw Hc]]; [congruence|]. now rewrite isspace_white, Hw.
  - inversion Hb as [|? ? Hw Hb']; inversion H7 as [|? ? Hc H7']; subst. destruct (Ascii.eqb_spec c newline) as [->|]; [discriminate|]. rewrite isspace_white, Hw by auto. cbn [bind]. now rewrite IH.
Qed.

Section Printer.
  Variable prefix : text.
  Hypothesis prefix_no_null : no_null prefix.

  (** What is printed for a list of words. *)
  Fixpoint emit (ind : text) (ws : list (text * text)) (size : nat) : text :=
    match ws with
    | [] => []
    | (g, w) :: ws' => let '(o, s) := print_word prefix ind g w size in o ++ emit ind ws' s
    end.

  Lemma skip_gap ind g : forall fuel sp t size, blank g -> seven_bit g -> length g <= fuel ->
    print_words prefix fuel ind sp (g ++ t) size = print_words prefix (fuel - length g) ind (sp ++ g) t size.
  Proof.
    induction g as [|c g IH]; intros fuel sp t size Hb H7 Hf.
    - rewrite app_nil_r. cbn [app length]. now rewrite Nat.sub_0_r.
    - inversion Hb as [|? ? [Hw Hn] Hb']; inversion H7 as [|? ? Hc H7']; subst. destruct fuel as [|fuel]; [cbn in Hf; lia|]. cbn [app print_words length Nat.sub].
      destruct (Ascii.eqb_spec c newline); [congruence|]. rewrite isspace_white, Hw by auto. cbn [bind]. cbn [length] in Hf. rewrite IH by (auto; lia). now rewrite <- app_assoc.
  Qed.

  Lemma print_words_ok ind ws : forall fuel size tl t rest, Forall (fun gw => word (snd gw)) ws -> Forall (fun gw => blank (fst gw)) ws -> gaps_ok (List.tl ws) ->
    blank tl -> follows t rest -> seven_bit (joined ws ++ tl) -> length (joined ws ++ tl ++ t) <= fuel ->
    print_words prefix fuel ind [] (joined ws ++ tl ++ t) size = Ok (emit ind ws size, rest).
  Proof.
    induction ws as [|[g w] ws IH]; intros fuel size tl t rest Hw Hg Hgaps Htl Hfo H7 Hf.
    - cbn [joined map List.concat app] in *. rewrite app_length in Hf. rewrite skip_gap by (auto; lia). cbn [app]. destruct Hfo; [now destruct (fuel - length tl)|].
      cbn [length] in Hf. destruct (fuel - length tl) as [|f] eqn:E; [lia|]. reflexivity.
    - inversion Hw as [|? ? [Hne Hwhite] Hw']; inversion Hg as [|? ? Hgb Hg']; subst. cbn [fst snd] in *.
      change (joined ((g, w) :: ws)) with ((g ++ w) ++ joined ws) in *. rewrite <- !app_assoc in *. apply Forall_app in H7 as [H7g H7]. apply Forall_app in H7 as [H7w H7].
      rewrite app_length in Hf. rewrite skip_gap by (auto; lia). cbn [app].
      assert (Hread : read_word (w ++ joined ws ++ tl ++ t) = Ok (w, joined ws ++ tl ++ t)).
      { apply read_word_ok; auto. intros c r E. destruct ws as [|[g' w'] ws].
        - cbn [joined map List.concat app] in *. destruct tl as [|b tl].
          + cbn [app] in E. destruct Hfo; [discriminate|injection E as <- <-; now left].
          + cbn [app] in E. injection E as <- <-. inversion Htl as [|? ? [? ?]]; inversion H7; subst. now right.
        - change (joined ((g', w') :: ws)) with ((g' ++ w') ++ joined ws) in *. rewrite <- !app_assoc in *. cbn [List.tl] in Hgaps. inversion Hgaps as [|? ? [Hb Hne'] _]; subst. cbn [fst] in *.
          destruct g' as [|b g']; [congruence|]. cbn [app] in *. injection E as <- <-. inversion Hb as [|? ? [? ?]]; inversion H7; subst. now right. }
      destruct w as [|c w]; [congruence|]. cbn [app length] in *.
      destruct (fuel - length g) as [|f] eqn:Ef; [lia|]. cbn [print_words emit]. inversion Hwhite as [|? ? Hcw Hwhite']; inversion H7w as [|? ? Hc7 H7w']; subst.
      destruct (Ascii.eqb_spec c newline) as [->|_]; [discriminate|]. rewrite isspace_white, Hcw by auto. cbn [bind]. rewrite Hread. cbn [bind].
      destruct (print_word prefix ind g (c :: w) size) as [o s]. rewrite (IH f s tl t rest); auto.
      + cbn [List.tl] in Hgaps. destruct ws; [constructor|]. inversion Hgaps; auto.
      + rewrite app_length in Hf. lia.
  Qed.

  (** The words that go into the same line. *)
  Definition breaks (ind : text) (cur : list (text * text)) (g w : text) : bool :=
    negb (length (printed prefix ind cur) =? 0) && (ConsoleWidth <? length (printed prefix ind cur) + (length w + length g)).
  Fixpoint wrap (ind : text) (cur : list (text * text)) (ws : list (text * text)) : list (list (text * text)) :=
    match ws with
    | [] => [cur]
    | (g, w) :: ws' => if breaks ind cur g w then cur :: wrap ind [(g, w)] ws' else wrap ind (cur ++ [(g, w)]) ws'
    end.
  (** Lines with newlines between them. *)
  Fixpoint render (ind : text) (gs : list (list (text * text))) : text :=
    match gs with
    | [] => []
    | [g] => printed prefix ind g
    | g :: gs' => printed prefix ind g ++ newline :: render ind gs'
    end.
  Lemma render_cons ind g gs : gs <> [] -> render ind (g :: gs) = printed prefix ind g ++ newline :: render ind gs.
  Proof. destruct gs; [congruence|reflexivity]. Qed.
  Lemma wrap_not_nil ind ws : forall cur, wrap ind cur ws <> [].
  Proof. induction ws as [|[g w] ws IH]; intros cur; cbn [wrap]; [discriminate|]. destruct (breaks _ _ _ _); [discriminate|auto]. Qed.
  Lemma printed_snoc ind cur g w : (cur = [] -> g = []) -> printed prefix ind (cur ++ [(g, w)]) = printed prefix ind cur ++ g ++ w.
  Proof.
    intros H. unfold printed. destruct cur as [|[g0 w0] cur]; cbn [app].
    - rewrite H by auto. cbn. now rewrite !app_nil_r, app_assoc.
    - unfold joined. rewrite map_app, concat_app. cbn [map List.concat fst snd]. rewrite app_nil_r, <- !app_assoc. reflexivity.
  Qed.
  Lemma emit_wrap ind ws : no_null ind -> forall cur, Forall (fun gw => no_null (fst gw) /\ no_null (snd gw)) ws -> (cur = [] -> match ws with (g, _) :: _ => g = [] | [] => True end) ->
    render ind (wrap ind cur ws) = printed prefix ind cur ++ emit ind ws (length (printed prefix ind cur)).
  Proof.
    intros Hi. induction ws as [|[g w] ws IH]; intros cur Hn H0; cbn [wrap emit]; [cbn; now rewrite app_nil_r|].
    inversion Hn as [|? ? [Hng Hnw] Hn']; subst. cbn [fst snd] in *. unfold print_word. change (negb (length (printed prefix ind cur) =? 0) && (ConsoleWidth <? length (printed prefix ind cur) + (length w + length g))) with (breaks ind cur g w).
    destruct (breaks ind cur g w); unfold new_line, print_raw; rewrite !c_str_same by auto; cbn [Nat.add].
    - rewrite render_cons by apply wrap_not_nil. rewrite IH by (auto; discriminate). unfold printed at 2. cbn [joined map List.concat]. rewrite app_nil_r.
      replace (length (printed prefix ind [(g, w)])) with (length prefix + length ind + length w); [now rewrite <- !app_assoc|]. unfold printed. cbn [joined map List.concat]. rewrite app_nil_r, !app_length. lia.
    - rewrite IH; [|auto|intros E; destruct cur; discriminate]. rewrite printed_snoc by (intros E; apply (H0 E)). rewrite !app_length, <- !app_assoc, !Nat.add_assoc. reflexivity.
  Qed.

  Lemma printed_zero ind cur : Forall (fun gw => word (snd gw)) cur -> length (printed prefix ind cur) = 0 -> cur = [].
  Proof.
    intros H E. destruct cur as [|[g w] cur]; auto. inversion H as [|? ? [Hw _] _]; subst. cbn [snd] in *. unfold printed in E. rewrite !app_length in E. destruct w; [congruence|cbn in E; lia].
  Qed.
  Lemma wrap_ok ind ws : forall cur, Forall (fun gw => word (snd gw)) (cur ++ ws) -> (cur = [] -> match ws with (g, _) :: _ => g = [] | [] => True end) ->
    (length (printed prefix ind cur) <= ConsoleWidth \/ length cur <= 1) -> wrapped ConsoleWidth prefix ind (cur ++ ws) (wrap ind cur ws) /\
    exists g0 gs, wrap ind cur ws = (cur ++ g0) :: gs.
  Proof.
    induction ws as [|[g w] ws IH]; intros cur Hw H0 Hfit; cbn [wrap].
    - split; [|exists [], []; now rewrite app_nil_r]. split; cbn; auto; try (intros; tauto); try discriminate.
      + intros x [<-|[]]. auto.
      + intros b x gap v r a E. destruct b as [|? [|? b]]; discriminate.
    - destruct (breaks ind cur g w) eqn:B.
      + assert (Hone : length [(g, w)] <= 1) by (cbn; lia). apply Forall_app in Hw as [Hw1 Hw2].
        assert (Hx : ([(g, w)] : list (text * text)) = [] -> match ws with (g', _) :: _ => g' = [] | [] => True end) by discriminate.
        destruct (IH [(g, w)] Hw2 Hx (or_intror Hone)) as ([W1 W2 W3 W4 W5] & g0 & gs & E).
        split; [|exists [], (wrap ind [(g, w)] ws); now rewrite app_nil_r]. cbn [app] in W1. split.
        * cbn [List.concat]. f_equal. exact W1.
        * discriminate.
        * cbn [List.tl]. intros x Hx'. pose proof (eq_ind _ (fun z => In x z) Hx' _ E) as Hx2. clear Hx'. rename Hx2 into Hx'. destruct Hx' as [<-|Hx']; [discriminate|]. apply W3. rewrite E. exact Hx'.
        * intros x [<-|Hx']; auto.
        * intros b x gap v r a E'. destruct b as [|y b].
          -- cbn [app] in E'. injection E' as <- E'. pose proof (eq_trans (eq_sym E) E') as E2. clear E'. rename E2 into E'. cbn [app] in E'. injection E' as <- <- _ _. unfold breaks in B. apply andb_true_iff in B as [B1 B2].
             apply negb_true_iff, Nat.eqb_neq in B1. apply Nat.ltb_lt in B2. split; [unfold text in *; lia|]. intros X. now rewrite X in B1.
          -- cbn [app] in E'. injection E' as <- E'. eapply W5. exact E'.
      + assert (Hx : cur ++ [(g, w)] = [] -> match ws with (g', _) :: _ => g' = [] | [] => True end) by (destruct cur; discriminate).
        assert (Hfit' : length (printed prefix ind (cur ++ [(g, w)])) <= ConsoleWidth \/ length (cur ++ [(g, w)]) <= 1).
        { unfold breaks in B. apply andb_false_iff in B as [B|B].
          - apply negb_false_iff, Nat.eqb_eq in B. apply printed_zero in B; [subst cur; right; cbn; lia|]. now apply Forall_app in Hw as [? _].
          - apply Nat.ltb_ge in B. left. rewrite printed_snoc by (intros X; apply (H0 X)). rewrite !app_length. unfold text in *. lia. }
        specialize (IH (cur ++ [(g, w)])). rewrite <- app_assoc in IH. cbn [app] in IH. destruct (IH Hw Hx Hfit') as (W & g0 & gs & E). split; [exact W|]. exists ((g, w) :: g0), gs. refine (eq_trans E _). rewrite <- app_assoc. reflexivity.
  Qed.

  (** One line of the message. *)
  Definition shown (l : line) (o : text) : Prop :=
    exists gs, wrapped ConsoleWidth prefix (indent l) (content l) gs /\ o = concat (map (fun g => printed prefix (indent l) g ++ [newline]) gs).
  Lemma render_lines ind gs : gs <> [] -> concat (map (fun g => printed prefix ind g ++ [newline]) gs) = render ind gs ++ [newline].
  Proof.
    induction gs as [|g gs IH]; [congruence|]. intros _. cbn [map List.concat]. destruct gs as [|h gs]; [cbn; now rewrite app_nil_r|].
    rewrite IH by discriminate. rewrite (render_cons ind g (h :: gs)) by discriminate. rewrite <- !app_assoc. reflexivity.
  Qed.
  Lemma line_blank_gaps l : line_ok l -> Forall (fun gw => blank (fst gw)) (content l) /\ gaps_ok (List.tl (content l)).
  Proof.
    intros (_ & _ & _ & H). destruct (content l) as [|[g w] rest]; [split; constructor|]. destruct H as [-> H]. split; [|exact H].
    constructor; [constructor|]. eapply Forall_impl; [|exact H]. intros ? [? _]; auto.
  Qed.
  Lemma no_null_joined ws : no_null (joined ws) -> Forall (fun gw => no_null (fst gw) /\ no_null (snd gw)) ws.
  Proof.
    induction ws as [|[g w] ws IH]; intros H; constructor; change (joined ((g, w) :: ws)) with ((g ++ w) ++ joined ws) in H; apply no_null_app in H as [H1 H2]; auto. now apply no_null_app in H1.
  Qed.

  (** The first line, followed by a newline and [rest] or by nothing. *)
  Lemma print_lines_step l t rest fuel : line_ok l -> follows t rest -> seven_bit (line_text l) -> no_null (line_text l) -> line_text l ++ t <> [] ->
    length (line_text l ++ t) <= S fuel -> (t = [] -> content l <> []) ->
    exists o, shown l o /\ print_lines prefix (S fuel) (line_text l ++ t) = let* more := print_lines prefix fuel rest in Ok (o ++ more).
  Proof.
    intros Hok Hfo H7 Hn Hne Hf Hend. pose proof (line_blank_gaps l Hok) as [Hg1 Hg2]. destruct Hok as (Hi & Ht & Hw & Hc). unfold line_text in *.
    apply Forall_app in H7 as [H7i H7]. apply no_null_app in Hn as [Hni Hn]. apply no_null_app in Hn as [Hnc Hnt].
    assert (Hread : read_indentation (indent l ++ joined (content l) ++ tail l ++ t) = Ok (indent l, joined (content l) ++ tail l ++ t)).
    { apply read_indentation_ok; auto. intros c r E. destruct (content l) as [|[g w] ws].
      - rewrite Hc in E. cbn in E. destruct Hfo; [discriminate|]. injection E as <- <-. now left.
      - destruct Hc as [-> _]. inversion Hw as [|? ? [Hnw Hwh] _]; subst. cbn [snd] in *. change (joined (([], w) :: ws)) with (w ++ joined ws) in *. rewrite <- app_assoc in *. destruct w as [|b w]; [congruence|].
        cbn [app] in E. injection E as <- <-. inversion Hwh; inversion H7; subst. now right. }
    assert (Hs : shown l (printed prefix (indent l) [] ++ emit (indent l) (content l) (length (printed prefix (indent l) [])) ++ [newline])).
    { destruct (wrap_ok (indent l) (content l) [] Hw) as (W & _).
      - intros _. destruct (content l) as [|[g w] ws]; auto. now destruct Hc.
      - right. cbn. lia.
      - cbn [app] in W. exists (wrap (indent l) [] (content l)). split; auto. rewrite render_lines by apply wrap_not_nil. rewrite emit_wrap; [now rewrite <- app_assoc|auto|now apply no_null_joined|].
        intros _. destruct (content l) as [|[g w] ws]; auto. now destruct Hc. }
    assert (Hemit : exists out0, printed prefix (indent l) [] = prefix ++ indent l /\ out0 = tt) by (exists tt; split; auto; unfold printed; now rewrite app_nil_r).
    destruct Hemit as (_ & Hp & _). rewrite Hp in Hs. eexists. split; [exact Hs|].
    rewrite <- !app_assoc in *. assert (Hmsg : exists c m, indent l ++ joined (content l) ++ tail l ++ t = c :: m) by (destruct (indent l ++ joined (content l) ++ tail l ++ t); [congruence|eauto]).
    destruct Hmsg as (c0 & m0 & Hmsg). rewrite Hmsg. cbn [print_lines]. rewrite <- Hmsg, Hread. cbn [bind]. unfold print_raw. rewrite !c_str_same by auto.
    destruct (content l) as [|[g w] ws] eqn:Hcon.
    - rewrite Hc. cbn [joined map List.concat app]. destruct Hfo as [|t]; [now destruct (Hend eq_refl)|]. rewrite Ascii.eqb_refl. cbn [new_line fst emit app].
      destruct (print_lines prefix fuel t); cbn [bind]; auto. now rewrite <- !app_assoc.
    - destruct Hc as [-> Hgaps]. inversion Hw as [|? ? [Hnw Hwh] Hw']; subst. cbn [snd] in *. destruct w as [|b w]; [congruence|].
      assert (E : joined (@cons (text * text) (@pair text text [] (b :: w)) ws) ++ tail l ++ t = b :: (w ++ joined ws) ++ tail l ++ t) by (cbn; now rewrite <- !app_assoc). rewrite E.
      inversion Hwh; subst. destruct (Ascii.eqb_spec b newline) as [->|_]; [discriminate|]. rewrite <- E.
      replace (0 + length prefix + length (indent l)) with (length (prefix ++ indent l)) by (rewrite app_length; lia).
      rewrite (print_words_ok (indent l) (@cons (text * text) (@pair text text [] (b :: w)) ws) _ _ (tail l) t rest); auto. cbn [bind].
      destruct (print_lines prefix fuel rest); cbn [bind]; auto. now rewrite <- !app_assoc.
  Qed.

  (** The last line, if no newline follows and it has no words. *)
  Lemma print_lines_last_blank l fuel : line_ok l -> seven_bit (line_text l) -> no_null (line_text l) -> line_text l <> [] -> content l = [] ->
    print_lines prefix (S fuel) (line_text l) = Ok (prefix ++ indent l).
  Proof.
    intros (Hi & Ht & Hw & Hc) H7 Hn Hne He. unfold line_text in *. rewrite He in *. cbn [joined map List.concat app] in *. rewrite Hc, app_nil_r in *.
    assert (Hread : read_indentation (indent l) = Ok (indent l, [])).
    { rewrite <- (app_nil_r (indent l)) at 1. apply read_indentation_ok; auto. discriminate. }
    destruct (indent l) as [|c i] eqn:E; [congruence|]. cbn [print_lines]. rewrite Hread. cbn [bind]. unfold print_raw. rewrite !c_str_same by auto. reflexivity.
  Qed.

  Definition message (ls : list line) (last : option line) : text :=
    concat (map (fun l => line_text l ++ [newline]) ls) ++ match last with Some l => line_text l | None => [] end.
  Definition last_shown (last : option line) (o : text) : Prop :=
    match last with
    | None => o = []
    | Some l => match content l with [] => o = prefix ++ indent l | _ => shown l o end
    end.
  Lemma print_lines_ok ls : forall last fuel, Forall line_ok ls -> (forall l, last = Some l -> line_ok l /\ line_text l <> []) ->
    seven_bit (message ls last) -> no_null (message ls last) -> length (message ls last) <= fuel ->
    exists outs o, Forall2 shown ls outs /\ last_shown last o /\ print_lines prefix fuel (message ls last) = Ok (concat outs ++ o).
  Proof.
    induction ls as [|l ls IH]; intros last fuel Hls Hlast H7 Hn Hf.
    - unfold message in *. cbn [map List.concat app] in *. exists []. destruct last as [l|].
      + destruct (Hlast l eq_refl) as [Hok Hne]. destruct fuel as [|fuel]; [destruct (line_text l); [congruence|cbn in Hf; lia]|]. cbn [last_shown].
        destruct (content l) as [|gw ws] eqn:E.
        * exists (prefix ++ indent l). split; [constructor|]. split; auto. now apply print_lines_last_blank.
        * destruct (print_lines_step l [] [] fuel) as (o & Ho & P); auto; rewrite ?app_nil_r; auto; [constructor|rewrite E; discriminate|].
          exists o. split; [constructor|]. split; auto. rewrite app_nil_r in P. rewrite P. destruct fuel; cbn; now rewrite app_nil_r.
      + exists []. split; [constructor|]. split; [reflexivity|]. destruct fuel; reflexivity.
    - inversion Hls as [|? ? Hl Hls']; subst. change (message (l :: ls) last) with (((line_text l ++ [newline]) ++ concat (map (fun l => line_text l ++ [newline]) ls)) ++ match last with Some l => line_text l | None => [] end) in *.
      rewrite <- !app_assoc in *. fold (message ls last) in *. cbn [app] in *. apply Forall_app in H7 as [H71 H72]. apply no_null_app in Hn as [Hn1 Hn2].
      inversion H72 as [|? ? _ H73]; subst. apply (no_null_app [newline] (message ls last)) in Hn2 as [_ Hn3]. destruct fuel as [|fuel]; [rewrite app_length in Hf; cbn in Hf; lia|].
      destruct (print_lines_step l (newline :: message ls last) (message ls last) fuel) as (o & Ho & P); auto; [constructor|destruct (line_text l); discriminate|discriminate|].
      assert (Hf' : length (message ls last) <= fuel) by (rewrite app_length in Hf; cbn [length] in Hf; lia).
      destruct (IH last fuel Hls' Hlast H73 Hn3 Hf') as (outs & o' & H1 & H2 & H3). exists (o :: outs), o'. split; [now constructor|]. split; auto.
      rewrite P, H3. cbn [bind List.concat]. now rewrite app_assoc.
  Qed.
End Printer.

(** Every message consists of lines. *)
Lemma one_line t : ~ In newline t -> exists l, line_ok l /\ line_text l = t.
Proof.
  induction t as [|c t IH]; intros H.
  - exists (mk_line [] [] []). split; [repeat split; constructor|reflexivity].
  - destruct IH as (l & (Hi & Ht & Hw & Hc) & E); [intros X; apply H; now right|]. unfold line_text in *. destruct (white c) eqn:Wc.
    + exists (mk_line (c :: indent l) (content l) (tail l)). split; [|cbn [indent content tail app]; now rewrite E]. split; [|split; [|split]]; cbn; auto. constructor; auto. split; auto. intros ->. apply H. now left.
    + destruct (content l) as [|[g w] ws] eqn:Hcon.
      * exists (mk_line [] [([], [c])] (indent l)). split.
        -- split; [constructor|]. split; [exact Hi|]. split; [|repeat split; constructor]. constructor; [|constructor]. split; [discriminate|]. repeat constructor; auto.
        -- cbn. rewrite <- E, Hc. cbn. now rewrite app_nil_r.
      * destruct Hc as [-> Hg]. inversion Hw as [|? ? [Hne Hwh] Hw']; subst. cbn [snd] in *. destruct (indent l) as [|b i] eqn:Hind.
        -- exists (mk_line [] (([], c :: w) :: ws) (tail l)). split; [|reflexivity]. split; [constructor|]. split; [exact Ht|]. split; [|split; auto].
           constructor; auto. split; [discriminate|]. cbn. constructor; auto.
        -- exists (mk_line [] (([], [c]) :: (b :: i, w) :: ws) (tail l)). split; [|cbn; now rewrite <- !app_assoc]. split; [constructor|]. split; [exact Ht|]. split; [|split; auto].
           ++ constructor; [split; [discriminate|repeat constructor; auto]|]. constructor; auto. split; auto.
           ++ constructor; auto. split; [exact Hi|discriminate].
Qed.
Lemma message_exists t : exists ls last, Forall line_ok ls /\ (forall l, last = Some l -> line_ok l /\ line_text l <> []) /\ t = message ls last.
Proof.
  remember (length t) as n eqn:Hn. revert t Hn. induction n as [n IH] using lt_wf_ind. intros t ->.
  assert (S : (exists a b, t = a ++ newline :: b /\ ~ In newline a) \/ ~ In newline t).
  { clear. induction t as [|c t [(a & b & -> & H)|H]].
    - right. intros [].
    - destruct (Ascii.eqb_spec c newline) as [->|Hc]; left; [exists [], (a ++ newline :: b)|exists (c :: a), b]; split; auto. intros [X|X]; congruence.
    - destruct (Ascii.eqb_spec c newline) as [->|Hc]; [left; exists [], t; split; auto|right; intros [X|X]; congruence]. }
  destruct S as [(a & b & -> & Ha)|Ht].
  - destruct (IH (length b)) with (t := b) as (ls & last & H1 & H2 & ->); auto; [rewrite app_length; cbn; lia|]. destruct (one_line a Ha) as (l & Hl & <-).
    exists (l :: ls), last. split; [now constructor|]. split; auto. unfold message. cbn [map List.concat]. now rewrite <- !app_assoc.
  - destruct t as [|c t]; [exists [], None; split; [constructor|split; [discriminate|reflexivity]]|]. destruct (one_line (c :: t) Ht) as (l & Hl & E).
    exists [], (Some l). split; [constructor|]. split; [|cbn; now rewrite E]. intros l' E'. injection E' as <-. split; auto. now rewrite E.
Qed.

(** Words. *)
Definition flush (cur : text) : list text := match cur with [] => [] | _ => [cur] end.
Lemma words_from_cons cur c t : words_from cur (c :: t) = if white c then flush cur ++ words_from [] t else words_from (cur ++ [c]) t.
Proof. reflexivity. Qed.
Lemma words_from_break c b : white c = true -> forall a cur, words_from cur (a ++ c :: b) = words_from cur a ++ words b.
Proof.
  intros H. induction a as [|d a IH]; intros cur; cbn [app].
  - rewrite words_from_cons, H. reflexivity.
  - rewrite !words_from_cons. destruct (white d); rewrite IH; [now rewrite app_assoc|reflexivity].
Qed.
Lemma words_break a c b : white c = true -> words (a ++ c :: b) = words a ++ words b.
Proof. intros H. now apply words_from_break. Qed.
Lemma words_white g t : Forall (fun c => white c = true) g -> words (g ++ t) = words t.
Proof. unfold words. induction 1 as [|c g H _ IH]; auto. cbn [app]. rewrite words_from_cons, H. exact IH. Qed.
Lemma words_all_white g : Forall (fun c => white c = true) g -> words g = [].
Proof. intros H. rewrite <- (app_nil_r g), words_white by auto. reflexivity. Qed.
Lemma words_from_word w : forall cur, Forall (fun c => white c = false) w -> words_from cur w = flush (cur ++ w).
Proof.
  induction w as [|c w IH]; intros cur H; [now rewrite app_nil_r|]. inversion H as [|? ? Hc H']; subst. rewrite words_from_cons, Hc, IH by auto. now rewrite <- app_assoc.
Qed.
Lemma blank_white g : blank g -> Forall (fun c => white c = true) g.
Proof. apply Forall_impl. tauto. Qed.
Lemma words_content ws : forall w t, word w -> Forall (fun gw => word (snd gw)) ws -> gaps_ok ws -> Forall (fun c => white c = true) t ->
  words (w ++ joined ws ++ t) = w :: map snd ws.
Proof.
  induction ws as [|[g v] ws IH]; intros w t [Hw1 Hw2] Hws Hg Ht.
  - cbn [joined map List.concat app]. destruct t as [|c t].
    + rewrite app_nil_r. unfold words. rewrite words_from_word by auto. destruct w; [congruence|reflexivity].
    + inversion Ht; subst. rewrite words_break by auto. rewrite (words_all_white t), app_nil_r by auto. unfold words. rewrite words_from_word by auto. destruct w; [congruence|reflexivity].
  - inversion Hws as [|? ? Hv Hws']; inversion Hg as [|? ? [Hb Hne] Hg']; subst. cbn [fst snd map] in *. change (joined ((g, v) :: ws)) with ((g ++ v) ++ joined ws). rewrite <- !app_assoc.
    destruct g as [|c g]; [congruence|]. apply blank_white in Hb. inversion Hb; subst. cbn [app]. rewrite words_break by auto. rewrite words_white by auto. rewrite IH by auto.
    unfold words. rewrite words_from_word by auto. destruct w; [congruence|reflexivity].
Qed.
Lemma words_line l : line_ok l -> words (line_text l) = map snd (content l).
Proof.
  intros (Hi & Ht & Hw & Hc). unfold line_text. rewrite words_white by now apply blank_white. destruct (content l) as [|[g w] ws].
  - rewrite Hc. reflexivity.
  - destruct Hc as [-> Hg]. inversion Hw; subst. change (joined (([], w) :: ws)) with (w ++ joined ws). rewrite <- app_assoc. rewrite words_content; auto. now apply blank_white.
Qed.
Lemma words_printed prefix ind g : Forall (fun c => white c = true) prefix -> blank ind -> Forall (fun gw => word (snd gw)) g -> gaps_ok (List.tl g) ->
  words (printed prefix ind g) = map snd g.
Proof.
  intros Hp Hi Hw Hg. unfold printed. rewrite words_white by auto. rewrite words_white by now apply blank_white. destruct g as [|[g0 w] g]; auto.
  cbn [List.tl map snd] in *. inversion Hw; subst. rewrite <- (app_nil_r (joined g)). rewrite words_content; auto.
Qed.
Lemma words_lines (f : list (text * text) -> text) gs : (forall g, In g gs -> words (f g) = map snd g) -> words (concat (map (fun g => f g ++ [newline]) gs)) = map snd (concat gs).
Proof.
  induction gs as [|g gs IH]; intros H; auto. cbn [map List.concat]. rewrite <- app_assoc. cbn [app]. rewrite words_break by reflexivity. rewrite map_app, IH, H; auto; [now left|]. intros k Hk. apply H. now right.
Qed.
Lemma gaps_tail g : gaps_ok g -> gaps_ok (List.tl g).
Proof. destruct g; auto. intros H. inversion H; auto. Qed.
Lemma wrapped_words prefix l o : Forall (fun c => white c = true) prefix -> line_ok l -> shown prefix l o -> words o = words (line_text l).
Proof.
  intros Hp Hok (gs & W & ->). rewrite words_line by auto. pose proof (line_blank_gaps l Hok) as [_ Hg]. destruct Hok as (Hi & _ & Hw & _). rewrite <- (wr_words _ _ _ _ _ W) in *.
  apply words_lines. intros g Hin. apply words_printed; auto.
  - rewrite Forall_forall in Hw |- *. intros x Hx. apply Hw. apply in_concat. eauto.
  - clear - Hg Hin. apply in_split in Hin as (l1 & l2 & ->). rewrite concat_app in Hg. cbn [List.concat] in Hg. destruct (concat l1) as [|x a]; cbn [app List.tl] in Hg.
    + destruct g as [|y g]; [constructor|]. cbn [app List.tl] in *. now apply Forall_app in Hg as [? _].
    + apply Forall_app in Hg as [_ Hg]. apply Forall_app in Hg as [Hg _]. now apply gaps_tail.
Qed.
