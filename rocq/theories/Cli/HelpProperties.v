(** Property theorems about the help action (C54, C55). *)
From Coq Require Import List Arith Bool NArith Ascii String Sorted Permutation Lia.
From Verif.Base Require Import Order Res Sort Text.
From Verif.Spec Require Import CommandLine Table Wrap.
From Verif.Output Require Import Columns ColumnsProofs ColumnsProperties Display DisplayProofs DisplayFits DisplayProperties.
From Verif.Cli Require Import Error Names Params Parser Proofs Properties Help HelpProofs.
Import ListNotations.
Local Notation length := List.length.
Local Notation concat := List.concat.

(** Registering actions under distinct names makes a parser that knows them. *)
Fixpoint register_actions (p : parser) (es : list entry) : out parser :=
  match es with
  | [] => Ret p
  | e :: es' => do* p' := register_action p (e_name e) e in register_actions p' es'
  end.
Definition alphabetical (es ks : list entry) : Prop := Permutation ks es /\ StronglySorted (fun a b => tless (e_name b) (e_name a) = false) ks.
(** The name and the one-line summary are one line each. *)
Definition presentable (e : entry) : Prop := printable (e_name e) /\ printable (e_short e) /\ ~ In newline (e_name e) /\ ~ In newline (e_short e).
Lemma presentable_plain e : presentable e -> plain (e_name e) /\ plain (e_short e).
Proof. intros (H1 & H2 & H3 & H4). apply printable_seven in H1 as [_ H1]. apply printable_seven in H2 as [_ H2]. repeat split; auto. Qed.
Lemma sorted_entries es : alphabetical es (isort by_name es).
Proof. exact (isort_sorts by_name (key_strict_weak tless e_name tless_sw) es). Qed.
Lemma register_actions_ok es : forall p, NoDup (map fst (f_pairs (actions p)) ++ map e_name es) -> exists p', register_actions p es = Ret p' /\
  f_pairs (actions p') = f_pairs (actions p) ++ map (fun e => (e_name e, Ret (Some e))) es /\ pre_message p' = pre_message p /\ post_message p' = post_message p.
Proof.
  induction es as [|e es IH]; intros p Hd.
  - exists p. cbn. now rewrite app_nil_r.
  - cbn [register_actions]. unfold register_action, register, create_null. cbn [map] in Hd. rewrite create_loop_notin.
    + cbn [obind]. destruct (IH (mk_parser (mk_factory (f_name (actions p)) (f_pairs (actions p) ++ [(e_name e, Ret (Some e))])) (pre_message p) (post_message p))) as (p' & E & F & G).
      * cbn [actions f_pairs]. rewrite map_app. cbn [map fst]. rewrite <- app_assoc. exact Hd.
      * exists p'. split; [exact E|]. split; [|exact G]. rewrite F. cbn [actions f_pairs map]. now rewrite <- app_assoc.
    + apply NoDup_remove_2 in Hd. intros X. apply Hd, in_app_iff. now left.
Qed.
Theorem C54_register es : NoDup (map e_name es) -> exists p, register_actions new_parser es = Ret p /\ registers p es /\ pre_message p = [] /\ post_message p = [].
Proof. intros H. destruct (register_actions_ok es new_parser H) as (p & E & F & G). exists p. auto. Qed.
Print Assumptions C54_register.

(** C54.  help without a topic always succeeds, even if a name is a prefix of others, and what it says is: the first message, then for each
    registered action, in the order of the names, the name, a dash and the summary, then the last message. *)
Theorem C54_overview p es : registers p es -> NoDup (map e_name es) -> Forall presentable es -> printable (pre_message p) -> printable (post_message p) ->
  exists out ks, perform_help p (Some []) = Ret out /\ alphabetical es ks /\
  words out = words (pre_message p) ++ concat (map (fun e => words (e_name e) ++ [txt "-"] ++ words (e_short e)) ks) ++ words (post_message p).
Proof.
  intros H Hd Hp H1 H2. set (ks := isort by_name es). assert (Hk : Forall presentable ks) by (eapply Permutation_Forall; [apply Permutation_sym, isort_perm|exact Hp]).
  assert (Hpl : Forall (fun e => plain (e_name e) /\ plain (e_short e)) es) by (eapply Forall_impl; [|exact Hp]; apply presentable_plain).
  cbn [perform_help topic_of]. rewrite (overview_message p es H Hd Hpl). fold ks.
  destruct (C46_words (pre_message p ++ [newline] ++ concat (map (overview_row ks) ks) ++ [newline] ++ post_message p ++ [newline]) []) as (out & E & W).
  - assert (Hn : printable [newline]) by now apply printable_dec. repeat (apply printable_app; split; auto).
    assert (G : forall l, Forall presentable l -> printable (concat (map (overview_row ks) l))).
    { induction 1 as [|e l (X1 & X2 & _) _ IH]; [constructor|]. cbn [map List.concat]. apply printable_app. split; auto. now apply printable_row. }
    now apply G.
  - intros [].
  - constructor.
  - exists out, ks. rewrite E. split; [reflexivity|]. split; [apply sorted_entries|]. rewrite W, words_sep, words_rows. f_equal. f_equal.
    change ([newline] ++ post_message p ++ [newline]) with ([] ++ [newline] ++ post_message p ++ [newline]). rewrite words_sep. change (words []) with (@nil text). cbn [app].
    change (post_message p ++ [newline]) with (post_message p ++ [newline] ++ []). rewrite words_sep. apply app_nil_r.
Qed.
Print Assumptions C54_overview.

(** C54.  If the lines are not too long then there is one line for each action, and the dashes stand one below the other. *)
Theorem C54_lines p es : registers p es -> NoDup (map e_name es) -> Forall presentable es -> pre_message p = [] -> post_message p = [] ->
  (forall e, In e es -> exists s c, e_short e = s ++ [c] /\ white c = false) ->
  (forall e f, In e es -> In f es -> length (e_name e) + length (e_short f) + 4 <= 79) ->
  exists ks width, alphabetical es ks /\ (forall e, In e es -> length (e_name e) <= width) /\ (es <> [] -> exists e, In e es /\ length (e_name e) = width) /\
  perform_help p (Some []) = Ret ([newline] ++
    concat (map (fun e => txt " " ++ repeat " "%char (width - length (e_name e)) ++ e_name e ++ txt " - " ++ e_short e ++ [newline]) ks) ++ [newline; newline]).
Proof.
  intros H Hd Hp H1 H2 Hs Hf. set (ks := isort by_name es). assert (Hperm : Permutation ks es) by apply isort_perm.
  assert (Hmem : forall e, In e ks <-> In e es) by (intros e; split; apply Permutation_in; [exact Hperm|now apply Permutation_sym]).
  assert (Hpl : Forall (fun e => plain (e_name e) /\ plain (e_short e)) es) by (eapply Forall_impl; [|exact Hp]; apply presentable_plain).
  assert (Hmax : forall e, In e ks -> length (e_name e) <= name_width ks).
  { intros e He. apply list_max_ge. apply in_map_iff. eauto. }
  assert (Hatt : ks <> [] -> exists e, In e ks /\ length (e_name e) = name_width ks).
  { unfold name_width. clear. induction ks as [|e l IH]; [congruence|]. intros _. cbn [map]. change (list_max (?x :: ?l)) with (Nat.max x (list_max l)). destruct l as [|f l].
    - exists e. split; [now left|]. cbn. lia.
    - destruct (IH ltac:(discriminate)) as (g & Hg & E). destruct (Nat.max_spec (length (e_name e)) (list_max (map (fun e => length (e_name e)) (f :: l)))) as [[_ X]|[_ X]];
        unfold text in *; rewrite X; [exists g; split; [now right|auto]|exists e; split; [now left|auto]]. }
  exists ks, (name_width ks). split; [apply sorted_entries|]. split; [intros e He; apply Hmax; now apply Hmem|]. split.
  { intros Hne. destruct Hatt as (e & He & E).
    - intros X. apply Hne. rewrite X in Hperm. now apply Permutation_nil in Hperm.
    - exists e. split; auto. now apply Hmem. }
  cbn [perform_help topic_of]. rewrite (overview_message p es H Hd Hpl), H1, H2. fold ks.
  set (rows := map (fun e => (overview_line ks e, pad (short_width ks - length (e_short e)))) ks).
  assert (Em : [] ++ [newline] ++ concat (map (overview_row ks) ks) ++ [newline] ++ [] ++ [newline] =
    concat (map (fun l => fst l ++ snd l ++ [newline]) (([], []) :: rows ++ [([], []); ([], [])]))).
  { cbn [map List.concat fst snd app]. f_equal. rewrite map_app, concat_app. cbn [map List.concat fst snd app]. f_equal. unfold rows. now rewrite map_map. }
  rewrite Em, display_fits.
  - cbn [written map List.concat fst snd app]. f_equal. f_equal. rewrite map_app, concat_app. cbn [map List.concat fst snd app]. f_equal. unfold rows. rewrite map_map. f_equal. apply map_ext. intros e.
    cbn [fst]. unfold overview_line, pad. rewrite <- !app_assoc. reflexivity.
  - intros [].
  - assert (Ht : neat [] [] /\ length (@nil ascii ++ []) <= ConsoleWidth /\ seven_bit ([] ++ []) /\ no_null ([] ++ [])).
    { split; [split; [intros []|split; [constructor|now left]]|]. split; [cbn; lia|]. split; [constructor|intros []]. }
    constructor; [exact Ht|]. apply Forall_app. split; [|constructor; [exact Ht|constructor; [exact Ht|constructor]]].
    unfold rows. apply Forall_forall. intros l Hl. apply in_map_iff in Hl as (e & <- & He). cbn [fst snd].
    assert (Hpe : presentable e) by (rewrite Forall_forall in Hp; apply Hp; now apply Hmem). pose proof Hpe as (P1 & P2 & P3 & P4).
    assert (Hw : forall n, blank (pad n)) by (intros n; apply Forall_forall; intros c Hc; apply repeat_spec in Hc as ->; split; [reflexivity|discriminate]).
    assert (Hnl : forall n, ~ In newline (pad n)) by (intros n X; apply repeat_spec in X; discriminate).
    split; [split; [|split]|split].
    + unfold overview_line. intros X. repeat (apply in_app_iff in X as [X|X]); try tauto; [cbn in X; decompose [or] X; try discriminate; auto|now apply Hnl in X|cbn in X; decompose [or] X; try discriminate; auto].
    + apply Hw.
    + right. destruct (Hs e) as (s & c & E & Hc); [now apply Hmem|]. unfold overview_line. rewrite E. exists (txt " " ++ pad (name_width ks - length (e_name e)) ++ e_name e ++ txt " - " ++ s), c. split; auto.
      now rewrite <- !app_assoc.
    + cbn [app]. unfold overview_line. rewrite !app_length. unfold pad. rewrite repeat_length. pose proof (Hmax e He). destruct (Hatt ltac:(intros X; rewrite X in He; destruct He)) as (g & Hg & Eg).
      specialize (Hf g e ltac:(now apply Hmem) ltac:(now apply Hmem)). change (length (txt " ")) with 1. change (length (txt " - ")) with 3. unfold ConsoleWidth, text in *. lia.
    + assert (Hpr : printable (overview_line ks e ++ pad (short_width ks - length (e_short e)))).
      { unfold overview_line. repeat (apply printable_app; split); auto using printable_pad; now apply printable_dec. }
      apply printable_seven in Hpr. exact Hpr.
Qed.
Print Assumptions C54_lines.

(** C55.  help with a topic describes the action that the topic names, and says the same about each of its parameters, in the order of their
    names: name, type and the value that a new action has. *)
Definition in_name_order (ps qs : list (param * text)) : Prop := Permutation qs ps /\ StronglySorted (fun a b => tless (p_name (fst b)) (p_name (fst a)) = false) qs.
Definition documented (e : entry) : Prop := printable (e_name e) /\ printable (e_description e) /\
  Forall (fun p => printable (snd p) /\ ~ In nul (p_name (fst p)) /\ ~ In nul (value_as_string (fst p))) (e_params e).
Theorem C55_topic p es topic e : registers p es -> NoDup (map e_name es) -> In e es -> topic <> [] -> resolves (map e_name es) topic (e_name e) -> documented e ->
  exists head qs abouts, in_name_order (e_params e) qs /\ words head = [txt "Displaying"; txt "information"; txt "on"; txt "action:"] ++ words (e_name e) ++ words (e_description e) /\
  Forall2 (fun q about => display (snd q) (txt "   ") = Ok about /\ words about = words (snd q)) qs abouts /\
  perform_help p (Some [topic]) = Ret (head ++
    match qs with
    | [] => []
    | _ => [newline] ++ txt "The parameters accepted by " ++ e_name e ++ txt " are as follows." ++ [newline] ++
      concat (map (fun qa => [newline] ++ txt " -" ++ p_name (fst (fst qa)) ++ txt " " ++ argument_type (fst (fst qa)) ++
                     txt "   (default is " ++ value_as_string (fst (fst qa)) ++ txt ")" ++ [newline] ++ snd qa) (combine qs abouts))
    end).
Proof.
  intros H Hd Hin Ht Hr (D1 & D2 & D3). cbn [perform_help topic_of]. destruct topic as [|c topic]; [congruence|]. rewrite (create_action_resolved p es (c :: topic) (e_name e) e) by auto. cbn [obind].
  unfold display_action_help. set (qs := isort param_cmp (e_params e)).
  assert (Hq : in_name_order (e_params e) qs) by exact (isort_sorts param_cmp (key_strict_weak tless (fun q => p_name (fst q)) tless_sw) (e_params e)).
  assert (D : Forall (fun q => silent (p_name (fst q)) /\ silent (value_as_string (fst q)) /\ printable (snd q)) qs).
  { eapply Permutation_Forall; [apply Permutation_sym; apply Hq|]. eapply Forall_impl; [|exact D3]. cbn. tauto. }
  destruct (show_params_ok qs D) as (abouts & E & F).
  destruct (C46_words (txt "Displaying information on action: " ++ e_name e ++ [newline; newline] ++ e_description e ++ [newline]) []) as (head & Eh & Wh).
  - repeat (apply printable_app; split; auto); now apply printable_dec.
  - intros [].
  - constructor.
  - exists head, qs, abouts. split; [exact Hq|]. split.
    + rewrite Wh. change (txt "Displaying information on action: ") with (txt "Displaying information on action:" ++ [space]). rewrite <- app_assoc. cbn [app].
      rewrite (words_break (txt "Displaying information on action:") space) by reflexivity. change (words (txt "Displaying information on action:")) with [txt "Displaying"; txt "information"; txt "on"; txt "action:"].
      cbn [app]. do 4 f_equal. change (e_name e ++ newline :: newline :: e_description e ++ [newline]) with (e_name e ++ [newline] ++ [] ++ [newline] ++ e_description e ++ [newline] ++ []). rewrite !words_sep. change (words []) with (@nil text). cbn [app]. now rewrite app_nil_r.
    + split; [exact F|]. rewrite Eh. cbn [bind]. destruct qs as [|q qs'] eqn:Eq; [cbn [written]; now rewrite app_nil_r|]. rewrite E. cbn [bind written]. f_equal. f_equal.
      assert (X : forall l, concat (map (fun qa : (param * text) * text => param_line (fst (fst qa)) ++ snd qa) l) = concat (map (fun qa => [newline] ++ txt " -" ++ p_name (fst (fst qa)) ++ txt " " ++
        argument_type (fst (fst qa)) ++ txt "   (default is " ++ value_as_string (fst (fst qa)) ++ txt ")" ++ [newline] ++ snd qa) l)).
      { intros l. f_equal. apply map_ext. intros qa. unfold param_line. rewrite <- !app_assoc. reflexivity. }
      rewrite <- !app_assoc. do 4 f_equal. f_equal. apply X.
Qed.
Print Assumptions C55_topic.

(** C55.  A topic that names no action is reported in the same way as an action on the command line that is none, and nothing is printed. *)
Theorem C55_unknown_topic p es topic : registers p es -> topic <> [] -> (forall name, ~ resolves (map e_name es) topic name) ->
  exists e, perform_help p (Some [topic]) = Raise e /\ parse_command (fun n => n) p [topic] = Raise e /\
  match e with UnknownName _ | AmbiguousName _ => True | _ => False end.
Proof.
  intros H Ht Hn. cbn [perform_help topic_of]. destruct topic as [|c topic]; [congruence|]. unfold create_action, create_with_prefix, parse_command, parse.
  set (f := mk_factory _ _). assert (Ef : f_name f = f_name (actions p) /\ map fst (f_pairs f) = map fst (f_pairs (actions p))) by (cbn [f f_name f_pairs]; rewrite map_map; split; reflexivity).
  assert (Eu : unique_name f (c :: topic) = unique_name (actions p) (c :: topic)) by (unfold unique_name, names_with_prefix; destruct Ef as [-> ->]; reflexivity).
  unfold create_with_prefix. rewrite Eu. destruct (C38_errors (actions p) (c :: topic)) as [[name X]|[[_ X]|(l & _ & _ & _ & X)]].
  - apply C38_unique_name in X. rewrite (registers_names p es H) in X. now apply Hn in X.
  - rewrite X. cbn [obind]. eexists. split; [reflexivity|]. split; [reflexivity|exact I].
  - rewrite X. cbn [obind]. eexists. split; [reflexivity|]. split; [reflexivity|exact I].
Qed.
Print Assumptions C55_unknown_topic.

(** C55.  On the command line: the help action, named in full or by a prefix of its name that fits no other action, is told the token after it if
    there is one, and reports a second one.  An empty token counts for nothing. *)
Theorem C55_command_line negated p es h : registers p es -> NoDup (map e_name es) -> In help_entry es -> resolves (map e_name es) h (txt "help") ->
  (forall topic, topic <> [] -> ~ starts_with_dash topic ->
     exists a, parse_command negated p [h; topic] = Ret a /\ a_told a = Some [topic]) /\
  (exists a, parse_command negated p [h] = Ret a /\ parse_command negated p [h; []] = Ret a /\ a_told a = Some []) /\
  (forall topic second rest, topic <> [] -> second <> [] -> ~ starts_with_dash topic -> ~ starts_with_dash second ->
     parse_command negated p (h :: topic :: second :: rest) = Raise (MathicError (txt "ERROR: Did not expect second option " ++ quote ++ second ++ quote ++ txt "."))).
Proof.
  intros H Hd Hin Hr. unfold parse_command. set (f := mk_factory _ _).
  assert (Ef : map fst (f_pairs f) = map e_name es) by (cbn [f f_pairs]; rewrite map_map; cbn [fst]; exact (registers_names p es H)).
  assert (Ec : create_with_prefix f h = Ret (Some (action_of help_entry))).
  { apply (C38_create_with_prefix f h (txt "help")); rewrite ?Ef; auto. cbn [f f_pairs]. apply in_map_iff. exists (txt "help", Ret (Some help_entry)). split; [reflexivity|]. rewrite H. apply in_map_iff. exists help_entry. auto. }
  assert (D : forall t, ~ starts_with_dash t -> dashed t = false).
  { intros [|c t] Hs; auto. cbn [dashed]. destruct (Ascii.eqb_spec c dash) as [->|]; auto. exfalso. apply Hs. now exists t. }
  split; [|split].
  - intros topic Ht Hs. destruct topic as [|c topic]; [congruence|]. eexists. split; [|shelve]. unfold parse. rewrite Ec. cbn [obind action_of help_entry a_params e_params map fst param_names register_params].
    cbn [separate orb]. rewrite (D _ Hs). cbn. reflexivity. Unshelve. reflexivity.
  - eexists. unfold parse. rewrite Ec. cbn. split; [reflexivity|split; reflexivity].
  - intros topic second rest Ht H2 Hs Hs2. destruct topic as [|c topic]; [congruence|]. destruct second as [|d second]; [congruence|]. unfold parse. rewrite Ec.
    cbn [obind action_of help_entry a_params e_params map fst param_names register_params]. cbn [separate orb]. rewrite (D _ Hs). cbn [orb]. rewrite (D _ Hs2). destruct (separate false rest) as [direct options].
    cbn. reflexivity.
Qed.
Print Assumptions C55_command_line.

(** C54 fails for an action that is registered under another name than its own: the name in the overview is of no use on the command line. *)
Theorem C54_other_name_refuted : exists p e out, f_pairs (actions p) = [(txt "solve", Ret (Some e))] /\ perform_help p (Some []) = Ret out /\
  words out = [e_name e; txt "-"; e_short e] /\
  exists msg, parse_command (fun n => n) p [e_name e] = Raise (UnknownName msg).
Proof.
  exists (mk_parser (mk_factory (txt "action") [(txt "solve", Ret (Some (mk_entry (txt "run") [] (txt "Runs.") [] no_direct)))]) [] []), (mk_entry (txt "run") [] (txt "Runs.") [] no_direct).
  eexists. split; [reflexivity|]. split; [reflexivity|]. split; [reflexivity|]. eexists. reflexivity.
Qed.
Print Assumptions C54_other_name_refuted.
(** C54 fails for a summary of two lines: all later summaries stand beside the wrong names. *)
Theorem C54_two_line_summary_refuted : exists p es out, registers p es /\ NoDup (map e_name es) /\ perform_help p (Some []) = Ret out /\
  map e_name es = [txt "a"; txt "b"] /\ map e_short es = [txt "does" ++ [newline] ++ txt "this"; txt "that"] /\
  words out = [txt "a"; txt "-"; txt "does"; txt "b"; txt "-"; txt "this"; txt "-"; txt "that"].
Proof.
  set (es := [mk_entry (txt "a") [] (txt "does" ++ [newline] ++ txt "this") [] no_direct; mk_entry (txt "b") [] (txt "that") [] no_direct]).
  exists (mk_parser (mk_factory (txt "action") (map (fun e => (e_name e, Ret (Some e))) es)) [] []), es. eexists. split; [reflexivity|].
  split; [repeat constructor; cbn; intros X; decompose [or] X; try discriminate; auto|]. split; [reflexivity|]. repeat split.
Qed.
Print Assumptions C54_two_line_summary_refuted.

(** Examples: run and runner, one of which is a prefix of the other, and help. *)
Definition example_entries : list entry :=
  [mk_entry (txt "runner") (txt "Employs a runner.") (txt "Employ a runner.") [] no_direct;
   help_entry;
   mk_entry (txt "run") (txt "Runs.") (txt "Just run.") [(mk_param (txt "speed") (VInt 3), txt "How fast."); (mk_param (txt "back") (VBool false), txt "Whether to return.")] no_direct].
Example C54_example : exists p, register_actions new_parser example_entries = Ret p /\ registers p example_entries /\ NoDup (map e_name example_entries) /\ Forall presentable example_entries /\
  perform_help p (Some []) = Ret ([newline] ++ txt "   help - Return information about the command line interface." ++ [newline] ++
    txt "    run - Just run." ++ [newline] ++ txt " runner - Employ a runner." ++ [newline; newline; newline]).
Proof.
  eexists. split; [reflexivity|]. split; [reflexivity|]. split; [repeat constructor; cbn; intros X; decompose [or] X; try discriminate; auto|]. split; [|vm_compute; reflexivity].
  repeat constructor; try (cbn; lia); try discriminate; intros X; cbn in X; decompose [or] X; try discriminate; auto.
Qed.
Example C55_example : exists p, register_actions new_parser example_entries = Ret p /\ resolves (map e_name example_entries) (txt "run") (txt "run") /\
  documented (nth 2 example_entries help_entry) /\
  perform_help p (Some [txt "run"]) = Ret (txt "Displaying information on action: run" ++ [newline; newline] ++ txt "Runs." ++ [newline; newline] ++
    txt "The parameters accepted by run are as follows." ++ [newline; newline] ++
    txt " -back [BOOL]   (default is off)" ++ [newline] ++ txt "   Whether to return." ++ [newline; newline] ++
    txt " -speed INTEGER   (default is 3)" ++ [newline] ++ txt "   How fast." ++ [newline]) /\
  exists msg, perform_help p (Some [txt "r"]) = Raise (AmbiguousName msg).
Proof.
  eexists. split; [reflexivity|]. split; [left; split; [right; right; now left|reflexivity]|]. split.
  - repeat constructor; try (cbn; lia); try discriminate; intros X; cbn in X; decompose [or] X; try discriminate; auto.
  - split; [vm_compute; reflexivity|]. eexists. vm_compute. reflexivity.
Qed.
