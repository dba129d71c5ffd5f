(** Property theorems about the command line interface (C37-C41). *)
From Coq Require Import List Arith Bool NArith Ascii String Sorted Permutation Lia.
From Verif.Base Require Import Order Sort Text.
From Verif.Spec Require Import CommandLine.
From Verif.Cli Require Import Error Names Params Parser Proofs.
Import ListNotations.
Local Notation length := List.length.

Definition unknown_message (f_name name : text) : text := txt "ERROR: Unknown " ++ f_name ++ txt " " ++ quote ++ name ++ quote ++ txt "." ++ [newline].
Lemma create_registered {P} abstract_name (regs : list (text * out (option P))) f :
  Forall (fun it => makes (snd it)) regs -> register_all (new_factory abstract_name) regs = Ret f ->
  NoDup (map fst regs) /\ (forall name p, In (name, Ret (Some p)) regs -> create f name = Ret p) /\
  (forall name, ~ In name (map fst regs) -> create f name = Raise (UnknownName (unknown_message abstract_name name))).
Proof.
  intros Hm H. assert (Hd : NoDup (map fst regs)) by (apply (register_all_nodup regs (new_factory abstract_name) f); auto; constructor).
  apply register_all_pairs in H as ->. cbn [new_factory f_name f_pairs app]. split; auto. split.
  - intros name p Hin. unfold create, create_null. cbn [f_pairs]. now rewrite (create_loop_in _ _ _ Hd Hin).
  - intros name Hn. unfold create, create_null. cbn [f_pairs f_name]. rewrite create_loop_notin by auto. cbn [obind]. unfold throwError, unknown_message. f_equal. f_equal.
    rewrite <- !app_assoc. reflexivity.
Qed.
(** C37.  If functions that make products are registered without violating the assertion, then their names are distinct, create calls the
    function registered under the name, and reports every other name as unknown. *)
Theorem C37_create {P} abstract_name (regs : list (text * out (option P))) f :
  Forall (fun it => makes (snd it)) regs -> register_all (new_factory abstract_name) regs = Ret f ->
  NoDup (map fst regs) /\ (forall name p, In (name, Ret (Some p)) regs -> create f name = Ret p) /\
  (forall name, ~ In name (map fst regs) -> create f name = Raise (UnknownName (unknown_message abstract_name name))).
Proof. exact (create_registered abstract_name regs f). Qed.
Print Assumptions C37_create.
(** C37.  Distinct names can always be registered. *)
Theorem C37_register {P} abstract_name (regs : list (text * out (option P))) :
  NoDup (map fst regs) -> exists f, register_all (new_factory abstract_name) regs = Ret f.
Proof. exact (register_all_distinct regs (new_factory abstract_name)). Qed.
Print Assumptions C37_register.
Definition two_products : list (text * out (option nat)) := [(txt "map", Ret (Some 1)); (txt "maple", Ret (Some 2))].
Example C37_example : exists f, register_all (new_factory (txt "thing")) two_products = Ret f /\ create f (txt "maple") = Ret 2 /\
  create f (txt "ma") = Raise (UnknownName (txt "ERROR: Unknown thing " ++ quote ++ txt "ma" ++ quote ++ txt "." ++ [newline])).
Proof. eexists. split; [reflexivity|]. split; reflexivity. Qed.

Lemma names_with_prefix_spec {P} (f : factory P) prefix names : StronglySorted (fun a b => tless b a = false) (names_with_prefix f prefix names) /\
  (forall n, In n (names_with_prefix f prefix names) <-> In n names \/ (In n (map fst (f_pairs f)) /\ is_prefix prefix n)) /\
  (NoDup (names ++ map fst (f_pairs f)) -> NoDup (names_with_prefix f prefix names)).
Proof.
  split; [apply names_sorted|]. pose proof (names_perm f prefix names) as Hp. split.
  - intros n. rewrite <- has_prefix_spec, <- filter_In. rewrite <- in_app_iff. split; apply Permutation_in; [exact Hp|now apply Permutation_sym].
  - intros Hd. apply (Permutation_NoDup (Permutation_sym Hp)). clear Hp. unfold names_of. induction names as [|a names IH]; cbn [app] in *.
    + now apply NoDup_filter.
    + inversion Hd as [|? ? H1 H2]; subst. constructor; auto. intros H. apply H1. apply in_app_iff in H. apply in_app_iff. destruct H as [H|H]; auto.
      apply filter_In in H. tauto.
Qed.
(** C37.  namesWithPrefix adds exactly the registered names with the prefix, and puts all into increasing order. *)
Theorem C37_names_with_prefix {P} (f : factory P) prefix names :
  StronglySorted (fun a b => tless b a = false) (names_with_prefix f prefix names) /\
  (forall n, In n (names_with_prefix f prefix names) <-> In n names \/ (In n (map fst (f_pairs f)) /\ is_prefix prefix n)) /\
  (NoDup (names ++ map fst (f_pairs f)) -> NoDup (names_with_prefix f prefix names)).
Proof. exact (names_with_prefix_spec f prefix names). Qed.
Print Assumptions C37_names_with_prefix.
Example C37_names_example : names_with_prefix (mk_factory (P := nat) (txt "thing") [(txt "maple", Ret None); (txt "oak", Ret None); (txt "map", Ret None)]) (txt "ma") []
  = [txt "map"; txt "maple"].
Proof. reflexivity. Qed.
(** C37 fails for functions that return null: the same name can be registered twice, and create reports it as unknown. *)
Theorem C37_null_refuted : exists (regs : list (text * out (option nat))) f, register_all (new_factory (txt "thing")) regs = Ret f /\
  ~ NoDup (map fst regs) /\ exists name, In name (map fst regs) /\ create f name = Raise (UnknownName (unknown_message (txt "thing") name)).
Proof.
  exists [(txt "map", Ret None); (txt "map", Ret (Some 1))], (mk_factory (txt "thing") [(txt "map", Ret None); (txt "map", Ret (Some 1))]).
  split; [reflexivity|]. split.
  - intros H. inversion H as [|? ? Hn _]; subst. apply Hn. now left.
  - exists (txt "map"). split; [now left|reflexivity].
Qed.
Print Assumptions C37_null_refuted.

(** C38.  A prefix is resolved exactly as it should be. *)
Theorem C38_unique_name {P} (f : factory P) prefix name : unique_name f prefix = Ret name <-> resolves (map fst (f_pairs f)) prefix name.
Proof. exact (unique_name_iff f prefix name). Qed.
Print Assumptions C38_unique_name.
Lemma unique_name_cases {P} (f : factory P) prefix :
  (exists name, unique_name f prefix = Ret name) \/
  ((forall n, In n (map fst (f_pairs f)) -> ~ is_prefix prefix n) /\
   unique_name f prefix = Raise (UnknownName (txt "ERROR: No " ++ f_name f ++ txt " has the prefix " ++ quote ++ prefix ++ quote ++ txt "." ++ [newline]))) \/
  (exists l, ~ In prefix (map fst (f_pairs f)) /\ candidates (map fst (f_pairs f)) prefix l /\ 2 <= length l /\
   unique_name f prefix = Raise (AmbiguousName (txt "ERROR: More than one " ++ f_name f ++ txt " has prefix " ++ quote ++ prefix ++ quote ++ txt ":" ++ [newline] ++ txt " "
             ++ List.concat (map (fun name => txt " " ++ name) l) ++ [newline]))).
Proof.
  destruct (unique_name_result f prefix) as [name H|H|l H1 H2 H3].
  - left. now exists name.
  - right. left. split; auto. unfold throwError. f_equal. f_equal. rewrite <- !app_assoc. reflexivity.
  - right. right. exists l. split; auto. split; auto. split; auto. unfold throwError. f_equal. f_equal. rewrite <- !app_assoc. reflexivity.
Qed.
(** C38.  Otherwise the prefix is reported as unknown if no name has it, and as ambiguous, with all candidates in increasing order, if several
    have it and none is equal to it. *)
Theorem C38_errors {P} (f : factory P) prefix :
  (exists name, unique_name f prefix = Ret name) \/
  ((forall n, In n (map fst (f_pairs f)) -> ~ is_prefix prefix n) /\
   unique_name f prefix = Raise (UnknownName (txt "ERROR: No " ++ f_name f ++ txt " has the prefix " ++ quote ++ prefix ++ quote ++ txt "." ++ [newline]))) \/
  (exists l, ~ In prefix (map fst (f_pairs f)) /\ candidates (map fst (f_pairs f)) prefix l /\ 2 <= length l /\
   unique_name f prefix = Raise (AmbiguousName (txt "ERROR: More than one " ++ f_name f ++ txt " has prefix " ++ quote ++ prefix ++ quote ++ txt ":" ++ [newline] ++ txt " "
             ++ List.concat (map (fun name => txt " " ++ name) l) ++ [newline]))).
Proof. exact (unique_name_cases f prefix). Qed.
Print Assumptions C38_errors.
(** C38.  A registered name is found even if it is a prefix of others. *)
Theorem C38_exact {P} (f : factory P) name : In name (map fst (f_pairs f)) -> unique_name f name = Ret name.
Proof. exact (fun H => proj2 (unique_name_iff f name name) (or_introl (conj H eq_refl))). Qed.
Print Assumptions C38_exact.
Lemma create_with_prefix_spec {P} (f : factory P) prefix name p : NoDup (map fst (f_pairs f)) -> resolves (map fst (f_pairs f)) prefix name ->
  In (name, Ret (Some p)) (f_pairs f) -> create_with_prefix f prefix = Ret (Some p).
Proof.
  intros Hd Hr Hin. unfold create_with_prefix. apply (unique_name_iff f) in Hr. rewrite Hr. cbn [obind]. unfold create_null. now apply create_loop_in.
Qed.
(** C38.  createWithPrefix makes the product registered under the name that the prefix resolves to. *)
Theorem C38_create_with_prefix {P} (f : factory P) prefix name p : NoDup (map fst (f_pairs f)) -> resolves (map fst (f_pairs f)) prefix name ->
  In (name, Ret (Some p)) (f_pairs f) -> create_with_prefix f prefix = Ret (Some p).
Proof. exact (create_with_prefix_spec f prefix name p). Qed.
Print Assumptions C38_create_with_prefix.
Example C38_example : let f := mk_factory (txt "thing") two_products in
  unique_name f (txt "map") = Ret (txt "map") /\ unique_name f (txt "mapl") = Ret (txt "maple") /\
  create_with_prefix f (txt "mapl") = Ret (Some 2) /\
  unique_name f (txt "ma") = Raise (AmbiguousName (txt "ERROR: More than one thing has prefix " ++ quote ++ txt "ma" ++ quote ++ txt ":" ++ [newline] ++ txt "  map maple" ++ [newline])) /\
  unique_name f (txt "x") = Raise (UnknownName (txt "ERROR: No thing has the prefix " ++ quote ++ txt "x" ++ quote ++ txt "." ++ [newline])).
Proof. cbn zeta. repeat split; reflexivity. Qed.

(** C39.  A command line is accepted exactly if it is an action, direct parameters that the action accepts, and options with fitting arguments;
    and then the result is the action with the direct parameters told to it and the arguments assigned in turn. *)
Theorem C39_parse negated actions command_line result : parse negated actions command_line = Ret result <-> command actions command_line result.
Proof. exact (parse_spec negated actions command_line result). Qed.
Print Assumptions C39_parse.
(** C39.  Everything else is reported as an error: nothing is undefined, and no internal error occurs. *)
Theorem C39_errors_reported negated actions command_line : proper actions -> (forall result, ~ command actions command_line result) ->
  exists e, parse negated actions command_line = Raise e /\ expected_error e.
Proof.
  exact (fun Hp Hn => match parse_error negated actions command_line Hp with
                      | or_introl (ex_intro _ r H) => False_ind _ (Hn r (proj1 (parse_spec negated actions command_line r) H))
                      | or_intror H => H
                      end).
Qed.
Print Assumptions C39_errors_reported.
(** C39.  The error reported is about the first token that cannot be read: misplaced, not the prefix of any option, the prefix of several, or an
    option with an argument that does not fit. *)
Theorem C39_first_fault negated actions command_line e : faulty_command actions command_line e -> parse negated actions command_line = Raise e.
Proof. exact (faulty_raises negated actions command_line e). Qed.
Print Assumptions C39_first_fault.

Definition sample_params : list param := [mk_param (txt "count") (VInt 7); mk_param (txt "color") (VString []); mk_param (txt "fast") (VBool false)].
Definition sample_actions : factory action :=
  mk_factory (txt "action") [(txt "run", Ret (Some (mk_action sample_params no_direct None))); (txt "help", Ret (Some (mk_action [] help_direct None)))].
Example C39_proper : proper sample_actions.
Proof.
  repeat constructor; (eexists; split; [reflexivity|]); intros direct; cbn [a_direct].
  - destruct direct; [now left|]. right. eexists. split; [reflexivity|exact I].
  - destruct direct as [|a [|b l]]; [now left|now left|]. right. eexists. split; [reflexivity|exact I].
Qed.
Example C39_example_run : parse (fun n => n) sample_actions [txt "r"; txt "-f"; []; txt "-col"; txt "red"; txt "-cou"; txt "12"; txt "-co"; txt "3"]
  = Raise (AmbiguousName (txt "ERROR: More than one option has prefix " ++ quote ++ txt "co" ++ quote ++ txt ":" ++ [newline] ++ txt "  color count" ++ [newline])).
Proof. reflexivity. Qed.
Example C39_example_ok : parse (fun n => n) sample_actions [txt "r"; txt "-f"; []; txt "-col"; txt "red"; txt "-cou"; txt "12"]
  = Ret (mk_action [mk_param (txt "count") (VInt 12); mk_param (txt "color") (VString (txt "red")); mk_param (txt "fast") (VBool true)] no_direct (Some [])).
Proof. reflexivity. Qed.
Example C39_example_help : parse (fun n => n) sample_actions [txt "he"; txt "run"] = Ret (mk_action [] help_direct (Some [txt "run"])).
Proof. reflexivity. Qed.
Example C39_example_fault : faulty_command sample_actions [txt "run"; txt "-fast"; txt "-count"; txt "x"]
  (MathicError (txt "ERROR: The value given to option -count was not as expected. It must be a non-negative integer in the range [0, 2^31-1].")).
Proof.
  exists (txt "run"), [txt "-fast"; txt "-count"; txt "x"], (txt "run"), (mk_action sample_params no_direct None), [], [txt "-fast"], [txt "-count"; txt "x"], [(txt "fast", [])],
    [mk_param (txt "count") (VInt 7); mk_param (txt "color") (VString []); mk_param (txt "fast") (VBool true)].
  split; [reflexivity|]. split; [apply (unique_name_iff sample_actions); reflexivity|]. split; [reflexivity|].
  split; [split; [reflexivity|split; [intros t []|intros t r E; injection E as <- _; eexists; reflexivity]]|]. split; [reflexivity|].
  split; [apply g_flag; [left; split; [right; right; now left|reflexivity]|intros; discriminate|constructor]|].
  split; [intros _ t r E; injection E as <- _; eexists; reflexivity|]. split.
  - econstructor; [|constructor]. exists [mk_param (txt "count") (VInt 7); mk_param (txt "color") (VString [])], (mk_param (txt "fast") (VBool false)), (mk_param (txt "fast") (VBool true)), [].
    split; [reflexivity|]. split; [reflexivity|]. split; [intros [H|[H|[]]]; discriminate|]. split; [reflexivity|]. split; [reflexivity|]. constructor.
  - apply (ft_argument _ (txt "count") [txt "x"] [] (mk_param (txt "count") (VInt 7))
      [mk_param (txt "color") (VString []); mk_param (txt "fast") (VBool true)] (txt "x")); [left; split; [now left|reflexivity]|reflexivity|intros []| |].
    + right. split; [intros [r E]; discriminate|]. exists []. reflexivity.
    + intros v H. inversion H as [| | |? ? m (ds & E & Hd & Hn & _)|]; subst. destruct ds as [|d ds]; [now destruct Hn|]. cbn [map] in E. injection E as E _.
      inversion Hd; subst. assert (Hv : digit_value (digit d) = Some d) by now apply digit_value_digit. rewrite <- E in Hv. vm_compute in Hv. discriminate.
Qed.
(** A caveat to C39: the names of an action's parameters need not be distinct.  Then only the first one of a name can be set, and no true prefix works. *)
Theorem C39_duplicate_options_refuted : exists params : list param,
  (forall negated name argument params', dispatch negated params name argument = Ret params' -> nth_error params' 1 = nth_error params 1) /\
  (exists names, param_names params = Ret names /\ forall name, unique_name names (txt "v") <> Ret name) /\ length params = 2.
Proof.
  exists [mk_param (txt "verbose") (VString []); mk_param (txt "verbose") (VString [])]. split; [|split; [|reflexivity]].
  - intros negated name argument params' H. apply dispatch_spec in H as (b & p & p' & a & E & -> & Hb & Hp & _). cbn [fst] in *.
    destruct b as [|q b]; injection E as <- E; [subst a; reflexivity|]. destruct b as [|q b].
    + exfalso. injection E as <- _. apply Hb. left. exact Hp.
    + injection E as <- E. destruct b; discriminate.
  - eexists. split; [reflexivity|]. intros name. vm_compute. discriminate.
Qed.
Print Assumptions C39_duplicate_options_refuted.

(** C40, as far as it holds: an integer parameter accepts exactly the canonical decimals of the numbers below 2^32, and then holds that number. *)
Theorem C40_integer_partial negated name old argument :
  (snd (process_integer negated name old argument) = Ret tt <-> exists n, denotes argument n /\ (n <= 2 ^ 32 - 1)%N) /\
  (forall n, denotes argument n -> (n <= 2 ^ 32 - 1)%N -> process_integer negated name old argument = (n, Ret tt)).
Proof.
  exact (conj (process_integer_accepts negated name old argument)
    (fun n Hd Hn => eq_ind_r (fun a => process_integer negated name old a = (n, Ret tt)) (process_integer_value negated name old n Hn) (denotes_decimal _ _ Hd))).
Qed.
Print Assumptions C40_integer_partial.
(** C40 fails as stated: the message says that the largest number is 2^31-1, but 2^31 is accepted. *)
Theorem C40_range_refuted : exists n argument, denotes argument n /\ ~ (n <= 2 ^ 31 - 1)%N /\
  forall negated name old, process_integer negated name old argument = (n, Ret tt).
Proof.
  exists (2 ^ 31)%N, (decimal (2 ^ 31)). split; [apply decimal_denotes|]. split; [intros H; vm_compute in H; now apply H|].
  intros negated name old. apply process_integer_value. vm_compute. discriminate.
Qed.
Print Assumptions C40_range_refuted.
(** C40.  An argument that is rejected may all the same change the value. *)
Theorem C40_rejected_argument_refuted : exists old argument, forall negated name,
  snd (process_integer negated name old argument) <> Ret tt /\ fst (process_integer negated name old argument) <> old.
Proof. exists 7%N, (txt "12 monkeys"). intros negated name. split; vm_compute; discriminate. Qed.
Print Assumptions C40_rejected_argument_refuted.
Example C40_example : process_integer (fun n => n) (txt "count") 7 (txt "4294967295") = (4294967295%N, Ret tt) /\
  (forall argument, In argument [[]; txt "-1"; txt "+1"; txt " 1"; txt "1 "; txt "01"; txt "4294967296"; txt "0x1"] ->
    snd (process_integer (fun n => n) (txt "count") 7 argument) <> Ret tt).
Proof. split; [vm_compute; reflexivity|]. intros argument H. cbn [In] in H. decompose [or] H; subst; try contradiction; vm_compute; discriminate. Qed.

Lemma process_bool_spec name old argument :
  (argument = [] \/ argument = txt "on" -> process_bool name old argument = (true, Ret tt)) /\
  (argument = txt "off" -> process_bool name old argument = (false, Ret tt)) /\
  (argument <> [] -> argument <> txt "on" -> argument <> txt "off" -> exists m, process_bool name old argument = (old, Raise (MathicError m))).
Proof.
  split; [intros [-> | ->]; reflexivity|]. split; [intros ->; reflexivity|]. intros H1 H2 H3. unfold process_bool. destruct argument as [|c a]; [congruence|].
  apply teqb_neq in H2, H3. rewrite H2, H3. eexists. reflexivity.
Qed.
(** C41. *)
Theorem C41_bool name old argument :
  (argument = [] \/ argument = txt "on" -> process_bool name old argument = (true, Ret tt)) /\
  (argument = txt "off" -> process_bool name old argument = (false, Ret tt)) /\
  (argument <> [] -> argument <> txt "on" -> argument <> txt "off" -> exists m, process_bool name old argument = (old, Raise (MathicError m))).
Proof. exact (process_bool_spec name old argument). Qed.
Print Assumptions C41_bool.
Example C41_example : process_bool (txt "fast") true (txt "off") = (false, Ret tt) /\
  process_bool (txt "fast") true (txt "of") = (true, Raise (MathicError (txt "ERROR: Option -fast was given the argument " ++ quote ++ txt "of" ++ quote ++
    txt ". The only valid arguments are " ++ quote ++ txt "on" ++ quote ++ txt " and " ++ quote ++ txt "off" ++ quote ++ txt "."))).
Proof. split; reflexivity. Qed.

Lemma process_value_as_string negated p : (forall n, p_value p = VInt n -> (n <= 2 ^ 32 - 1)%N) -> process negated p (value_as_string p) = (p, Ret tt).
Proof.
  intros H. destruct p as [name [b|n|s]]; unfold process, value_as_string; cbn [p_value p_name] in *; auto.
  - destruct b; reflexivity.
  - rewrite process_integer_value by (apply H; reflexivity). reflexivity.
Qed.
(** C40, C41.  The value that the help shows, given as the argument, is accepted and leaves the parameter as it is. *)
Theorem C41_round_trip negated p : (forall n, p_value p = VInt n -> (n <= 2 ^ 32 - 1)%N) -> process negated p (value_as_string p) = (p, Ret tt).
Proof. exact (process_value_as_string negated p). Qed.
Print Assumptions C41_round_trip.
Example C41_round_trip_example : process (fun n => n) (mk_param (txt "count") (VInt 120)) (txt "120") = (mk_param (txt "count") (VInt 120), Ret tt).
Proof. reflexivity. Qed.
