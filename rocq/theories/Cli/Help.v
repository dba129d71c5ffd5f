(** Model of src/mathic/HelpAction.cpp and of the parts of CliParser that it uses.

    An action is represented here by what it says about itself and by what parsing needs to know.  The result of an action is what it writes
    to stderr.  A char const* has no null characters before its end, so that the texts of an action have none.  fprintf with %s and c_str()
    stops at a null character.  Memory is not modelled.  CliParser::registerHelpAction (CliParser.h:19-20) is declared but defined nowhere, and
    nothing else sets the messages that surround the overview, so that they are empty in practice. *)
From Coq Require Import List Arith Bool NArith Ascii String.
From Verif.Base Require Import Res Sort Text.
From Verif.Output Require Import Columns Display.
From Verif.Cli Require Import Error Names Params Parser.
Import ListNotations.
Local Notation length := List.length.

(** Action.h:19-42; the parameters that pushBackParameters yields come with their descriptions (CliParameter.h:13, 25) *)
Record entry := mk_entry { e_name : text; e_description : text; e_short : text; e_params : list (param * text); e_direct : list text -> out unit }.
(** Action.h:12-43: the action as far as parse() is concerned, before it is told anything *)
Definition action_of (e : entry) : action := mk_action (map fst (e_params e)) (e_direct e) None.
(** The result of the registered function, seen in that way (NameFactory.h:156-158) *)
Definition action_made (made : out (option entry)) : out (option action) :=
  do* e := made in Ret (option_map action_of e).

(** CliParser.h:34-37 *)
Record parser := mk_parser { actions : factory entry; pre_message : text; post_message : text }.
(** CliParser.cpp:29 *)
Definition new_parser : parser := mk_parser (new_factory (txt "action")) [] [].
(** CliParser.h:39-47, with NameFactory.h:152-161: the function registered makes an action *)
Definition register_action (p : parser) (name : text) (e : entry) : out parser :=
  do* f := register (actions p) name (Ret (Some e)) in Ret (mk_parser f (pre_message p) (post_message p)).
(** CliParser.cpp:42-96 parse *)
Definition parse_command (negated : N -> N) (p : parser) (command_line : list text) : out action :=
  parse negated (mk_factory (f_name (actions p)) (map (fun it => (fst it, action_made (snd it))) (f_pairs (actions p)))) command_line.
(** CliParser.cpp:31-35; the caller dereferences the pointer, which is undefined if it is null *)
Definition create_action (p : parser) (prefix : text) : out entry :=
  do* created := create_with_prefix (actions p) prefix in
  match created with Some e => Ret e | None => Undef end.
(** CliParser.cpp:22-26; HelpAction.cpp:94 starts from an empty vector *)
Definition registered_names (p : parser) : list text := names_with_prefix (actions p) [] [].

(** Writing to a stream or to stderr cannot throw here; no C++ counterpart (HelpAction.cpp:75, 102-104) *)
Definition written (r : res text) : out text := match r with Ok t => Ret t | _ => Undef end.

(** HelpAction.cpp:46-50 *)
Definition param_cmp (a b : param * text) : bool := tless (p_name (fst a)) (p_name (fst b)).
(** HelpAction.cpp:71-75, for one parameter *)
Definition show_param (p : param * text) : res text :=
  let line := [newline] ++ txt " -" ++ c_str (p_name (fst p)) ++ txt " " ++ c_str (argument_type (fst p)) ++
    txt "   (default is " ++ c_str (value_as_string (fst p)) ++ txt ")" ++ [newline] in
  let* about := display (snd p) (txt "   ") in
  Ok (line ++ about).
(** HelpAction.cpp:69-76 *)
Fixpoint show_params (ps : list (param * text)) : res text :=
  match ps with
  | [] => Ok []
  | p :: ps' => let* shown := show_param p in let* rest := show_params ps' in Ok (shown ++ rest)
  end.
(** HelpAction.cpp:53-78.  Parameters of the same name may be in any order; the model leaves them in theirs. *)
Definition display_action_help (e : entry) : res text :=
  let parameters := isort param_cmp (e_params e) in
  let* head := display (txt "Displaying information on action: " ++ e_name e ++ [newline; newline] ++ e_description e ++ [newline]) [] in
  match parameters with
  | [] => Ok head
  | _ =>
      let intro := [newline] ++ txt "The parameters accepted by " ++ e_name e ++ txt " are as follows." ++ [newline] in
      let* rest := show_params parameters in
      Ok (head ++ intro ++ rest)
  end.

(** HelpAction.cpp:96-101 *)
Fixpoint list_actions (p : parser) (names : list text) (printer : printer) : out Columns.printer :=
  match names with
  | [] => Ret printer
  | n :: names' =>
      do* e := create_action p n in
      match write printer 0 (e_name e ++ [newline]) with
      | Ok printer =>
          match write printer 1 (e_short e ++ [newline]) with
          | Ok printer => list_actions p names' printer
          | _ => Undef
          end
      | _ => Undef
      end
  end.
(** HelpAction.cpp:86-104 *)
Definition display_overview (p : parser) : out text :=
  let printer := add_column (add_column (new_printer 0) false (txt " ") []) true (txt " - ") [] in
  do* printer := list_actions p (registered_names p) printer in
  do* listing := written (print printer) in
  written (display (pre_message p ++ [newline] ++ listing ++ [newline] ++ post_message p ++ [newline]) []).
(** HelpAction.cpp:35-36: the topic after directOptions *)
Definition topic_of (tokens : list text) : text := match tokens with [t] => t | _ => [] end.
(** HelpAction.cpp:80-105, 30-34; [told] is what directOptions was called with, without which _parser is not initialised *)
Definition perform_help (p : parser) (told : option (list text)) : out text :=
  match told with
  | None => Undef
  | Some tokens =>
      match topic_of tokens with
      | [] => display_overview p
      | topic => do* e := create_action p topic in written (display_action_help e)
      end
  end.

(** HelpAction.cpp:13-44, 107-109 *)
Definition help_entry : entry := mk_entry (txt "help")
  (txt "Giving the parameter 'help' displays a list of the available actions." ++ [newline] ++
   txt "Giving the parameters 'help action' displays a detailed description of that action." ++ [newline])
  (txt "Return information about the command line interface.") [] help_direct.
