(** Model of src/mathic/CliParser.cpp, Action.cpp and HelpAction.cpp:30-39.

    An action is represented by its parameters, the verdict of its directOptions and what directOptions was told.  Not modelled: actions whose
    directOptions changes their parameters, and parse(argc, argv), which copies the array into a vector. *)
From Coq Require Import List Arith Bool NArith Ascii String.
From Verif.Base Require Import Text.
From Verif.Cli Require Import Error Names Params.
Import ListNotations.
Local Notation length := List.length.

(** Action.h:12-42 *)
Record action := mk_action { a_params : list param; a_direct : list text -> out unit; a_told : option (list text) }.

(** Action.cpp:8-16, the default directOptions *)
Definition no_direct (tokens : list text) : out unit :=
  match tokens with
  | [] => Ret tt
  | t :: _ => reportError (txt "Expected a dash (-) to indicate an option when reading " ++ quote ++ t ++ quote ++ txt ".")
  end.
(** HelpAction.cpp:30-39; the topic is the only token *)
Definition help_direct (tokens : list text) : out unit :=
  match tokens with
  | _ :: t :: _ => reportError (txt "Did not expect second option " ++ quote ++ t ++ quote ++ txt ".")
  | _ => Ret tt
  end.

Section Parser.
  Variable negated : N -> N.   (* see Params.v *)
  (** CliParser.cpp:58, 71, 78: the character '-' *)
  Definition dash : ascii := ascii_of_N 45.
  (** token[0] == '-' for a token that is not empty; for an empty std::string, token[0] is a null character *)
  Definition dashed (t : text) : bool := match t with c :: _ => Ascii.eqb c dash | [] => false end.

  (** CliParser.cpp:12-20 makeParamNames; nothing stops two parameters from having the same name, as the products are null *)
  Fixpoint register_params (f : factory unit) (params : list param) : out (factory unit) :=
    match params with
    | [] => Ret f
    | p :: params' => do* f' := register f (p_name p) (Ret None) in register_params f' params'
    end.
  (** CliParser.cpp:12-19 makeParamNames *)
  Definition param_names (params : list param) : out (factory unit) := register_params (new_factory (txt "option")) params.

  (** CliParser.cpp:53-64; [saw] is sawDash *)
  Fixpoint separate (saw : bool) (tokens : list text) : list text * list text :=
    match tokens with
    | [] => ([], [])
    | t :: tokens' =>
        match t with
        | [] => separate saw tokens'
        | _ => let saw := saw || dashed t in
               let (direct, options) := separate saw tokens' in
               if saw then (direct, t :: options) else (t :: direct, options)
        end
    end.
  (** CliParser.cpp:82-92 *)
  Fixpoint dispatch (params : list param) (name argument : text) : out (list param) :=
    match params with
    | [] => reportInternalError (txt "Processing non-existent option " ++ quote ++ name ++ quote ++ txt ".")
    | p :: params' =>
        if teqb (p_name p) name then
          let (p', r) := process negated p argument in
          do* _ := r in Ret (p' :: params')
        else do* params'' := dispatch params' name argument in Ret (p :: params'')
    end.
  (** CliParser.cpp:69-93; [options] is what is left from index i on *)
  Fixpoint read_options (names : factory unit) (params : list param) (options : list text) {struct options} : out (list param) :=
    match options with
    | [] => Ret params
    | token :: rest =>
        if negb (dashed token) then
          reportError (txt "Expected an option when reading " ++ quote ++ token ++ quote ++ txt ", but options start with a dash (-)." ++ [newline])
        else
          do* name := unique_name names (tl token) in
          match rest with
          | argument :: rest' =>
              if negb (dashed argument) then do* params' := dispatch params name argument in read_options names params' rest'
              else do* params' := dispatch params name [] in read_options names params' rest
          | [] => do* params' := dispatch params name [] in read_options names params' rest
          end
    end.

  (** CliParser.cpp:42-96 parse *)
  Definition parse (actions : factory action) (command_line : list text) : out action :=
    match command_line with
    | [] => throwError UnknownName (txt "No action specified.")
    | first :: tokens =>
        do* created := create_with_prefix actions first in
        match created with
        | None => Undef   (* a null pointer is dereferenced *)
        | Some act =>
            do* names := param_names (a_params act) in
            let (direct, options) := separate false tokens in
            do* _ := a_direct act direct in
            do* params := read_options names (a_params act) options in
            Ret (mk_action params (a_direct act) (Some direct))
        end
    end.
End Parser.
