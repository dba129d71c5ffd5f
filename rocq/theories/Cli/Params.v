(** Model of src/mathic/BoolParameter.cpp, IntegerParameter.cpp and StringParameter.cpp.

    processArgument yields the value held afterwards, also if it throws, and whether it throws. *)
From Coq Require Import List Arith Bool NArith Ascii String.
From Verif.Base Require Import Text.
From Verif.Cli Require Import Error.
Import ListNotations.
Local Notation length := List.length.

(** BoolParameter.h:27, IntegerParameter.h:27, StringParameter.h:28: the values of the parameters *)
Inductive value := VBool (b : bool) | VInt (n : N) | VString (s : text).
(** CliParameter.h:24-25 with the _value of the subclasses (BoolParameter.h:27, IntegerParameter.h:27, StringParameter.h:28) *)
Record param := mk_param { p_name : text; p_value : value }.

Section Params.
  Local Open Scope N_scope.
  (** What operator>> stores for a numeral with a minus sign in front; implementations of C++ differ, and it makes no difference here *)
  Variable negated : N -> N.

  (** std::isspace in the "C" locale.  Used by the extraction in IntegerParameter.cpp:27. *)
  Definition is_space (c : ascii) : bool := let n := N_of_ascii c in (n =? 32) || ((9 <=? n) && (n <=? 13)).
  (** IntegerParameter.cpp:27: operator>> skips white space first *)
  Fixpoint skip_spaces (s : text) : text :=
    match s with
    | [] => []
    | c :: s' => if is_space c then skip_spaces s' else s
    end.
  (** The longest sequence of digits at the front (IntegerParameter.cpp:27) *)
  Fixpoint take_digits (s : text) : list N :=
    match s with
    | [] => []
    | c :: s' => match digit_value c with Some d => d :: take_digits s' | None => [] end
    end.
  (** IntegerParameter.h:27: the greatest unsigned int, of 32 bits *)
  Definition max_unsigned : N := 2 ^ 32 - 1.
  (** operator>> for unsigned int in the "C" locale ([istream.formatted.reqmts], [facet.num.get.virtuals]): skips white space and, unless
      nothing is left, stores the number, or the maximum if it is too large, or 0 if there is none *)
  Definition number (s : text) : N :=
    match take_digits s with
    | [] => 0
    | ds => if value_of ds <=? max_unsigned then value_of ds else max_unsigned
    end.
  (** The characters - and + that IntegerParameter.cpp:27 accepts in front of the digits *)
  Definition minus : ascii := ascii_of_N 45.
  (** See [minus]; IntegerParameter.cpp:27 *)
  Definition plus : ascii := ascii_of_N 43.
  (** IntegerParameter.cpp:27 in >> _value *)
  Definition extract (old : N) (s : text) : N :=
    match skip_spaces s with
    | [] => old
    | c :: s' =>
        if Ascii.eqb c minus then negated (number s')
        else if Ascii.eqb c plus then number s'
        else number (c :: s')
    end.

  (** IntegerParameter.cpp:19-23, 25-35 *)
  Definition process_integer (name : text) (old : N) (argument : text) : N * out unit :=
    let new := extract old argument in
    (new, if teqb (decimal new) argument then Ret tt
          else reportError (txt "The value given to option -" ++ name ++ txt " was not as expected. It must be a non-negative integer in the range [0, 2^31-1].")).
  (** BoolParameter.cpp:21-30 *)
  Definition process_bool (name : text) (old : bool) (argument : text) : bool * out unit :=
    if match argument with [] => true | _ => teqb argument (txt "on") end then (true, Ret tt)
    else if teqb argument (txt "off") then (false, Ret tt)
    else (old, reportError (txt "Option -" ++ name ++ txt " was given the argument " ++ quote ++ argument ++ quote ++ txt ". The only valid arguments are "
                ++ quote ++ txt "on" ++ quote ++ txt " and " ++ quote ++ txt "off" ++ quote ++ txt ".")).
  (** StringParameter.cpp:19-21 *)
  Definition process_string (old argument : text) : text * out unit := (argument, Ret tt).

  (** CliParameter.h:18 processArgument *)
  Definition process (p : param) (argument : text) : param * out unit :=
    match p_value p with
    | VBool b => let (v, r) := process_bool (p_name p) b argument in (mk_param (p_name p) (VBool v), r)
    | VInt n => let (v, r) := process_integer (p_name p) n argument in (mk_param (p_name p) (VInt v), r)
    | VString s => let (v, r) := process_string s argument in (mk_param (p_name p) (VString v), r)
    end.
  (** CliParameter.h:17 valueAsString: BoolParameter.cpp:17-19, IntegerParameter.cpp:19-23, StringParameter.cpp:15-17 *)
  Definition value_as_string (p : param) : text :=
    match p_value p with
    | VBool b => if b then txt "on" else txt "off"
    | VInt n => decimal n
    | VString s => s
    end.
  (** BoolParameter.cpp:13, IntegerParameter.cpp:15, StringParameter.cpp:11 *)
  Definition argument_type (p : param) : text :=
    match p_value p with VBool _ => txt "[BOOL]" | VInt _ => txt "INTEGER" | VString _ => txt "STRING" end.
End Params.
