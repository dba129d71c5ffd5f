(** What names, prefixes and command lines mean.  This file models no C++ code. *)
From Coq Require Import List Arith Bool NArith Ascii String Sorted.
From Verif.Base Require Import Text.
Import ListNotations.

Definition is_prefix (prefix name : text) : Prop := exists rest, name = prefix ++ rest.

(** [prefix] picks [name] out of [names]: it is [name], or it is no name and [name] is the only one that it is a prefix of. *)
Definition resolves (names : list text) (prefix name : text) : Prop :=
  (In prefix names /\ name = prefix) \/
  (~ In prefix names /\ is_prefix prefix name /\ exists before after, names = before ++ name :: after /\ forall n, In n (before ++ after) -> ~ is_prefix prefix n).

(** The entries of [l] that [prefix] is a prefix of, as often as they occur, in increasing order. *)
Definition candidates (names : list text) (prefix : text) (l : list text) : Prop :=
  StronglySorted (fun a b => tless b a = false) l /\
  forall n, (is_prefix prefix n -> count_occ (list_eq_dec ascii_dec) l n = count_occ (list_eq_dec ascii_dec) names n) /\ (~ is_prefix prefix n -> ~ In n l).

Definition starts_with_dash (t : text) : Prop := exists rest, t = "-"%char :: rest.

(** A list of options with their arguments: [option] or [option argument] one after the other. *)
Inductive groups (names : list text) : list text -> list (text * text) -> Prop :=
| g_none : groups names [] []
| g_flag prefix name tokens gs : resolves names prefix name -> (forall t rest, tokens = t :: rest -> starts_with_dash t) ->
    groups names tokens gs -> groups names (("-"%char :: prefix) :: tokens) ((name, []) :: gs)
| g_arg prefix name argument tokens gs : resolves names prefix name -> ~ starts_with_dash argument ->
    groups names tokens gs -> groups names (("-"%char :: prefix) :: argument :: tokens) ((name, argument) :: gs).

(** The tokens after the action, without the empty ones, are [direct] followed by [options], which begin with the first dash. *)
Definition splits (tokens direct options : list text) : Prop :=
  filter (fun t => match t with [] => false | _ => true end) tokens = direct ++ options /\
  (forall t, In t direct -> ~ starts_with_dash t) /\ (forall t rest, options = t :: rest -> starts_with_dash t).
