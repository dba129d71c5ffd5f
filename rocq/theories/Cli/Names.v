(** Model of src/mathic/NameFactory.h.

    A registered function is represented by what calling it does: it returns a product or a null pointer, or throws.  Every call is assumed to
    do the same.  std::sort of strings has only one possible result, because strings that compare equivalent are equal. *)
From Coq Require Import List Arith Bool NArith Ascii String.
From Verif.Base Require Import Sort Text.
From Verif.Cli Require Import Error.
Import ListNotations.
Local Notation length := List.length.

(** NameFactory.h:50-53 *)
Record factory (P : Type) := mk_factory { f_name : text; f_pairs : list (text * out (option P)) }.
Arguments mk_factory {P}. Arguments f_name {P}. Arguments f_pairs {P}.

Section Names.
  Context {P : Type}.
  Notation factory := (factory P).

  (** NameFactory.h:24 *)
  Definition new_factory (abstract_name : text) : factory := mk_factory abstract_name [].
  (** NameFactory.h:99-105 createNullOnUnknown *)
  Fixpoint create_loop (pairs : list (text * out (option P))) (name : text) : out (option P) :=
    match pairs with
    | [] => Ret None
    | it :: pairs' => if teqb (fst it) name then snd it else create_loop pairs' name
    end.
  (** NameFactory.h:98-105 createNullOnUnknown *)
  Definition create_null (f : factory) (name : text) : out (option P) := create_loop (f_pairs f) name.
  (** NameFactory.h:107-115 create *)
  Definition create (f : factory) (name : text) : out P :=
    do* product := create_null f name in
    match product with
    | None => throwError UnknownName (txt "Unknown " ++ f_name f ++ txt " " ++ quote ++ name ++ quote ++ txt ".")
    | Some p => Ret p
    end.
  (** NameFactory.h:117-122 registerProduct; the assertion is evaluated in debug builds only, a call that violates it counts as undefined *)
  Definition register (f : factory) (name : text) (function : out (option P)) : out factory :=
    do* old := create_null f name in
    match old with
    | None => Ret (mk_factory (f_name f) (f_pairs f ++ [(name, function)]))
    | Some _ => Undef
    end.
  (** NameFactory.h:124-133 namesWithPrefix; [names] is appended to and the whole is sorted *)
  Definition has_prefix (prefix name : text) : bool := teqb (firstn (length prefix) name) prefix.   (* compare(0, prefix.size(), prefix) == 0 *)
  Definition names_with_prefix (f : factory) (prefix : text) (names : list text) : list text :=
    isort tless (names ++ filter (has_prefix prefix) (map fst (f_pairs f))).
  (** NameFactory.h:135-138 *)
  Definition is_empty (f : factory) : bool := match f_pairs f with [] => true | _ => false end.

  (** NameFactory.h:170-200 uniqueNameWithPrefix *)
  Definition unique_name (f : factory) (prefix : text) : out text :=
    let names := names_with_prefix f prefix [] in
    let names := if existsb (fun n => teqb n prefix) names then [prefix] else names in
    match names with
    | [] => throwError UnknownName (txt "No " ++ f_name f ++ txt " has the prefix " ++ quote ++ prefix ++ quote ++ txt ".")
    | [name] => Ret name
    | _ => throwError AmbiguousName (txt "More than one " ++ f_name f ++ txt " has prefix " ++ quote ++ prefix ++ quote ++ txt ":" ++ [newline] ++ txt " "
             ++ List.concat (map (fun name => txt " " ++ name) names))
    end.
  (** NameFactory.h:163-167 createWithPrefix *)
  Definition create_with_prefix (f : factory) (prefix : text) : out (option P) :=
    do* name := unique_name f prefix in create_null f name.
End Names.
