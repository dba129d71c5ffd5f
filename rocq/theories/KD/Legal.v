(** What the KD trees ask of a configuration. *)
From Coq Require Import List Arith Bool ZArith Permutation.
From Verif.Base Require Import Res Order Sort StdAlg.
From Verif.DivMask Require Import Model Defined.
From Verif.KD Require Import EntryArray.
Import ListNotations.

(** Divisibility implies that no exponent decreases; leaves have room; UseTreeDivMask needs UseDivMask (DivFinder.h:40-44); with sortOnInsert the
    order is strict weak and no entry precedes its divisors; std::sort sorts and std::partition partitions; for valid entries the divmask
    calculator is defined, and the differences of exponents, and what lies between two exponents, fit into the type of exponents. *)
Record klegal {M : Type} (C : kconf M) (valid : M -> bool) : Prop := {
  kl_divides : forall a b, c_divides C a b = true -> forall var, var < c_nvars C -> (c_ex C a var <= c_ex C b var)%Z;
  kl_leaf : 0 < c_leaf C;
  kl_tree : c_tree C = true -> c_use C = true;
  kl_order : c_sorted C = true -> strict_weak (c_less C) /\ forall a b, c_divides C a b = true -> c_less C b a = false;
  kl_sort_data : sorts (fun a b => d_split b <? d_split a) (c_sort_data C);
  kl_sort_ext : c_sorted C = true -> sorts (kcomp C) (c_sort_ext C);
  kl_part_ext : partitions (c_part_ext C);
  kl_part : partitions (c_part C);
  kl_defined : c_use C = true -> calc_defined (c_ex C) (c_nvars C) (c_type C) (c_sort_data C) valid;
  kl_arith : forall a b var, valid a = true -> valid b = true -> var < c_nvars C -> (c_ex C a var <= c_ex C b var)%Z ->
    norm (c_type C) (c_ex C b var - c_ex C a var) = Ok (c_ex C b var - c_ex C a var)%Z /\
    forall z, (c_ex C a var <= z <= c_ex C b var)%Z -> norm (c_type C) z = Ok z }.
