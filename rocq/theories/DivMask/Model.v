(** Model of src/mathic/DivMask.h.

    A configuration gives the type [M] of entries and monomials, the exponent [ex m var] and the number of variables.  [useRank] (260)
    is a constant false, so lines 262-287 are never executed and not modelled; neither are the statistics of
    MATHIC_TRACK_DIV_MASK_HIT_RATIO. *)
From Coq Require Import List Arith Bool ZArith NArith.
From Verif.Base Require Import Res Arr ResList.
Import ListNotations.

(** The type Exponent of a configuration: mathematical integers, or a signed or unsigned machine type of [b] bits at least as wide as
    int.  Signed overflow is undefined, unsigned arithmetic wraps around.  DivMask.h uses C::Exponent throughout, e.g. DivMask.h:140. *)
Inductive exptype := Unbounded | Signed (b : N) | Unsigned (b : N).

(** The result of an operation on C::Exponent: signed overflow is undefined, unsigned wraps around (DivMask.h:140) *)
Definition norm (T : exptype) (z : Z) : res Z :=
  match T with
  | Unbounded => Ok z
  | Signed b => if ((- 2 ^ (Z.of_N b - 1) <=? z) && (z <? 2 ^ (Z.of_N b - 1)))%Z then Ok z else UB
  | Unsigned b => Ok (z mod 2 ^ Z.of_N b)%Z
  end.

(** DivMask.h:164 MaskType is unsigned int; 216, 317 TotalBits *)
Definition total_bits : nat := 32.
Definition max_mask : N := N.ones 32.   (* 42 getMaxMask *)

(** DivMask.h:56-57 canDivide *)
Definition can_divide (m m' : N) : bool := N.eqb (N.land m (N.lxor m' max_mask)) 0.
(** DivMask.h:116 combineAnd *)
Definition combine_and (m m' : N) : N := N.land m m'.

(** DivMask.h:147-162 VarData; bitsForVar is never used *)
Record var_data := mk_data { d_var : nat; d_split : nat }.

Section DivMask.
  Variable M : Type.
  Variable ex : M -> nat -> Z.
  Variable nvars : nat.
  Variable T : exptype.
  (** std::sort of VarData by decreasing split; it is not stable, so the result is left open. *)
  Variable sort_data : list var_data -> list var_data.

  (** DivMask.h:332-342 compute *)
  Definition shift_in (mask : N) (b : bool) : N := N.lor (N.land (N.shiftl mask 1) max_mask) (N.b2n b).
  (** DivMask.h:329-343 Calculator::compute *)
  Definition compute (bits : list (nat * Z)) (t : M) : N :=
    fold_left (fun mask b => shift_in mask (snd b <? ex t (fst b))%Z) bits 0%N.

  (** DivMask.h:321-325 the bits of one variable in rebuildDefault; [k] bits are still to be made *)
  Fixpoint default_bits (var k i : nat) (e : Z) : res (list (nat * Z)) :=
    match k with
    | 0 => Ok []
    | S k' =>
        let* e' := if i =? 0 then Ok 1%Z else norm T (e * 2)%Z in
        let* r := default_bits var k' (S i) e' in
        Ok ((var, e) :: r)
    end.
  (** DivMask.h:312-327 rebuildDefault *)
  Definition rebuild_default : res (list (nat * Z)) :=
    let* l := mapM (fun var => default_bits var (total_bits / nvars + (if var <? total_bits mod nvars then 1 else 0)) 0 0%Z) (seq 0 nvars) in
    Ok (concat l).

  (** DivMask.h:221-229 and 289-297; [first] is the exponent of variable 0 of the first entry *)
  Definition min_max (l : list M) (first : Z) (var : nat) : Z * Z :=
    fold_left (fun mm x => let e := ex x var in
                           ((if e <? fst mm then e else fst mm), (if snd mm <? e then e else snd mm))%Z) l (first, first).

  (** DivMask.h:221-240 *)
  Definition make_data (l : list M) (first : Z) (var : nat) : res var_data :=
    let (mn, mx) := min_max l first var in
    let* d := norm T (mx - mn)%Z in
    let* average := norm T (mn + Z.quot d 2)%Z in
    let split := length (filter (fun x => ex x var <? average)%Z l) in
    Ok (mk_data var (if length l / 2 <? split then length l - split else split)).

  (** DivMask.h:246-252 *)
  Fixpoint assign_bits (datas : list var_data) (i : nat) (v : list nat) : res (list nat) :=
    match datas with
    | [] => Ok v
    | d :: datas' =>
        let* v' := vset v (d_var d) (total_bits / nvars + (if i <? total_bits mod nvars then 1 else 0)) in
        assign_bits datas' (S i) v'
    end.

  (** DivMask.h:305-306 *)
  Fixpoint thresholds (var : nat) (mn increment : Z) (k i : nat) : res (list (nat * Z)) :=
    match k with
    | 0 => Ok []
    | S k' =>
        let* p := norm T (increment * Z.of_nat i)%Z in
        let* e := norm T (mn + p)%Z in
        let* r := thresholds var mn increment k' (S i) in
        Ok ((var, e) :: r)
    end.
  (** DivMask.h:255-309 *)
  Definition var_bits (l : list M) (first : Z) (var bitsForVar : nat) : res (list (nat * Z)) :=
    if bitsForVar =? 0 then Ok [] else
    let (mn, mx) := min_max l first var in
    let* d := norm T (mx - mn)%Z in
    let q := Z.quot d (Z.of_nat bitsForVar) in
    let increment := if (q =? 0)%Z then 1%Z else q in
    thresholds var mn increment bitsForVar 0.

  (** DivMask.h:205-310 rebuild *)
  Definition rebuild (l : list M) : res (list (nat * Z)) :=
    match l with
    | [] => rebuild_default
    | x :: _ =>
        let first := ex x 0 in
        let* datas := mapM (make_data l first) (seq 0 nvars) in
        let* bitsForVars := assign_bits (sort_data datas) 0 (repeat 0 nvars) in
        let* bs := mapM (fun p => var_bits l first (fst p) (snd p)) (combine (seq 0 nvars) bitsForVars) in
        Ok (concat bs)
    end.

  (** DivMask.h:355-460 HasDivMask and Extender; [use] is UseDivMask.  A class without a mask is modelled with an unused mask 0. *)
  Variable use : bool.
  Variable divides : M -> M -> bool.
  (** DivMask.h:394-433 Extender *)
  Record ext := mk_ext { x_t : M; x_mask : N }.
  (** DivMask.h:402-403 and 443-445 *)
  Definition extend (bits : list (nat * Z)) (t : M) : ext := mk_ext t (if use then compute bits t else 0%N).
  (** DivMask.h:365-367 and 389 *)
  Definition has_can_divide (m m' : N) : bool := if use then can_divide m m' else true.
  (** DivMask.h:406-422 and 447-450 *)
  Definition ext_divides (a b : ext) : bool := if has_can_divide (x_mask a) (x_mask b) then divides (x_t a) (x_t b) else false.
  (** DivMask.h:424-427 and 452-453 *)
  Definition recalculate (bits : list (nat * Z)) (a : ext) : ext := mk_ext (x_t a) (if use then compute bits (x_t a) else x_mask a).
  (** DivMask.h:364 resetDivMask, as used by the tree nodes *)
  Definition reset_mask (m : N) : N := if use then max_mask else m.
  (** DivMask.h:369-371 and 390-391 updateToLowerBound *)
  Definition lower_bound (m m' : N) : N := if use then combine_and m m' else m.
End DivMask.
Arguments mk_ext {M}. Arguments x_t {M}. Arguments x_mask {M}.
