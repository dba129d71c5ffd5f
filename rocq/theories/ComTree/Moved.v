(** Model of src/mathic/ComTree.h in which the work on entries is counted: an assignment to an entry counts [wa], an entry default-constructed by [new E[n]] counts [wc] and an
    allocation of an array counts [wn].  With other weights 0 this counts any one of them. *)
From Coq Require Import List Arith.
From Verif.Base Require Import Res Arr Count.
From Verif.ComTree Require Import Model.
Import ListNotations.

Section Moved.
  Variable E : Type.
  Variables wa wc wn : nat.
  Notation comtree := (comtree E).

  (** ComTree.h:140-151 ComTree(initialCapacity) *)
  Definition new_w (initialCapacity : nat) : counted comtree :=
    Ok (ct_new initialCapacity, if 0 <? initialCapacity then wn + wc * initialCapacity else 0).
  (** ComTree.h:186-194 operator[] of which the entry is assigned *)
  Definition set_w (t : comtree) (n : nat) (v : E) : counted comtree :=
    let@ t' := free (ct_set t n v) in Ok (t', wa).
  (** ComTree.h:210-214 pushBackWithCapacity *)
  Definition pushBackWithCapacity_w (t : comtree) (v : E) : counted comtree :=
    set_w (mk_ct (ct_arr t) (S (ct_last t)) (ct_cap t)) (S (ct_last t)) v.
  (** ComTree.h:319-320, the loop of increaseCapacity *)
  Fixpoint copy_loop_w (fuel : nat) (t new : comtree) (i : nat) : counted comtree :=
    if Nat.leb i (ct_last t) then
      match fuel with
      | 0 => NoFuel
      | S f =>
          let@ v := free (ct_get t i) in
          if Nat.eqb (ct_last new) (ct_cap new) then UB (* as in ct_copy_loop *)
          else
            let@ new' := pushBackWithCapacity_w new v in
            copy_loop_w f t new' (S i)
      end
    else Ok (new, 0).
  (** ComTree.h:316-326 increaseCapacity *)
  Definition increaseCapacity_w (t : comtree) : counted comtree :=
    let@ fresh := new_w (if Nat.eqb (ct_cap t) 0 then 16 else ct_cap t * 2) in
    let@ new := copy_loop_w (ct_last t) t fresh 1 in
    Ok (mk_ct (ct_arr new) (ct_last t) (ct_cap new), 0).
  (** ComTree.h:202-207 pushBack *)
  Definition pushBack_w (t : comtree) (v : E) : counted comtree :=
    let@ t1 := (if Nat.eqb (ct_last t) (ct_cap t) then increaseCapacity_w t else Ok (t, 0)) in
    set_w (mk_ct (ct_arr t1) (S (ct_last t1)) (ct_cap t1)) (S (ct_last t1)) v.
  (** ComTree.h:165-166, the loop of the copy constructor *)
  Fixpoint assign_loop_w (fuel : nat) (t new : comtree) (i : nat) : counted comtree :=
    if Nat.leb i (ct_last t) then
      match fuel with
      | 0 => NoFuel
      | S f =>
          let@ v := free (ct_get t i) in
          let@ new' := set_w new i v in
          assign_loop_w f t new' (S i)
      end
    else Ok (new, 0).
  (** ComTree.h:154-170 ComTree(tree, minCapacity) *)
  Definition copy_w (t : comtree) (minCapacity : nat) : counted comtree :=
    let c := if Nat.ltb minCapacity (ct_size t) then ct_size t else minCapacity in
    if Nat.eqb c 0 then Ok (mk_ct None (ct_last t) 0, 0)
    else let@ _ := Ok (tt, wn + wc * c) in
         assign_loop_w (ct_last t) t (mk_ct (Some (new_array c)) (ct_last t) c) 1.

  (** One call: ComTree.h:33-56; the other calls do nothing to entries *)
  Definition step_w (t : comtree) (o : ct_op E) : counted (comtree * ct_out E) :=
    match o with
    | CPushBack v => let@ t' := pushBack_w t v in Ok ((t', CNone), 0)
    | CSet n v => let@ t' := set_w t n v in Ok ((t', CNone), 0)
    | CGrow => let@ t' := increaseCapacity_w t in Ok ((t', CNone), 0)
    | CCopy m => let@ t' := copy_w t m in Ok ((t', CNone), 0)
    | _ => free (ct_step t o)
    end.
  (** The calls of a history; ComTree.h:33-56 *)
  Fixpoint run_w (t : comtree) (ops : list (ct_op E)) : counted (comtree * list (ct_out E)) :=
    match ops with
    | [] => Ok ((t, []), 0)
    | o :: ops' => let@ (t1, r) := step_w t o in let@ (t2, rs) := run_w t1 ops' in Ok ((t2, r :: rs), 0)
    end.
End Moved.
