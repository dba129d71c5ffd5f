(** ComTree.h compiled with MATHIC_DEBUG: the model with its assertions, a failed one being [UB].

    The assertions about the representation (187, 192, 292, 295) hold by the choice of the model: there _array is always one before
    _arrayKeepAlive, and C11 is about entries whose size is a power of two. *)
From Coq Require Import List Arith Bool.
From Verif.Base Require Import Res Arr.
From Verif.ComTree Require Import Model.
From Verif.TourTree Require Import Debug.
Import ListNotations.

Section Debug.
  Context {E : Type}.
  Notation comtree := (comtree E).

  (** ComTree.h:288-307 isValid *)
  Definition ct_isValid (t : comtree) : bool :=
    match ct_arr t with
    | None => (ct_cap t =? 0) && (ct_last t =? 0)
    | Some _ => negb (ct_cap t =? 0) && (ct_last t <=? ct_cap t)
    end.
  (** ComTree.h:37-40 the destructor *)
  Definition ct_destroy_d (t : comtree) : res unit := check (ct_isValid t).

  (** ComTree.h:140-151 ComTree(initialCapacity) *)
  Definition ct_new_d (initialCapacity : nat) : res comtree :=
    let t := ct_new initialCapacity in
    let* _ := check (ct_isValid t) in Ok t.
  (** ComTree.h:316-326 increaseCapacity; at its end newTree, which now has the old array, is destroyed *)
  Definition ct_increaseCapacity_d (t : comtree) : res comtree :=
    let* _ := check (ct_isValid t) in
    let* new0 := ct_new_d (if Nat.eqb (ct_cap t) 0 then 16 else ct_cap t * 2) in
    let* new := ct_copy_loop (ct_last t) t new0 1 in
    let* _ := check (ct_isValid new) in
    let t' := mk_ct (ct_arr new) (ct_last t) (ct_cap new) in
    let* _ := check (ct_isValid t') in
    let* _ := ct_destroy_d (mk_ct (ct_arr t) (ct_last new) (ct_cap t)) in
    Ok t'.
  (** ComTree.h:202-207 pushBack *)
  Definition ct_pushBack_d (t : comtree) (v : E) : res comtree :=
    let* t1 := (if Nat.eqb (ct_last t) (ct_cap t) then ct_increaseCapacity_d t else Ok t) in
    ct_set (mk_ct (ct_arr t1) (S (ct_last t1)) (ct_cap t1)) (S (ct_last t1)) v.
  (** ComTree.h:210-214 pushBackWithCapacity *)
  Definition ct_pushBackWithCapacity_d (t : comtree) (v : E) : res comtree :=
    let* _ := check (negb (Nat.eqb (ct_last t) (ct_cap t))) in ct_pushBackWithCapacity t v.
  (** ComTree.h:217-220 popBack: the last leaf is not before the root *)
  Definition ct_popBack_d (t : comtree) : res comtree := let* _ := check (1 <=? ct_last t) in ct_popBack t.
  (** ComTree.h:154-170 ComTree(tree, minCapacity) *)
  Definition ct_copy_d (t : comtree) (minCapacity : nat) : res comtree :=
    let* t' := ct_copy t minCapacity in
    let* _ := check (ct_isValid t') in Ok t'.
  (** ComTree.h:223-234 swap *)
  Definition ct_swap_d (t u : comtree) : res (comtree * comtree) :=
    let* _ := check (ct_isValid t) in
    let* _ := check (ct_isValid u) in
    let (t', u') := ct_swap t u in
    let* _ := check (ct_isValid t') in
    let* _ := check (ct_isValid u') in
    Ok (t', u').

  (** One call: ComTree.h:33-56; going on with a copy destroys the original *)
  Definition ct_step_d (t : comtree) (o : ct_op E) : res (comtree * ct_out E) :=
    match o with
    | CPushBack v => let* t' := ct_pushBack_d t v in Ok (t', CNone)
    | CPopBack => let* t' := ct_popBack_d t in Ok (t', CNone)
    | CGrow => let* t' := ct_increaseCapacity_d t in Ok (t', CNone)
    | CCopy m => let* t' := ct_copy_d t m in let* _ := ct_destroy_d t in Ok (t', CNone)
    | o => ct_step t o
    end.
End Debug.
