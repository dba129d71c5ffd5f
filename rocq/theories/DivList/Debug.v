(** DivList.h compiled with MATHIC_DEBUG: the model with its assertions, a failed one being [UB]. *)
From Coq Require Import List Arith Bool ZArith NArith.
From Verif.Base Require Import Res Arr ResList StdAlg.
From Verif.DivMask Require Import Model.
From Verif.Spec Require Import DivFinder.
From Verif.DivList Require Import Model.
From Verif.TourTree Require Import Debug.
Import ListNotations.

Section Debug.
  Variable M : Type.
  Variable ex : M -> nat -> Z.
  Variable nvars : nat.
  Variable T : exptype.
  Variable sort_data : list var_data -> list var_data.
  Variable use : bool.
  Variable divides : M -> M -> bool.
  Variable less : M -> M -> bool.
  Variable linked : bool.
  Variable sorted : bool.
  Variable auto : bool.
  Variable positive : bool.           (* getRebuildRatio() > 0 *)
  Variable ratio : nat -> nat.
  Variable rmin : nat.
  Variable sort_ext : list (ext M) -> list (ext M).
  Notation ext := (ext M).
  Notation dlist := (dlist M).

  (** DivMask.h:205-310 rebuild; 243 asserts that there is one VarData for each variable *)
  Definition rebuild_d (l : list M) : res (list (nat * Z)) :=
    match l with
    | [] => rebuild_default nvars T
    | x :: _ =>
        let first := ex x 0 in
        let* datas := mapM (make_data M ex T l first) (seq 0 nvars) in
        let* _ := check (length (sort_data datas) =? nvars) in
        let* bitsForVars := assign_bits nvars (sort_data datas) 0 (repeat 0 nvars) in
        let* bs := mapM (fun p => var_bits M ex T l first (fst p) (snd p)) (combine (seq 0 nvars) bitsForVars) in
        Ok (concat bs)
    end.
  (** DivMask.h:205 for UseDivMask, 346-353 (the empty calculator) otherwise *)
  Definition calc_rebuild_d (l : list M) : res (list (nat * Z)) := if use then rebuild_d l else Ok [].

  (** DivList.h:224-251 removeMultiples on a vector *)
  Definition remove_multiples_vector_d (m : ext) (a : list ext) : res (list ext * list M * nat) :=
    let* it := first_multiple M use divides m a (length a) in
    if it =? length a then Ok (a, [], 0) else
    let* x := vget a it in
    let* (a', newEnd, out) := compact M use divides m a (length a - S it) it [x_t x] in
    let* _ := check (newEnd <? length a) in
    Ok (firstn newEnd a', out, length a - newEnd).
  (** DivList.h:253-275 removeMultiples on a list *)
  Definition remove_multiples_list_d (m : ext) (l : list ext) : res (list ext * list M * nat) :=
    let '(kept, out, count) := remove_multiples_list M use divides m l in
    let* _ := check (length kept + count =? length l) in
    Ok (kept, out, count).

  (** DivList.h:588-596 resetNumberOfChangesTillRebuild *)
  Definition reset_left_d (s : dlist) : res dlist :=
    let* _ := check (negb auto || positive) in
    Ok (reset_left M auto ratio rmin s).
  (** DivList.h:575-586 rebuild *)
  Definition rebuild_list_d (s : dlist) : res dlist :=
    let* bits := calc_rebuild_d (map x_t (l_list s)) in
    reset_left_d (mk_dlist (map (recalculate M ex use bits) (l_list s)) bits (l_left s) (S (l_rebuilds s))).
  (** DivList.h:598-608 reportChanges *)
  Definition report_changes_d (s : dlist) (changes : nat) : res dlist :=
    if negb auto then Ok s else
    if changes <? l_left s then Ok (mk_dlist (l_list s) (l_bits s) (l_left s - changes) (l_rebuilds s))
    else rebuild_list_d s.
  (** DivList.h:392-397 the constructor *)
  Definition construct_d : res dlist :=
    let* bits := calc_rebuild_d [] in
    reset_left_d (mk_dlist [] bits 0 0).
  (** DivList.h:399-408 insert *)
  Definition insert_d (s : dlist) (entry : M) : res dlist :=
    let e := extend M ex use (l_bits s) entry in
    let* l := if negb sorted then Ok (l_list s ++ [e]) else insert_sort M less linked (l_list s) e in
    report_changes_d (mk_dlist l (l_bits s) (l_left s) (l_rebuilds s)) 1.
  (** DivList.h:414-415: the loop over the range of insert *)
  Fixpoint insert_each_d (s : dlist) (es : list M) : res dlist :=
    match es with
    | [] => Ok s
    | e :: es' => let* s' := insert_d s e in insert_each_d s' es'
    end.
  (** DivList.h:410-427 insert of a range *)
  Definition insert_range_d (s : dlist) (es : list M) : res dlist :=
    match l_list s with
    | _ :: _ => insert_each_d s es
    | [] =>
        match es with
        | [] => Ok s
        | _ :: _ =>
            let* bits := calc_rebuild_d es in
            let l := map (extend M ex use bits) es in
            reset_left_d (mk_dlist (if sorted then sort_ext l else l) bits (l_left s) (l_rebuilds s))
        end
    end.
  (** DivList.h:429-441 removeMultiples *)
  Definition remove_multiples_d (s : dlist) (mono : M) : res (dlist * bool * list M) :=
    let m := extend M ex use (l_bits s) mono in
    let* (l, out, count) := if linked then remove_multiples_list_d m (l_list s) else remove_multiples_vector_d m (l_list s) in
    let* _ := check (length l + count =? length (l_list s)) in
    let* s' := report_changes_d (mk_dlist l (l_bits s) (l_left s) (l_rebuilds s)) count in
    Ok (s', 0 <? count, out).

  (** One call: DivList.h:73-125 *)
  Definition step_d (s : dlist) (o : dop M) : res (dlist * dout M) :=
    match o with
    | DInsert e => let* s' := insert_d s e in Ok (s', DONone)
    | DInsertRange es => let* s' := insert_range_d s es in Ok (s', DONone)
    | DRemoveMultiples m => let* (s', b, out) := remove_multiples_d s m in Ok (s', DORemoved b out)
    | DRebuild => let* s' := rebuild_list_d s in Ok (s', DONone)
    | o => step M ex nvars T sort_data use divides less linked sorted auto ratio rmin sort_ext s o
    end.
End Debug.
