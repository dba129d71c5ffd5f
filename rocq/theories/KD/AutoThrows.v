(** src/mathic/KDTree.h once more, for client functions and allocations that throw, now also in the rebuild at the end of insert and
    removeMultiples.

    InsertThrows.v, RemoveThrows.v and RebuildThrows.v have the parts: insertion into the tree, removal from it and rebuild.  Here reportChanges
    calls a rebuild that may throw.  Simplifications: those of the three files. *)
From Coq Require Import List Arith Bool ZArith NArith.
From Verif.Base Require Import Res Arr ResList StdAlg Fault.
From Verif.DivMask Require Import Model.
From Verif.Spec Require Import DivFinder DivCaught.
From Verif.KD Require Import EntryArray Tree Model Throws InsertThrows RemoveThrows RebuildThrows.
Import ListNotations.

Section AutoThrows.
  Context {M : Type}.
  Variable C : kconf M.
  Variable packed : bool.
  Variable alloc : bool.
  Variable ub_calls : list (ext M) -> ext M -> nat.
  Variable sort_x : nat -> list (ext M) -> fout (list (ext M)) (list (ext M)).
  Variable part_x : nat -> (ext M -> bool) -> list (ext M) -> fout (list (ext M)) (list (ext M) * list (ext M)).
  Variable prange_x : nat -> (M -> bool) -> list M -> fout (list M) (list M * list M).
  Notation tree := (tree M).
  Notation todo := (@todo M).
  Notation kd := (kd M).
  Notation remains := (remains M).

  (** KDTree.h:341-363 reportChanges and reportChangesRebuild.  The size is changed and the divisor cache is forgotten before the rebuild, and
      _changesTillRebuild is changed only if there is no rebuild or it returns. *)
  Definition report_x (b : nat) (s : kd) (tmp : todo) (additions removals : nat) : res (fout remains (kd * todo)) :=
    let cache := if c_cache C && negb (additions + removals =? 0) then None else k_cache s in
    if k_size s + additions <? removals then UB else
    let size := k_size s + additions - removals in
    let changes := additions + removals in
    if negb (c_auto C) then Ok (Fine b (mk_kd (k_tree s) (k_bits s) size (k_left s) cache (k_rebuilds s), tmp))
    else if changes <? k_left s then Ok (Fine b (mk_kd (k_tree s) (k_bits s) size (k_left s - changes) cache (k_rebuilds s), tmp))
    else fbind (rebuild_all_x C packed alloc sort_x prange_x b (mk_kd (k_tree s) (k_bits s) size (k_left s) cache (k_rebuilds s)) tmp) (fun b s' =>
      Ok (Fine b (s', []))).

  (** KDTree.h:140-144 insert, for an empty _tmp *)
  Definition insert_auto_x (b : nat) (s : kd) (entry : M) : res (fout remains kd) :=
    clients (mask_calls C s) b (Usable s []) (fun b =>
      let e := kext C (k_bits s) entry in
      let start b t :=
        fbind (fleft (fun st : tree * bool =>
                Usable (mk_kd (Some (fst st)) (k_bits s) (k_size s) (k_left s) (option_map (moved packed (fst st) (way C t e)) (k_cache s)) (k_rebuilds s)) [])
                (insert_tree_x C packed alloc ub_calls sort_x part_x b true [] t e None)) (fun b t' =>
          fbind (report_x b (mk_kd (Some t') (k_bits s) (k_size s) (k_left s) (k_cache s) (k_rebuilds s)) [] 1 0) (fun b r => Ok (Fine b (fst r)))) in
      match k_tree s with
      | Some t => start b t
      | None => allocation alloc b (Usable s []) (fun b => start b (Leaf arr_empty))
      end).
  (** KDTree.h:109-117 removeMultiples; an exception also leaves what the output has received *)
  Definition remove_auto_x (b : nat) (s : kd) (mono : M) (tmp : todo) : res (fout (remains * list M) (kd * bool * list M * todo)) :=
    if negb (c_removals C) then Ok (Left (Usable s tmp, [])) else
    clients (mask_calls C s) b (Usable s tmp, []) (fun b =>
      fbind (fleft (fun st => let '(t, tmp', xs) := st in (Usable (mk_kd t (k_bits s) (k_size s) (k_left s) (k_cache s) (k_rebuilds s)) tmp', xs))
              (tree_remove_x C packed b (k_tree s) (kext C (k_bits s) mono) tmp)) (fun b r =>
        let '(t, out, count, tmp') := r in
        fbind (fleft (fun x => (x, out)) (report_x b (mk_kd t (k_bits s) (k_size s) (k_left s) (k_cache s) (k_rebuilds s)) tmp' 0 count)) (fun b r =>
          Ok (Fine b (fst r, 0 <? count, out, snd r))))).

  (** All calls: KDTree.h:97-251.  insert and removeElement are modelled for an empty _tmp only. *)
  Definition auto_x (b : nat) (s : kd) (tmp : todo) (o : dop M) : res (fout (remains * list M) (kd * todo * dout M)) :=
    match o with
    | DInsert e =>
        match tmp with
        | [] => fbind (fleft (fun x => (x, [])) (insert_auto_x b s e)) (fun b s' => Ok (Fine b (s', [], DONone)))
        | _ :: _ => UB
        end
    | DRemoveMultiples m => fbind (remove_auto_x b s m tmp) (fun b r => let '(s', c, out, tmp') := r in Ok (Fine b (s', tmp', DORemoved c out)))
    | DRebuild => fbind (fleft (fun x => (x, [])) (rebuild_all_x C packed alloc sort_x prange_x b s tmp)) (fun b s' => Ok (Fine b (s', [], DONone)))
    | _ => fleft (fun st => let '(s', tmp', xs) := st in (Usable s' tmp', xs)) (all_x C packed alloc ub_calls sort_x part_x b s tmp o)
    end.
  (** The client makes a call in which so many of its functions return before one throws, and catches the exception: KDTree.h:97-251 *)
  Definition catch_auto (s : kd) (tmp : todo) (c : dop M * nat) : res (remains * outcome M) :=
    let* o := auto_x (snd c) s tmp (fst c) in
    match o with
    | Fine _ (s', tmp', r) => Ok (Usable s' tmp', Answered r)
    | Left (x, xs) => Ok (x, Threw xs)
    end.
End AutoThrows.
