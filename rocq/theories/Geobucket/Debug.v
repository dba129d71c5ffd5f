(** Geobucket.h and GeoFront.h compiled with MATHIC_DEBUG and MATHIC_SLOW_DEBUG: the model with its assertions.

    A failed assertion counts as [UB]: it aborts the program in such a build, and in a release build for MSVC, where MATHIC_ASSERT(X) is
    __assume(X) (stdinc.h:16, 84-91), it is undefined.  Functions whose assertions are conditions under which Geobucket/Model.v already
    is [UB] are used from there: back (Geobucket.h:184), pop_back (192), setEntry (198), insertAtNotEnd (204), the ends of the loops at 424
    and GeoFront.h:102, 121, the indices at 668 and 688, larger and reserveCapacity (GeoFront.h:61, 207), the tokens in remove (313) and
    getMax (344).  Left out are the assertions about the storage of the buckets, which compare constants of the configuration (221-229, 638,
    707, 781, GeoFront.h:42, 202), those about pointers that are indices here (244, 326-338, Geobucket.h:799-800) and the sum of the sizes
    in addBucket (561). *)
From Coq Require Import List Arith Bool.
From Verif.Base Require Import Res Arr.
From Verif.Spec Require Import PQ.
From Verif.Geobucket Require Import Model.
Import ListNotations.

(** stdinc.h:84-87 MATHIC_ASSERT *)
Definition asserted {A : Type} (b : bool) (r : res A) : res A := if b then r else UB.

Section Debug.
  Variable E : Type.
  Variable lt eqv : E -> E -> bool.
  Variable dedup : E -> E -> E.
  Variable C : config.
  Notation bucket := (bucket E).
  Notation geobucket := (geobucket E).
  Notation b_size := (b_size E).
  Notation b_empty := (b_empty E).

  (** begin != end (Geobucket.h:405, 584, 608, 641) *)
  Definition some_entry (l : list E) : bool := match l with [] => false | _ => true end.

  (** Geobucket.h:253-259 push_back with 254 *)
  Definition bk_push_back_d (fits : nat) (b : bucket) (x : E) : res bucket :=
    asserted (b_size b <? b_cap b) (bk_push_back E C fits b x).

  (** GeoFront.h:241-253 insert with 245 and 246 *)
  Definition f_insert_d (bs : list bucket) (f : front) (b : nat) : res front :=
    match f with
    | FCache _ => f_insert E lt C bs f b
    | FOrder _ _ _ toks =>
        let* t := vget toks b in
        let* bb := vget bs b in
        asserted (match t with None => true | Some _ => false end && negb (b_empty bb)) (f_insert E lt C bs f b)
    end.
  (** GeoFront.h:312-322 remove with 314 *)
  Definition f_remove_d (bs : list bucket) (f : front) (b : nat) : res front :=
    match f with
    | FCache _ => f_remove f b
    | FOrder _ _ _ _ => let* bb := vget bs b in asserted (b_empty bb) (f_remove f b)
    end.

  (** Geobucket.h:580-601 mergeToNonEmpty(into, begin, end) with 583-585 *)
  Definition gb_mergeRange_d (g : geobucket) (into : nat) (l : list E) : res geobucket :=
    let* b := vget (g_bs g) into in
    asserted (negb (b_empty b) && some_entry l && (length l <=? b_cap b)) (gb_mergeRange E lt eqv dedup C g into l).

  (** Geobucket.h:566-577 mergeToNonEmpty(to, from) with 567-570 *)
  Definition gb_mergeToNonEmpty_d (g : geobucket) (to from : nat) : res geobucket :=
    let* bt := vget (g_bs g) to in
    let* bf := vget (g_bs g) from in
    asserted (negb (b_empty bt) && negb (b_empty bf) && negb (to =? from) && (b_size bt + b_size bf <=? b_cap bt)) (
    let* swap := (if negb (trackFront C) then Ok true else f_larger (g_front g) from to) in
    let* f := (if (swap : bool) then f_swapKeys (g_front g) to from else Ok (g_front g)) in
    let* b := vget (g_bs g) from in
    let* g1 := gb_mergeRange_d (mk_gb (g_bs g) (g_count g) f) to (b_ents b) in
    let* b1 := vget (g_bs g1) from in
    let* bs := vset (g_bs g1) from (bk_clear E b1) in
    let* f1 := f_remove_d bs (g_front g1) from in
    Ok (mk_gb bs (g_count g1) f1)).

  (** Geobucket.h:604-614 mergeToEmpty with 605-609 *)
  Definition gb_mergeToEmpty_d (g : geobucket) (to from : nat) (l : list E) : res geobucket :=
    let* bt := vget (g_bs g) to in
    let* bf := vget (g_bs g) from in
    asserted (b_empty bt && negb (b_empty bf) && negb (to =? from) && some_entry l && (length l + b_size bf <=? b_cap bt))
      (gb_mergeToEmpty E lt eqv dedup C g to from l).

  (** Geobucket.h:617-632 moveToEmpty with 618-621 *)
  Definition gb_moveToEmpty_d (g : geobucket) (to from : nat) : res geobucket :=
    let* bt := vget (g_bs g) to in
    let* bf := vget (g_bs g) from in
    asserted (negb (to =? from) && b_empty bt && negb (b_empty bf) && (b_size bf <=? b_cap bt)) (gb_moveToEmpty E C g to from).

  (** Geobucket.h:646-649 and 734-736, the case of an empty bucket; 240 holds because the size is the distance here *)
  Definition gb_assign_d (g : geobucket) (i : nat) (l : list E) : res geobucket :=
    let* b := vget (g_bs g) i in
    let* b' := bk_hold E (area E C (g_bs g) b) b l in
    let* bs := vset (g_bs g) i b' in
    let* f := f_insert_d bs (g_front g) i in
    Ok (mk_gb bs (g_count g) f).

  (** Geobucket.h:667-678 and 688-699 *)
  Definition carry_d (go_on : geobucket -> nat -> list E -> res geobucket) (g : geobucket) (b : nat) (l : list E) : res geobucket :=
    let* current := vget (g_bs g) b in
    let* next := vget (g_bs g) (S b) in
    if b_empty next then gb_mergeToEmpty_d g (S b) b l else
    let (r, k) := gb_merge E lt eqv dedup C l (b_ents current) in
    let* cnt := dec (g_count g) k in
    if largest E (g_bs g) <? length r then UB else
    let* bs := vset (g_bs g) b (bk_clear E current) in
    let* f := f_remove_d bs (g_front g) b in
    go_on (mk_gb bs cnt f) (S b) r.
  (** Geobucket.h:680-701 *)
  Fixpoint carry_loop_d (fuel : nat) (g : geobucket) (b : nat) (tmp : list E) : res geobucket :=
    match fuel with
    | 0 => NoFuel
    | S fuel' =>
        let* current := vget (g_bs g) b in
        if length tmp + b_size current <=? b_cap current then gb_mergeRange_d g b tmp
        else carry_d (carry_loop_d fuel') g b tmp
    end.

  (** Geobucket.h:636-702 insert(..., Premerge<false>) with 640-641; 639 holds because the size is the distance here *)
  Definition gb_insert_nopremerge_d (g : geobucket) (b : nat) (l : list E) : res geobucket :=
    asserted (some_entry l) (
    let* bucket := vget (g_bs g) b in
    if b_empty bucket then gb_assign_d g b l else
    if b_size bucket + length l <=? b_cap bucket then gb_mergeRange_d g b l else
    let* g1 := grow_loop E C (S (length (g_bs g))) g (S b) (b_size bucket + length l) in
    carry_d (carry_loop_d (length (g_bs g1))) g1 b l).

  (** Geobucket.h:730-731 *)
  Fixpoint pre_moves_d (k : nat) (g : geobucket) (rit : nat) : res geobucket :=
    match k with
    | 0 => Ok g
    | S k' => let* g' := gb_moveToEmpty_d g rit (rit - 1) in pre_moves_d k' g' (rit - 1)
    end.
  (** Geobucket.h:705-740 insert(..., Premerge<true>) *)
  Definition gb_insert_premerge_d (g : geobucket) (b : nat) (l : list E) : res geobucket :=
    let* (g1, rbegin) := pre_range E C (S (length (g_bs g))) g b (length l) in
    let* g2 :=
      (if b =? rbegin then Ok g1 else
       let* r := vget (g_bs g1) rbegin in
       if b_empty r then pre_moves_d (rbegin - b) g1 rbegin
       else let* g' := gb_mergeToNonEmpty_d g1 rbegin (rbegin - 1) in pre_moves_d (rbegin - 1 - b) g' (rbegin - 1)) in
    let* bucket := vget (g_bs g2) b in
    if b_empty bucket then gb_assign_d g2 b l else gb_mergeRange_d g2 b l.
  (** Geobucket.h:634-739: the choice between the two versions of insert *)
  Definition gb_insert_d (g : geobucket) (b : nat) (l : list E) : res geobucket :=
    if premerge C then gb_insert_premerge_d g b l else gb_insert_nopremerge_d g b l.

  (** Geobucket.h:344-400 push(entry) *)
  Definition gb_push_d (g : geobucket) (x : E) : res geobucket :=
    let cnt := S (g_count g) in
    let* b := vget (g_bs g) 0 in
    let fits := area E C (g_bs g) b in
    if b_size b =? b_cap b then gb_insert_d (mk_gb (g_bs g) cnt (g_front g)) 0 [x]
    else if b_empty b then
      let* b' := bk_push_back_d fits b x in
      let* bs := vset (g_bs g) 0 b' in
      let* f := f_insert_d bs (g_front g) 0 in
      Ok (mk_gb bs cnt f)
    else
      let* pl := (if minBucketBinarySearch C then bin_search E lt eqv C (S (b_size b)) (b_ents b) x 0 (b_size b)
                  else Ok (lin_search E lt eqv C (b_ents b) x 0)) in
      match pl with
      | PEnd =>
          let* b' := bk_push_back_d fits b x in
          let* bs := vset (g_bs g) 0 b' in
          let* f := f_keyIncreased E lt C bs (g_front g) 0 in
          Ok (mk_gb bs cnt f)
      | PAt i =>
          let* b' := bk_insertAtNotEnd E fits b i x in
          let* bs := vset (g_bs g) 0 b' in
          Ok (mk_gb bs cnt (g_front g))
      | PDup i =>
          let* y := vget (b_ents b) i in
          let* b' := bk_setEntry E C b i (dedup y x) in
          let* bs := vset (g_bs g) 0 b' in
          let* cnt' := dec cnt 1 in
          Ok (mk_gb bs cnt' (g_front g))
      end.

  (** Geobucket.h:405-416 the range must be non-increasing, and decreasing if there is de-duplication *)
  Fixpoint range_asserted (xs : list E) : bool :=
    match xs with
    | [] => true
    | x :: xs' =>
        match xs' with
        | [] => true
        | y :: _ => if supportDeduplication C then lt y x else negb (lt x y)
        end && range_asserted xs'
    end.
  (** Geobucket.h:403-433 push(begin, end) with 405-416 and 432 *)
  Definition gb_pushRange_d (g : geobucket) (xs : list E) : res geobucket :=
    asserted (range_asserted xs) (
    let adjCount := length xs * insertFactor C in
    let* g1 := add_loop E C (S adjCount) (mk_gb (g_bs g) (g_count g + length xs) (g_front g)) adjCount in
    let* b := find_bucket E (g_bs g1) adjCount 0 in
    let* g2 := gb_insert_d g1 b (rev xs) in
    asserted (gb_isValid E lt C g2) (Ok g2)).

  (** Geobucket.h:446-455 pop with 453 *)
  Definition gb_pop_d (g : geobucket) : res (geobucket * E) :=
    let* (g', x) := gb_pop E lt eqv dedup C g in asserted (gb_isValid E lt C g') (Ok (g', x)).
  (** Geobucket.h:471-479 size with 476 *)
  Definition gb_size_d (g : geobucket) : res nat :=
    asserted (list_sum (map b_size (g_bs g)) =? g_count g) (Ok (gb_size E g)).
  (** Geobucket.h:481-484 empty *)
  Definition gb_empty_d (g : geobucket) : res bool := let* n := gb_size_d g in Ok (n =? 0).

  (** One call: Geobucket.h:131-166, with 160, 165, 432, 437, 442, 453, 459, 465 *)
  Definition gb_step_d (g : geobucket) (o : op E) : res (geobucket * out E) :=
    match o with
    | Push x => let* g' := gb_push_d g x in Ok (g', ONone)
    | PushRange xs => let* g' := gb_pushRange_d g xs in Ok (g', ONone)
    | Pop => let* (g', x) := gb_pop_d g in Ok (g', OEntry x)
    | Top =>
        let* e := gb_empty_d g in
        asserted (negb e) (let* (g', x) := gb_top E lt eqv dedup C g in Ok (g', OEntry x))
    | DecreaseTop x =>
        let* e := gb_empty_d g in
        asserted (negb e) (let* (g1, _) := gb_pop_d g in let* g' := gb_push_d g1 x in Ok (g', ONone))
    | Clear =>
        asserted (gb_isValid E lt C g) (
        let g' := gb_clear E g in
        asserted (gb_isValid E lt C g') (Ok (g', ONone)))
    | Size => let* n := gb_size_d g in Ok (g, OSize n)
    | Empty => let* e := gb_empty_d g in Ok (g, OBool e)
    | ForAll => asserted (gb_isValid E lt C g) (Ok (g, OList (gb_forAll E g)))
    end.

  (** Geobucket.h:311-323 the constructor with 320 and 322 *)
  Definition gb_new_d : res geobucket :=
    asserted (2 <=? geoBase C) (
    let* g := gb_addBucket E C (mk_gb [] 0 (if trackFront C then FOrder 0 [] 0 [] else FCache None)) in
    asserted (f_isValid E lt C (g_bs g) (g_front g)) (Ok g)).
End Debug.
