(** The model of push(entry) of src/mathic/Geobucket.h once more, for a compare that throws while it looks for the place in the first bucket.

    The functions take the number of client calls that return before one throws (Base/Fault.v).  Exceptions thrown later in push, when the
    front is updated or buckets are merged, are not modelled. *)
From Coq Require Import List Arith Bool.
From Verif.Base Require Import Res Arr Fault.
From Verif.Geobucket Require Import Model.
Import ListNotations.

Section Faults.
  Variable E : Type.
  Variable lt eqv : E -> E -> bool.
  Variable dedup : E -> E -> E.
  Variable C : config.
  Notation geobucket := (geobucket E).

  (** Geobucket.h:356-383 the binary search *)
  Fixpoint bin_search_x (left : geobucket) (fuel b : nat) (l : list E) (x : E) (begin range : nat) : res (fout geobucket place) :=
    match fuel with
    | 0 => NoFuel
    | S fuel' =>
        if range =? 0 then Ok (Fine b (if begin =? length l then PEnd else PAt begin)) else
        let mid := begin + range / 2 in
        let* y := vget l mid in
        client b left (fun b =>
          if lt x y then bin_search_x left fuel' b l x begin (range / 2)
          else if negb (supportDeduplication C) || negb (eqv x y) then bin_search_x left fuel' b l x (S mid) (range - (range / 2 + 1))
          else Ok (Fine b (PDup mid)))
    end.
  (** Geobucket.h:385-398 the linear search *)
  Fixpoint lin_search_x (left : geobucket) (b : nat) (l : list E) (x : E) (pos : nat) {struct l} : res (fout geobucket place) :=
    match l with
    | [] => Ok (Fine b PEnd)
    | y :: l' =>
        client b left (fun b =>
          if lt x y then Ok (Fine b (PAt pos))
          else if supportDeduplication C && eqv x y then Ok (Fine b (PDup pos))
          else lin_search_x left b l' x (S pos))
    end.

  (** Geobucket.h:344-400 push(entry): _entryCount is incremented before the first comparison.  Nothing throws if the bucket is empty or full, or
      once the place is found (a simplification, see above). *)
  Definition gb_push_x (b : nat) (g : geobucket) (x : E) : res (fout geobucket geobucket) :=
    let left := mk_gb (g_bs g) (S (g_count g)) (g_front g) in
    let* bk := vget (g_bs g) 0 in
    if (b_size _ bk =? b_cap bk) || b_empty _ bk then let* g' := gb_push E lt eqv dedup C g x in Ok (Fine b g') else
    fbind (if minBucketBinarySearch C then bin_search_x left (S (b_size _ bk)) b (b_ents bk) x 0 (b_size _ bk)
           else lin_search_x left b (b_ents bk) x 0)
      (fun b _ => let* g' := gb_push E lt eqv dedup C g x in Ok (Fine b g')).
End Faults.
