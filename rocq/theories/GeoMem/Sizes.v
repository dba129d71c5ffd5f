(** The model of src/mathic/Geobucket.h with the memory of its entries once more, with the sizes it computes as numbers of type size_t.

    Model.v computes sizes without bounds.  Here what is computed with the factors of the configuration, and what is added up for memory
    that is yet to be allocated, wraps around at [M], which is 2^64 where size_t has 64 bits: the capacity of a new bucket, the cells
    required, the offsets of the areas and adjCount.  Each function follows the one of the same name in Model.v.  Simplification: sums of
    numbers of entries that are there, that is sizes of buckets, of ranges and _entryCount, do not wrap around. *)
From Coq Require Import List Arith Bool.
From Verif.Base Require Import Res Arr.
From Verif.Spec Require Import PQ.
From Verif.Geobucket Require Import Model.
From Verif.GeoMem Require Import Model.
Import ListNotations.

Section GeoSizes.
  Variable E : Type.
  Variable lt eqv : E -> E -> bool.
  Variable dedup : E -> E -> E.
  Variable C : config.
  Variable M : nat.
  Notation mgb := (mgb E).

  (** The arithmetic of size_t (Geobucket.h:420, 506-523, 529-559) *)
  Definition wrap (n : nat) : nat := n mod M.

  (** Geobucket.h:508-515 the cells required for the buckets there are *)
  Fixpoint required_loop_s (newBucketSize : nat) (bs : list (mbucket E)) (required : nat) : nat :=
    match bs with
    | [] => required
    | b :: bs' =>
        let required := wrap (required + stride E C newBucketSize b) in
        required_loop_s newBucketSize bs' (if double C then wrap (required + mb_cap E b) else required)
    end.
  (** Geobucket.h:530-540 the loop that moves the buckets to the new vector *)
  Fixpoint place_loop_s (newBucketSize : nat) (old : mem E) (bs : list (mbucket E)) (new : mem E) (offset : nat)
    : res (list (mbucket E) * mem E * nat) :=
    match bs with
    | [] => Ok ([], new, offset)
    | b :: bs' =>
        let* p := addr E new offset in
        let* l := rd_range E old (mb_begin E b) (mb_size E b) in
        let* (new, _) := copy E new (Ext E l) p in
        let offset := wrap (offset + stride E C newBucketSize b) in
        let* (q, offset) :=
          (if double C then let* q := addr E new offset in Ok (q, wrap (offset + mb_cap E b)) else Ok (mb_other E b, offset)) in
        let* (bs1, new, offset) := place_loop_s newBucketSize old bs' new offset in
        Ok (mk_mb E (mb_cap E b) p q (mb_size E b) (mb_back E b) :: bs1, new, offset)
    end.
  (** Geobucket.h:504-563 addBucket; copying the old vector into a shorter new one (526) is [UB] *)
  Definition mg_addBucket_s (g : mgb) : res mgb :=
    let newBucketSize := match mg_bs E g with [] => minBucketSize C | _ => wrap (mlargest E (mg_bs E g) * geoBase C) end in
    let required := required_loop_s newBucketSize (mg_bs E g) 0 in
    let required := wrap (required + newBucketSize) in
    let required := if double C then wrap (required + newBucketSize) else required in
    let required := wrap (required + newBucketSize) in
    let required := if premerge C then required else wrap (required + newBucketSize) in
    let old := mg_mem E g in
    if required <? length (m_cells E old) then UB else
    let new := mk_mem E (S (m_id E old)) (m_cells E old ++ repeat None (required - length (m_cells E old))) in
    let* (bs1, new, offset) := place_loop_s newBucketSize old (mg_bs E g) new 0 in
    let* buffer := addr E new offset in
    let offset := wrap (offset + newBucketSize) in
    let* (otherBuffer, offset) :=
      (if double C then let* q := addr E new offset in Ok (q, wrap (offset + newBucketSize)) else Ok (null, offset)) in
    let bs := bs1 ++ [mk_mb E newBucketSize buffer otherBuffer 0 None] in
    let* f :=
      match mg_front E g with
      | FCache _ => Ok (FCache None)
      | FOrder a slots n toks =>
          let* (a', slots', toks') := fo_reserve a slots n (toks ++ [None]) (length bs) in
          Ok (FOrder a' slots' n toks')
      end in
    let* tmp := addr E new offset in
    let offset := wrap (offset + newBucketSize) in
    let* (tmpNP, offset) :=
      (if premerge C then Ok (mg_tmpNP E g, offset) else let* q := addr E new offset in Ok (q, wrap (offset + newBucketSize))) in
    if offset =? required then Ok (mk_mgb E new bs tmp tmpNP (mg_count E g) f) else UB.
  (** Geobucket.h:311-323 the constructor and GeoFront.h:41-43, 196-203 *)
  Definition mg_new_s : res mgb :=
    mg_addBucket_s (mk_mgb E (mk_mem E 0 []) [] null null 0 (if trackFront C then FOrder 0 [] 0 [] else FCache None)).

  (** Geobucket.h:656-663 the loop that makes sure that there are enough buckets *)
  Fixpoint mgrow_loop_s (fuel : nat) (g : mgb) (i accumulatedSize : nat) : res mgb :=
    match fuel with
    | 0 => NoFuel
    | S fuel' =>
        let* g := (if i =? length (mg_bs E g) then mg_addBucket_s g else Ok g) in
        let* b := vget (mg_bs E g) i in
        let accumulatedSize := accumulatedSize + mb_size E b in
        if accumulatedSize <=? mb_cap E b then Ok g else mgrow_loop_s fuel' g (S i) accumulatedSize
    end.
  (** Geobucket.h:636-702 insert(..., Premerge<false>) *)
  Definition mg_insert_nopremerge_s (g : mgb) (b : nat) (l : list E) : res mgb :=
    let* bucket := vget (mg_bs E g) b in
    if mb_empty E bucket then mg_assign E lt C g b l else
    if mb_size E bucket + length l <=? mb_cap E bucket then mg_mergeRange E lt eqv dedup C g b (Ext E l) else
    let* g1 := mgrow_loop_s (S (length (mg_bs E g))) g (S b) (mb_size E bucket + length l) in
    mcarry_first E lt eqv dedup C (length (mg_bs E g1)) g1 b l.
  (** Geobucket.h:709-723 the loop that determines the premerge range *)
  Fixpoint mpre_range_s (fuel : nat) (g : mgb) (rbegin incomingSize : nat) : res (mgb * nat) :=
    match fuel with
    | 0 => NoFuel
    | S fuel' =>
        let* r := vget (mg_bs E g) rbegin in
        if mb_size E r + incomingSize <=? mb_cap E r then Ok (g, rbegin)
        else if S rbegin =? length (mg_bs E g) then let* g' := mg_addBucket_s g in Ok (g', S rbegin)
        else mpre_range_s fuel' g (S rbegin) (mb_size E r)
    end.
  (** Geobucket.h:705-740 insert(..., Premerge<true>) *)
  Definition mg_insert_premerge_s (g : mgb) (b : nat) (l : list E) : res mgb :=
    let* (g1, rbegin) := mpre_range_s (S (length (mg_bs E g))) g b (length l) in
    let* g2 :=
      (if b =? rbegin then Ok g1 else
       let* r := vget (mg_bs E g1) rbegin in
       if mb_empty E r then mpre_moves E C (rbegin - b) g1 rbegin
       else let* g' := mg_mergeToNonEmpty E lt eqv dedup C g1 rbegin (rbegin - 1) in mpre_moves E C (rbegin - 1 - b) g' (rbegin - 1)) in
    let* bucket := vget (mg_bs E g2) b in
    if mb_empty E bucket then mg_assign E lt C g2 b l else mg_mergeRange E lt eqv dedup C g2 b (Ext E l).
  (** Geobucket.h:634-739: the choice between the two versions of insert *)
  Definition mg_insert_s (g : mgb) (b : nat) (l : list E) : res mgb :=
    if premerge C then mg_insert_premerge_s g b l else mg_insert_nopremerge_s g b l.
  (** Geobucket.h:343-400 push(entry): a bucket can be added only when the first bucket is full *)
  Definition mg_push_s (g : mgb) (x : E) : res mgb :=
    let* b := vget (mg_bs E g) 0 in
    if mb_size E b =? mb_cap E b then
      mg_insert_s (mk_mgb E (mg_mem E g) (mg_bs E g) (mg_tmp E g) (mg_tmpNP E g) (S (mg_count E g)) (mg_front E g)) 0 [x]
    else mg_push E lt eqv dedup C g x.
  (** Geobucket.h:421-422 *)
  Fixpoint madd_loop_s (fuel : nat) (g : mgb) (adjCount : nat) : res mgb :=
    match fuel with
    | 0 => NoFuel
    | S fuel' =>
        if mlargest E (mg_bs E g) <? adjCount then let* g' := mg_addBucket_s g in madd_loop_s fuel' g' adjCount else Ok g
    end.
  (** Geobucket.h:402-433 push(begin, end) *)
  Definition mg_pushRange_s (g : mgb) (xs : list E) : res mgb :=
    let adjCount := wrap (length xs * insertFactor C) in
    let* g1 := madd_loop_s (S adjCount)
                 (mk_mgb E (mg_mem E g) (mg_bs E g) (mg_tmp E g) (mg_tmpNP E g) (mg_count E g + length xs) (mg_front E g)) adjCount in
    let* b := mfind_bucket E (mg_bs E g1) adjCount 0 in
    mg_insert_s g1 b (rev xs).
  (** Geobucket.h:463-468 decreaseTop *)
  Definition mg_decreaseTop_s (g : mgb) (x : E) : res mgb :=
    let* (g1, _) := mg_pop E lt eqv dedup C g in mg_push_s g1 x.

  (** One call: Geobucket.h:131-166 *)
  Definition mg_step_s (g : mgb) (o : op E) : res (mgb * out E) :=
    match o with
    | Push x => let* g' := mg_push_s g x in Ok (g', ONone)
    | PushRange xs => let* g' := mg_pushRange_s g xs in Ok (g', ONone)
    | DecreaseTop x => let* g' := mg_decreaseTop_s g x in Ok (g', ONone)
    | _ => mg_step E lt eqv dedup C g o
    end.
End GeoSizes.
