(** The model of src/mathic/Geobucket.h with the memory of its entries once more, for allocations that fail.

    addBucket (Geobucket.h:504-563) makes up to three allocations: the new vector of entries (525), a place for the new bucket (548) and,
    in a front that is tracked, the new array of pointers to buckets (GeoFront.h:206-216).  Each function here takes which of the three it
    is that fails, and in how many calls of addBucket none fails before; it follows the function of the same name in Model.v.  With a state
    that is left behind by an exception goes what the unwinding has freed: the vector newMem is destroyed, so pointers into it dangle.
    Simplifications: only one allocation fails in a call, assigning an entry does not throw, and the constructor, whose failure leaves no
    object, is not considered.  The call of reserveCapacity in GeoFront::insert (GeoFront.h:247-248) finds the capacity large enough and
    allocates nothing. *)
From Coq Require Import List Arith Bool.
From Verif.Base Require Import Res Arr Fault.
From Verif.Spec Require Import PQ.
From Verif.Geobucket Require Import Model.
From Verif.GeoMem Require Import Model.
Import ListNotations.

(** The allocations of addBucket: Geobucket.h:525, 548 and 552 with GeoFront.h:213 *)
Inductive alloc : Type := NewMem | NewBucket | NewFront.

Section GeoAlloc.
  Variable E : Type.
  Variable lt eqv : E -> E -> bool.
  Variable dedup : E -> E -> E.
  Variable C : config.
  Variable w : alloc.
  Notation mgb := (mgb E).

  (** GeoFront.h:49 and 206-216: whether addBucket makes the allocation; without a tracked front reserveCapacity does nothing *)
  Definition makes (f : front) : bool := match w, f with NewFront, FCache _ => false | _, _ => true end.

  (** Geobucket.h:504-563 addBucket, when the allocation fails: at 525 nothing has been changed; at 548 the buckets have been made to point
      into newMem; at 552 there is moreover the new bucket, which the front has not heard of and whose _frontPos is not set *)
  Definition mg_spoil (g : mgb) : res mgb :=
    match w with
    | NewMem => Ok g
    | _ =>
        let newBucketSize := match mg_bs E g with [] => minBucketSize C | _ => mlargest E (mg_bs E g) * geoBase C end in
        let required := required_loop E C newBucketSize (mg_bs E g) 0 in
        let required := required + newBucketSize in
        let required := if double C then required + newBucketSize else required in
        let required := required + newBucketSize in
        let required := if premerge C then required else required + newBucketSize in
        let old := mg_mem E g in
        if required <? length (m_cells E old) then UB else
        let new := mk_mem E (S (m_id E old)) (m_cells E old ++ repeat None (required - length (m_cells E old))) in
        let* (bs1, new, offset) := place_loop E C newBucketSize old (mg_bs E g) new 0 in
        let* buffer := addr E new offset in
        let offset := offset + newBucketSize in
        let* (otherBuffer, offset) :=
          (if double C then let* q := addr E new offset in Ok (q, offset + newBucketSize) else Ok (null, offset)) in
        match w, mg_front E g with
        | NewFront, FOrder a slots n toks =>
            Ok (mk_mgb E old (bs1 ++ [mk_mb E newBucketSize buffer otherBuffer 0 None]) (mg_tmp E g) (mg_tmpNP E g) (mg_count E g)
                  (FOrder a slots n (toks ++ [None])))
        | _, _ => Ok (mk_mgb E old bs1 (mg_tmp E g) (mg_tmpNP E g) (mg_count E g) (mg_front E g))
        end
    end.
  (** Geobucket.h:504-563 addBucket *)
  Definition mg_addBucket_a (b : nat) (g : mgb) : res (fout mgb mgb) :=
    if makes (mg_front E g) then
      match b with
      | 0 => let* g' := mg_spoil g in Ok (Left g')
      | S b' => let* g' := mg_addBucket E C g in Ok (Fine b' g')
      end
    else let* g' := mg_addBucket E C g in Ok (Fine b g').

  (** Geobucket.h:656-663 the loop that makes sure that there are enough buckets *)
  Fixpoint mgrow_loop_a (fuel b : nat) (g : mgb) (i accumulatedSize : nat) {struct fuel} : res (fout mgb mgb) :=
    match fuel with
    | 0 => NoFuel
    | S fuel' =>
        fbind (if i =? length (mg_bs E g) then mg_addBucket_a b g else Ok (Fine b g)) (fun b g =>
          let* bk := vget (mg_bs E g) i in
          let accumulatedSize := accumulatedSize + mb_size E bk in
          if accumulatedSize <=? mb_cap E bk then Ok (Fine b g) else mgrow_loop_a fuel' b g (S i) accumulatedSize)
    end.
  (** Geobucket.h:636-702 insert(..., Premerge<false>): all buckets are added before an entry is moved *)
  Definition mg_insert_nopremerge_a (b : nat) (g : mgb) (i : nat) (l : list E) : res (fout mgb mgb) :=
    let* bucket := vget (mg_bs E g) i in
    if mb_empty E bucket then let* g' := mg_assign E lt C g i l in Ok (Fine b g') else
    if mb_size E bucket + length l <=? mb_cap E bucket then let* g' := mg_mergeRange E lt eqv dedup C g i (Ext E l) in Ok (Fine b g') else
    fbind (mgrow_loop_a (S (length (mg_bs E g))) b g (S i) (mb_size E bucket + length l)) (fun b g1 =>
      let* g' := mcarry_first E lt eqv dedup C (length (mg_bs E g1)) g1 i l in Ok (Fine b g')).
  (** Geobucket.h:709-723 the loop that determines the premerge range *)
  Fixpoint mpre_range_a (fuel b : nat) (g : mgb) (rbegin incomingSize : nat) {struct fuel} : res (fout mgb (mgb * nat)) :=
    match fuel with
    | 0 => NoFuel
    | S fuel' =>
        let* r := vget (mg_bs E g) rbegin in
        if mb_size E r + incomingSize <=? mb_cap E r then Ok (Fine b (g, rbegin))
        else if S rbegin =? length (mg_bs E g) then fbind (mg_addBucket_a b g) (fun b g' => Ok (Fine b (g', S rbegin)))
        else mpre_range_a fuel' b g (S rbegin) (mb_size E r)
    end.
  (** Geobucket.h:705-740 insert(..., Premerge<true>) *)
  Definition mg_insert_premerge_a (b : nat) (g : mgb) (i : nat) (l : list E) : res (fout mgb mgb) :=
    fbind (mpre_range_a (S (length (mg_bs E g))) b g i (length l)) (fun b '(g1, rbegin) =>
      let* g2 :=
        (if i =? rbegin then Ok g1 else
         let* r := vget (mg_bs E g1) rbegin in
         if mb_empty E r then mpre_moves E C (rbegin - i) g1 rbegin
         else let* g' := mg_mergeToNonEmpty E lt eqv dedup C g1 rbegin (rbegin - 1) in mpre_moves E C (rbegin - 1 - i) g' (rbegin - 1)) in
      let* bucket := vget (mg_bs E g2) i in
      let* g' := (if mb_empty E bucket then mg_assign E lt C g2 i l else mg_mergeRange E lt eqv dedup C g2 i (Ext E l)) in
      Ok (Fine b g')).
  (** Geobucket.h:634-739: the choice between the two versions of insert *)
  Definition mg_insert_a (b : nat) (g : mgb) (i : nat) (l : list E) : res (fout mgb mgb) :=
    if premerge C then mg_insert_premerge_a b g i l else mg_insert_nopremerge_a b g i l.
  (** Geobucket.h:343-400 push(entry): a bucket can be added only when the first bucket is full *)
  Definition mg_push_a (b : nat) (g : mgb) (x : E) : res (fout mgb mgb) :=
    let* bk := vget (mg_bs E g) 0 in
    if mb_size E bk =? mb_cap E bk then
      mg_insert_a b (mk_mgb E (mg_mem E g) (mg_bs E g) (mg_tmp E g) (mg_tmpNP E g) (S (mg_count E g)) (mg_front E g)) 0 [x]
    else let* g' := mg_push E lt eqv dedup C g x in Ok (Fine b g').
  (** Geobucket.h:421-422 *)
  Fixpoint madd_loop_a (fuel b : nat) (g : mgb) (adjCount : nat) {struct fuel} : res (fout mgb mgb) :=
    match fuel with
    | 0 => NoFuel
    | S fuel' =>
        if mlargest E (mg_bs E g) <? adjCount then fbind (mg_addBucket_a b g) (fun b g' => madd_loop_a fuel' b g' adjCount) else Ok (Fine b g)
    end.
  (** Geobucket.h:402-433 push(begin, end) *)
  Definition mg_pushRange_a (b : nat) (g : mgb) (xs : list E) : res (fout mgb mgb) :=
    let adjCount := length xs * insertFactor C in
    fbind (madd_loop_a (S adjCount) b
             (mk_mgb E (mg_mem E g) (mg_bs E g) (mg_tmp E g) (mg_tmpNP E g) (mg_count E g + length xs) (mg_front E g)) adjCount) (fun b g1 =>
      let* i := mfind_bucket E (mg_bs E g1) adjCount 0 in
      mg_insert_a b g1 i (rev xs)).
  (** Geobucket.h:463-468 decreaseTop *)
  Definition mg_decreaseTop_a (b : nat) (g : mgb) (x : E) : res (fout mgb mgb) :=
    let* (g1, _) := mg_pop E lt eqv dedup C g in mg_push_a b g1 x.

  (** One call: Geobucket.h:131-166 *)
  Definition mg_step_a (b : nat) (g : mgb) (o : op E) : res (fout mgb (mgb * out E)) :=
    match o with
    | Push x => fbind (mg_push_a b g x) (fun b g' => Ok (Fine b (g', ONone)))
    | PushRange xs => fbind (mg_pushRange_a b g xs) (fun b g' => Ok (Fine b (g', ONone)))
    | DecreaseTop x => fbind (mg_decreaseTop_a b g x) (fun b g' => Ok (Fine b (g', ONone)))
    | _ => let* r := mg_step E lt eqv dedup C g o in Ok (Fine b r)
    end.
  (** A client that catches std::bad_alloc and goes on: one call of Geobucket.h:131-166 with its answer, or [None] when it throws *)
  Definition mg_try (g : mgb) (c : nat * op E) : res (mgb * option (out E)) :=
    let* f := mg_step_a (fst c) g (snd c) in
    match f with Fine _ (g', r) => Ok (g', Some r) | Left g' => Ok (g', None) end.
End GeoAlloc.
