(** Model of src/mathic/Geobucket.h and src/mathic/GeoFront.h.

    A Bucket* is the index of the bucket in [_buckets].  A bucket's memory area is the list of its entries together with the number of
    entries that fit (Geobucket.h:504-563 lays the areas out one after the other; the layout itself is the subject of GeoMem/Model.v, here
    writing more than fits is [UB]).  The field [_frontPos] of the buckets is kept in a list of tokens beside the front array.  A token is a pair
    (allocation, index): [reserveCapacity] allocates a new array and deletes the old one, so a token of an old allocation dangles and
    using it is [UB].  [size_t] arithmetic is unbounded; a decrement of 0 is [UB].  [compare] is a function of its arguments;
    exceptions thrown by the configuration and allocation failures are not modelled. *)
From Coq Require Import List Arith Bool.
From Verif.Base Require Import Res Arr.
From Verif.Spec Require Import PQ.
Import ListNotations.

(** Geobucket.h:12-19 GeobucketBucketStorage *)
Inductive storage : Type := Plain | DoubleBuffer | SameSizeBuffer.

(** Geobucket.h:26-122 the Configuration's fields *)
Record config := mk_config {
  geoBase : nat;
  minBucketSize : nat;
  insertFactor : nat;
  supportDeduplication : bool;
  minBucketBinarySearch : bool;
  trackFront : bool;
  premerge : bool;
  collectMax : bool;
  bucketStorage : storage
}.

Section Geobucket.
  Variable E : Type.
  (** [lt a b] is cmpLessThan(compare(a,b)), [eqv a b] is cmpEqual(compare(a,b)). *)
  Variable lt eqv : E -> E -> bool.
  Variable dedup : E -> E -> E.
  Variable C : config.

  (** ** Buckets *)

  (** Geobucket.h:174-272; [b_back] is the copy [_back] of the last entry, [None] before it is first assigned *)
  Record bucket := mk_b { b_cap : nat; b_ents : list E; b_back : option E }.
  (** Geobucket.h:176 Bucket::size *)
  Definition b_size (b : bucket) : nat := length (b_ents b).
  (** Geobucket.h:182 Bucket::empty *)
  Definition b_empty (b : bucket) : bool := match b_ents b with [] => true | _ => false end.

  (** Geobucket.h:185, 195, 218, 233, 244, 251: the entry before the end *)
  Definition last_entry (l : list E) : option E := nth_error l (length l - 1).

  (** Geobucket.h:183-186 back *)
  Definition bk_back (b : bucket) : res E :=
    if b_empty b then UB else
    if collectMax C then of_option (b_back b) else of_option (last_entry (b_ents b)).

  (** The assignments of [_back] guarded by "size > 0" (Geobucket.h:194, 217, 232, 243, 250) *)
  Definition new_back (l : list E) (old : option E) : option E := match last_entry l with Some x => Some x | None => old end.

  (** Geobucket.h:191-196 pop_back *)
  Definition bk_pop_back (b : bucket) : res bucket :=
    if b_empty b then UB else
    let l := removelast (b_ents b) in
    Ok (mk_b (b_cap b) l (if collectMax C then new_back l (b_back b) else b_back b)).

  (** Geobucket.h:197-202 setEntry, [pos] counted from begin() *)
  Definition bk_setEntry (b : bucket) (pos : nat) (x : E) : res bucket :=
    let* l := vset (b_ents b) pos x in
    Ok (mk_b (b_cap b) l (if collectMax C && (pos =? length l - 1) then Some x else b_back b)).

  (** Geobucket.h:203-209 insertAtNotEnd; [fits] is the number of entries in the memory area *)
  Definition bk_insertAtNotEnd (fits : nat) (b : bucket) (pos : nat) (x : E) : res bucket :=
    if (pos <? b_size b) && (b_size b <? fits)
    then Ok (mk_b (b_cap b) (firstn pos (b_ents b) ++ x :: skipn pos (b_ents b)) (b_back b))
    else UB.

  (** Geobucket.h:253-259 push_back *)
  Definition bk_push_back (fits : nat) (b : bucket) (x : E) : res bucket :=
    if b_size b <? fits
    then Ok (mk_b (b_cap b) (b_ents b ++ [x]) (if collectMax C then Some x else b_back b))
    else UB.

  (** Geobucket.h:238-245 assign, 246-252 merge, 214-219 setBufferWithNewEntries and 228-234 switchToOtherBuffer: the bucket now
      holds [l] in a memory area for [fits] entries *)
  Definition bk_hold (fits : nat) (b : bucket) (l : list E) : res bucket :=
    if length l <=? fits then Ok (mk_b (b_cap b) l (new_back l (b_back b))) else UB.

  (** Geobucket.h:235-237 clear *)
  Definition bk_clear (b : bucket) : bucket := mk_b (b_cap b) [] (b_back b).

  (** Capacity of the largest, that is the last bucket: the size of [_tmp] and [_tmpForNoPremerge] (Geobucket.h:298, 303) *)
  Definition largest (bs : list bucket) : nat := match rev bs with [] => 0 | b :: _ => b_cap b end.
  (** Geobucket.h:530-540 the size of a bucket's memory area *)
  Definition area (bs : list bucket) (b : bucket) : nat :=
    match bucketStorage C with SameSizeBuffer => largest bs | _ => b_cap b end.

  (** Geobucket.h:183-186 back() of a bucket given by its index *)
  Definition key (bs : list bucket) (i : nat) : res E := let* b := vget bs i in bk_back b.

  (** --_entryCount, [k] times (Geobucket.h:451, GeoFront.h:116, 294) *)
  Definition dec (n k : nat) : res nat := if k <=? n then Ok (n - k) else UB.

  (** ** GeoFront *)

  (** GeoFront.h:36-77: [FCache c] has [c] = _cachedMaxBucket.
      GeoFront.h:143-183: [FOrder a slots n toks] has the array [slots] of allocation [a], of which the first [n] are in use;
      [toks] are the buckets' [_frontPos]. *)
  Definition token : Type := option (nat * nat).
  (** GeoFront.h:75-76, 178-181 *)
  Inductive front : Type :=
  | FCache (c : option nat)
  | FOrder (a : nat) (slots : list (option nat)) (n : nat) (toks : list token).

  (** Reading a slot that was never written is undefined (GeoFront.h:178) *)
  Definition slot (slots : list (option nat)) (p : nat) : res nat := let* o := vget slots p in of_option o.
  (** A token as an index into the present array (GeoFront.h:220-224, 257) *)
  Definition tok_pos (a : nat) (t : token) : res nat :=
    match t with Some (a', p) => if a' =? a then Ok p else UB | None => UB end.

  (** GeoFront.h:256-274 keyIncreased; [pos] counts down *)
  Fixpoint ki_loop (bs : list bucket) (a : nat) (slots : list (option nat)) (toks : list token) (b pos : nat)
    : res (list (option nat) * list token) :=
    let put :=
      (let* slots' := vset slots pos (Some b) in
       let* toks' := vset toks b (Some (a, pos)) in
       Ok (slots', toks')) in
    match pos with
    | 0 => put
    | S p =>
        let* other := slot slots p in
        let* ko := key bs other in
        let* kb := key bs b in
        if lt ko kb then
          let* slots' := vset slots pos (Some other) in
          let* toks' := vset toks other (Some (a, pos)) in
          ki_loop bs a slots' toks' b p
        else put
    end.

  (** GeoFront.h:312-322 remove, the loop: [k] rounds are left, [i] is the slot to be moved down *)
  Fixpoint rm_loop (k a : nat) (slots : list (option nat)) (toks : list token) (i : nat) : res (list (option nat) * list token) :=
    match k with
    | 0 => Ok (slots, toks)
    | S k' =>
        let* x := slot slots i in
        let* slots' := vset slots (i - 1) (Some x) in
        let* toks' := vset toks x (Some (a, i - 1)) in
        rm_loop k' a slots' toks' (S i)
    end.
  (** GeoFront.h:311-322 remove *)
  Definition fo_remove (a : nat) (slots : list (option nat)) (n : nat) (toks : list token) (b : nat) : res front :=
    let* t := vget toks b in
    let* pos := tok_pos a t in
    if n <=? pos then UB else
    let* (slots', toks') := rm_loop (n - 1 - pos) a slots toks (S pos) in
    let* toks'' := vset toks' b None in
    Ok (FOrder a slots' (n - 1) toks'').

  (** GeoFront.h:284-309 keyDecreased, the loop: [k] slots are left after [pos] *)
  Fixpoint kd_loop (k : nat) (bs : list bucket) (cnt a : nat) (slots : list (option nat)) (n : nat) (toks : list token) (b pos : nat)
    : res (list bucket * nat * front) :=
    let put :=
      (let* slots' := vset slots pos (Some b) in
       let* toks' := vset toks b (Some (a, pos)) in
       Ok (bs, cnt, FOrder a slots' n toks')) in
    match k with
    | 0 => put
    | S k' =>
        let* other := slot slots (S pos) in
        let* kb := key bs b in
        let* ko := key bs other in
        if lt kb ko then
          let* slots' := vset slots pos (Some other) in
          let* toks' := vset toks other (Some (a, pos)) in
          kd_loop k' bs cnt a slots' n toks' b (S pos)
        else if negb (supportDeduplication C) || negb (eqv kb ko) then put
        else
          let* ob := vget bs other in
          let* ob' := bk_setEntry ob (b_size ob - 1) (dedup kb ko) in
          let* bs1 := vset bs other ob' in
          let* bb := vget bs1 b in
          let* bb' := bk_pop_back bb in
          let* bs2 := vset bs1 b bb' in
          let* cnt' := dec cnt 1 in
          if b_empty bb' then
            let* toks' := vset toks b (Some (a, pos)) in
            let* f := fo_remove a slots n toks' b in
            Ok (bs2, cnt', f)
          else
            let* slots' := vset slots pos (Some other) in
            let* toks' := vset toks other (Some (a, pos)) in
            kd_loop k' bs2 cnt' a slots' n toks' b (S pos)
    end.

  (** GeoFront.h:206-226 reserveCapacity; the loop over the slots in use, from slot [p] *)
  Fixpoint rc_loop (k a p : nat) (slots : list (option nat)) (toks : list token) : res (list token) :=
    match k with
    | 0 => Ok toks
    | S k' =>
        let* b := slot slots p in
        let* t := vget toks b in
        let* q := tok_pos a t in
        let* toks' := vset toks b (Some (S a, q)) in
        rc_loop k' a (S p) slots toks'
    end.
  (** GeoFront.h:205-226 reserveCapacity *)
  Definition fo_reserve (a : nat) (slots : list (option nat)) (n : nat) (toks : list token) (newCapacity : nat)
    : res (nat * list (option nat) * list token) :=
    let newCapacity := if newCapacity =? 0 then 1 else newCapacity in
    if newCapacity <? n then UB else
    let slots' := firstn n slots ++ repeat None (newCapacity - n) in
    let* toks' := rc_loop n a 0 slots' toks in
    Ok (S a, slots', toks').

  (** GeoFront.h:57 and 256-274 *)
  Definition f_keyIncreased (bs : list bucket) (f : front) (b : nat) : res front :=
    match f with
    | FCache _ => Ok (FCache None)
    | FOrder a slots n toks =>
        let* t := vget toks b in
        let* pos := tok_pos a t in
        let* (slots', toks') := ki_loop bs a slots toks b pos in
        Ok (FOrder a slots' n toks')
    end.

  (** GeoFront.h:55 and 241-253 insert *)
  Definition f_insert (bs : list bucket) (f : front) (b : nat) : res front :=
    match f with
    | FCache _ => Ok (FCache None)
    | FOrder a slots n toks =>
        let* (a, slots, toks) := (if n =? length slots then fo_reserve a slots n toks (n + 1) else Ok (a, slots, toks)) in
        let* slots' := vset slots n (Some b) in
        let* toks' := vset toks b (Some (a, n)) in
        f_keyIncreased bs (FOrder a slots' (S n) toks') b
    end.

  (** GeoFront.h:56 and 312-322 *)
  Definition f_remove (f : front) (b : nat) : res front :=
    match f with
    | FCache _ => Ok (FCache None)
    | FOrder a slots n toks => fo_remove a slots n toks b
    end.

  (** GeoFront.h:58 and 277-309 keyDecreased *)
  Definition f_keyDecreased (bs : list bucket) (cnt : nat) (f : front) (b : nat) : res (list bucket * nat * front) :=
    match f with
    | FCache _ => Ok (bs, cnt, FCache None)
    | FOrder a slots n toks =>
        let* bb := vget bs b in
        if b_empty bb then let* f' := fo_remove a slots n toks b in Ok (bs, cnt, f')
        else
          let* t := vget toks b in
          let* pos := tok_pos a t in
          if n <=? pos then UB else kd_loop (n - 1 - pos) bs cnt a slots n toks b pos
    end.

  (** GeoFront.h:59 and 325-333 swapKeys *)
  Definition write_through (a : nat) (slots : list (option nat)) (t : token) (b : nat) : res (list (option nat)) :=
    match t with
    | None => Ok slots
    | Some _ => let* p := tok_pos a t in vset slots p (Some b)
    end.
  (** GeoFront.h:59, 324-333 swapKeys *)
  Definition f_swapKeys (f : front) (x y : nat) : res front :=
    match f with
    | FCache c => Ok (FCache c)
    | FOrder a slots n toks =>
        let* tx := vget toks x in
        let* ty := vget toks y in
        let* toks1 := vset toks x ty in
        let* toks2 := vset toks1 y tx in
        let* slots1 := write_through a slots ty x in
        let* slots2 := write_through a slots1 tx y in
        Ok (FOrder a slots2 n toks2)
    end.

  (** GeoFront.h:60-63 and 336-340 larger *)
  Definition f_larger (f : front) (x y : nat) : res bool :=
    match f with
    | FCache _ => UB
    | FOrder a _ _ toks =>
        let* tx := vget toks x in
        let* ty := vget toks y in
        let* px := tok_pos a tx in
        let* py := tok_pos a ty in
        Ok (px <? py)
    end.

  (** GeoFront.h:45-47 and 186-188 clear *)
  Definition f_clear (f : front) : front :=
    match f with
    | FCache _ => FCache None
    | FOrder a slots n toks => FOrder a slots 0 toks
    end.

  (** GeoFront.h:98-103, the search for the first non-empty bucket *)
  Fixpoint first_nonempty (bs : list bucket) (i : nat) : res nat :=
    match bs with
    | [] => UB
    | b :: bs' => if b_empty b then first_nonempty bs' (S i) else Ok i
    end.
  (** GeoFront.h:104-121, the loop of computeMax: [k] buckets are left, [it] is the next one *)
  Fixpoint cm_loop (k : nat) (bs : list bucket) (cnt maxBucket it : nat) : res (list bucket * nat * nat) :=
    match k with
    | 0 => Ok (bs, cnt, maxBucket)
    | S k' =>
        let* b := vget bs it in
        if b_empty b then cm_loop k' bs cnt maxBucket (S it) else
        let* ki := bk_back b in
        let* km := key bs maxBucket in
        if lt ki km then cm_loop k' bs cnt maxBucket (S it)
        else if supportDeduplication C && eqv ki km then
          let* mb := vget bs maxBucket in
          let* mb' := bk_setEntry mb (b_size mb - 1) (dedup km ki) in
          let* bs1 := vset bs maxBucket mb' in
          let* b1 := vget bs1 it in
          let* b' := bk_pop_back b1 in
          let* bs2 := vset bs1 it b' in
          let* cnt' := dec cnt 1 in
          cm_loop k' bs2 cnt' maxBucket (S it)
        else cm_loop k' bs cnt it (S it)
    end.

  (** ** Geobucket *)

  (** Geobucket.h:293-305 the members *)
  Record geobucket := mk_gb { g_bs : list bucket; g_count : nat; g_front : front }.

  (** GeoFront.h:86-93 and 343-346 getMax, 95-123 computeMax *)
  Definition gb_getMax (g : geobucket) : res (geobucket * nat) :=
    match g_front g with
    | FCache (Some m) => Ok (g, m)
    | FCache None =>
        let* m := first_nonempty (g_bs g) 0 in
        let* (bs, cnt, m') := cm_loop (length (g_bs g) - S m) (g_bs g) (g_count g) m (S m) in
        Ok (mk_gb bs cnt (FCache (Some m')), m')
    | FOrder a slots n toks =>
        if n =? 0 then UB else
        let* m := slot slots 0 in Ok (g, m)
    end.

  (** Geobucket.h:504-563 addBucket with GeoFront.h:50-52, 229-238 bucketsInvalidated (an index stays the same) and 49, 206-226
      reserveCapacity *)
  Definition gb_addBucket (g : geobucket) : res geobucket :=
    let newBucketSize := match g_bs g with [] => minBucketSize C | _ => largest (g_bs g) * geoBase C end in
    let bs := g_bs g ++ [mk_b newBucketSize [] None] in
    match g_front g with
    | FCache _ => Ok (mk_gb bs (g_count g) (FCache None))
    | FOrder a slots n toks =>
        let* (a', slots', toks') := fo_reserve a slots n (toks ++ [None]) (length bs) in
        Ok (mk_gb bs (g_count g) (FOrder a' slots' n toks'))
    end.

  (** Geobucket.h:311-323 the constructor and GeoFront.h:41-43, 196-203; see [gb_new_ok] in Proofs.v *)
  Definition gb_new : geobucket :=
    mk_gb [mk_b (minBucketSize C) [] None] 0 (if trackFront C then FOrder 1 [None] 0 [None] else FCache None).

  (** Geobucket.h:743-775 merge, and how often it decrements _entryCount *)
  Fixpoint gb_merge (l1 l2 : list E) {struct l1} : list E * nat :=
    match l1 with
    | [] => (l2, 0)
    | a :: l1' =>
        (fix aux (l2 : list E) : list E * nat :=
           match l2 with
           | [] => (l1, 0)
           | b :: l2' =>
               if lt a b then let (r, k) := gb_merge l1' l2 in (a :: r, k)
               else if negb (supportDeduplication C) || negb (eqv a b) then let (r, k) := aux l2' in (b :: r, k)
               else let (r, k) := gb_merge l1' l2' in (dedup a b :: r, S k)
           end) l2
    end.

  (** Geobucket.h:580-601 mergeToNonEmpty(into, begin, end) *)
  Definition gb_mergeRange (g : geobucket) (into : nat) (l : list E) : res geobucket :=
    let bs := g_bs g in
    let* b := vget bs into in
    let (r, k) := match bucketStorage C with
                  | Plain => gb_merge l (b_ents b)      (* 597 copies the bucket to _tmp *)
                  | _ => gb_merge (b_ents b) l
                  end in
    let* cnt := dec (g_count g) k in
    if (match bucketStorage C with Plain => largest bs <? b_size b | _ => false end) then UB else
    let* b' := bk_hold (area bs b) b r in
    let* bs' := vset bs into b' in
    let* f := f_keyIncreased bs' (g_front g) into in
    Ok (mk_gb bs' cnt f).

  (** Geobucket.h:566-577 mergeToNonEmpty(to, from) *)
  Definition gb_mergeToNonEmpty (g : geobucket) (to from : nat) : res geobucket :=
    let* swap := (if negb (trackFront C) then Ok true else f_larger (g_front g) from to) in
    let* f := (if (swap : bool) then f_swapKeys (g_front g) to from else Ok (g_front g)) in
    let* b := vget (g_bs g) from in
    let* g1 := gb_mergeRange (mk_gb (g_bs g) (g_count g) f) to (b_ents b) in
    let* b1 := vget (g_bs g1) from in
    let* bs := vset (g_bs g1) from (bk_clear b1) in
    let* f1 := f_remove (g_front g1) from in
    Ok (mk_gb bs (g_count g1) f1).

  (** Geobucket.h:604-614 mergeToEmpty *)
  Definition gb_mergeToEmpty (g : geobucket) (to from : nat) (l : list E) : res geobucket :=
    let bs := g_bs g in
    let* bt := vget bs to in
    let* bf := vget bs from in
    let (r, k) := gb_merge l (b_ents bf) in
    let* cnt := dec (g_count g) k in
    let* bt' := bk_hold (area bs bt) bt r in
    let* bs1 := vset bs to bt' in
    let* bs2 := vset bs1 from (bk_clear bf) in
    let* f := f_swapKeys (g_front g) from to in
    let* f1 := f_keyIncreased bs2 f to in
    Ok (mk_gb bs2 cnt f1).

  (** Geobucket.h:617-632 moveToEmpty; with SameSizeBuffer the two buckets exchange their areas, which have the same size *)
  Definition gb_moveToEmpty (g : geobucket) (to from : nat) : res geobucket :=
    let bs := g_bs g in
    let* bt := vget bs to in
    let* bf := vget bs from in
    let* bt' := bk_hold (area bs bt) bt (b_ents bf) in
    let* bs1 := vset bs to bt' in
    let* bs2 := vset bs1 from (bk_clear bf) in
    let* f := f_swapKeys (g_front g) from to in
    Ok (mk_gb bs2 (g_count g) f).

  (** Geobucket.h:646-649 and 734-736, the case of an empty bucket *)
  Definition gb_assign (g : geobucket) (i : nat) (l : list E) : res geobucket :=
    let* b := vget (g_bs g) i in
    let* b' := bk_hold (area (g_bs g) b) b l in
    let* bs := vset (g_bs g) i b' in
    let* f := f_insert bs (g_front g) i in
    Ok (mk_gb bs (g_count g) f).

  (** Geobucket.h:656-663 the loop that makes sure that there are enough buckets *)
  Fixpoint grow_loop (fuel : nat) (g : geobucket) (i accumulatedSize : nat) : res geobucket :=
    match fuel with
    | 0 => NoFuel
    | S fuel' =>
        let* g := (if i =? length (g_bs g) then gb_addBucket g else Ok g) in
        let* b := vget (g_bs g) i in
        let accumulatedSize := accumulatedSize + b_size b in
        if accumulatedSize <=? b_cap b then Ok g else grow_loop fuel' g (S i) accumulatedSize
    end.

  (** Geobucket.h:667-678 and, with the iterators of the temporary area, 688-699: bucket [b] overflows into the next one.
      [go_on] is what happens to the merged entries if the next bucket is not empty. *)
  Definition carry (go_on : geobucket -> nat -> list E -> res geobucket) (g : geobucket) (b : nat) (l : list E) : res geobucket :=
    let* current := vget (g_bs g) b in
    let* next := vget (g_bs g) (S b) in
    if b_empty next then gb_mergeToEmpty g (S b) b l else
    let (r, k) := gb_merge l (b_ents current) in
    let* cnt := dec (g_count g) k in
    if largest (g_bs g) <? length r then UB else
    let* bs := vset (g_bs g) b (bk_clear current) in
    let* f := f_remove (g_front g) b in
    go_on (mk_gb bs cnt f) (S b) r.
  (** Geobucket.h:680-701 *)
  Fixpoint carry_loop (fuel : nat) (g : geobucket) (b : nat) (tmp : list E) : res geobucket :=
    match fuel with
    | 0 => NoFuel
    | S fuel' =>
        let* current := vget (g_bs g) b in
        if length tmp + b_size current <=? b_cap current then gb_mergeRange g b tmp
        else carry (carry_loop fuel') g b tmp
    end.

  (** Geobucket.h:636-702 insert(..., Premerge<false>) *)
  Definition gb_insert_nopremerge (g : geobucket) (b : nat) (l : list E) : res geobucket :=
    let* bucket := vget (g_bs g) b in
    if b_empty bucket then gb_assign g b l else
    if b_size bucket + length l <=? b_cap bucket then gb_mergeRange g b l else
    let* g1 := grow_loop (S (length (g_bs g))) g (S b) (b_size bucket + length l) in
    carry (carry_loop (length (g_bs g1))) g1 b l.

  (** Geobucket.h:709-723 the loop that determines the premerge range *)
  Fixpoint pre_range (fuel : nat) (g : geobucket) (rbegin incomingSize : nat) : res (geobucket * nat) :=
    match fuel with
    | 0 => NoFuel
    | S fuel' =>
        let* r := vget (g_bs g) rbegin in
        if b_size r + incomingSize <=? b_cap r then Ok (g, rbegin)
        else if S rbegin =? length (g_bs g) then let* g' := gb_addBucket g in Ok (g', S rbegin)
        else pre_range fuel' g (S rbegin) (b_size r)
    end.
  (** Geobucket.h:730-731 *)
  Fixpoint pre_moves (k : nat) (g : geobucket) (rit : nat) : res geobucket :=
    match k with
    | 0 => Ok g
    | S k' => let* g' := gb_moveToEmpty g rit (rit - 1) in pre_moves k' g' (rit - 1)
    end.
  (** Geobucket.h:705-740 insert(..., Premerge<true>) *)
  Definition gb_insert_premerge (g : geobucket) (b : nat) (l : list E) : res geobucket :=
    let* (g1, rbegin) := pre_range (S (length (g_bs g))) g b (length l) in
    let* g2 :=
      (if b =? rbegin then Ok g1 else
       let* r := vget (g_bs g1) rbegin in
       if b_empty r then pre_moves (rbegin - b) g1 rbegin
       else let* g' := gb_mergeToNonEmpty g1 rbegin (rbegin - 1) in pre_moves (rbegin - 1 - b) g' (rbegin - 1)) in
    let* bucket := vget (g_bs g2) b in
    if b_empty bucket then gb_assign g2 b l else gb_mergeRange g2 b l.

  (** Geobucket.h:634-739: the choice between the two versions of insert *)
  Definition gb_insert (g : geobucket) (b : nat) (l : list E) : res geobucket :=
    if premerge C then gb_insert_premerge g b l else gb_insert_nopremerge g b l.

  (** Where push puts a single entry: before position [i], at the end, or merged into the entry at [i] (Geobucket.h:343-400) *)
  Inductive place : Type := PAt (i : nat) | PEnd | PDup (i : nat).
  (** Geobucket.h:356-383 the binary search *)
  Fixpoint bin_search (fuel : nat) (l : list E) (x : E) (begin range : nat) : res place :=
    match fuel with
    | 0 => NoFuel
    | S fuel' =>
        if range =? 0 then Ok (if begin =? length l then PEnd else PAt begin) else
        let mid := begin + range / 2 in
        let* y := vget l mid in
        if lt x y then bin_search fuel' l x begin (range / 2)
        else if negb (supportDeduplication C) || negb (eqv x y) then bin_search fuel' l x (S mid) (range - (range / 2 + 1))
        else Ok (PDup mid)
    end.
  (** Geobucket.h:385-398 the linear search *)
  Fixpoint lin_search (l : list E) (x : E) (pos : nat) : place :=
    match l with
    | [] => PEnd
    | y :: l' =>
        if lt x y then PAt pos
        else if supportDeduplication C && eqv x y then PDup pos
        else lin_search l' x (S pos)
    end.

  (** Geobucket.h:344-400 push(entry) *)
  Definition gb_push (g : geobucket) (x : E) : res geobucket :=
    let cnt := S (g_count g) in
    let* b := vget (g_bs g) 0 in
    let fits := area (g_bs g) b in
    if b_size b =? b_cap b then gb_insert (mk_gb (g_bs g) cnt (g_front g)) 0 [x]
    else if b_empty b then
      let* b' := bk_push_back fits b x in
      let* bs := vset (g_bs g) 0 b' in
      let* f := f_insert bs (g_front g) 0 in
      Ok (mk_gb bs cnt f)
    else
      let* pl := (if minBucketBinarySearch C then bin_search (S (b_size b)) (b_ents b) x 0 (b_size b)
                  else Ok (lin_search (b_ents b) x 0)) in
      match pl with
      | PEnd =>
          let* b' := bk_push_back fits b x in
          let* bs := vset (g_bs g) 0 b' in
          let* f := f_keyIncreased bs (g_front g) 0 in
          Ok (mk_gb bs cnt f)
      | PAt i =>
          let* b' := bk_insertAtNotEnd fits b i x in
          let* bs := vset (g_bs g) 0 b' in
          Ok (mk_gb bs cnt (g_front g))
      | PDup i =>
          let* y := vget (b_ents b) i in
          let* b' := bk_setEntry b i (dedup y x) in
          let* bs := vset (g_bs g) 0 b' in
          let* cnt' := dec cnt 1 in
          Ok (mk_gb bs cnt' (g_front g))
      end.

  (** Geobucket.h:421-422; each bucket added is larger than the one before *)
  Fixpoint add_loop (fuel : nat) (g : geobucket) (adjCount : nat) : res geobucket :=
    match fuel with
    | 0 => NoFuel
    | S fuel' =>
        if largest (g_bs g) <? adjCount then let* g' := gb_addBucket g in add_loop fuel' g' adjCount else Ok g
    end.
  (** Geobucket.h:423-431 *)
  Fixpoint find_bucket (bs : list bucket) (adjCount i : nat) : res nat :=
    match bs with
    | [] => UB
    | b :: bs' => if adjCount <=? b_cap b then Ok i else find_bucket bs' adjCount (S i)
    end.
  (** Geobucket.h:403-433 push(begin, end) *)
  Definition gb_pushRange (g : geobucket) (xs : list E) : res geobucket :=
    let adjCount := length xs * insertFactor C in
    let* g1 := add_loop (S adjCount) (mk_gb (g_bs g) (g_count g + length xs) (g_front g)) adjCount in
    let* b := find_bucket (g_bs g1) adjCount 0 in
    gb_insert g1 b (rev xs).

  (** Geobucket.h:436-443 clear *)
  Definition gb_clear (g : geobucket) : geobucket := mk_gb (map bk_clear (g_bs g)) 0 (f_clear (g_front g)).

  (** Geobucket.h:446-455 pop *)
  Definition gb_pop (g : geobucket) : res (geobucket * E) :=
    let* (g1, m) := gb_getMax g in
    let* b := vget (g_bs g1) m in
    let* top := bk_back b in
    let* b' := bk_pop_back b in
    let* bs := vset (g_bs g1) m b' in
    let* cnt := dec (g_count g1) 1 in
    let* (bs', cnt', f) := f_keyDecreased bs cnt (g_front g1) m in
    Ok (mk_gb bs' cnt' f, top).

  (** Geobucket.h:458-461 top; getMax fills the cache and may de-duplicate *)
  Definition gb_top (g : geobucket) : res (geobucket * E) :=
    let* (g1, m) := gb_getMax g in
    let* x := key (g_bs g1) m in
    Ok (g1, x).

  (** Geobucket.h:464-468 decreaseTop *)
  Definition gb_decreaseTop (g : geobucket) (x : E) : res geobucket :=
    let* (g1, _) := gb_pop g in gb_push g1 x.

  (** Geobucket.h:471-479 size *)
  Definition gb_size (g : geobucket) : nat := g_count g.
  (** Geobucket.h:481-484 empty *)
  Definition gb_empty (g : geobucket) : bool := gb_size g =? 0.
  (** Geobucket.h:154-166 forAll *)
  Definition gb_forAll (g : geobucket) : list E := flat_map b_ents (g_bs g).

  (** One call: Geobucket.h:131-166 *)
  Definition gb_step (g : geobucket) (o : op E) : res (geobucket * out E) :=
    match o with
    | Push x => let* g' := gb_push g x in Ok (g', ONone)
    | PushRange xs => let* g' := gb_pushRange g xs in Ok (g', ONone)
    | Pop => let* (g', x) := gb_pop g in Ok (g', OEntry x)
    | Top => let* (g', x) := gb_top g in Ok (g', OEntry x)
    | DecreaseTop x => let* g' := gb_decreaseTop g x in Ok (g', ONone)
    | Clear => Ok (gb_clear g, ONone)
    | Size => Ok (g, OSize (gb_size g))
    | Empty => Ok (g, OBool (gb_empty g))
    | ForAll => Ok (g, OList (gb_forAll g))
    end.

  (** ** isValid as compiled with MATHIC_DEBUG *)

  (** Geobucket.h:809-811 *)
  Fixpoint ascendingb (l : list E) : bool :=
    match l with
    | [] => true
    | x :: l' => match l' with [] => true | y :: _ => negb (lt y x) end && ascendingb l'
    end.
  (** GeoFront.h:366-370 *)
  Fixpoint front_descendingb (bs : list bucket) (l : list nat) : bool :=
    match l with
    | [] => true
    | i :: l' =>
        match l' with
        | [] => true
        | j :: _ => match key bs i, key bs j with Ok x, Ok y => negb (lt x y) | _, _ => false end
        end && front_descendingb bs l'
    end.
  (** GeoFront.h:353-361: an empty bucket has no token, the token of any other bucket points to a slot that points back *)
  Fixpoint tokens_validb (bs : list bucket) (a : nat) (slots : list (option nat)) (toks : list token) (i : nat) : bool :=
    match bs, toks with
    | [], [] => true
    | b :: bs', t :: toks' =>
        (if b_empty b then match t with None => true | Some _ => false end
         else match tok_pos a t with
              | Ok p => match slot slots p with Ok j => i =? j | _ => false end
              | _ => false
              end) && tokens_validb bs' a slots toks' (S i)
    | _, _ => false
    end.
  (** GeoFront.h:124-136 and 349-372 debugIsValid.  Sorting and comparing the non-empty buckets and the front (362-365) is written
      as: as many slots in use as non-empty buckets; with the tokens this makes them the same buckets. *)
  Definition f_isValid (bs : list bucket) (f : front) : bool :=
    match f with
    | FCache None => true
    | FCache (Some m) =>
        match key bs m with
        | Ok x => forallb (fun b => b_empty b || match bk_back b with Ok y => negb (lt x y) | _ => false end) bs
        | _ => false
        end
    | FOrder a slots n toks =>
        tokens_validb bs a slots toks 0 && (n =? length (filter (fun b => negb (b_empty b)) bs))
        && match fold_right (fun o acc => match o, acc with Some i, Some l => Some (i :: l) | _, _ => None end) (Some []) (firstn n slots) with
           | Some l => front_descendingb bs l
           | None => false
           end
    end.
  (** Geobucket.h:792-816 isValid *)
  Definition gb_isValid (g : geobucket) : bool :=
    (2 <=? geoBase C) && negb (length (g_bs g) =? 0)
    && match g_bs g with b :: _ => 1 <=? b_cap b | [] => false end
    && forallb (fun b => ascendingb (b_ents b)) (g_bs g)
    && (length (flat_map b_ents (g_bs g)) =? g_count g)
    && f_isValid (g_bs g) (g_front g).
End Geobucket.
Arguments mk_b {E}. Arguments b_cap {E}. Arguments b_ents {E}. Arguments b_back {E}.
Arguments mk_gb {E}. Arguments g_bs {E}. Arguments g_count {E}. Arguments g_front {E}.
