(** The model of src/mathic/Geobucket.h and src/mathic/GeoFront.h once more, for client functions that throw.

    The functions take the number of client calls that return before one throws (Base/Fault.v): calls of compare and deduplicate, and the
    construction of the new array of entries in addBucket, which allocates.  Each function follows the one of the same name in Model.v.
    Simplifications: assigning an entry does not throw, nor do the smaller allocations of addBucket (Geobucket.h:548, GeoFront.h:215), and
    an exception thrown by the comparisons of assertions is not considered.  What a bucket holds beyond its size, and the contents of the
    temporary areas, are not looked at again by the code and are left out. *)
From Coq Require Import List Arith Bool.
From Verif.Base Require Import Res Arr Fault.
From Verif.Spec Require Import PQ.
From Verif.Geobucket Require Import Model Faults.
Import ListNotations.

Section Throws.
  Variable E : Type.
  Variable lt eqv : E -> E -> bool.
  Variable dedup : E -> E -> E.
  Variable C : config.
  Notation bucket := (bucket E).
  Notation geobucket := (geobucket E).
  Notation key := (key E C).

  (** ** GeoFront *)

  (** GeoFront.h:256-274 keyIncreased: the comparison throws after some pointers were moved up; the bucket's own pointer is not written *)
  Fixpoint ki_loop_x (b : nat) (bs : list bucket) (a : nat) (slots : list (option nat)) (toks : list token) (i pos : nat) {struct pos}
    : res (fout (list (option nat) * list token) (list (option nat) * list token)) :=
    let put b :=
      (let* slots' := vset slots pos (Some i) in
       let* toks' := vset toks i (Some (a, pos)) in
       Ok (Fine b (slots', toks'))) in
    match pos with
    | 0 => put b
    | S p =>
        let* other := slot slots p in
        let* ko := key bs other in
        let* kb := key bs i in
        client b (slots, toks) (fun b =>
          if lt ko kb then
            let* slots' := vset slots pos (Some other) in
            let* toks' := vset toks other (Some (a, pos)) in
            ki_loop_x b bs a slots' toks' i p
          else put b)
    end.

  (** GeoFront.h:284-309 keyDecreased, the loop *)
  Fixpoint kd_loop_x (b k : nat) (bs : list bucket) (cnt a : nat) (slots : list (option nat)) (n : nat) (toks : list token) (i pos : nat) {struct k}
    : res (fout (list bucket * nat * front) (list bucket * nat * front)) :=
    let here := (bs, cnt, FOrder a slots n toks) in
    let put b :=
      (let* slots' := vset slots pos (Some i) in
       let* toks' := vset toks i (Some (a, pos)) in
       Ok (Fine b (bs, cnt, FOrder a slots' n toks'))) in
    match k with
    | 0 => put b
    | S k' =>
        let* other := slot slots (S pos) in
        let* kb := key bs i in
        let* ko := key bs other in
        client b here (fun b =>
          if lt kb ko then
            let* slots' := vset slots pos (Some other) in
            let* toks' := vset toks other (Some (a, pos)) in
            kd_loop_x b k' bs cnt a slots' n toks' i (S pos)
          else if negb (supportDeduplication C) || negb (eqv kb ko) then put b
          else
            client b here (fun b =>
              let* ob := vget bs other in
              let* ob' := bk_setEntry E C ob (b_size E ob - 1) (dedup kb ko) in
              let* bs1 := vset bs other ob' in
              let* bb := vget bs1 i in
              let* bb' := bk_pop_back E C bb in
              let* bs2 := vset bs1 i bb' in
              let* cnt' := dec cnt 1 in
              if b_empty E bb' then
                let* toks' := vset toks i (Some (a, pos)) in
                let* f := fo_remove a slots n toks' i in
                Ok (Fine b (bs2, cnt', f))
              else
                let* slots' := vset slots pos (Some other) in
                let* toks' := vset toks other (Some (a, pos)) in
                kd_loop_x b k' bs2 cnt' a slots' n toks' i (S pos)))
    end.

  (** GeoFront.h:57 and 256-274 *)
  Definition f_keyIncreased_x (b : nat) (bs : list bucket) (f : front) (i : nat) : res (fout front front) :=
    match f with
    | FCache _ => Ok (Fine b (FCache None))
    | FOrder a slots n toks =>
        let* t := vget toks i in
        let* pos := tok_pos a t in
        fbind (fleft (fun st => FOrder a (fst st) n (snd st)) (ki_loop_x b bs a slots toks i pos))
          (fun b st => Ok (Fine b (FOrder a (fst st) n (snd st))))
    end.

  (** GeoFront.h:55 and 241-253 insert *)
  Definition f_insert_x (b : nat) (bs : list bucket) (f : front) (i : nat) : res (fout front front) :=
    match f with
    | FCache _ => Ok (Fine b (FCache None))
    | FOrder a slots n toks =>
        let* (a, slots, toks) := (if n =? length slots then fo_reserve a slots n toks (n + 1) else Ok (a, slots, toks)) in
        let* slots' := vset slots n (Some i) in
        let* toks' := vset toks i (Some (a, n)) in
        f_keyIncreased_x b bs (FOrder a slots' (S n) toks') i
    end.

  (** GeoFront.h:58 and 277-309 keyDecreased *)
  Definition f_keyDecreased_x (b : nat) (bs : list bucket) (cnt : nat) (f : front) (i : nat)
    : res (fout (list bucket * nat * front) (list bucket * nat * front)) :=
    match f with
    | FCache _ => Ok (Fine b (bs, cnt, FCache None))
    | FOrder a slots n toks =>
        let* bb := vget bs i in
        if b_empty E bb then let* f' := fo_remove a slots n toks i in Ok (Fine b (bs, cnt, f'))
        else
          let* t := vget toks i in
          let* pos := tok_pos a t in
          if n <=? pos then UB else kd_loop_x b (n - 1 - pos) bs cnt a slots n toks i pos
    end.

  (** GeoFront.h:104-121, the loop of computeMax; _cachedMaxBucket is written after it *)
  Fixpoint cm_loop_x (b k : nat) (bs : list bucket) (cnt maxBucket it : nat) {struct k} : res (fout (list bucket * nat) (list bucket * nat * nat)) :=
    match k with
    | 0 => Ok (Fine b (bs, cnt, maxBucket))
    | S k' =>
        let* bk := vget bs it in
        if b_empty E bk then cm_loop_x b k' bs cnt maxBucket (S it) else
        let* ki := bk_back E C bk in
        let* km := key bs maxBucket in
        client b (bs, cnt) (fun b =>
          if lt ki km then cm_loop_x b k' bs cnt maxBucket (S it)
          else if supportDeduplication C && eqv ki km then
            client b (bs, cnt) (fun b =>
              let* mb := vget bs maxBucket in
              let* mb' := bk_setEntry E C mb (b_size E mb - 1) (dedup km ki) in
              let* bs1 := vset bs maxBucket mb' in
              let* b1 := vget bs1 it in
              let* b' := bk_pop_back E C b1 in
              let* bs2 := vset bs1 it b' in
              let* cnt' := dec cnt 1 in
              cm_loop_x b k' bs2 cnt' maxBucket (S it))
          else cm_loop_x b k' bs cnt it (S it))
    end.

  (** GeoFront.h:86-93 and 343-346 getMax, 95-123 computeMax *)
  Definition gb_getMax_x (b : nat) (g : geobucket) : res (fout geobucket (geobucket * nat)) :=
    match g_front g with
    | FCache (Some m) => Ok (Fine b (g, m))
    | FCache None =>
        let* m := first_nonempty E (g_bs g) 0 in
        fbind (fleft (fun s => mk_gb (fst s) (snd s) (FCache None)) (cm_loop_x b (length (g_bs g) - S m) (g_bs g) (g_count g) m (S m)))
          (fun b '(bs, cnt, m') => Ok (Fine b (mk_gb bs cnt (FCache (Some m')), m')))
    | FOrder a slots n toks =>
        if n =? 0 then UB else
        let* m := slot slots 0 in Ok (Fine b (g, m))
    end.

  (** ** Geobucket *)

  (** Geobucket.h:504-563 addBucket: newMem (526) may throw, before anything is changed *)
  Definition gb_addBucket_x (b : nat) (g : geobucket) : res (fout geobucket geobucket) :=
    client b g (fun b => let* g' := gb_addBucket E C g in Ok (Fine b g')).

  (** Geobucket.h:750-770: one more entry written and [d] decrements of _entryCount made *)
  Definition wrote (x : E) (d : nat) (o : fout (list E * nat) (list E * nat)) : fout (list E * nat) (list E * nat) :=
    match o with
    | Fine b (r, k) => Fine b (x :: r, d + k)
    | Left (r, k) => Left (x :: r, d + k)
    end.
  (** Geobucket.h:743-775 merge: the entries written, all or those before the exception, and how often _entryCount was decremented *)
  Fixpoint gb_merge_x (b : nat) (l1 l2 : list E) {struct l1} : fout (list E * nat) (list E * nat) :=
    match l1 with
    | [] => Fine b (l2, 0)
    | x :: l1' =>
        (fix aux (b : nat) (l2 : list E) {struct l2} : fout (list E * nat) (list E * nat) :=
           match l2 with
           | [] => Fine b (l1, 0)
           | y :: l2' =>
               match b with
               | 0 => Left ([], 0)
               | S b =>
                   if lt x y then wrote x 0 (gb_merge_x b l1' l2)
                   else if negb (supportDeduplication C) || negb (eqv x y) then wrote y 0 (aux b l2')
                   else match b with 0 => Left ([], 0) | S b => wrote (dedup x y) 1 (gb_merge_x b l1' l2') end
               end
           end) b l2
    end.

  (** Geobucket.h:580-601 mergeToNonEmpty(into, begin, end).  With double and same size buffers the merge writes elsewhere and the bucket
      keeps its entries if it throws; with plain buckets the entries written replace the first ones of the bucket, whose size stays. *)
  Definition gb_mergeRange_x (b : nat) (g : geobucket) (into : nat) (l : list E) : res (fout geobucket geobucket) :=
    let bs := g_bs g in
    let* bk := vget bs into in
    if (match bucketStorage C with Plain => largest E bs <? b_size E bk | _ => false end) then UB else
    match (match bucketStorage C with
           | Plain => gb_merge_x b l (b_ents bk)
           | _ => gb_merge_x b (b_ents bk) l
           end) with
    | Left (w, k) =>
        let* cnt := dec (g_count g) k in
        if area E C bs bk <? length w then UB else
        let* bs' := (match bucketStorage C with
                     | Plain => vset bs into (mk_b (b_cap bk) (firstn (b_size E bk) (w ++ skipn (length w) (b_ents bk))) (b_back bk))
                     | _ => Ok bs
                     end) in
        Ok (Left (mk_gb bs' cnt (g_front g)))
    | Fine b (r, k) =>
        let* cnt := dec (g_count g) k in
        let* b' := bk_hold E (area E C bs bk) bk r in
        let* bs' := vset bs into b' in
        fbind (fleft (mk_gb bs' cnt) (f_keyIncreased_x b bs' (g_front g) into)) (fun b f => Ok (Fine b (mk_gb bs' cnt f)))
    end.

  (** Geobucket.h:566-577 mergeToNonEmpty(to, from) *)
  Definition gb_mergeToNonEmpty_x (b : nat) (g : geobucket) (to from : nat) : res (fout geobucket geobucket) :=
    let* swap := (if negb (trackFront C) then Ok true else f_larger (g_front g) from to) in
    let* f := (if (swap : bool) then f_swapKeys (g_front g) to from else Ok (g_front g)) in
    let* bf := vget (g_bs g) from in
    fbind (gb_mergeRange_x b (mk_gb (g_bs g) (g_count g) f) to (b_ents bf)) (fun b g1 =>
      let* b1 := vget (g_bs g1) from in
      let* bs := vset (g_bs g1) from (bk_clear E b1) in
      let* f1 := f_remove (g_front g1) from in
      Ok (Fine b (mk_gb bs (g_count g1) f1))).

  (** Geobucket.h:604-614 mergeToEmpty; if the merge throws, the bucket it wrote to still has size 0 *)
  Definition gb_mergeToEmpty_x (b : nat) (g : geobucket) (to from : nat) (l : list E) : res (fout geobucket geobucket) :=
    let bs := g_bs g in
    let* bt := vget bs to in
    let* bf := vget bs from in
    match gb_merge_x b l (b_ents bf) with
    | Left (w, k) =>
        let* cnt := dec (g_count g) k in
        if area E C bs bt <? length w then UB else Ok (Left (mk_gb bs cnt (g_front g)))
    | Fine b (r, k) =>
        let* cnt := dec (g_count g) k in
        let* bt' := bk_hold E (area E C bs bt) bt r in
        let* bs1 := vset bs to bt' in
        let* bs2 := vset bs1 from (bk_clear E bf) in
        let* f := f_swapKeys (g_front g) from to in
        fbind (fleft (mk_gb bs2 cnt) (f_keyIncreased_x b bs2 f to)) (fun b f1 => Ok (Fine b (mk_gb bs2 cnt f1)))
    end.

  (** Geobucket.h:646-649 and 734-736, the case of an empty bucket *)
  Definition gb_assign_x (b : nat) (g : geobucket) (i : nat) (l : list E) : res (fout geobucket geobucket) :=
    let* bk := vget (g_bs g) i in
    let* b' := bk_hold E (area E C (g_bs g) bk) bk l in
    let* bs := vset (g_bs g) i b' in
    fbind (fleft (mk_gb bs (g_count g)) (f_insert_x b bs (g_front g) i)) (fun b f => Ok (Fine b (mk_gb bs (g_count g) f))).

  (** Geobucket.h:656-663 the loop that makes sure that there are enough buckets *)
  Fixpoint grow_loop_x (fuel b : nat) (g : geobucket) (i accumulatedSize : nat) {struct fuel} : res (fout geobucket geobucket) :=
    match fuel with
    | 0 => NoFuel
    | S fuel' =>
        fbind (if i =? length (g_bs g) then gb_addBucket_x b g else Ok (Fine b g)) (fun b g =>
          let* bk := vget (g_bs g) i in
          let accumulatedSize := accumulatedSize + b_size E bk in
          if accumulatedSize <=? b_cap bk then Ok (Fine b g) else grow_loop_x fuel' b g (S i) accumulatedSize)
    end.

  (** Geobucket.h:667-678 and 688-699: bucket [i] overflows into the next one.  The entries merged so far are in a temporary area only. *)
  Definition carry_x (go_on : nat -> geobucket -> nat -> list E -> res (fout geobucket geobucket)) (b : nat) (g : geobucket) (i : nat) (l : list E)
    : res (fout geobucket geobucket) :=
    let* current := vget (g_bs g) i in
    let* next := vget (g_bs g) (S i) in
    if b_empty E next then gb_mergeToEmpty_x b g (S i) i l else
    match gb_merge_x b l (b_ents current) with
    | Left (w, k) =>
        let* cnt := dec (g_count g) k in
        if largest E (g_bs g) <? length w then UB else Ok (Left (mk_gb (g_bs g) cnt (g_front g)))
    | Fine b (r, k) =>
        let* cnt := dec (g_count g) k in
        if largest E (g_bs g) <? length r then UB else
        let* bs := vset (g_bs g) i (bk_clear E current) in
        let* f := f_remove (g_front g) i in
        go_on b (mk_gb bs cnt f) (S i) r
    end.
  (** Geobucket.h:680-701 *)
  Fixpoint carry_loop_x (fuel b : nat) (g : geobucket) (i : nat) (tmp : list E) {struct fuel} : res (fout geobucket geobucket) :=
    match fuel with
    | 0 => NoFuel
    | S fuel' =>
        let* current := vget (g_bs g) i in
        if length tmp + b_size E current <=? b_cap current then gb_mergeRange_x b g i tmp
        else carry_x (carry_loop_x fuel') b g i tmp
    end.

  (** Geobucket.h:636-702 insert(..., Premerge<false>) *)
  Definition gb_insert_nopremerge_x (b : nat) (g : geobucket) (i : nat) (l : list E) : res (fout geobucket geobucket) :=
    let* bucket := vget (g_bs g) i in
    if b_empty E bucket then gb_assign_x b g i l else
    if b_size E bucket + length l <=? b_cap bucket then gb_mergeRange_x b g i l else
    fbind (grow_loop_x (S (length (g_bs g))) b g (S i) (b_size E bucket + length l))
      (fun b g1 => carry_x (carry_loop_x (length (g_bs g1))) b g1 i l).

  (** Geobucket.h:709-723 the loop that determines the premerge range *)
  Fixpoint pre_range_x (fuel b : nat) (g : geobucket) (rbegin incomingSize : nat) {struct fuel} : res (fout geobucket (geobucket * nat)) :=
    match fuel with
    | 0 => NoFuel
    | S fuel' =>
        let* r := vget (g_bs g) rbegin in
        if b_size E r + incomingSize <=? b_cap r then Ok (Fine b (g, rbegin))
        else if S rbegin =? length (g_bs g) then fbind (gb_addBucket_x b g) (fun b g' => Ok (Fine b (g', S rbegin)))
        else pre_range_x fuel' b g (S rbegin) (b_size E r)
    end.
  (** Geobucket.h:705-740 insert(..., Premerge<true>); moveToEmpty (731) calls no client function *)
  Definition gb_insert_premerge_x (b : nat) (g : geobucket) (i : nat) (l : list E) : res (fout geobucket geobucket) :=
    fbind (pre_range_x (S (length (g_bs g))) b g i (length l)) (fun b '(g1, rbegin) =>
      fbind
        (if i =? rbegin then Ok (Fine b g1) else
         let* r := vget (g_bs g1) rbegin in
         if b_empty E r then let* g' := pre_moves E C (rbegin - i) g1 rbegin in Ok (Fine b g')
         else fbind (gb_mergeToNonEmpty_x b g1 rbegin (rbegin - 1)) (fun b g' =>
                let* g'' := pre_moves E C (rbegin - 1 - i) g' (rbegin - 1) in Ok (Fine b g'')))
        (fun b g2 =>
           let* bucket := vget (g_bs g2) i in
           if b_empty E bucket then gb_assign_x b g2 i l else gb_mergeRange_x b g2 i l)).

  (** Geobucket.h:634-739: the choice between the two versions of insert *)
  Definition gb_insert_x (b : nat) (g : geobucket) (i : nat) (l : list E) : res (fout geobucket geobucket) :=
    if premerge C then gb_insert_premerge_x b g i l else gb_insert_nopremerge_x b g i l.

  (** Geobucket.h:344-400 push(entry); the searches are those of Faults.v *)
  Definition push_x (b : nat) (g : geobucket) (x : E) : res (fout geobucket geobucket) :=
    let cnt := S (g_count g) in
    let left := mk_gb (g_bs g) cnt (g_front g) in
    let* bk := vget (g_bs g) 0 in
    let fits := area E C (g_bs g) bk in
    if b_size E bk =? b_cap bk then gb_insert_x b left 0 [x]
    else if b_empty E bk then
      let* b' := bk_push_back E C fits bk x in
      let* bs := vset (g_bs g) 0 b' in
      fbind (fleft (mk_gb bs cnt) (f_insert_x b bs (g_front g) 0)) (fun b f => Ok (Fine b (mk_gb bs cnt f)))
    else
      fbind (if minBucketBinarySearch C then bin_search_x E lt eqv C left (S (b_size E bk)) b (b_ents bk) x 0 (b_size E bk)
             else lin_search_x E lt eqv C left b (b_ents bk) x 0) (fun b pl =>
      match pl with
      | PEnd =>
          let* b' := bk_push_back E C fits bk x in
          let* bs := vset (g_bs g) 0 b' in
          fbind (fleft (mk_gb bs cnt) (f_keyIncreased_x b bs (g_front g) 0)) (fun b f => Ok (Fine b (mk_gb bs cnt f)))
      | PAt i =>
          let* b' := bk_insertAtNotEnd E fits bk i x in
          let* bs := vset (g_bs g) 0 b' in
          Ok (Fine b (mk_gb bs cnt (g_front g)))
      | PDup i =>
          client b left (fun b =>
            let* y := vget (b_ents bk) i in
            let* b' := bk_setEntry E C bk i (dedup y x) in
            let* bs := vset (g_bs g) 0 b' in
            let* cnt' := dec cnt 1 in
            Ok (Fine b (mk_gb bs cnt' (g_front g))))
      end).

  (** Geobucket.h:421-422 *)
  Fixpoint add_loop_x (fuel b : nat) (g : geobucket) (adjCount : nat) {struct fuel} : res (fout geobucket geobucket) :=
    match fuel with
    | 0 => NoFuel
    | S fuel' =>
        if largest E (g_bs g) <? adjCount then fbind (gb_addBucket_x b g) (fun b g' => add_loop_x fuel' b g' adjCount) else Ok (Fine b g)
    end.
  (** Geobucket.h:403-433 push(begin, end) *)
  Definition pushRange_x (b : nat) (g : geobucket) (xs : list E) : res (fout geobucket geobucket) :=
    let adjCount := length xs * insertFactor C in
    fbind (add_loop_x (S adjCount) b (mk_gb (g_bs g) (g_count g + length xs) (g_front g)) adjCount) (fun b g1 =>
      let* i := find_bucket E (g_bs g1) adjCount 0 in
      gb_insert_x b g1 i (rev xs)).

  (** Geobucket.h:446-455 pop *)
  Definition pop_x (b : nat) (g : geobucket) : res (fout geobucket (geobucket * E)) :=
    fbind (gb_getMax_x b g) (fun b '(g1, m) =>
      let* bk := vget (g_bs g1) m in
      let* top := bk_back E C bk in
      let* b' := bk_pop_back E C bk in
      let* bs := vset (g_bs g1) m b' in
      let* cnt := dec (g_count g1) 1 in
      fbind (fleft (fun s => mk_gb (fst (fst s)) (snd (fst s)) (snd s)) (f_keyDecreased_x b bs cnt (g_front g1) m))
        (fun b '(bs', cnt', f) => Ok (Fine b (mk_gb bs' cnt' f, top)))).

  (** Geobucket.h:458-461 top *)
  Definition top_x (b : nat) (g : geobucket) : res (fout geobucket (geobucket * E)) :=
    fbind (gb_getMax_x b g) (fun b '(g1, m) => let* x := key (g_bs g1) m in Ok (Fine b (g1, x))).

  (** Geobucket.h:464-468 decreaseTop *)
  Definition decreaseTop_x (b : nat) (g : geobucket) (x : E) : res (fout geobucket geobucket) :=
    fbind (pop_x b g) (fun b '(g1, _) => push_x b g1 x).

  (** One call: Geobucket.h:131-166 *)
  Definition gb_step_x (b : nat) (g : geobucket) (o : op E) : res (fout geobucket (geobucket * out E)) :=
    match o with
    | Push x => fbind (push_x b g x) (fun b g' => Ok (Fine b (g', ONone)))
    | PushRange xs => fbind (pushRange_x b g xs) (fun b g' => Ok (Fine b (g', ONone)))
    | Pop => fbind (pop_x b g) (fun b '(g', x) => Ok (Fine b (g', OEntry x)))
    | Top => fbind (top_x b g) (fun b '(g', x) => Ok (Fine b (g', OEntry x)))
    | DecreaseTop x => fbind (decreaseTop_x b g x) (fun b g' => Ok (Fine b (g', ONone)))
    | _ => let* r := gb_step E lt eqv dedup C g o in Ok (Fine b r)
    end.

  (** One call of Geobucket.h:131-166 by a client that catches the exception: its answer, or nothing *)
  Definition gb_try (g : geobucket) (bo : nat * op E) : res (geobucket * option (out E)) :=
    let* f := gb_step_x (fst bo) g (snd bo) in
    match f with Fine _ (g', r) => Ok (g', Some r) | Left g' => Ok (g', None) end.
End Throws.
