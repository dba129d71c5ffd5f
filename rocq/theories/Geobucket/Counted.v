(** The model of src/mathic/Geobucket.h and src/mathic/GeoFront.h once more, with the calls of C::compare counted.

    The functions that call [compare] are those of Geobucket/Model.v with [let@] for [let*]: the numbers of comparisons of the parts are added.
    Parts that call no [compare] are the functions of Geobucket/Model.v themselves, under [free].  The comparisons made by assertions, which only
    a debug build makes (Geobucket.h:407-416, 792-816, GeoFront.h:124-136, 349-372), are not counted.  Geobucket/CountedProofs.v shows
    that forgetting the numbers gives the functions of Geobucket/Model.v. *)
From Coq Require Import List Arith Bool.
From Verif.Base Require Import Res Arr Count.
From Verif.Spec Require Import PQ.
From Verif.Geobucket Require Import Model.
Import ListNotations.

Section Counted.
  Variable E : Type.
  Variable lt eqv : E -> E -> bool.
  Variable dedup : E -> E -> E.
  Variable C : config.
  Notation bucket := (bucket E).
  Notation geobucket := (geobucket E).

  (** One call of _conf.compare (Geobucket.h:369, 385, 748, GeoFront.h:108, 262, 287): cmpLessThan and cmpEqual of its result *)
  Definition compare (a b : E) : counted (bool * bool) := Ok (lt a b, eqv a b, 1).

  (** GeoFront.h:256-274 keyIncreased *)
  Fixpoint ki_loop_c (bs : list bucket) (a : nat) (slots : list (option nat)) (toks : list token) (b pos : nat)
    : counted (list (option nat) * list token) :=
    let put :=
      free (let* slots' := vset slots pos (Some b) in
            let* toks' := vset toks b (Some (a, pos)) in
            Ok (slots', toks')) in
    match pos with
    | 0 => put
    | S p =>
        let@ other := free (slot slots p) in
        let@ ko := free (key E C bs other) in
        let@ kb := free (key E C bs b) in
        let@ (less, _) := compare ko kb in
        if (less : bool) then
          let@ slots' := free (vset slots pos (Some other)) in
          let@ toks' := free (vset toks other (Some (a, pos))) in
          ki_loop_c bs a slots' toks' b p
        else put
    end.

  (** GeoFront.h:284-309 keyDecreased, the loop *)
  Fixpoint kd_loop_c (k : nat) (bs : list bucket) (cnt a : nat) (slots : list (option nat)) (n : nat) (toks : list token) (b pos : nat)
    : counted (list bucket * nat * front) :=
    let put :=
      free (let* slots' := vset slots pos (Some b) in
            let* toks' := vset toks b (Some (a, pos)) in
            Ok (bs, cnt, FOrder a slots' n toks')) in
    match k with
    | 0 => put
    | S k' =>
        let@ other := free (slot slots (S pos)) in
        let@ kb := free (key E C bs b) in
        let@ ko := free (key E C bs other) in
        let@ (less, equal) := compare kb ko in
        if (less : bool) then
          let@ slots' := free (vset slots pos (Some other)) in
          let@ toks' := free (vset toks other (Some (a, pos))) in
          kd_loop_c k' bs cnt a slots' n toks' b (S pos)
        else if negb (supportDeduplication C) || negb equal then put
        else
          let@ ob := free (vget bs other) in
          let@ ob' := free (bk_setEntry E C ob (b_size E ob - 1) (dedup kb ko)) in
          let@ bs1 := free (vset bs other ob') in
          let@ bb := free (vget bs1 b) in
          let@ bb' := free (bk_pop_back E C bb) in
          let@ bs2 := free (vset bs1 b bb') in
          let@ cnt' := free (dec cnt 1) in
          if b_empty E bb' then
            free (let* toks' := vset toks b (Some (a, pos)) in
                  let* f := fo_remove a slots n toks' b in
                  Ok (bs2, cnt', f))
          else
            let@ slots' := free (vset slots pos (Some other)) in
            let@ toks' := free (vset toks other (Some (a, pos))) in
            kd_loop_c k' bs2 cnt' a slots' n toks' b (S pos)
    end.

  (** GeoFront.h:57 and 256-274 *)
  Definition f_keyIncreased_c (bs : list bucket) (f : front) (b : nat) : counted front :=
    match f with
    | FCache _ => free (Ok (FCache None))
    | FOrder a slots n toks =>
        let@ t := free (vget toks b) in
        let@ pos := free (tok_pos a t) in
        let@ (slots', toks') := ki_loop_c bs a slots toks b pos in
        free (Ok (FOrder a slots' n toks'))
    end.

  (** GeoFront.h:55 and 241-253 insert *)
  Definition f_insert_c (bs : list bucket) (f : front) (b : nat) : counted front :=
    match f with
    | FCache _ => free (Ok (FCache None))
    | FOrder a slots n toks =>
        let@ (a, slots, toks) := free (if n =? length slots then fo_reserve a slots n toks (n + 1) else Ok (a, slots, toks)) in
        let@ slots' := free (vset slots n (Some b)) in
        let@ toks' := free (vset toks b (Some (a, n))) in
        f_keyIncreased_c bs (FOrder a slots' (S n) toks') b
    end.

  (** GeoFront.h:58 and 277-309 keyDecreased *)
  Definition f_keyDecreased_c (bs : list bucket) (cnt : nat) (f : front) (b : nat) : counted (list bucket * nat * front) :=
    match f with
    | FCache _ => free (Ok (bs, cnt, FCache None))
    | FOrder a slots n toks =>
        let@ bb := free (vget bs b) in
        if b_empty E bb then free (let* f' := fo_remove a slots n toks b in Ok (bs, cnt, f'))
        else
          let@ t := free (vget toks b) in
          let@ pos := free (tok_pos a t) in
          if n <=? pos then UB else kd_loop_c (n - 1 - pos) bs cnt a slots n toks b pos
    end.

  (** GeoFront.h:104-121, the loop of computeMax *)
  Fixpoint cm_loop_c (k : nat) (bs : list bucket) (cnt maxBucket it : nat) : counted (list bucket * nat * nat) :=
    match k with
    | 0 => free (Ok (bs, cnt, maxBucket))
    | S k' =>
        let@ b := free (vget bs it) in
        if b_empty E b then cm_loop_c k' bs cnt maxBucket (S it) else
        let@ ki := free (bk_back E C b) in
        let@ km := free (key E C bs maxBucket) in
        let@ (less, equal) := compare ki km in
        if (less : bool) then cm_loop_c k' bs cnt maxBucket (S it)
        else if supportDeduplication C && equal then
          let@ mb := free (vget bs maxBucket) in
          let@ mb' := free (bk_setEntry E C mb (b_size E mb - 1) (dedup km ki)) in
          let@ bs1 := free (vset bs maxBucket mb') in
          let@ b1 := free (vget bs1 it) in
          let@ b' := free (bk_pop_back E C b1) in
          let@ bs2 := free (vset bs1 it b') in
          let@ cnt' := free (dec cnt 1) in
          cm_loop_c k' bs2 cnt' maxBucket (S it)
        else cm_loop_c k' bs cnt it (S it)
    end.

  (** GeoFront.h:86-93 and 343-346 getMax, 95-123 computeMax *)
  Definition gb_getMax_c (g : geobucket) : counted (geobucket * nat) :=
    match g_front g with
    | FCache (Some m) => free (Ok (g, m))
    | FCache None =>
        let@ m := free (first_nonempty E (g_bs g) 0) in
        let@ (bs, cnt, m') := cm_loop_c (length (g_bs g) - S m) (g_bs g) (g_count g) m (S m) in
        free (Ok (mk_gb bs cnt (FCache (Some m')), m'))
    | FOrder a slots n toks =>
        free (if n =? 0 then UB else let* m := slot slots 0 in Ok (g, m))
    end.

  (** Geobucket.h:743-775 merge: one comparison for each round of the loop; the last number counts them *)
  Fixpoint gb_merge_c (l1 l2 : list E) {struct l1} : list E * nat * nat :=
    match l1 with
    | [] => (l2, 0, 0)
    | a :: l1' =>
        (fix aux (l2 : list E) : list E * nat * nat :=
           match l2 with
           | [] => (l1, 0, 0)
           | b :: l2' =>
               if lt a b then let '(r, k, c) := gb_merge_c l1' l2 in (a :: r, k, S c)
               else if negb (supportDeduplication C) || negb (eqv a b) then let '(r, k, c) := aux l2' in (b :: r, k, S c)
               else let '(r, k, c) := gb_merge_c l1' l2' in (dedup a b :: r, S k, S c)
           end) l2
    end.
  (** Geobucket.h:743-775 as part of the callers *)
  Definition merging (l1 l2 : list E) : counted (list E * nat) := Ok (gb_merge_c l1 l2).

  (** Geobucket.h:580-601 mergeToNonEmpty(into, begin, end) *)
  Definition gb_mergeRange_c (g : geobucket) (into : nat) (l : list E) : counted geobucket :=
    let bs := g_bs g in
    let@ b := free (vget bs into) in
    let@ (r, k) := (match bucketStorage C with
                    | Plain => merging l (b_ents b)
                    | _ => merging (b_ents b) l
                    end) in
    let@ cnt := free (dec (g_count g) k) in
    if (match bucketStorage C with Plain => largest E bs <? b_size E b | _ => false end) then UB else
    let@ b' := free (bk_hold E (area E C bs b) b r) in
    let@ bs' := free (vset bs into b') in
    let@ f := f_keyIncreased_c bs' (g_front g) into in
    free (Ok (mk_gb bs' cnt f)).

  (** Geobucket.h:566-577 mergeToNonEmpty(to, from) *)
  Definition gb_mergeToNonEmpty_c (g : geobucket) (to from : nat) : counted geobucket :=
    let@ swap := free (if negb (trackFront C) then Ok true else f_larger (g_front g) from to) in
    let@ f := free (if (swap : bool) then f_swapKeys (g_front g) to from else Ok (g_front g)) in
    let@ b := free (vget (g_bs g) from) in
    let@ g1 := gb_mergeRange_c (mk_gb (g_bs g) (g_count g) f) to (b_ents b) in
    let@ b1 := free (vget (g_bs g1) from) in
    let@ bs := free (vset (g_bs g1) from (bk_clear E b1)) in
    let@ f1 := free (f_remove (g_front g1) from) in
    free (Ok (mk_gb bs (g_count g1) f1)).

  (** Geobucket.h:604-614 mergeToEmpty *)
  Definition gb_mergeToEmpty_c (g : geobucket) (to from : nat) (l : list E) : counted geobucket :=
    let bs := g_bs g in
    let@ bt := free (vget bs to) in
    let@ bf := free (vget bs from) in
    let@ (r, k) := merging l (b_ents bf) in
    let@ cnt := free (dec (g_count g) k) in
    let@ bt' := free (bk_hold E (area E C bs bt) bt r) in
    let@ bs1 := free (vset bs to bt') in
    let@ bs2 := free (vset bs1 from (bk_clear E bf)) in
    let@ f := free (f_swapKeys (g_front g) from to) in
    let@ f1 := f_keyIncreased_c bs2 f to in
    free (Ok (mk_gb bs2 cnt f1)).

  (** Geobucket.h:646-649 and 734-736, the case of an empty bucket *)
  Definition gb_assign_c (g : geobucket) (i : nat) (l : list E) : counted geobucket :=
    let@ b := free (vget (g_bs g) i) in
    let@ b' := free (bk_hold E (area E C (g_bs g) b) b l) in
    let@ bs := free (vset (g_bs g) i b') in
    let@ f := f_insert_c bs (g_front g) i in
    free (Ok (mk_gb bs (g_count g) f)).

  (** Geobucket.h:667-678 and 688-699 *)
  Definition carry_c (go_on : geobucket -> nat -> list E -> counted geobucket) (g : geobucket) (b : nat) (l : list E) : counted geobucket :=
    let@ current := free (vget (g_bs g) b) in
    let@ next := free (vget (g_bs g) (S b)) in
    if b_empty E next then gb_mergeToEmpty_c g (S b) b l else
    let@ (r, k) := merging l (b_ents current) in
    let@ cnt := free (dec (g_count g) k) in
    if largest E (g_bs g) <? length r then UB else
    let@ bs := free (vset (g_bs g) b (bk_clear E current)) in
    let@ f := free (f_remove (g_front g) b) in
    go_on (mk_gb bs cnt f) (S b) r.
  (** Geobucket.h:680-701 *)
  Fixpoint carry_loop_c (fuel : nat) (g : geobucket) (b : nat) (tmp : list E) : counted geobucket :=
    match fuel with
    | 0 => NoFuel
    | S fuel' =>
        let@ current := free (vget (g_bs g) b) in
        if length tmp + b_size E current <=? b_cap current then gb_mergeRange_c g b tmp
        else carry_c (carry_loop_c fuel') g b tmp
    end.

  (** Geobucket.h:636-702 insert(..., Premerge<false>) *)
  Definition gb_insert_nopremerge_c (g : geobucket) (b : nat) (l : list E) : counted geobucket :=
    let@ bucket := free (vget (g_bs g) b) in
    if b_empty E bucket then gb_assign_c g b l else
    if b_size E bucket + length l <=? b_cap bucket then gb_mergeRange_c g b l else
    let@ g1 := free (grow_loop E C (S (length (g_bs g))) g (S b) (b_size E bucket + length l)) in
    carry_c (carry_loop_c (length (g_bs g1))) g1 b l.

  (** Geobucket.h:705-740 insert(..., Premerge<true>) *)
  Definition gb_insert_premerge_c (g : geobucket) (b : nat) (l : list E) : counted geobucket :=
    let@ (g1, rbegin) := free (pre_range E C (S (length (g_bs g))) g b (length l)) in
    let@ g2 :=
      (if b =? rbegin then free (Ok g1) else
       let@ r := free (vget (g_bs g1) rbegin) in
       if b_empty E r then free (pre_moves E C (rbegin - b) g1 rbegin)
       else let@ g' := gb_mergeToNonEmpty_c g1 rbegin (rbegin - 1) in free (pre_moves E C (rbegin - 1 - b) g' (rbegin - 1))) in
    let@ bucket := free (vget (g_bs g2) b) in
    if b_empty E bucket then gb_assign_c g2 b l else gb_mergeRange_c g2 b l.

  (** Geobucket.h:634-739: the choice between the two versions of insert *)
  Definition gb_insert_c (g : geobucket) (b : nat) (l : list E) : counted geobucket :=
    if premerge C then gb_insert_premerge_c g b l else gb_insert_nopremerge_c g b l.

  (** Geobucket.h:356-383 the binary search *)
  Fixpoint bin_search_c (fuel : nat) (l : list E) (x : E) (begin range : nat) : counted place :=
    match fuel with
    | 0 => NoFuel
    | S fuel' =>
        if range =? 0 then free (Ok (if begin =? length l then PEnd else PAt begin)) else
        let mid := begin + range / 2 in
        let@ y := free (vget l mid) in
        let@ (less, equal) := compare x y in
        if (less : bool) then bin_search_c fuel' l x begin (range / 2)
        else if negb (supportDeduplication C) || negb equal then bin_search_c fuel' l x (S mid) (range - (range / 2 + 1))
        else free (Ok (PDup mid))
    end.
  (** Geobucket.h:385-398 the linear search *)
  Fixpoint lin_search_c (l : list E) (x : E) (pos : nat) : counted place :=
    match l with
    | [] => free (Ok PEnd)
    | y :: l' =>
        let@ (less, equal) := compare x y in
        if (less : bool) then free (Ok (PAt pos))
        else if supportDeduplication C && equal then free (Ok (PDup pos))
        else lin_search_c l' x (S pos)
    end.

  (** Geobucket.h:344-400 push(entry) *)
  Definition gb_push_c (g : geobucket) (x : E) : counted geobucket :=
    let cnt := S (g_count g) in
    let@ b := free (vget (g_bs g) 0) in
    let fits := area E C (g_bs g) b in
    if b_size E b =? b_cap b then gb_insert_c (mk_gb (g_bs g) cnt (g_front g)) 0 [x]
    else if b_empty E b then
      let@ b' := free (bk_push_back E C fits b x) in
      let@ bs := free (vset (g_bs g) 0 b') in
      let@ f := f_insert_c bs (g_front g) 0 in
      free (Ok (mk_gb bs cnt f))
    else
      let@ pl := (if minBucketBinarySearch C then bin_search_c (S (b_size E b)) (b_ents b) x 0 (b_size E b)
                  else lin_search_c (b_ents b) x 0) in
      match pl with
      | PEnd =>
          let@ b' := free (bk_push_back E C fits b x) in
          let@ bs := free (vset (g_bs g) 0 b') in
          let@ f := f_keyIncreased_c bs (g_front g) 0 in
          free (Ok (mk_gb bs cnt f))
      | PAt i =>
          free (let* b' := bk_insertAtNotEnd E fits b i x in
                let* bs := vset (g_bs g) 0 b' in
                Ok (mk_gb bs cnt (g_front g)))
      | PDup i =>
          free (let* y := vget (b_ents b) i in
                let* b' := bk_setEntry E C b i (dedup y x) in
                let* bs := vset (g_bs g) 0 b' in
                let* cnt' := dec cnt 1 in
                Ok (mk_gb bs cnt' (g_front g)))
      end.

  (** Geobucket.h:403-433 push(begin, end) *)
  Definition gb_pushRange_c (g : geobucket) (xs : list E) : counted geobucket :=
    let adjCount := length xs * insertFactor C in
    let@ g1 := free (add_loop E C (S adjCount) (mk_gb (g_bs g) (g_count g + length xs) (g_front g)) adjCount) in
    let@ b := free (find_bucket E (g_bs g1) adjCount 0) in
    gb_insert_c g1 b (rev xs).

  (** Geobucket.h:446-455 pop *)
  Definition gb_pop_c (g : geobucket) : counted (geobucket * E) :=
    let@ (g1, m) := gb_getMax_c g in
    let@ b := free (vget (g_bs g1) m) in
    let@ top := free (bk_back E C b) in
    let@ b' := free (bk_pop_back E C b) in
    let@ bs := free (vset (g_bs g1) m b') in
    let@ cnt := free (dec (g_count g1) 1) in
    let@ (bs', cnt', f) := f_keyDecreased_c bs cnt (g_front g1) m in
    free (Ok (mk_gb bs' cnt' f, top)).

  (** Geobucket.h:458-461 top *)
  Definition gb_top_c (g : geobucket) : counted (geobucket * E) :=
    let@ (g1, m) := gb_getMax_c g in
    let@ x := free (key E C (g_bs g1) m) in
    free (Ok (g1, x)).

  (** Geobucket.h:464-468 decreaseTop *)
  Definition gb_decreaseTop_c (g : geobucket) (x : E) : counted geobucket :=
    let@ (g1, _) := gb_pop_c g in gb_push_c g1 x.

  (** One call: Geobucket.h:131-166 *)
  Definition gb_call_c (g : geobucket) (o : op E) : counted (geobucket * out E) :=
    match o with
    | Push x => let@ g' := gb_push_c g x in free (Ok (g', ONone))
    | PushRange xs => let@ g' := gb_pushRange_c g xs in free (Ok (g', ONone))
    | Pop => let@ (g', x) := gb_pop_c g in free (Ok (g', OEntry x))
    | Top => let@ (g', x) := gb_top_c g in free (Ok (g', OEntry x))
    | DecreaseTop x => let@ g' := gb_decreaseTop_c g x in free (Ok (g', ONone))
    | Clear => free (Ok (gb_clear E g, ONone))
    | Size => free (Ok (g, OSize (gb_size E g)))
    | Empty => free (Ok (g, OBool (gb_empty E g)))
    | ForAll => free (Ok (g, OList (gb_forAll E g)))
    end.
  (** The same on a geobucket with the number of comparisons made so far (Geobucket.h:131-166) *)
  Definition gb_step_c (s : geobucket * nat) (o : op E) : res (geobucket * nat * out E) :=
    let* (g', r, c) := gb_call_c (fst s) o in Ok (g', snd s + c, r).
End Counted.
