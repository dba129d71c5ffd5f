(** Model of src/mathic/Geobucket.h with the memory of its entries.

    Geobucket/Model.v gives each bucket a list of its entries.  Here the entries are in the vector [_mem], buckets hold pointers into it,
    and every function reads and writes through pointers.  A pointer is a pair (allocation, offset): [addBucket] allocates a new vector and
    frees the old one, so a pointer into an old allocation dangles and using it is [UB], as is reading or writing outside the vector.  A cell
    that was only value initialised is [None] and reading its entry is [UB], which is stricter than C++.  The functions of GeoFront.h that
    touch no entries are those of Geobucket/Model.v; the same simplifications as there apply otherwise. *)
From Coq Require Import List Arith Bool.
From Verif.Base Require Import Res Arr.
From Verif.Spec Require Import PQ.
From Verif.Geobucket Require Import Model.
Import ListNotations.

Section GeoMem.
  Variable E : Type.
  Variable lt eqv : E -> E -> bool.
  Variable dedup : E -> E -> E.
  Variable C : config.

  (** ** Memory *)

  (** Entry* (Geobucket.h:267-269, 297-303) *)
  Definition ptr : Type := nat * nat.
  (** The null pointer (Geobucket.h:315, 317, 541); no vector has allocation number 0 *)
  Definition null : ptr := (0, 0).
  (** Pointer arithmetic (Geobucket.h:185, 199-207, 255) *)
  Definition padd (p : ptr) (k : nat) : ptr := (fst p, snd p + k).
  (** Equality of pointers (Geobucket.h:200, 205, 748-761) *)
  Definition peq (p q : ptr) : bool := (fst p =? fst q) && (snd p =? snd q).
  (** Geobucket.h:297 the vector _mem *)
  Record mem := mk_mem { m_id : nat; m_cells : list (option E) }.
  (** Reading *p (Geobucket.h:185, 207, 218, 233, 748-761) *)
  Definition rd (m : mem) (p : ptr) : res E :=
    if fst p =? m_id m then let* o := vget (m_cells m) (snd p) in of_option o else UB.
  (** Writing *p (Geobucket.h:199, 206-207, 255, 750-761) *)
  Definition wr (m : mem) (p : ptr) (x : E) : res mem :=
    if fst p =? m_id m then let* c := vset (m_cells m) (snd p) (Some x) in Ok (mk_mem (m_id m) c) else UB.
  (** &(newMem[offset]) (Geobucket.h:531-557); the operator needs an element there *)
  Definition addr (m : mem) (offset : nat) : res ptr :=
    if offset <? length (m_cells m) then Ok (m_id m, offset) else UB.

  (** The iterator pairs that [merge], [assign] and std::copy are given: [Ext l] is a range of the client's (Geobucket.h:348-349, 426-428)
      holding [l], [Int p q] a range in [_mem] *)
  Inductive iter : Type := Ext (l : list E) | Int (p q : ptr).
  (** it == end, and otherwise *it and ++it (Geobucket.h:747-770) *)
  Definition it_next (m : mem) (s : iter) : res (option (E * iter)) :=
    match s with
    | Ext [] => Ok None
    | Ext (x :: l) => Ok (Some (x, Ext l))
    | Int p q => if peq p q then Ok None else let* x := rd m p in Ok (Some (x, Int (padd p 1) q))
    end.
  (** end - begin (Geobucket.h:418, 585, 609, 683) *)
  Definition it_length (s : iter) : nat := match s with Ext l => length l | Int p q => snd q - snd p end.
  (** *(end - 1) (Geobucket.h:244) *)
  Definition it_last (m : mem) (s : iter) : res E :=
    match s with
    | Ext l => of_option (last_entry E l)
    | Int p q => if snd q =? 0 then UB else rd m (fst q, snd q - 1)
    end.

  (** std::copy(begin, end, d) (Geobucket.h:211, 241, 526, 596, 769-770); the result is the memory and the end of what was written *)
  Fixpoint copy_loop (fuel : nat) (m : mem) (s : iter) (d : ptr) : res (mem * ptr) :=
    match fuel with
    | 0 => NoFuel
    | S fuel' =>
        let* o := it_next m s in
        match o with
        | None => Ok (m, d)
        | Some (x, s') => let* m' := wr m d x in copy_loop fuel' m' s' (padd d 1)
        end
    end.
  (** std::copy (Geobucket.h:211, 241, 596, 769, 770) *)
  Definition copy (m : mem) (s : iter) (d : ptr) : res (mem * ptr) := copy_loop (S (it_length s)) m s d.

  (** Geobucket.h:743-771 merge with the number of times it decrements _entryCount.  The code tests again
      only the ranges it has advanced (lines 753, 758, 765 and 766), which comes to the same: the other one was not empty before and is
      not changed. *)
  Fixpoint merge_loop (fuel : nat) (m : mem) (s1 s2 : iter) (d : ptr) (k : nat) : res (mem * ptr * nat) :=
    match fuel with
    | 0 => NoFuel
    | S fuel' =>
        let* o1 := it_next m s1 in
        match o1 with
        | None => let* (m', d') := copy m s2 d in Ok (m', d', k)
        | Some (a, s1') =>
            let* o2 := it_next m s2 in
            match o2 with
            | None => let* (m', d') := copy m s1 d in Ok (m', d', k)
            | Some (b, s2') =>
                if lt a b then let* m' := wr m d a in merge_loop fuel' m' s1' s2 (padd d 1) k
                else if negb (supportDeduplication C) || negb (eqv a b) then
                  let* m' := wr m d b in merge_loop fuel' m' s1 s2' (padd d 1) k
                else let* m' := wr m d (dedup a b) in merge_loop fuel' m' s1' s2' (padd d 1) (S k)
            end
        end
    end.
  (** Geobucket.h:741-771 merge *)
  Definition merge (m : mem) (s1 s2 : iter) (d : ptr) : res (mem * ptr * nat) :=
    merge_loop (S (it_length s1 + it_length s2)) m s1 s2 d 0.

  (** ** Buckets *)

  (** Geobucket.h:174-272 *)
  Record mbucket := mk_mb { mb_cap : nat; mb_begin : ptr; mb_other : ptr; mb_size : nat; mb_back : option E }.
  (** Geobucket.h:178-181 begin() and end() *)
  Definition mb_range (b : mbucket) : iter := Int (mb_begin b) (padd (mb_begin b) (mb_size b)).
  (** Geobucket.h:182 empty *)
  Definition mb_empty (b : mbucket) : bool := mb_size b =? 0.
  (** *(end() - 1) (Geobucket.h:185, 195, 218, 233) *)
  Definition mb_last (m : mem) (b : mbucket) : res E :=
    if mb_size b =? 0 then UB else rd m (padd (mb_begin b) (mb_size b - 1)).
  (** Geobucket.h:183-186 back *)
  Definition mb_getBack (m : mem) (b : mbucket) : res E :=
    if mb_empty b then UB else if collectMax C then of_option (mb_back b) else mb_last m b.
  (** Geobucket.h:217-218, 232-233: if (size > 0) _back = *(end() - 1) *)
  Definition mb_setBack (m : mem) (b : mbucket) : res mbucket :=
    if mb_size b =? 0 then Ok b else
    let* x := mb_last m b in Ok (mk_mb (mb_cap b) (mb_begin b) (mb_other b) (mb_size b) (Some x)).
  (** Geobucket.h:191-196 pop_back *)
  Definition mb_pop_back (m : mem) (b : mbucket) : res mbucket :=
    if mb_size b =? 0 then UB else
    let b' := mk_mb (mb_cap b) (mb_begin b) (mb_other b) (mb_size b - 1) (mb_back b) in
    if collectMax C then mb_setBack m b' else Ok b'.
  (** Geobucket.h:197-202 setEntry, [pos] counted from begin() *)
  Definition mb_setEntry (m : mem) (b : mbucket) (pos : nat) (x : E) : res (mem * mbucket) :=
    if pos <? mb_size b then
      let* m' := wr m (padd (mb_begin b) pos) x in
      Ok (m', if collectMax C && (pos =? mb_size b - 1) then mk_mb (mb_cap b) (mb_begin b) (mb_other b) (mb_size b) (Some x) else b)
    else UB.
  (** Geobucket.h:205-206 the loop of insertAtNotEnd; [k] rounds are left, [it] counts down *)
  Fixpoint shift_loop (k : nat) (m : mem) (it : ptr) : res mem :=
    match k with
    | 0 => Ok m
    | S k' =>
        let before := (fst it, snd it - 1) in
        let* x := rd m before in
        let* m' := wr m it x in
        shift_loop k' m' before
    end.
  (** Geobucket.h:203-209 insertAtNotEnd *)
  Definition mb_insertAtNotEnd (m : mem) (b : mbucket) (pos : nat) (x : E) : res (mem * mbucket) :=
    if pos <? mb_size b then
      let* m1 := shift_loop (mb_size b - pos) m (padd (mb_begin b) (mb_size b)) in
      let* m2 := wr m1 (padd (mb_begin b) pos) x in
      Ok (m2, mk_mb (mb_cap b) (mb_begin b) (mb_other b) (S (mb_size b)) (mb_back b))
    else UB.
  (** Geobucket.h:253-259 push_back; the assertion is not part of the model *)
  Definition mb_push_back (m : mem) (b : mbucket) (x : E) : res (mem * mbucket) :=
    let* m' := wr m (padd (mb_begin b) (mb_size b)) x in
    Ok (m', mk_mb (mb_cap b) (mb_begin b) (mb_other b) (S (mb_size b)) (if collectMax C then Some x else mb_back b)).
  (** Geobucket.h:214-219 setBufferWithNewEntries *)
  Definition mb_setBufferWithNewEntries (m : mem) (b : mbucket) (buffer : ptr) (size : nat) : res mbucket :=
    mb_setBack m (mk_mb (mb_cap b) buffer (mb_other b) size (mb_back b)).
  (** Geobucket.h:228-234 switchToOtherBuffer *)
  Definition mb_switchToOtherBuffer (m : mem) (b : mbucket) (size : nat) : res mbucket :=
    mb_setBack m (mk_mb (mb_cap b) (mb_other b) (mb_begin b) size (mb_back b)).
  (** Geobucket.h:235-237 clear *)
  Definition mb_clear (b : mbucket) : mbucket := mk_mb (mb_cap b) (mb_begin b) (mb_other b) 0 (mb_back b).
  (** Geobucket.h:238-245 assign *)
  Definition mb_assign (m : mem) (b : mbucket) (s : iter) (size : nat) : res (mem * mbucket) :=
    let* (m', _) := copy m s (mb_begin b) in
    let* back := (if 0 <? size then let* x := it_last m' s in Ok (Some x) else Ok (mb_back b)) in
    Ok (m', mk_mb (mb_cap b) (mb_begin b) (mb_other b) size back).
  (** Geobucket.h:246-252 merge *)
  Definition mb_merge (m : mem) (b : mbucket) (s1 s2 : iter) : res (mem * mbucket * nat) :=
    let* (m', e, k) := merge m s1 s2 (mb_begin b) in
    let* b' := mb_setBack m' (mk_mb (mb_cap b) (mb_begin b) (mb_other b) (snd e - snd (mb_begin b)) (mb_back b)) in
    Ok (m', b', k).

  (** back() (Geobucket.h:184-186) of a bucket given by its index *)
  Definition mkey (m : mem) (bs : list mbucket) (i : nat) : res E := let* b := vget bs i in mb_getBack m b.

  (** ** GeoFront, the functions that compare entries *)

  (** GeoFront.h:256-274 keyIncreased; [pos] counts down *)
  Fixpoint mki_loop (m : mem) (bs : list mbucket) (a : nat) (slots : list (option nat)) (toks : list token) (b pos : nat)
    : res (list (option nat) * list token) :=
    let put :=
      (let* slots' := vset slots pos (Some b) in
       let* toks' := vset toks b (Some (a, pos)) in
       Ok (slots', toks')) in
    match pos with
    | 0 => put
    | S p =>
        let* other := slot slots p in
        let* ko := mkey m bs other in
        let* kb := mkey m bs b in
        if lt ko kb then
          let* slots' := vset slots pos (Some other) in
          let* toks' := vset toks other (Some (a, pos)) in
          mki_loop m bs a slots' toks' b p
        else put
    end.
  (** GeoFront.h:57 and 256-274 *)
  Definition mf_keyIncreased (m : mem) (bs : list mbucket) (f : front) (b : nat) : res front :=
    match f with
    | FCache _ => Ok (FCache None)
    | FOrder a slots n toks =>
        let* t := vget toks b in
        let* pos := tok_pos a t in
        let* (slots', toks') := mki_loop m bs a slots toks b pos in
        Ok (FOrder a slots' n toks')
    end.
  (** GeoFront.h:55 and 241-253 insert *)
  Definition mf_insert (m : mem) (bs : list mbucket) (f : front) (b : nat) : res front :=
    match f with
    | FCache _ => Ok (FCache None)
    | FOrder a slots n toks =>
        let* (a, slots, toks) := (if n =? length slots then fo_reserve a slots n toks (n + 1) else Ok (a, slots, toks)) in
        let* slots' := vset slots n (Some b) in
        let* toks' := vset toks b (Some (a, n)) in
        mf_keyIncreased m bs (FOrder a slots' (S n) toks') b
    end.
  (** GeoFront.h:284-309 keyDecreased, the loop: [k] slots are left after [pos] *)
  Fixpoint mkd_loop (k : nat) (m : mem) (bs : list mbucket) (cnt a : nat) (slots : list (option nat)) (n : nat) (toks : list token)
    (b pos : nat) : res (mem * list mbucket * nat * front) :=
    let put :=
      (let* slots' := vset slots pos (Some b) in
       let* toks' := vset toks b (Some (a, pos)) in
       Ok (m, bs, cnt, FOrder a slots' n toks')) in
    match k with
    | 0 => put
    | S k' =>
        let* other := slot slots (S pos) in
        let* kb := mkey m bs b in
        let* ko := mkey m bs other in
        if lt kb ko then
          let* slots' := vset slots pos (Some other) in
          let* toks' := vset toks other (Some (a, pos)) in
          mkd_loop k' m bs cnt a slots' n toks' b (S pos)
        else if negb (supportDeduplication C) || negb (eqv kb ko) then put
        else
          let* ob := vget bs other in
          let* (m1, ob') := mb_setEntry m ob (mb_size ob - 1) (dedup kb ko) in
          let* bs1 := vset bs other ob' in
          let* bb := vget bs1 b in
          let* bb' := mb_pop_back m1 bb in
          let* bs2 := vset bs1 b bb' in
          let* cnt' := dec cnt 1 in
          if mb_empty bb' then
            let* toks' := vset toks b (Some (a, pos)) in
            let* f := fo_remove a slots n toks' b in
            Ok (m1, bs2, cnt', f)
          else
            let* slots' := vset slots pos (Some other) in
            let* toks' := vset toks other (Some (a, pos)) in
            mkd_loop k' m1 bs2 cnt' a slots' n toks' b (S pos)
    end.
  (** GeoFront.h:58 and 277-309 keyDecreased *)
  Definition mf_keyDecreased (m : mem) (bs : list mbucket) (cnt : nat) (f : front) (b : nat) : res (mem * list mbucket * nat * front) :=
    match f with
    | FCache _ => Ok (m, bs, cnt, FCache None)
    | FOrder a slots n toks =>
        let* bb := vget bs b in
        if mb_empty bb then let* f' := fo_remove a slots n toks b in Ok (m, bs, cnt, f')
        else
          let* t := vget toks b in
          let* pos := tok_pos a t in
          if n <=? pos then UB else mkd_loop (n - 1 - pos) m bs cnt a slots n toks b pos
    end.
  (** GeoFront.h:98-103, the search for the first non-empty bucket *)
  Fixpoint mfirst_nonempty (bs : list mbucket) (i : nat) : res nat :=
    match bs with
    | [] => UB
    | b :: bs' => if mb_empty b then mfirst_nonempty bs' (S i) else Ok i
    end.
  (** GeoFront.h:104-121, the loop of computeMax: [k] buckets are left, [it] is the next one *)
  Fixpoint mcm_loop (k : nat) (m : mem) (bs : list mbucket) (cnt maxBucket it : nat) : res (mem * list mbucket * nat * nat) :=
    match k with
    | 0 => Ok (m, bs, cnt, maxBucket)
    | S k' =>
        let* b := vget bs it in
        if mb_empty b then mcm_loop k' m bs cnt maxBucket (S it) else
        let* ki := mb_getBack m b in
        let* km := mkey m bs maxBucket in
        if lt ki km then mcm_loop k' m bs cnt maxBucket (S it)
        else if supportDeduplication C && eqv ki km then
          let* mb := vget bs maxBucket in
          let* (m1, mb') := mb_setEntry m mb (mb_size mb - 1) (dedup km ki) in
          let* bs1 := vset bs maxBucket mb' in
          let* b1 := vget bs1 it in
          let* b' := mb_pop_back m1 b1 in
          let* bs2 := vset bs1 it b' in
          let* cnt' := dec cnt 1 in
          mcm_loop k' m1 bs2 cnt' maxBucket (S it)
        else mcm_loop k' m bs cnt it (S it)
    end.

  (** ** Geobucket *)

  (** Geobucket.h:293-305 the members *)
  Record mgb := mk_mgb { mg_mem : mem; mg_bs : list mbucket; mg_tmp : ptr; mg_tmpNP : ptr; mg_count : nat; mg_front : front }.

  (** GeoFront.h:86-93 and 343-346 getMax, 95-123 computeMax *)
  Definition mg_getMax (g : mgb) : res (mgb * nat) :=
    match mg_front g with
    | FCache (Some i) => Ok (g, i)
    | FCache None =>
        let* i := mfirst_nonempty (mg_bs g) 0 in
        let* (m, bs, cnt, i') := mcm_loop (length (mg_bs g) - S i) (mg_mem g) (mg_bs g) (mg_count g) i (S i) in
        Ok (mk_mgb m bs (mg_tmp g) (mg_tmpNP g) cnt (FCache (Some i')), i')
    | FOrder a slots n toks =>
        if n =? 0 then UB else
        let* i := slot slots 0 in Ok (g, i)
    end.

  (** (_bucketEnd - 1)->capacity() (Geobucket.h:507, 421) *)
  Definition mlargest (bs : list mbucket) : nat := match rev bs with [] => 0 | b :: _ => mb_cap b end.
  (** Geobucket.h:511-512, 533-534 the cells from a bucket's memory area to its other buffer or to the next bucket *)
  Definition stride (newBucketSize : nat) (b : mbucket) : nat :=
    match bucketStorage C with SameSizeBuffer => newBucketSize | _ => mb_cap b end.
  (** Geobucket.h:513, 517, 535, 545 whether there are other buffers *)
  Definition double : bool := match bucketStorage C with DoubleBuffer => true | _ => false end.
  (** Geobucket.h:508-515 the cells required for the buckets there are *)
  Fixpoint required_loop (newBucketSize : nat) (bs : list mbucket) (required : nat) : nat :=
    match bs with
    | [] => required
    | b :: bs' =>
        let required := required + stride newBucketSize b in
        required_loop newBucketSize bs' (if double then required + mb_cap b else required)
    end.
  (** *p for a range, to be copied to another vector (Geobucket.h:211) *)
  Fixpoint rd_range (m : mem) (p : ptr) (n : nat) : res (list E) :=
    match n with
    | 0 => Ok []
    | S n' => let* x := rd m p in let* l := rd_range m (padd p 1) n' in Ok (x :: l)
    end.
  (** Geobucket.h:530-540 the loop that moves the buckets to the new vector, with 210-213 setBuffer and 220-223 setOtherBuffer *)
  Fixpoint place_loop (newBucketSize : nat) (old : mem) (bs : list mbucket) (new : mem) (offset : nat) : res (list mbucket * mem * nat) :=
    match bs with
    | [] => Ok ([], new, offset)
    | b :: bs' =>
        let* p := addr new offset in
        let* l := rd_range old (mb_begin b) (mb_size b) in
        let* (new, _) := copy new (Ext l) p in
        let offset := offset + stride newBucketSize b in
        let* (q, offset) := (if double then let* q := addr new offset in Ok (q, offset + mb_cap b) else Ok (mb_other b, offset)) in
        let* (bs1, new, offset) := place_loop newBucketSize old bs' new offset in
        Ok (mk_mb (mb_cap b) p q (mb_size b) (mb_back b) :: bs1, new, offset)
    end.
  (** Geobucket.h:504-563 addBucket *)
  Definition mg_addBucket (g : mgb) : res mgb :=
    let newBucketSize := match mg_bs g with [] => minBucketSize C | _ => mlargest (mg_bs g) * geoBase C end in
    let required := required_loop newBucketSize (mg_bs g) 0 in
    let required := required + newBucketSize in
    let required := if double then required + newBucketSize else required in
    let required := required + newBucketSize in
    let required := if premerge C then required else required + newBucketSize in
    let old := mg_mem g in
    if required <? length (m_cells old) then UB else
    let new := mk_mem (S (m_id old)) (m_cells old ++ repeat None (required - length (m_cells old))) in
    let* (bs1, new, offset) := place_loop newBucketSize old (mg_bs g) new 0 in
    let* buffer := addr new offset in
    let offset := offset + newBucketSize in
    let* (otherBuffer, offset) :=
      (if double then let* q := addr new offset in Ok (q, offset + newBucketSize) else Ok (null, offset)) in
    let bs := bs1 ++ [mk_mb newBucketSize buffer otherBuffer 0 None] in
    let* f :=
      match mg_front g with
      | FCache _ => Ok (FCache None)
      | FOrder a slots n toks =>
          let* (a', slots', toks') := fo_reserve a slots n (toks ++ [None]) (length bs) in
          Ok (FOrder a' slots' n toks')
      end in
    let* tmp := addr new offset in
    let offset := offset + newBucketSize in
    let* (tmpNP, offset) :=
      (if premerge C then Ok (mg_tmpNP g, offset) else let* q := addr new offset in Ok (q, offset + newBucketSize)) in
    if offset =? required then Ok (mk_mgb new bs tmp tmpNP (mg_count g) f) else UB.

  (** Geobucket.h:311-323 the constructor and GeoFront.h:41-43, 196-203 *)
  Definition mg_new : res mgb :=
    mg_addBucket (mk_mgb (mk_mem 0 []) [] null null 0 (if trackFront C then FOrder 0 [] 0 [] else FCache None)).

  (** Geobucket.h:579-601 mergeToNonEmpty(into, begin, end) *)
  Definition mg_mergeRange (g : mgb) (into : nat) (s : iter) : res mgb :=
    let bs := mg_bs g in
    let m := mg_mem g in
    let* b := vget bs into in
    let* (m', b', tmp, k) :=
      match bucketStorage C with
      | DoubleBuffer =>
          let* (m', otherEnd, k) := merge m (mb_range b) s (mb_other b) in
          let* b' := mb_switchToOtherBuffer m' b (snd otherEnd - snd (mb_other b)) in
          Ok (m', b', mg_tmp g, k)
      | SameSizeBuffer =>
          let* (m', tmpEnd, k) := merge m (mb_range b) s (mg_tmp g) in
          let* b' := mb_setBufferWithNewEntries m' b (mg_tmp g) (snd tmpEnd - snd (mg_tmp g)) in
          Ok (m', b', mb_begin b, k)
      | Plain =>
          let* (m1, tmpEnd) := copy m (mb_range b) (mg_tmp g) in
          let* (m', b', k) := mb_merge m1 b s (Int (mg_tmp g) tmpEnd) in
          Ok (m', b', mg_tmp g, k)
      end in
    let* cnt := dec (mg_count g) k in
    let* bs' := vset bs into b' in
    let* f := mf_keyIncreased m' bs' (mg_front g) into in
    Ok (mk_mgb m' bs' tmp (mg_tmpNP g) cnt f).

  (** Geobucket.h:565-577 mergeToNonEmpty(to, from) *)
  Definition mg_mergeToNonEmpty (g : mgb) (to from : nat) : res mgb :=
    let* swap := (if negb (trackFront C) then Ok true else f_larger (mg_front g) from to) in
    let* f := (if (swap : bool) then f_swapKeys (mg_front g) to from else Ok (mg_front g)) in
    let* b := vget (mg_bs g) from in
    let* g1 := mg_mergeRange (mk_mgb (mg_mem g) (mg_bs g) (mg_tmp g) (mg_tmpNP g) (mg_count g) f) to (mb_range b) in
    let* b1 := vget (mg_bs g1) from in
    let* bs := vset (mg_bs g1) from (mb_clear b1) in
    let* f1 := f_remove (mg_front g1) from in
    Ok (mk_mgb (mg_mem g1) bs (mg_tmp g1) (mg_tmpNP g1) (mg_count g1) f1).

  (** Geobucket.h:603-614 mergeToEmpty *)
  Definition mg_mergeToEmpty (g : mgb) (to from : nat) (s : iter) : res mgb :=
    let bs := mg_bs g in
    let* bt := vget bs to in
    let* bf := vget bs from in
    let* (m', bt', k) := mb_merge (mg_mem g) bt s (mb_range bf) in
    let* cnt := dec (mg_count g) k in
    let* bs1 := vset bs to bt' in
    let* bs2 := vset bs1 from (mb_clear bf) in
    let* f := f_swapKeys (mg_front g) from to in
    let* f1 := mf_keyIncreased m' bs2 f to in
    Ok (mk_mgb m' bs2 (mg_tmp g) (mg_tmpNP g) cnt f1).

  (** Geobucket.h:616-632 moveToEmpty *)
  Definition mg_moveToEmpty (g : mgb) (to from : nat) : res mgb :=
    let bs := mg_bs g in
    let m := mg_mem g in
    let* bt := vget bs to in
    let* bf := vget bs from in
    let* (m', bt', bf') :=
      match bucketStorage C with
      | SameSizeBuffer =>
          let* bt' := mb_setBufferWithNewEntries m bt (mb_begin bf) (mb_size bf) in
          let* bf' := mb_setBufferWithNewEntries m bf (mb_begin bt) 0 in
          Ok (m, bt', bf')
      | _ => let* (m', bt') := mb_assign m bt (mb_range bf) (mb_size bf) in Ok (m', bt', mb_clear bf)
      end in
    let* bs1 := vset bs to bt' in
    let* bs2 := vset bs1 from bf' in
    let* f := f_swapKeys (mg_front g) from to in
    Ok (mk_mgb m' bs2 (mg_tmp g) (mg_tmpNP g) (mg_count g) f).

  (** Geobucket.h:646-649 and 734-736, the case of an empty bucket *)
  Definition mg_assign (g : mgb) (i : nat) (l : list E) : res mgb :=
    let* b := vget (mg_bs g) i in
    let* (m', b') := mb_assign (mg_mem g) b (Ext l) (length l) in
    let* bs := vset (mg_bs g) i b' in
    let* f := mf_insert m' bs (mg_front g) i in
    Ok (mk_mgb m' bs (mg_tmp g) (mg_tmpNP g) (mg_count g) f).

  (** Geobucket.h:656-663 the loop that makes sure that there are enough buckets *)
  Fixpoint mgrow_loop (fuel : nat) (g : mgb) (i accumulatedSize : nat) : res mgb :=
    match fuel with
    | 0 => NoFuel
    | S fuel' =>
        let* g := (if i =? length (mg_bs g) then mg_addBucket g else Ok g) in
        let* b := vget (mg_bs g) i in
        let accumulatedSize := accumulatedSize + mb_size b in
        if accumulatedSize <=? mb_cap b then Ok g else mgrow_loop fuel' g (S i) accumulatedSize
    end.

  (** Geobucket.h:680-701 the loop; [s] is the range from _tmpForNoPremerge to tmpForNoPremergeEnd *)
  Fixpoint mcarry_loop (fuel : nat) (g : mgb) (b : nat) (tmpEnd : ptr) : res mgb :=
    match fuel with
    | 0 => NoFuel
    | S fuel' =>
        let s := Int (mg_tmpNP g) tmpEnd in
        let* current := vget (mg_bs g) b in
        if (snd tmpEnd - snd (mg_tmpNP g)) + mb_size current <=? mb_cap current then mg_mergeRange g b s
        else
          let* next := vget (mg_bs g) (S b) in
          if mb_empty next then mg_mergeToEmpty g (S b) b s else
          let* (m', e, k) := merge (mg_mem g) s (mb_range current) (mg_tmp g) in
          let* cnt := dec (mg_count g) k in
          let* bs := vset (mg_bs g) b (mb_clear current) in
          let* f := f_remove (mg_front g) b in
          mcarry_loop fuel' (mk_mgb m' bs (mg_tmpNP g) (mg_tmp g) cnt f) (S b) e
    end.
  (** Geobucket.h:665-678 the first step, whose range is the client's *)
  Definition mcarry_first (fuel : nat) (g : mgb) (b : nat) (l : list E) : res mgb :=
    let* current := vget (mg_bs g) b in
    let* next := vget (mg_bs g) (S b) in
    if mb_empty next then mg_mergeToEmpty g (S b) b (Ext l) else
    let* (m', e, k) := merge (mg_mem g) (Ext l) (mb_range current) (mg_tmpNP g) in
    let* cnt := dec (mg_count g) k in
    let* bs := vset (mg_bs g) b (mb_clear current) in
    let* f := f_remove (mg_front g) b in
    mcarry_loop fuel (mk_mgb m' bs (mg_tmp g) (mg_tmpNP g) cnt f) (S b) e.
  (** Geobucket.h:636-702 insert(..., Premerge<false>) *)
  Definition mg_insert_nopremerge (g : mgb) (b : nat) (l : list E) : res mgb :=
    let* bucket := vget (mg_bs g) b in
    if mb_empty bucket then mg_assign g b l else
    if mb_size bucket + length l <=? mb_cap bucket then mg_mergeRange g b (Ext l) else
    let* g1 := mgrow_loop (S (length (mg_bs g))) g (S b) (mb_size bucket + length l) in
    mcarry_first (length (mg_bs g1)) g1 b l.

  (** Geobucket.h:709-723 the loop that determines the premerge range *)
  Fixpoint mpre_range (fuel : nat) (g : mgb) (rbegin incomingSize : nat) : res (mgb * nat) :=
    match fuel with
    | 0 => NoFuel
    | S fuel' =>
        let* r := vget (mg_bs g) rbegin in
        if mb_size r + incomingSize <=? mb_cap r then Ok (g, rbegin)
        else if S rbegin =? length (mg_bs g) then let* g' := mg_addBucket g in Ok (g', S rbegin)
        else mpre_range fuel' g (S rbegin) (mb_size r)
    end.
  (** Geobucket.h:730-731 *)
  Fixpoint mpre_moves (k : nat) (g : mgb) (rit : nat) : res mgb :=
    match k with
    | 0 => Ok g
    | S k' => let* g' := mg_moveToEmpty g rit (rit - 1) in mpre_moves k' g' (rit - 1)
    end.
  (** Geobucket.h:705-740 insert(..., Premerge<true>) *)
  Definition mg_insert_premerge (g : mgb) (b : nat) (l : list E) : res mgb :=
    let* (g1, rbegin) := mpre_range (S (length (mg_bs g))) g b (length l) in
    let* g2 :=
      (if b =? rbegin then Ok g1 else
       let* r := vget (mg_bs g1) rbegin in
       if mb_empty r then mpre_moves (rbegin - b) g1 rbegin
       else let* g' := mg_mergeToNonEmpty g1 rbegin (rbegin - 1) in mpre_moves (rbegin - 1 - b) g' (rbegin - 1)) in
    let* bucket := vget (mg_bs g2) b in
    if mb_empty bucket then mg_assign g2 b l else mg_mergeRange g2 b (Ext l).
  (** Geobucket.h:634-739: the choice between the two versions of insert *)
  Definition mg_insert (g : mgb) (b : nat) (l : list E) : res mgb :=
    if premerge C then mg_insert_premerge g b l else mg_insert_nopremerge g b l.

  (** Geobucket.h:356-383 the binary search in the entries from [p] on, [size] of them *)
  Fixpoint mbin_search (fuel : nat) (m : mem) (p : ptr) (size : nat) (x : E) (begin range : nat) : res place :=
    match fuel with
    | 0 => NoFuel
    | S fuel' =>
        if range =? 0 then Ok (if begin =? size then PEnd else PAt begin) else
        let mid := begin + range / 2 in
        let* y := rd m (padd p mid) in
        if lt x y then mbin_search fuel' m p size x begin (range / 2)
        else if negb (supportDeduplication C) || negb (eqv x y) then
          mbin_search fuel' m p size x (S mid) (range - (range / 2 + 1))
        else Ok (PDup mid)
    end.
  (** Geobucket.h:385-398 the linear search; [k] entries are left *)
  Fixpoint mlin_search (k : nat) (m : mem) (p : ptr) (x : E) (pos : nat) : res place :=
    match k with
    | 0 => Ok PEnd
    | S k' =>
        let* y := rd m (padd p pos) in
        if lt x y then Ok (PAt pos)
        else if supportDeduplication C && eqv x y then Ok (PDup pos)
        else mlin_search k' m p x (S pos)
    end.

  (** Geobucket.h:343-400 push(entry) *)
  Definition mg_push (g : mgb) (x : E) : res mgb :=
    let cnt := S (mg_count g) in
    let m := mg_mem g in
    let* b := vget (mg_bs g) 0 in
    let with_bs m' bs cnt f := mk_mgb m' bs (mg_tmp g) (mg_tmpNP g) cnt f in
    if mb_size b =? mb_cap b then mg_insert (with_bs m (mg_bs g) cnt (mg_front g)) 0 [x]
    else if mb_empty b then
      let* (m', b') := mb_push_back m b x in
      let* bs := vset (mg_bs g) 0 b' in
      let* f := mf_insert m' bs (mg_front g) 0 in
      Ok (with_bs m' bs cnt f)
    else
      let* pl := (if minBucketBinarySearch C then mbin_search (S (mb_size b)) m (mb_begin b) (mb_size b) x 0 (mb_size b)
                  else mlin_search (mb_size b) m (mb_begin b) x 0) in
      match pl with
      | PEnd =>
          let* (m', b') := mb_push_back m b x in
          let* bs := vset (mg_bs g) 0 b' in
          let* f := mf_keyIncreased m' bs (mg_front g) 0 in
          Ok (with_bs m' bs cnt f)
      | PAt i =>
          let* (m', b') := mb_insertAtNotEnd m b i x in
          let* bs := vset (mg_bs g) 0 b' in
          Ok (with_bs m' bs cnt (mg_front g))
      | PDup i =>
          let* y := rd m (padd (mb_begin b) i) in
          let* (m', b') := mb_setEntry m b i (dedup y x) in
          let* bs := vset (mg_bs g) 0 b' in
          let* cnt' := dec cnt 1 in
          Ok (with_bs m' bs cnt' (mg_front g))
      end.

  (** Geobucket.h:421-422 *)
  Fixpoint madd_loop (fuel : nat) (g : mgb) (adjCount : nat) : res mgb :=
    match fuel with
    | 0 => NoFuel
    | S fuel' =>
        if mlargest (mg_bs g) <? adjCount then let* g' := mg_addBucket g in madd_loop fuel' g' adjCount else Ok g
    end.
  (** Geobucket.h:423-431 *)
  Fixpoint mfind_bucket (bs : list mbucket) (adjCount i : nat) : res nat :=
    match bs with
    | [] => UB
    | b :: bs' => if adjCount <=? mb_cap b then Ok i else mfind_bucket bs' adjCount (S i)
    end.
  (** Geobucket.h:402-433 push(begin, end) *)
  Definition mg_pushRange (g : mgb) (xs : list E) : res mgb :=
    let adjCount := length xs * insertFactor C in
    let* g1 := madd_loop (S adjCount)
                 (mk_mgb (mg_mem g) (mg_bs g) (mg_tmp g) (mg_tmpNP g) (mg_count g + length xs) (mg_front g)) adjCount in
    let* b := mfind_bucket (mg_bs g1) adjCount 0 in
    mg_insert g1 b (rev xs).

  (** Geobucket.h:435-443 clear *)
  Definition mg_clear (g : mgb) : mgb :=
    mk_mgb (mg_mem g) (map mb_clear (mg_bs g)) (mg_tmp g) (mg_tmpNP g) 0 (f_clear (mg_front g)).

  (** Geobucket.h:445-455 pop *)
  Definition mg_pop (g : mgb) : res (mgb * E) :=
    let* (g1, i) := mg_getMax g in
    let* b := vget (mg_bs g1) i in
    let* top := mb_getBack (mg_mem g1) b in
    let* b' := mb_pop_back (mg_mem g1) b in
    let* bs := vset (mg_bs g1) i b' in
    let* cnt := dec (mg_count g1) 1 in
    let* (m', bs', cnt', f) := mf_keyDecreased (mg_mem g1) bs cnt (mg_front g1) i in
    Ok (mk_mgb m' bs' (mg_tmp g1) (mg_tmpNP g1) cnt' f, top).

  (** Geobucket.h:457-461 top *)
  Definition mg_top (g : mgb) : res (mgb * E) :=
    let* (g1, i) := mg_getMax g in
    let* x := mkey (mg_mem g1) (mg_bs g1) i in
    Ok (g1, x).

  (** Geobucket.h:463-468 decreaseTop *)
  Definition mg_decreaseTop (g : mgb) (x : E) : res mgb :=
    let* (g1, _) := mg_pop g in mg_push g1 x.

  (** Geobucket.h:154-166 forAll; the entries are handed over from [bs] on *)
  Fixpoint mforAll_loop (m : mem) (bs : list mbucket) : res (list E) :=
    match bs with
    | [] => Ok []
    | b :: bs' =>
        let* l := rd_range m (mb_begin b) (mb_size b) in
        let* r := mforAll_loop m bs' in
        Ok (l ++ r)
    end.
  (** Geobucket.h:154-166 forAll *)
  Definition mg_forAll (g : mgb) : res (list E) := mforAll_loop (mg_mem g) (mg_bs g).

  (** One call: Geobucket.h:131-166 *)
  Definition mg_step (g : mgb) (o : op E) : res (mgb * out E) :=
    match o with
    | Push x => let* g' := mg_push g x in Ok (g', ONone)
    | PushRange xs => let* g' := mg_pushRange g xs in Ok (g', ONone)
    | Pop => let* (g', x) := mg_pop g in Ok (g', OEntry x)
    | Top => let* (g', x) := mg_top g in Ok (g', OEntry x)
    | DecreaseTop x => let* g' := mg_decreaseTop g x in Ok (g', ONone)
    | Clear => Ok (mg_clear g, ONone)
    | Size => Ok (g, OSize (mg_count g))
    | Empty => Ok (g, OBool (mg_count g =? 0))
    | ForAll => let* l := mg_forAll g in Ok (g, OList l)
    end.
End GeoMem.
