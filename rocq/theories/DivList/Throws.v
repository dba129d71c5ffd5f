(** The model of src/mathic/DivList.h once more, for client functions that throw.

    The functions take the number of client calls that return before one throws (Base/Fault.v): calls of getExponent, divides and isLessThan,
    of the push_back of removeMultiples and of proceed.  Each function follows the one of the same name in Model.v.  An exception leaves a
    list and, beside it, the entries handed to the output so far; an entry whose push_back or proceed throws is not among them.
    Simplifications: copying an entry does not throw, nor do allocations, and calls of getExponent between which the list does not
    change are counted together. *)
From Coq Require Import List Arith Bool ZArith NArith.
From Verif.Base Require Import Res Arr ResList StdAlg Fault.
From Verif.DivMask Require Import Model.
From Verif.Spec Require Import DivFinder DivCaught.
From Verif.DivList Require Import Model.
Import ListNotations.

Section Throws.
  Variable M : Type.
  Variable ex : M -> nat -> Z.
  Variable nvars : nat.
  Variable T : exptype.
  Variable sort_data : list var_data -> list var_data.
  Variable use : bool.
  Variable divides : M -> M -> bool.
  Variable less : M -> M -> bool.
  Variable linked sorted auto : bool.
  Variable ratio : nat -> nat.
  Variable rmin : nat.
  Variable ub_calls : list (ext M) -> ext M -> nat.  (* how many comparisons std::upper_bound makes *)
  (** std::sort or std::list::sort with Comparer: after some comparisons the range is sorted, or one throws and the range is left in disarray *)
  Variable sort_x : nat -> list (ext M) -> fout (list (ext M)) (list (ext M)).

  Notation ext := (ext M).
  Notation dlist := (dlist M).
  Notation left := (dlist * list M)%type.

  (** DivMask.h:332-342 compute calls getExponent once per bit *)
  Definition mask_calls (bits : list (nat * Z)) : nat := if use then length bits else 0.
  (** DivMask.h:406-422 and 447-450 divides *)
  Definition ediv_x {St : Type} (b : nat) (st : St) (x y : ext) : res (fout St bool) :=
    if has_can_divide use (x_mask x) (x_mask y) then client b st (fun b => Ok (Fine b (divides (x_t x) (x_t y)))) else Ok (Fine b false).

  (** DivMask.h:219-241: what is known about each variable; 1 + size calls of getExponent, the average, and size calls more *)
  Fixpoint datas_x (b : nat) (l : list M) (first : Z) (vars : list nat) : res (fout (list (nat * Z)) (list var_data)) :=
    match vars with
    | [] => Ok (Fine b [])
    | var :: vars' =>
        clients (S (length l)) b [] (fun b =>
          let* d := make_data M ex T l first var in
          clients (length l) b [] (fun b =>
            fbind (datas_x b l first vars') (fun b r => Ok (Fine b (d :: r)))))
    end.
  (** DivMask.h:255-309: the bits of each variable; [bits] are those already pushed *)
  Fixpoint bits_x (b : nat) (l : list M) (first : Z) (ps : list (nat * nat)) (bits : list (nat * Z))
    : res (fout (list (nat * Z)) (list (nat * Z))) :=
    match ps with
    | [] => Ok (Fine b bits)
    | (var, bitsForVar) :: ps' =>
        clients (if bitsForVar =? 0 then 0 else S (length l)) b bits (fun b =>
          let* bs := var_bits M ex T l first var bitsForVar in
          bits_x b l first ps' (bits ++ bs))
    end.
  (** DivMask.h:205-310 rebuild of the calculator; an exception leaves the bits pushed so far *)
  Definition calc_rebuild_x (b : nat) (l : list M) : res (fout (list (nat * Z)) (list (nat * Z))) :=
    if use then
      match l with
      | [] => let* bits := rebuild_default nvars T in Ok (Fine b bits)
      | x :: _ =>
          let first := ex x 0 in
          fbind (datas_x b l first (seq 0 nvars)) (fun b datas =>
            let* bitsForVars := assign_bits nvars (sort_data datas) 0 (repeat 0 nvars) in
            bits_x b l first (combine (seq 0 nvars) bitsForVars) [])
      end
    else Ok (Fine b []).

  (** The list with other entries; DivList.h:155 _list *)
  Definition with_list (s : dlist) (l : list ext) : dlist := mk_dlist l (l_bits s) (l_left s) (l_rebuilds s).

  (** DivList.h:230-237 *)
  Fixpoint first_multiple_x (b : nat) (s : dlist) (m : ext) (k : nat) {struct k} : res (fout left nat) :=
    match k with
    | 0 => Ok (Fine b (length (l_list s)))
    | S k' => let it := length (l_list s) - k in
              let* x := vget (l_list s) it in
              fbind (ediv_x b (s, []) m x) (fun b c => if c then Ok (Fine b it) else first_multiple_x b s m k')
    end.
  (** DivList.h:238-245 *)
  Fixpoint compact_x (b : nat) (s : dlist) (m : ext) (a : list ext) (k newEnd : nat) (out : list M) {struct k}
    : res (fout left (list ext * nat * list M)) :=
    match k with
    | 0 => Ok (Fine b (a, newEnd, out))
    | S k' => let it := length a - k in
              let* x := vget a it in
              fbind (ediv_x b (with_list s a, out) m x) (fun b c =>
                if negb c then (let* a' := vset a newEnd x in compact_x b s m a' k' (S newEnd) out)
                else client b (with_list s a, out) (fun b => compact_x b s m a k' newEnd (out ++ [x_t x])))
    end.
  (** DivList.h:224-251 removeMultiples on a vector *)
  Definition remove_multiples_vector_x (b : nat) (s : dlist) (m : ext) : res (fout left (list ext * list M * nat)) :=
    let a := l_list s in
    fbind (first_multiple_x b s m (length a)) (fun b it =>
      if it =? length a then Ok (Fine b (a, [], 0)) else
      let* x := vget a it in
      client b (s, []) (fun b =>
        fbind (compact_x b s m a (length a - S it) it [x_t x]) (fun b r =>
          let '(a', newEnd, out) := r in
          Ok (Fine b (firstn newEnd a', out, length a - newEnd))))).
  (** DivList.h:253-275 removeMultiples on a list; [kept] comes before the iterator and [l] after it *)
  Fixpoint remove_multiples_list_x (b : nat) (s : dlist) (m : ext) (kept l : list ext) (out : list M) (count : nat) {struct l}
    : res (fout left (list ext * list M * nat)) :=
    match l with
    | [] => Ok (Fine b (kept, out, count))
    | x :: l' =>
        fbind (ediv_x b (with_list s (kept ++ l), out) m x) (fun b c =>
          if c then client b (with_list s (kept ++ l), out) (fun b => remove_multiples_list_x b s m kept l' (out ++ [x_t x]) (S count))
          else remove_multiples_list_x b s m (kept ++ [x]) l' out count)
    end.

  (** DivList.h:294-304 insertSort on a list *)
  Fixpoint insert_list_x (b : nat) (s : dlist) (l : list ext) (e : ext) {struct l} : res (fout left (list ext)) :=
    match l with
    | [] => Ok (Fine b [e])
    | x :: l' =>
        client b (s, []) (fun b =>
          if less (x_t e) (x_t x) then Ok (Fine b (e :: l))
          else fbind (insert_list_x b s l' e) (fun b r => Ok (Fine b (x :: r))))
    end.
  (** DivList.h:294-313 insertSort *)
  Definition insert_sort_x (b : nat) (s : dlist) (e : ext) : res (fout left (list ext)) :=
    let l := l_list s in
    if linked then insert_list_x b s l e else
    let* i := upper_bound (comp M less) l e in
    clients (ub_calls l e) b (s, []) (fun b => Ok (Fine b (firstn i l ++ e :: skipn i l))).

  (** The position of the first entry satisfying [p], as in DivList.h:473-477, 489-493, 332-335 and 452-460 *)
  Fixpoint scan_x (p : nat -> ext -> res (fout left bool)) (b : nat) (l : list ext) {struct l} : res (fout left (option nat)) :=
    match l with
    | [] => Ok (Fine b None)
    | x :: l' =>
        fbind (p b x) (fun b c =>
          if c then Ok (Fine b (Some 0)) else fbind (scan_x p b l') (fun b r => Ok (Fine b (option_map S r))))
    end.
  (** DivList.h:338-356 findDivisorSorted on a list *)
  Fixpoint scan_list_x (b : nat) (s : dlist) (m : ext) (count : nat) (l : list ext) {struct l} : res (fout left (option nat)) :=
    match l with
    | [] => Ok (Fine b None)
    | x :: l' =>
        let test count' b :=
          fbind (ediv_x b (s, []) x m) (fun b c =>
            if c then Ok (Fine b (Some 0))
            else fbind (scan_list_x b s m count' l') (fun b r => Ok (Fine b (option_map S r)))) in
        if S count =? 35 then client b (s, []) (fun b => if less (x_t m) (x_t x) then Ok (Fine b None) else test 0 b)
        else test (S count) b
    end.
  (** DivList.h:325-356 findDivisorSorted *)
  Definition find_sorted_x (b : nat) (s : dlist) (m : ext) : res (fout left (option nat)) :=
    let l := l_list s in
    if linked then scan_list_x b s m 0 l else
    let* i := upper_bound (comp M less) l m in
    clients (ub_calls l m) b (s, []) (fun b => scan_x (fun b x => ediv_x b (s, []) x m) b (firstn i l)).
  (** DivList.h:468-481 findDivisorIterator and 484-498 findDivisor *)
  Definition find_iterator_x (b : nat) (s : dlist) (mono : M) : res (fout left (option nat)) :=
    clients (mask_calls (l_bits s)) b (s, []) (fun b =>
      let m := extend M ex use (l_bits s) mono in
      if negb sorted then scan_x (fun b x => ediv_x b (s, []) x m) b (l_list s) else find_sorted_x b s m).

  (** The loop of DivList.h:512-515, 526-529, 365-368 and 544-546 *)
  Fixpoint feed_x (s : dlist) (cb : callback M) (p : nat -> list M -> ext -> res (fout left bool)) (b : nat) (l : list ext) (seen : list M) {struct l}
    : res (fout left (list M)) :=
    match l with
    | [] => Ok (Fine b seen)
    | x :: l' =>
        fbind (p b seen x) (fun b c =>
          if c then
            client b (s, seen) (fun b =>
              let seen' := seen ++ [x_t x] in
              if cb seen' then feed_x s cb p b l' seen' else Ok (Fine b seen'))
          else feed_x s cb p b l' seen)
    end.
  (** DivList.h:371-389 findAllDivisorsSorted on a list *)
  Fixpoint feed_list_x (b : nat) (s : dlist) (cb : callback M) (m : ext) (count : nat) (l : list ext) (seen : list M) {struct l}
    : res (fout left (list M)) :=
    match l with
    | [] => Ok (Fine b seen)
    | x :: l' =>
        let test count' b :=
          fbind (ediv_x b (s, seen) x m) (fun b c =>
            if c then
              client b (s, seen) (fun b =>
                let seen' := seen ++ [x_t x] in
                if cb seen' then feed_list_x b s cb m count' l' seen' else Ok (Fine b seen'))
            else feed_list_x b s cb m count' l' seen) in
        if S count =? 35 then client b (s, seen) (fun b => if less (x_t m) (x_t x) then Ok (Fine b seen) else test 0 b)
        else test (S count) b
    end.
  (** DivList.h:506-518 findAllDivisors with 358-389 *)
  Definition all_divisors_x (b : nat) (s : dlist) (mono : M) (cb : callback M) : res (fout left (list M)) :=
    clients (mask_calls (l_bits s)) b (s, []) (fun b =>
      let m := extend M ex use (l_bits s) mono in
      let p b seen x := ediv_x b (s, seen) x m in
      if negb sorted then feed_x s cb p b (l_list s) []
      else if linked then feed_list_x b s cb m 0 (l_list s) []
      else let* i := upper_bound (comp M less) (l_list s) m in
           clients (ub_calls (l_list s) m) b (s, []) (fun b => feed_x s cb p b (firstn i (l_list s)) [])).
  (** DivList.h:520-530 findAllMultiples *)
  Definition all_multiples_x (b : nat) (s : dlist) (mono : M) (cb : callback M) : res (fout left (list M)) :=
    clients (mask_calls (l_bits s)) b (s, []) (fun b =>
      let m := extend M ex use (l_bits s) mono in
      feed_x s cb (fun b seen x => ediv_x b (s, seen) m x) b (l_list s) []).
  (** DivList.h:540-547 forAll *)
  Definition for_all_x (b : nat) (s : dlist) (cb : callback M) : res (fout left (list M)) :=
    feed_x s cb (fun b _ _ => Ok (Fine b true)) b (l_list s) [].

  (** DivList.h:582-584: the loop of rebuild; [done] has its new masks already and [l] has not *)
  Fixpoint recalculate_x (b : nat) (bits : list (nat * Z)) (done l : list ext) {struct l} : res (fout (list ext) (list ext)) :=
    match l with
    | [] => Ok (Fine b done)
    | x :: l' => clients (mask_calls bits) b (done ++ l) (fun b => recalculate_x b bits (done ++ [recalculate M ex use bits x]) l')
    end.
  (** DivList.h:575-586 rebuild *)
  Definition rebuild_list_x (b : nat) (s : dlist) : res (fout dlist dlist) :=
    fbind (fleft (fun bits => mk_dlist (l_list s) bits (l_left s) (S (l_rebuilds s))) (calc_rebuild_x b (map x_t (l_list s)))) (fun b bits =>
      fbind (fleft (fun l => mk_dlist l bits (l_left s) (S (l_rebuilds s))) (recalculate_x b bits [] (l_list s))) (fun b l =>
        Ok (Fine b (reset_left M auto ratio rmin (mk_dlist l bits (l_left s) (S (l_rebuilds s))))))).
  (** DivList.h:598-608 reportChanges *)
  Definition report_changes_x (b : nat) (s : dlist) (changes : nat) : res (fout dlist dlist) :=
    if negb auto then Ok (Fine b s) else
    if changes <? l_left s then Ok (Fine b (mk_dlist (l_list s) (l_bits s) (l_left s - changes) (l_rebuilds s)))
    else rebuild_list_x b s.

  (** DivList.h:399-408 insert *)
  Definition insert_x (b : nat) (s : dlist) (entry : M) : res (fout left dlist) :=
    clients (mask_calls (l_bits s)) b (s, []) (fun b =>
      let e := extend M ex use (l_bits s) entry in
      fbind (if negb sorted then Ok (Fine b (l_list s ++ [e])) else insert_sort_x b s e) (fun b l =>
        fleft (fun s' => (s', [])) (report_changes_x b (with_list s l) 1))).
  (** DivList.h:414-415 *)
  Fixpoint insert_each_x (b : nat) (s : dlist) (es : list M) {struct es} : res (fout left dlist) :=
    match es with
    | [] => Ok (Fine b s)
    | e :: es' => fbind (insert_x b s e) (fun b s' => insert_each_x b s' es')
    end.
  (** DivList.h:422-423: the loop of insert of a range into an empty list *)
  Fixpoint append_x (b : nat) (s : dlist) (bits : list (nat * Z)) (l : list ext) (es : list M) {struct es} : res (fout left (list ext)) :=
    match es with
    | [] => Ok (Fine b l)
    | e :: es' =>
        clients (mask_calls bits) b (mk_dlist l bits (l_left s) (l_rebuilds s), []) (fun b =>
          append_x b s bits (l ++ [extend M ex use bits e]) es')
    end.
  (** DivList.h:410-427 insert of a range *)
  Definition insert_range_x (b : nat) (s : dlist) (es : list M) : res (fout left dlist) :=
    match l_list s with
    | _ :: _ => insert_each_x b s es
    | [] =>
        match es with
        | [] => Ok (Fine b s)
        | _ :: _ =>
            fbind (fleft (fun bits => (mk_dlist [] bits (l_left s) (l_rebuilds s), [])) (calc_rebuild_x b es)) (fun b bits =>
              fbind (append_x b s bits [] es) (fun b l =>
                fbind (if sorted then fleft (fun l => (mk_dlist l bits (l_left s) (l_rebuilds s), [])) (Ok (sort_x b l)) else Ok (Fine b l)) (fun b l =>
                  Ok (Fine b (reset_left M auto ratio rmin (mk_dlist l bits (l_left s) (l_rebuilds s)))))))
        end
    end.

  (** DivList.h:429-441 removeMultiples *)
  Definition remove_multiples_x (b : nat) (s : dlist) (mono : M) : res (fout left (dlist * bool * list M)) :=
    clients (mask_calls (l_bits s)) b (s, []) (fun b =>
      let m := extend M ex use (l_bits s) mono in
      fbind (if linked then remove_multiples_list_x b s m [] (l_list s) [] 0 else remove_multiples_vector_x b s m) (fun b r =>
        let '(l, out, count) := r in
        fbind (fleft (fun s' => (s', out)) (report_changes_x b (with_list s l) count)) (fun b s' =>
          Ok (Fine b (s', 0 <? count, out))))).

  (** DivList.h:453-458: two calls of getExponent for each variable up to the first that differs *)
  Fixpoint equal_exps_x (b : nat) (s : dlist) (a x : M) (vars : list nat) {struct vars} : res (fout left bool) :=
    match vars with
    | [] => Ok (Fine b true)
    | var :: vars' =>
        clients 2 b (s, []) (fun b =>
          if Z.eqb (ex a var) (ex x var) then equal_exps_x b s a x vars' else Ok (Fine b false))
    end.
  (** DivList.h:449-464 removeElement *)
  Definition remove_element_x (b : nat) (s : dlist) (mono : M) : res (fout left (dlist * bool)) :=
    fbind (scan_x (fun b x => equal_exps_x b s mono (x_t x) (seq 0 nvars)) b (l_list s)) (fun b r =>
      match r with
      | Some i => Ok (Fine b (with_list s (firstn i (l_list s) ++ skipn (S i) (l_list s)), true))
      | None => Ok (Fine b (s, false))
      end).

  (** DivList.h:484-498 findDivisor *)
  Definition find_divisor_x (b : nat) (s : dlist) (mono : M) : res (fout left (option M)) :=
    fbind (find_iterator_x b s mono) (fun b it =>
      match it with
      | None => Ok (Fine b None)
      | Some i => let* x := vget (l_list s) i in Ok (Fine b (Some (x_t x)))
      end).
  (** DivList.h:571-573 moveToFront of the iterator of findDivisorIterator if it is not end(), as divsim/DivListModel.h:108-115 does *)
  Definition to_front_x (b : nat) (s : dlist) (mono : M) : res (fout left (dlist * option M)) :=
    fbind (find_iterator_x b s mono) (fun b it =>
      match it with
      | None => Ok (Fine b (s, None))
      | Some i => let* l := move_to_front M linked (l_list s) i in
                  let* x := vget l 0 in
                  Ok (Fine b (with_list s l, Some (x_t x)))
      end).

  (** One call: DivList.h:73-125 *)
  Definition step_x (b : nat) (s : dlist) (o : dop M) : res (fout left (dlist * dout M)) :=
    match o with
    | DInsert e => fbind (insert_x b s e) (fun b s' => Ok (Fine b (s', DONone)))
    | DInsertRange es => fbind (insert_range_x b s es) (fun b s' => Ok (Fine b (s', DONone)))
    | DRemoveMultiples m => fbind (remove_multiples_x b s m) (fun b r => let '(s', c, out) := r in Ok (Fine b (s', DORemoved c out)))
    | DRemoveElement m => fbind (remove_element_x b s m) (fun b r => let (s', c) := r in Ok (Fine b (s', DOBool c)))
    | DFindDivisor m => fbind (find_divisor_x b s m) (fun b r => Ok (Fine b (s, DOFound r)))
    | DAllDivisors m cb => fbind (all_divisors_x b s m cb) (fun b xs => Ok (Fine b (s, DOList xs)))
    | DAllMultiples m cb => fbind (all_multiples_x b s m cb) (fun b xs => Ok (Fine b (s, DOList xs)))
    | DForAll cb => fbind (for_all_x b s cb) (fun b xs => Ok (Fine b (s, DOList xs)))
    | DToFront m => fbind (to_front_x b s m) (fun b r => let (s', r) := r in Ok (Fine b (s', DOFound r)))
    | DRebuild => fbind (fleft (fun s' => (s', [])) (rebuild_list_x b s)) (fun b s' => Ok (Fine b (s', DONone)))
    | DSize => Ok (Fine b (s, DOSize (length (l_list s))))
    end.
  (** The client calls, with so many of its own functions returning before one throws, and catches the exception.  DivList.h:73-125 *)
  Definition catch_x (s : dlist) (c : dop M * nat) : res (dlist * outcome M) :=
    let* o := step_x (snd c) s (fst c) in
    match o with
    | Fine _ (s', r) => Ok (s', Answered r)
    | Left (s', xs) => Ok (s', Threw xs)
    end.
End Throws.
