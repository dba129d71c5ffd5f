(** The searches of src/mathic/KDTree.h once more, for client functions that throw.

    BinaryKDTree and PackedKDTree keep the nodes that a search still has to visit in their member _tmp.  An exception leaves it as it is, and the next
    search goes on with what is left there after it has searched the whole tree.  The functions below take the stack they start with and the
    number of calls that return before one throws (Base/Fault.v): calls of getExponent, divides, isLessThan and proceed, and of push_back of
    _tmp, which allocates.  Each follows the function of the same name in EntryArray.v, Tree.v and Model.v.  An exception leaves _tmp, and beside
    it the entries handed to the output so far; an entry whose proceed throws is not among them.  Of the calls that change the tree only rebuild
    is here, and nothing throws in it. *)
From Coq Require Import List Arith Bool ZArith NArith.
From Verif.Base Require Import Res Arr ResList StdAlg Fault.
From Verif.DivMask Require Import Model.
From Verif.Spec Require Import DivFinder DivCaught.
From Verif.DivList Require Model Throws.
From Verif.KD Require Import EntryArray Tree Model.
Import ListNotations.

Section Throws.
  Context {M : Type}.
  Variable C : kconf M.
  Variable packed : bool.
  Variable ub_calls : list (ext M) -> ext M -> nat.  (* how many comparisons std::upper_bound makes *)
  Notation ext := (ext M).
  Notation earray := (earray M).
  Notation tree := (tree M).
  Notation todo := (@todo M).
  Notation kd := (kd M).

  (** DivMask.h:406-422 and 447-450 divides; the mask is looked at first *)
  Definition kdiv_x {St : Type} (b : nat) (st : St) (x y : ext) : res (fout St bool) := Throws.ediv_x M (c_use C) (c_divides C) b st x y.

  (** ** Leaves *)
  (** The loops of KDEntryArray.h:366-370 and 374-378 *)
  Fixpoint scan_x (b : nat) (m : ext) (l : list ext) {struct l} : res (fout unit (option nat)) :=
    match l with
    | [] => Ok (Fine b None)
    | x :: l' =>
        fbind (kdiv_x b tt x m) (fun b c =>
          if c then Ok (Fine b (Some 0)) else fbind (scan_x b m l') (fun b r => Ok (Fine b (option_map S r))))
    end.
  (** KDEntryArray.h:351-380 findDivisor *)
  Definition arr_find_x (b : nat) (a : earray) (m : ext) : res (fout unit (option nat)) :=
    if ruled_out C a m then Ok (Fine b None)
    else if c_leaf C =? 1 then
      match a_list a with
      | [] => if c_removals C then Ok (Fine b None) else UB
      | x :: _ => fbind (kdiv_x b tt x m) (fun b c => Ok (Fine b (if c then Some 0 else None)))
      end
    else if negb (c_sorted C) then scan_x b m (a_list a)
    else let* i := upper_bound (kcomp C) (a_list a) m in
         clients (ub_calls (a_list a) m) b tt (fun b => scan_x b m (firstn i (a_list a))).

  (** The loops of KDEntryArray.h:397-400, 404-408, 426-430 and 442-444; [p] is the test, and the boolean is the value returned *)
  Fixpoint feed_x (cb : callback M) (p : nat -> list M -> ext -> res (fout (list M) bool)) (b : nat) (l : list ext) (seen : list M) {struct l}
    : res (fout (list M) (list M * bool)) :=
    match l with
    | [] => Ok (Fine b (seen, true))
    | x :: l' =>
        fbind (p b seen x) (fun b c =>
          if c then
            client b seen (fun b =>
              let seen' := seen ++ [x_t x] in
              if cb seen' then feed_x cb p b l' seen' else Ok (Fine b (seen', false)))
          else feed_x cb p b l' seen)
    end.
  (** As [arr_report] of EntryArray.v: KDEntryArray.h:391-395, 419-423 and 438-441 are the special case LeafSize == 1 *)
  Definition arr_report_x (cb : callback M) (p : nat -> list M -> ext -> res (fout (list M) bool)) (b : nat) (l : list ext) (seen : list M)
    : res (fout (list M) (list M * bool)) :=
    if c_leaf C =? 1 then
      match l with
      | [] => if c_removals C then Ok (Fine b (seen, true)) else UB
      | x :: _ =>
          fbind (p b seen x) (fun b c =>
            if c then client b seen (fun b => Ok (Fine b (seen ++ [x_t x], cb (seen ++ [x_t x])))) else Ok (Fine b (seen, true)))
      end
    else feed_x cb p b l seen.
  (** KDEntryArray.h:384-412 findAllDivisors *)
  Definition arr_divisors_x (b : nat) (a : earray) (m : ext) (cb : callback M) (seen : list M) : res (fout (list M) (list M * bool)) :=
    let p b seen x := kdiv_x b seen x m in
    if ruled_out C a m then Ok (Fine b (seen, true))
    else if (c_leaf C =? 1) || negb (c_sorted C) then arr_report_x cb p b (a_list a) seen
    else let* i := upper_bound (kcomp C) (a_list a) m in
         clients (ub_calls (a_list a) m) b seen (fun b => arr_report_x cb p b (firstn i (a_list a)) seen).
  (** KDEntryArray.h:416-432 findAllMultiples *)
  Definition arr_multiples_x (b : nat) (a : earray) (m : ext) (cb : callback M) (seen : list M) : res (fout (list M) (list M * bool)) :=
    arr_report_x cb (fun b seen x => kdiv_x b seen m x) b (a_list a) seen.
  (** KDEntryArray.h:436-446 forAll *)
  Definition arr_for_all_x (b : nat) (a : earray) (cb : callback M) (seen : list M) : res (fout (list M) (list M * bool)) :=
    arr_report_x cb (fun b _ _ => Ok (Fine b true)) b (a_list a) seen.

  (** ** Trees *)
  (** A search that starts with nodes left over visits the whole tree and them; BinaryKDTree.h:243, PackedKDTree.h:168 _tmp *)
  Definition steps_for (t : tree) (tmp : todo) : nat := nodes t + fold_right (fun pt n => nodes (snd pt) + n) 0 tmp.

  (** BinaryKDTree.h:432-462 and PackedKDTree.h:403-433 findDivisor *)
  Fixpoint find_loop_x (b fuel : nat) (m : ext) (p : list bool) (t : tree) (stack : todo) {struct fuel} : res (fout todo (option place)) :=
    match fuel with
    | 0 => NoFuel
    | S f =>
        let next b := match stack with [] => Ok (Fine b None) | (p', t') :: stack' => find_loop_x b f m p' t' stack' end in
        match t with
        | Split v e mask le gt =>
            if c_tree C && negb (can_divide mask (x_mask m)) then next b else
            client b stack (fun b =>
              if above C v e (x_t m) then client b stack (fun b => find_loop_x b f m (p ++ [false]) le ((p ++ [true], gt) :: stack))
              else find_loop_x b f m (p ++ [false]) le stack)
        | Leaf a =>
            fbind (fleft (fun _ => stack) (arr_find_x b a m)) (fun b r =>
              match r with
              | Some i => Ok (Fine b (Some (p, i)))
              | None => next b
              end)
        end
    end.
  (** BinaryKDTree.h:421-462 and PackedKDTree.h:394-433 findDivisor; _tmp is empty when it returns *)
  Definition tree_find_x (b : nat) (root : option tree) (m : ext) (tmp : todo) : res (fout todo (option place * todo)) :=
    match root with
    | None => Ok (Fine b (None, tmp))
    | Some t => fbind (find_loop_x b (steps_for t tmp) m [] t tmp) (fun b r => Ok (Fine b (r, [])))
    end.

  (** What an exception leaves of a search that reports entries: _tmp and the entries reported; BinaryKDTree.h:464-555, PackedKDTree.h:435-517 *)
  Notation left := (todo * list M)%type.

  (** BinaryKDTree.h:472-496 and PackedKDTree.h:446-464 findAllDivisors *)
  Fixpoint divisors_loop_x (b fuel : nat) (m : ext) (cb : callback M) (p : list bool) (t : tree) (stack : todo) (seen : list M) {struct fuel}
    : res (fout left (list M)) :=
    match fuel with
    | 0 => NoFuel
    | S f =>
        let next b seen := match stack with [] => Ok (Fine b seen) | (p', t') :: stack' => divisors_loop_x b f m cb p' t' stack' seen end in
        match t with
        | Split v e mask le gt =>
            if c_tree C && negb (can_divide mask (x_mask m)) then next b seen else
            client b (stack, seen) (fun b =>
              if above C v e (x_t m) then client b (stack, seen) (fun b => divisors_loop_x b f m cb (p ++ [false]) le ((p ++ [true], gt) :: stack) seen)
              else divisors_loop_x b f m cb (p ++ [false]) le stack seen)
        | Leaf a =>
            fbind (fleft (fun xs => (stack, xs)) (arr_divisors_x b a m cb seen)) (fun b r =>
              let (seen', go) := r in if go then next b seen' else Ok (Fine b seen'))
        end
    end.
  (** BinaryKDTree.h:507-528 findAllMultiples: getExponent, then push_back *)
  Fixpoint multiples_loop_x (b fuel : nat) (m : ext) (cb : callback M) (p : list bool) (t : tree) (stack : todo) (seen : list M) {struct fuel}
    : res (fout left (list M)) :=
    match fuel with
    | 0 => NoFuel
    | S f =>
        match t with
        | Split v e _ le gt =>
            client b (stack, seen) (fun b =>
              if negb (above C v e (x_t m)) then client b (stack, seen) (fun b => multiples_loop_x b f m cb (p ++ [true]) gt ((p ++ [false], le) :: stack) seen)
              else multiples_loop_x b f m cb (p ++ [true]) gt stack seen)
        | Leaf a =>
            fbind (fleft (fun xs => (stack, xs)) (arr_multiples_x b a m cb seen)) (fun b r =>
              let (seen', go) := r in
              if go then (match stack with [] => Ok (Fine b seen') | (p', t') :: stack' => multiples_loop_x b f m cb p' t' stack' seen' end)
              else Ok (Fine b seen'))
        end
    end.
  (** PackedKDTree.h:478-494 findAllMultiples: push_back, then getExponent *)
  Fixpoint multiples_loop_packed_x (b fuel : nat) (m : ext) (cb : callback M) (p : list bool) (t : tree) (stack : todo) (seen : list M) {struct fuel}
    : res (fout left (list M)) :=
    match fuel with
    | 0 => NoFuel
    | S f =>
        match t with
        | Split v e _ le gt =>
            client b (stack, seen) (fun b =>
              client b ((p ++ [true], gt) :: stack, seen) (fun b =>
                if above C v e (x_t m) then multiples_loop_packed_x b f m cb (p ++ [true]) gt stack seen
                else multiples_loop_packed_x b f m cb (p ++ [false]) le ((p ++ [true], gt) :: stack) seen))
        | Leaf a =>
            fbind (fleft (fun xs => (stack, xs)) (arr_multiples_x b a m cb seen)) (fun b r =>
              let (seen', go) := r in
              if go then (match stack with [] => Ok (Fine b seen') | (p', t') :: stack' => multiples_loop_packed_x b f m cb p' t' stack' seen' end)
              else Ok (Fine b seen'))
        end
    end.
  (** BinaryKDTree.h:539-555 forAll *)
  Fixpoint for_all_loop_x (b fuel : nat) (cb : callback M) (p : list bool) (t : tree) (stack : todo) (seen : list M) {struct fuel} : res (fout left (list M)) :=
    match fuel with
    | 0 => NoFuel
    | S f =>
        match t with
        | Split _ _ _ le gt => client b (stack, seen) (fun b => for_all_loop_x b f cb (p ++ [false]) le ((p ++ [true], gt) :: stack) seen)
        | Leaf a =>
            fbind (fleft (fun xs => (stack, xs)) (arr_for_all_x b a cb seen)) (fun b r =>
              let (seen', go) := r in
              if go then (match stack with [] => Ok (Fine b seen') | (p', t') :: stack' => for_all_loop_x b f cb p' t' stack' seen' end)
              else Ok (Fine b seen'))
        end
    end.
  (** PackedKDTree.h:511-513: the children of a node are pushed on the stack *)
  Fixpoint push_children_x (b : nat) (p : list bool) (t : tree) (stack : todo) (seen : list M) {struct t} : res (fout left todo) :=
    match t with
    | Leaf _ => Ok (Fine b stack)
    | Split _ _ _ le gt => client b (stack, seen) (fun b => push_children_x b (p ++ [false]) le ((p ++ [true], gt) :: stack) seen)
    end.
  (** PackedKDTree.h:505-517 forAll *)
  Fixpoint for_all_loop_packed_x (b fuel : nat) (cb : callback M) (p : list bool) (t : tree) (stack : todo) (seen : list M) {struct fuel}
    : res (fout left (list M)) :=
    match fuel with
    | 0 => NoFuel
    | S f =>
        fbind (fleft (fun xs => (stack, xs)) (arr_for_all_x b (node_entries t) cb seen)) (fun b r =>
          let (seen', go) := r in
          if go then
            fbind (push_children_x b p t stack seen') (fun b stack' =>
              match stack' with [] => Ok (Fine b seen') | (p', t') :: stack' => for_all_loop_packed_x b f cb p' t' stack' seen' end)
          else Ok (Fine b seen'))
    end.
  (** A search that reports entries; _tmp is empty when it returns.  BinaryKDTree.h:464-555 and PackedKDTree.h:435-517 *)
  Definition tree_reports (loop : nat -> list bool -> tree -> todo -> list M -> res (fout left (list M))) (b : nat) (root : option tree) (tmp : todo)
    : res (fout left (list M * todo)) :=
    match root with
    | None => Ok (Fine b ([], tmp))
    | Some t => fbind (loop (steps_for t tmp) [] t tmp []) (fun b xs => Ok (Fine b (xs, [])))
    end.
  (** BinaryKDTree.h:464-496 and PackedKDTree.h:435-464 findAllDivisors *)
  Definition tree_divisors_x (b : nat) (root : option tree) (m : ext) (cb : callback M) (tmp : todo) : res (fout left (list M * todo)) :=
    tree_reports (fun fuel => divisors_loop_x b fuel m cb) b root tmp.
  (** BinaryKDTree.h:498-528 and PackedKDTree.h:466-494 findAllMultiples *)
  Definition tree_multiples_x (b : nat) (root : option tree) (m : ext) (cb : callback M) (tmp : todo) : res (fout left (list M * todo)) :=
    tree_reports (fun fuel => if packed then multiples_loop_packed_x b fuel m cb else multiples_loop_x b fuel m cb) b root tmp.
  (** BinaryKDTree.h:530-555 and PackedKDTree.h:496-517 forAll *)
  Definition tree_for_all_x (b : nat) (root : option tree) (cb : callback M) (tmp : todo) : res (fout left (list M * todo)) :=
    tree_reports (fun fuel => if packed then for_all_loop_packed_x b fuel cb else for_all_loop_x b fuel cb) b root tmp.

  (** ** KDTree *)
  (** DivMask.h:332-342 compute calls getExponent once per bit *)
  Definition mask_calls (s : kd) : nat := Throws.mask_calls (c_use C) (k_bits s).
  (** KDTree.h:180-193 findDivisor *)
  Definition find_divisor_x (b : nat) (s : kd) (mono : M) (tmp : todo) : res (fout todo (kd * option place * todo)) :=
    let search b :=
      clients (mask_calls s) b tmp (fun b =>
        fbind (tree_find_x b (k_tree s) (kext C (k_bits s) mono) tmp) (fun b r =>
          let (r, tmp') := r in
          Ok (Fine b (match r with
                      | Some _ => if c_cache C then mk_kd (k_tree s) (k_bits s) (k_size s) (k_left s) r (k_rebuilds s) else s
                      | None => s
                      end, r, tmp')))) in
    if c_cache C then
      match k_cache s with
      | Some p => let* e := entry_at s p in
                  client b tmp (fun b => if c_divides C e mono then Ok (Fine b (s, Some p, tmp)) else search b)
      | None => search b
      end
    else search b.
  (** KDTree.h:244-251 rebuild.  EntryRecorder gets some entries twice if _tmp is not empty; reset empties it (BinaryKDTree.h:332, 557-576;
      PackedKDTree.h:300, 519-535). *)
  Definition rebuild_x (s : kd) (tmp : todo) : res kd :=
    let* l := match k_tree s with
              | None => Ok []
              | Some t => if packed then for_all_loop_packed C (steps_for t tmp) recorder t (map snd tmp) []
                          else for_all_loop C (steps_for t tmp) recorder t (map snd tmp) []
              end in
    let* bits := kcalc C l in
    let* t := tree_reset C l bits in
    Ok (reset_changes C (mk_kd t bits (k_size s) (k_left s) (k_cache s) (S (k_rebuilds s)))).

  (** One call, with _tmp: KDTree.h:97-251 *)
  Definition step_x (b : nat) (s : kd) (tmp : todo) (o : dop M) : res (fout left (kd * todo * dout M)) :=
    match o with
    | DFindDivisor m =>
        fbind (fleft (fun tmp' => (tmp', [])) (find_divisor_x b s m tmp)) (fun b r =>
          let '(s', r, tmp') := r in
          match r with
          | None => Ok (Fine b (s', tmp', DOFound None))
          | Some p => let* e := entry_at s' p in Ok (Fine b (s', tmp', DOFound (Some e)))   (* the caller looks at what it got *)
          end)
    | DAllDivisors m cb =>   (* 205-208 *)
        clients (mask_calls s) b (tmp, []) (fun b =>
          fbind (tree_divisors_x b (k_tree s) (kext C (k_bits s) m) cb tmp) (fun b r => Ok (Fine b (s, snd r, DOList (fst r)))))
    | DAllMultiples m cb =>   (* 123-126 *)
        clients (mask_calls s) b (tmp, []) (fun b =>
          fbind (tree_multiples_x b (k_tree s) (kext C (k_bits s) m) cb tmp) (fun b r => Ok (Fine b (s, snd r, DOList (fst r)))))
    | DForAll cb => fbind (tree_for_all_x b (k_tree s) cb tmp) (fun b r => Ok (Fine b (s, snd r, DOList (fst r))))   (* 223-225 *)
    | DSize => Ok (Fine b (s, tmp, DOSize (k_size s)))   (* 80 *)
    | DRebuild => let* s' := rebuild_x s tmp in Ok (Fine b (s', [], DONone))   (* 244-251 *)
    | _ => UB   (* not modelled here *)
    end.
  (** The client makes a call in which so many of its functions return before one throws, and catches the exception: KDTree.h:97-251 *)
  Definition catch_x (st : kd * todo) (c : dop M * nat) : res (kd * todo * outcome M) :=
    let (s, tmp) := st in
    let* o := step_x (snd c) s tmp (fst c) in
    match o with
    | Fine _ (s', tmp', r) => Ok (s', tmp', Answered r)
    | Left (tmp', xs) => Ok (s, tmp', Threw xs)
    end.
End Throws.
