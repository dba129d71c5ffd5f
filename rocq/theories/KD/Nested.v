(** The searches of src/mathic/KDTree.h once more, for callbacks that search the same tree.

    BinaryKDTree and PackedKDTree keep the nodes that a search still has to visit in their member _tmp, whichever search it is.  A search made in
    the function proceed of another one goes on with what the other one has put there, and leaves nothing of it.  This is the code as GCC compiles
    it without MATHIC_DEBUG: a debug build stops at MATHIC_ASSERT(_tmp.empty()) at the start of the second search, and MS VC++ may take the
    condition for granted (stdinc.h:16, 51, 84-91).

    Simplification: the callbacks of the searches made in proceed do not search themselves.  What proceed returns depends only on the entries
    it has got so far. *)
From Coq Require Import List Arith Bool ZArith NArith.
From Verif.Base Require Import Res Arr ResList StdAlg.
From Verif.DivMask Require Import Model.
From Verif.Spec Require Import DivFinder.
From Verif.KD Require Import EntryArray Tree Model Throws.
Import ListNotations.

Section Nested.
  Context {M : Type}.
  Variable C : kconf M.
  Variable packed : bool.
  Notation ext := (ext M).
  Notation earray := (earray M).
  Notation tree := (tree M).
  Notation todo := (@todo M).
  Notation kd := (kd M).

  (** ** Searches made in proceed *)
  (** KDTree.h:180-193 findDivisor, with _tmp; it is not touched if the cache answers or there is no root (BinaryKDTree.h:429-430,
      PackedKDTree.h:400-401), and is empty at the end otherwise (442-461; 424, 431) *)
  Definition find_divisor_n (s : kd) (mono : M) (tmp : todo) : res (kd * option place * todo) :=
    let search :=
      match k_tree s with
      | None => Ok (s, None, tmp)
      | Some t =>
          let* r := find_loop C (steps_for t tmp) (kext C (k_bits s) mono) [] t tmp in
          Ok (match r with
              | Some _ => if c_cache C then mk_kd (k_tree s) (k_bits s) (k_size s) (k_left s) r (k_rebuilds s) else s
              | None => s
              end, r, [])
      end in
    if c_cache C then
      match k_cache s with
      | Some p => let* e := entry_at s p in if c_divides C e mono then Ok (s, Some p, tmp) else search
      | None => search
      end
    else search.
  (** The searches that report entries, with _tmp: BinaryKDTree.h:464-557, PackedKDTree.h:435-518 *)
  Definition reports_n (loop : nat -> tree -> list tree -> list M -> res (list M)) (s : kd) (tmp : todo) : res (kd * todo * dout M) :=
    match k_tree s with
    | None => Ok (s, tmp, DOList [])
    | Some t => let* xs := loop (steps_for t tmp) t (map snd tmp) [] in Ok (s, [], DOList xs)
    end.
  (** A search, with _tmp: KDTree.h:80, 123-126, 180-193, 205-208, 223-225 *)
  Definition search_n (s : kd) (tmp : todo) (o : dop M) : res (kd * todo * dout M) :=
    match o with
    | DFindDivisor m =>
        let* (s', r, tmp') := find_divisor_n s m tmp in
        match r with
        | None => Ok (s', tmp', DOFound None)
        | Some p => let* e := entry_at s' p in Ok (s', tmp', DOFound (Some e))   (* the caller looks at what it got *)
        end
    | DAllDivisors m cb => reports_n (fun f => divisors_loop C f (kext C (k_bits s) m) cb) s tmp
    | DAllMultiples m cb =>
        reports_n (fun f => if packed then multiples_loop_packed C f (kext C (k_bits s) m) cb else multiples_loop C f (kext C (k_bits s) m) cb) s tmp
    | DForAll cb => reports_n (fun f => if packed then for_all_loop_packed C f cb else for_all_loop C f cb) s tmp
    | DSize => Ok (s, tmp, DOSize (k_size s))
    | _ => UB   (* not modelled here *)
    end.

  (** The tree, and the calls made in proceed so far with their answers; no C++ counterpart *)
  Definition world : Type := (kd * list (dop M * dout M))%type.
  (** The calls that proceed makes, one after the other (BinaryKDTree.h:243, PackedKDTree.h:168 _tmp is passed on) *)
  Fixpoint calls_n (w : world) (tmp : todo) (ops : list (dop M)) {struct ops} : res (world * todo) :=
    match ops with
    | [] => Ok (w, tmp)
    | o :: ops' => let* (s', tmp', r) := search_n (fst w) tmp o in calls_n (s', snd w ++ [(o, r)]) tmp' ops'
    end.

  (** ** Searches whose callback searches *)
  Variable cb : callback M.
  Variable inner : list M -> list (dop M).   (* the searches made when so much has been reported *)

  (** KDEntryArray.h:397-400, 404-408, 426-430 and 442-444; [p] is the test, and the boolean is the value returned *)
  Fixpoint feed_n (p : ext -> bool) (l : list ext) (w : world) (tmp : todo) (seen : list M) {struct l} : res (world * todo * (list M * bool)) :=
    match l with
    | [] => Ok (w, tmp, (seen, true))
    | x :: l' =>
        if p x then
          let seen' := seen ++ [x_t x] in
          let* (w', tmp') := calls_n w tmp (inner seen') in
          if cb seen' then feed_n p l' w' tmp' seen' else Ok (w', tmp', (seen', false))
        else feed_n p l' w tmp seen
    end.
  (** As [arr_report] of EntryArray.v: KDEntryArray.h:391-395, 419-423 and 438-441 are the special case LeafSize == 1 *)
  Definition arr_report_n (p : ext -> bool) (l : list ext) (w : world) (tmp : todo) (seen : list M) : res (world * todo * (list M * bool)) :=
    if c_leaf C =? 1 then
      match l with
      | [] => if c_removals C then Ok (w, tmp, (seen, true)) else UB
      | x :: _ =>
          if p x then
            let seen' := seen ++ [x_t x] in
            let* (w', tmp') := calls_n w tmp (inner seen') in Ok (w', tmp', (seen', cb seen'))
          else Ok (w, tmp, (seen, true))
      end
    else feed_n p l w tmp seen.
  (** KDEntryArray.h:384-412 findAllDivisors *)
  Definition arr_divisors_n (a : earray) (m : ext) (w : world) (tmp : todo) (seen : list M) : res (world * todo * (list M * bool)) :=
    if ruled_out C a m then Ok (w, tmp, (seen, true))
    else if (c_leaf C =? 1) || negb (c_sorted C) then arr_report_n (fun x => kdiv C x m) (a_list a) w tmp seen
    else let* i := upper_bound (kcomp C) (a_list a) m in
         arr_report_n (fun x => kdiv C x m) (firstn i (a_list a)) w tmp seen.
  (** KDEntryArray.h:416-432 findAllMultiples *)
  Definition arr_multiples_n (a : earray) (m : ext) : world -> todo -> list M -> res (world * todo * (list M * bool)) :=
    arr_report_n (fun x => kdiv C m x) (a_list a).
  (** KDEntryArray.h:436-446 forAll *)
  Definition arr_for_all_n (a : earray) : world -> todo -> list M -> res (world * todo * (list M * bool)) := arr_report_n (fun _ => true) (a_list a).

  (** BinaryKDTree.h:472-496 and PackedKDTree.h:446-464 findAllDivisors *)
  Fixpoint divisors_loop_n (fuel : nat) (m : ext) (p : list bool) (t : tree) (w : world) (stack : todo) (seen : list M) {struct fuel} : res (world * list M) :=
    match fuel with
    | 0 => NoFuel
    | S f =>
        let next w stack seen := match stack with [] => Ok (w, seen) | (p', t') :: stack' => divisors_loop_n f m p' t' w stack' seen end in
        match t with
        | Split v e mask le gt =>
            if c_tree C && negb (can_divide mask (x_mask m)) then next w stack seen else
            divisors_loop_n f m (p ++ [false]) le w (if above C v e (x_t m) then (p ++ [true], gt) :: stack else stack) seen
        | Leaf a =>
            let* (w', stack', r) := arr_divisors_n a m w stack seen in
            let (seen', go) := r in
            if go then next w' stack' seen' else Ok (w', seen')
        end
    end.
  (** BinaryKDTree.h:507-528 findAllMultiples *)
  Fixpoint multiples_loop_n (fuel : nat) (m : ext) (p : list bool) (t : tree) (w : world) (stack : todo) (seen : list M) {struct fuel} : res (world * list M) :=
    match fuel with
    | 0 => NoFuel
    | S f =>
        match t with
        | Split v e _ le gt =>
            multiples_loop_n f m (p ++ [true]) gt w (if negb (above C v e (x_t m)) then (p ++ [false], le) :: stack else stack) seen
        | Leaf a =>
            let* (w', stack', r) := arr_multiples_n a m w stack seen in
            let (seen', go) := r in
            if go then (match stack' with [] => Ok (w', seen') | (p', t') :: stack' => multiples_loop_n f m p' t' w' stack' seen' end)
            else Ok (w', seen')
        end
    end.
  (** PackedKDTree.h:478-494 findAllMultiples *)
  Fixpoint multiples_loop_packed_n (fuel : nat) (m : ext) (p : list bool) (t : tree) (w : world) (stack : todo) (seen : list M) {struct fuel}
    : res (world * list M) :=
    match fuel with
    | 0 => NoFuel
    | S f =>
        match t with
        | Split v e _ le gt =>
            if above C v e (x_t m) then multiples_loop_packed_n f m (p ++ [true]) gt w stack seen
            else multiples_loop_packed_n f m (p ++ [false]) le w ((p ++ [true], gt) :: stack) seen
        | Leaf a =>
            let* (w', stack', r) := arr_multiples_n a m w stack seen in
            let (seen', go) := r in
            if go then (match stack' with [] => Ok (w', seen') | (p', t') :: stack' => multiples_loop_packed_n f m p' t' w' stack' seen' end)
            else Ok (w', seen')
        end
    end.
  (** BinaryKDTree.h:539-555 forAll *)
  Fixpoint for_all_loop_n (fuel : nat) (p : list bool) (t : tree) (w : world) (stack : todo) (seen : list M) {struct fuel} : res (world * list M) :=
    match fuel with
    | 0 => NoFuel
    | S f =>
        match t with
        | Split _ _ _ le gt => for_all_loop_n f (p ++ [false]) le w ((p ++ [true], gt) :: stack) seen
        | Leaf a =>
            let* (w', stack', r) := arr_for_all_n a w stack seen in
            let (seen', go) := r in
            if go then (match stack' with [] => Ok (w', seen') | (p', t') :: stack' => for_all_loop_n f p' t' w' stack' seen' end)
            else Ok (w', seen')
        end
    end.
  (** PackedKDTree.h:511-513: the children of a node are pushed on the stack *)
  Fixpoint push_children_n (p : list bool) (t : tree) (stack : todo) {struct t} : todo :=
    match t with Leaf _ => stack | Split _ _ _ le gt => push_children_n (p ++ [false]) le ((p ++ [true], gt) :: stack) end.
  (** PackedKDTree.h:505-517 forAll: the children are pushed after the callback has got the entries *)
  Fixpoint for_all_loop_packed_n (fuel : nat) (p : list bool) (t : tree) (w : world) (stack : todo) (seen : list M) {struct fuel} : res (world * list M) :=
    match fuel with
    | 0 => NoFuel
    | S f =>
        let* (w', stack', r) := arr_for_all_n (node_entries t) w stack seen in
        let (seen', go) := r in
        if go then (match push_children_n p t stack' with [] => Ok (w', seen') | (p', t') :: stack' => for_all_loop_packed_n f p' t' w' stack' seen' end)
        else Ok (w', seen')
    end.
End Nested.

(** A search that reports entries to a callback that makes the searches [inner]; _tmp is empty before and after (BinaryKDTree.h:464-557,
    PackedKDTree.h:435-518, KDTree.h:123-126, 205-208, 223-225).  The result is the tree, the searches that were made with their answers, and
    the entries reported. *)
Definition nested {M : Type} (C : kconf M) (packed : bool) (s : kd M) (o : dop M) (inner : list M -> list (dop M))
  : res (kd M * list (dop M * dout M) * list M) :=
  let w := (s, []) in
  match k_tree s with
  | None => Ok (w, [])
  | Some t =>
      match o with
      | DAllDivisors m cb => divisors_loop_n C packed cb inner (nodes t) (kext C (k_bits s) m) [] t w [] []
      | DAllMultiples m cb =>
          if packed then multiples_loop_packed_n C packed cb inner (nodes t) (kext C (k_bits s) m) [] t w [] []
          else multiples_loop_n C packed cb inner (nodes t) (kext C (k_bits s) m) [] t w [] []
      | DForAll cb =>
          if packed then for_all_loop_packed_n C packed cb inner (nodes t) [] t w [] []
          else for_all_loop_n C packed cb inner (nodes t) [] t w [] []
      | _ => UB   (* nothing is reported *)
      end
  end.
