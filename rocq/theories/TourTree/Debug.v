(** TourTree.h compiled with MATHIC_DEBUG and MATHIC_SLOW_DEBUG: the model with its assertions.

    As in Geobucket/Debug.v a failed assertion counts as [UB].  [lt a b] is cmpLessThan(compare(a,b)); it is [UB] if an assertion fails or
    something else undefined happens in compare.  The functions of TourTree/Faults.v, which pass this on, are used for pop and
    decreaseTop; TourTree.h:192, the assertion that right is the last player, is a case of [UB] there. *)
From Coq Require Import List Arith Bool String.
From Verif.Base Require Import Res Arr.
From Verif.Spec Require Import PQ.
From Verif.Heap Require Import Model.
From Verif.TourTree Require Import Model Faults.
From Verif.Geobucket Require Import Debug.
Import ListNotations.
Local Notation length := List.length.

(** [assert] as a statement: stdinc.h:86 *)
Definition check (b : bool) : res unit := asserted b (Ok tt).
(** A loop of checks over nodes: TourTree.h:249-252, 254-269 *)
Fixpoint check_all (f : nat -> res unit) (l : list nat) : res unit :=
  match l with
  | [] => Ok tt
  | i :: l => let* _ := f i in check_all f l
  end.
(** A call during which compare throws no exception: TourTree.h:134, 159, 199 *)
Definition quiet {A : Type} (r : res (A * option string)) : res A :=
  let* (a, e) := r in match e with None => Ok a | Some e => Throw e end.

Section Debug.
  Variable E : Type.
  Variable lt : E -> E -> res bool.
  Notation tourtree := (tourtree E).

  (** TourTree.h:239-272 isValid *)
  Definition tt_isValid_d (s : tourtree) : res unit :=
    let n := length (tt_tree s) in
    let k := length (tt_players s) in
    let no_entries := match tt_tree s, tt_players s with [], [] => true | _, _ => false end in
    let* _ := check (no_entries || (tt_cap s + 1 <=? 2 * tt_pcap s)) in
    let* _ := check (no_entries || (n + 1 =? 2 * k)) in
    let* _ := check_all (fun pos => let* i := tget (tt_tree s) pos in check (i <? k)) (seq 1 n) in
    check_all (fun pos =>
      if n <=? 2 * pos then
        let* _ := check (n <? 2 * pos + 1) in
        let* i := tget (tt_tree s) pos in
        let* p := vget (tt_players s) i in
        check (leaf p =? pos)
      else
        let* _ := check (2 * pos + 1 <=? n) in
        let* i := tget (tt_tree s) pos in
        let* l := tget (tt_tree s) (2 * pos) in
        let* r := tget (tt_tree s) (2 * pos + 1) in
        let* _ := check (negb (l =? r)) in
        let* _ := check ((i =? l) || (i =? r)) in
        let* pi := vget (tt_players s) i in
        let* pl := vget (tt_players s) l in
        let* pr := vget (tt_players s) r in
        let* b := lt (entry pi) (entry pl) in
        let* _ := check (negb b) in
        let* b := lt (entry pi) (entry pr) in
        check (negb b)) (seq 1 n).

  (** MATHIC_SLOW_ASSERT(isValid()) at the end of a call: TourTree.h:115, 142, 163, 173, 206 *)
  Definition validated {A : Type} (s : tourtree) (a : A) : res A := let* _ := tt_isValid_d s in Ok a.

  (** TourTree.h:222-236 reallocate with 223, 235 *)
  Definition tt_reallocate_d (s : tourtree) : res tourtree :=
    let* _ := tt_isValid_d s in
    let s' := tt_reallocate E s in
    validated s' s'.
  (** TourTree.h:96-98 TourTree(configuration) *)
  Definition tt_new_d : res tourtree := tt_reallocate_d (mk_tt [] 0 [] 0).

  (** TourTree.h:131-141, the do loop of push with 132, 133 *)
  Fixpoint push_loop_d (fuel : nat) (tree : list nat) (ps : list (player E)) (pos posParent : nat) : res (list nat) :=
    match fuel with
    | 0 => NoFuel
    | S f =>
        let* _ := check (negb (pos =? 1)) in
        let* _ := check (posParent =? pos / 2) in
        let* a := tget tree posParent in
        let* b := tget tree pos in
        let* pa := vget ps a in
        let* pb := vget ps b in
        let* less := lt (entry pa) (entry pb) in
        if (less : bool) then
          let* tree' := tset tree posParent b in
          if posParent =? 1 then Ok tree' else push_loop_d f tree' ps posParent (posParent / 2)
        else Ok tree
    end.

  (** TourTree.h:108-143 push with 109, 115, 123, 128, 142 *)
  Definition tt_push_d (s0 : tourtree) (x : E) : res tourtree :=
    let* _ := tt_isValid_d s0 in
    let* s := (if 2 <=? tt_cap s0 - length (tt_tree s0) then Ok s0 else tt_reallocate_d s0) in
    if tt_empty E s then
      let* s1 := players_push E s (mk_player x 1) in
      let* s2 := tree_push E s1 (length (tt_players s1) - 1) in
      validated s2 s2
    else
      let posParent := (length (tt_tree s) + 1) / 2 in
      let* moveDown := tget (tt_tree s) posParent in
      let* s1 := tree_push E s moveDown in
      let* ps := set_leaf E (tt_players s1) moveDown (length (tt_tree s1)) in
      let s2 := mk_tt (tt_tree s1) (tt_cap s1) ps (tt_pcap s1) in
      let* _ := check (Nat.even (length (tt_tree s2))) in
      let* s3 := players_push E s2 (mk_player x (length (tt_tree s2) + 1)) in
      let* s4 := tree_push E s3 (length (tt_players s3) - 1) in
      let* _ := check (Nat.odd (length (tt_tree s4))) in
      let* tree' := push_loop_d (length (tt_tree s4)) (tt_tree s4) (tt_players s4) (length (tt_tree s4)) posParent in
      let s5 := mk_tt tree' (tt_cap s4) (tt_players s4) (tt_pcap s4) in
      validated s5 s5.

  (** TourTree.h:145-150 push(begin, end) *)
  Fixpoint tt_push_range_d (s : tourtree) (xs : list E) : res tourtree :=
    match xs with
    | [] => Ok s
    | x :: xs' => let* s1 := tt_push_d s x in tt_push_range_d s1 xs'
    end.

  (** TourTree.h:153-164 decreaseTop with 154, 163 *)
  Definition tt_decreaseTop_d (s : tourtree) (x : E) : res tourtree :=
    let* _ := check (negb (tt_empty E s)) in
    let* s' := quiet (tt_decreaseTop_f E lt s x) in
    validated s' s'.

  (** TourTree.h:167-208 pop with 168, 173, 192, 206 *)
  Definition tt_pop_d (s : tourtree) : res (tourtree * E) :=
    let* _ := check (negb (tt_empty E s)) in
    let* (s', t) := quiet (tt_pop_f E lt s) in
    validated s' (s', t).

  (** TourTree.h:211-214 top with 212 *)
  Definition tt_top_d (s : tourtree) : res E :=
    let* _ := check (negb (tt_empty E s)) in tt_top E s.

  (** TourTree.h:82-87 clear with 83, 86 *)
  Definition tt_clear_d (s : tourtree) : res tourtree :=
    let* _ := tt_isValid_d s in
    let s' := tt_clear E s in
    validated s' s'.

  (** One call: TourTree.h:21-56 *)
  Definition tt_step_d (s : tourtree) (o : op E) : res (tourtree * out E) :=
    match o with
    | Push x => let* s' := tt_push_d s x in Ok (s', ONone)
    | PushRange xs => let* s' := tt_push_range_d s xs in Ok (s', ONone)
    | Pop => let* (s', x) := tt_pop_d s in Ok (s', OEntry x)
    | Top => let* x := tt_top_d s in Ok (s, OEntry x)
    | DecreaseTop x => let* s' := tt_decreaseTop_d s x in Ok (s', ONone)
    | Clear => let* s' := tt_clear_d s in Ok (s', ONone)
    | Size => UB
    | Empty => Ok (s, OBool (tt_empty E s))
    | ForAll => Ok (s, OList (tt_forAll E s))
    end.
End Debug.
