(** The model of src/mathic/TourTree.h once more, with the calls of C::compare counted.

    Every call of [compare] goes through [cmp_t], which adds one to the counter.  [TourTree/CountedProofs.v] shows that forgetting the
    counter gives the functions of TourTree/Model.v. *)
From Coq Require Import List Arith Bool.
From Verif.Base Require Import Res Arr.
From Verif.Spec Require Import PQ.
From Verif.Heap Require Import Model.
From Verif.TourTree Require Import Model.
Import ListNotations.

Section Counted.
  Variable E : Type.
  Variable lt : E -> E -> bool.
  Notation tourtree := (tourtree E).
  Notation player := (player E).

  (** One call of _conf.compare (TourTree.h:134-135, 159, 199-200): cmpLessThan of its result, and the counter *)
  Definition cmp_t (a b : E) (n : nat) : bool * nat := (lt a b, S n).

  (** TourTree.h:131-141, the do loop of push *)
  Fixpoint push_loop_c (fuel : nat) (tree : list nat) (ps : list player) (pos n : nat) : res (list nat * nat) :=
    match fuel with
    | 0 => NoFuel
    | S f =>
        let posParent := pos / 2 in
        let* a := tget tree posParent in
        let* b := tget tree pos in
        let* pa := vget ps a in
        let* pb := vget ps b in
        let (less, n') := cmp_t (entry pa) (entry pb) n in
        if less then
          let* tree' := tset tree posParent b in
          if Nat.eqb posParent 1 then Ok (tree', n') else push_loop_c f tree' ps posParent n'
        else Ok (tree, n')
    end.

  (** TourTree.h:108-143 push *)
  Definition tt_push_c (s0 : tourtree) (x : E) (n : nat) : res (tourtree * nat) :=
    let s := if Nat.leb 2 (tt_cap s0 - length (tt_tree s0)) then s0 else tt_reallocate E s0 in
    if tt_empty E s then
      let* s1 := players_push E s (mk_player x 1) in
      let* s2 := tree_push E s1 (length (tt_players s1) - 1) in
      Ok (s2, n)
    else
      let posParent := (length (tt_tree s) + 1) / 2 in
      let* moveDown := tget (tt_tree s) posParent in
      let* s1 := tree_push E s moveDown in
      let* ps := set_leaf E (tt_players s1) moveDown (length (tt_tree s1)) in
      let s2 := mk_tt (tt_tree s1) (tt_cap s1) ps (tt_pcap s1) in
      let* s3 := players_push E s2 (mk_player x (length (tt_tree s2) + 1)) in
      let* s4 := tree_push E s3 (length (tt_players s3) - 1) in
      let* (tree', n') := push_loop_c (length (tt_tree s4)) (tt_tree s4) (tt_players s4) (length (tt_tree s4)) n in
      Ok (mk_tt tree' (tt_cap s4) (tt_players s4) (tt_pcap s4), n').

  (** TourTree.h:145-150 push(begin, end) *)
  Fixpoint tt_push_range_c (s : tourtree) (xs : list E) (n : nat) : res (tourtree * nat) :=
    match xs with
    | [] => Ok (s, n)
    | x :: xs' => let* (s1, n') := tt_push_c s x n in tt_push_range_c s1 xs' n'
    end.

  (** TourTree.h:157-162, 197-205 the loop to the root *)
  Fixpoint replay_c (fuel : nat) (tree : list nat) (ps : list player) (pos player n : nat) : res (list nat * nat) :=
    if Nat.eqb pos 1 then Ok (tree, n) else
      match fuel with
      | 0 => NoFuel
      | S f =>
          let* opponent := tget tree (sibling pos) in
          let* pp := vget ps player in
          let* po := vget ps opponent in
          let (less, n') := cmp_t (entry pp) (entry po) n in
          let player' := if less then opponent else player in
          let* tree' := tset tree (pos / 2) player' in
          replay_c f tree' ps (pos / 2) player' n'
      end.

  (** TourTree.h:153-164 decreaseTop *)
  Definition tt_decreaseTop_c (s : tourtree) (x : E) (n : nat) : res (tourtree * nat) :=
    let* player := tget (tt_tree s) 1 in
    let* ps := set_entry E (tt_players s) player x in
    let* pp := vget ps player in
    let* (tree', n') := replay_c (length (tt_tree s)) (tt_tree s) ps (leaf pp) player n in
    Ok (mk_tt tree' (tt_cap s) ps (tt_pcap s), n').

  (** TourTree.h:167-208 pop *)
  Definition tt_pop_c (s : tourtree) (c : nat) : res (tourtree * E * nat) :=
    let* root := tget (tt_tree s) 1 in
    let* proot := vget (tt_players s) root in
    let top := entry proot in
    let n := length (tt_tree s) in
    if Nat.eqb n 1 then
      Ok (mk_tt (removelast (tt_tree s)) (tt_cap s) (removelast (tt_players s)) (tt_pcap s), top, c)
    else
      let parentPos := n / 2 in
      let* lft := tget (tt_tree s) (n - 1) in
      let* rgt := tget (tt_tree s) n in
      let* atParent := tget (tt_tree s) parentPos in
      let* (tree1, ps1) :=
        (if Nat.eqb rgt atParent then
           let* pl := vget (tt_players s) lft in
           let* pr := vget (tt_players s) rgt in
           let* psa := set_entry E (tt_players s) lft (entry pr) in
           let* psb := set_entry E psa rgt (entry pl) in
           let* t := replace_loop n (tt_tree s) parentPos rgt lft in
           Ok (t, psb)
         else Ok (tt_tree s, tt_players s)) in
      let* player := tget tree1 1 in
      let* pr := vget ps1 rgt in
      let* ps2 := set_entry E ps1 player (entry pr) in
      if negb (Nat.eqb rgt (length ps2 - 1)) then UB else
      let ps3 := removelast ps2 in
      let* ps4 := set_leaf E ps3 lft parentPos in
      let tree2 := removelast (removelast tree1) in
      let* pp := vget ps4 player in
      let* (tree3, c') := replay_c n tree2 ps4 (leaf pp) player c in
      Ok (mk_tt tree3 (tt_cap s) ps4 (tt_pcap s), top, c').

  (** The public interface (TourTree.h:21-56) on a tree with its counter *)
  Definition tt_step_c (s : tourtree * nat) (o : op E) : res (tourtree * nat * out E) :=
    let (t, n) := s in
    match o with
    | Push x => let* (t', n') := tt_push_c t x n in Ok (t', n', ONone)
    | PushRange xs => let* (t', n') := tt_push_range_c t xs n in Ok (t', n', ONone)
    | Pop => let* (t', x, n') := tt_pop_c t n in Ok (t', n', OEntry x)
    | Top => let* x := tt_top E t in Ok (t, n, OEntry x)
    | DecreaseTop x => let* (t', n') := tt_decreaseTop_c t x n in Ok (t', n', ONone)
    | Clear => Ok (tt_clear E t, n, ONone)
    | Size => UB
    | Empty => Ok (t, n, OBool (tt_empty E t))
    | ForAll => Ok (t, n, OList (tt_forAll E t))
    end.
End Counted.
