(** The model of src/mathic/TourTree.h once more, for a configuration whose compare may throw an exception.

    [lt a b] is [Throw e] if compare(a, b) throws.  An exception thrown by compare leaves the call of the tree at once.  What it leaves
    behind is returned beside the exception: [Ok (s, Some e)] is the state [s] left when [e] was thrown, [Ok (s, None)] a normal return. *)
From Coq Require Import List Arith Bool String.
From Verif.Base Require Import Res Arr.
From Verif.Heap Require Import Model.
From Verif.TourTree Require Import Model.
Import ListNotations.
Local Notation length := List.length.

Section Faults.
  Variable E : Type.
  Variable lt : E -> E -> res bool.
  Notation tourtree := (tourtree E).
  Notation player := (player E).

  (** Goes on with the result of compare, or leaves [left] behind if it throws (TourTree.h:134-137, 159, 199-201) *)
  Definition compared {A : Type} (left : A) (a b : E) (k : bool -> res (A * option string)) : res (A * option string) :=
    match lt a b with
    | Ok less => k less
    | Throw e => Ok (left, Some e)
    | UB => UB
    | NoFuel => NoFuel
    end.

  (** TourTree.h:131-141, the do loop of push *)
  Fixpoint push_loop_f (fuel : nat) (tree : list nat) (ps : list player) (pos : nat) : res (list nat * option string) :=
    match fuel with
    | 0 => NoFuel
    | S f =>
        let posParent := pos / 2 in
        let* a := tget tree posParent in
        let* b := tget tree pos in
        let* pa := vget ps a in
        let* pb := vget ps b in
        compared tree (entry pa) (entry pb) (fun less =>
          if less then
            let* tree' := tset tree posParent b in
            if Nat.eqb posParent 1 then Ok (tree', None) else push_loop_f f tree' ps posParent
          else Ok (tree, None))
    end.

  (** TourTree.h:108-143 push: the player and both nodes are added before the first comparison *)
  Definition tt_push_f (s0 : tourtree) (x : E) : res (tourtree * option string) :=
    let s := if Nat.leb 2 (tt_cap s0 - length (tt_tree s0)) then s0 else tt_reallocate E s0 in
    if tt_empty E s then
      let* s1 := players_push E s (mk_player x 1) in
      let* s2 := tree_push E s1 (length (tt_players s1) - 1) in
      Ok (s2, None)
    else
      let posParent := (length (tt_tree s) + 1) / 2 in
      let* moveDown := tget (tt_tree s) posParent in
      let* s1 := tree_push E s moveDown in
      let* ps := set_leaf E (tt_players s1) moveDown (length (tt_tree s1)) in
      let s2 := mk_tt (tt_tree s1) (tt_cap s1) ps (tt_pcap s1) in
      let* s3 := players_push E s2 (mk_player x (length (tt_tree s2) + 1)) in
      let* s4 := tree_push E s3 (length (tt_players s3) - 1) in
      let* (tree', e) := push_loop_f (length (tt_tree s4)) (tt_tree s4) (tt_players s4) (length (tt_tree s4)) in
      Ok (mk_tt tree' (tt_cap s4) (tt_players s4) (tt_pcap s4), e).

  (** TourTree.h:157-162, 197-205 the loop to the root *)
  Fixpoint replay_f (fuel : nat) (tree : list nat) (ps : list player) (pos player : nat) : res (list nat * option string) :=
    if Nat.eqb pos 1 then Ok (tree, None) else
      match fuel with
      | 0 => NoFuel
      | S f =>
          let* opponent := tget tree (sibling pos) in
          let* pp := vget ps player in
          let* po := vget ps opponent in
          compared tree (entry pp) (entry po) (fun less =>
            let player' := if less then opponent else player in
            let* tree' := tset tree (pos / 2) player' in
            replay_f f tree' ps (pos / 2) player')
      end.

  (** TourTree.h:153-164 decreaseTop *)
  Definition tt_decreaseTop_f (s : tourtree) (x : E) : res (tourtree * option string) :=
    let* player := tget (tt_tree s) 1 in
    let* ps := set_entry E (tt_players s) player x in
    let* pp := vget ps player in
    let* (tree', e) := replay_f (length (tt_tree s)) (tt_tree s) ps (leaf pp) player in
    Ok (mk_tt tree' (tt_cap s) ps (tt_pcap s), e).

  (** TourTree.h:167-208 pop *)
  Definition tt_pop_f (s : tourtree) : res (tourtree * E * option string) :=
    let* root := tget (tt_tree s) 1 in
    let* proot := vget (tt_players s) root in
    let top := entry proot in
    let n := length (tt_tree s) in
    if Nat.eqb n 1 then
      Ok (mk_tt (removelast (tt_tree s)) (tt_cap s) (removelast (tt_players s)) (tt_pcap s), top, None)
    else
      let parentPos := n / 2 in
      let* lft := tget (tt_tree s) (n - 1) in
      let* rgt := tget (tt_tree s) n in
      let* atParent := tget (tt_tree s) parentPos in
      let* (tree1, ps1) :=
        (if Nat.eqb rgt atParent then
           let* pl := vget (tt_players s) lft in
           let* pr := vget (tt_players s) rgt in
           let* psa := set_entry E (tt_players s) lft (entry pr) in
           let* psb := set_entry E psa rgt (entry pl) in
           let* t := replace_loop n (tt_tree s) parentPos rgt lft in
           Ok (t, psb)
         else Ok (tt_tree s, tt_players s)) in
      let* player := tget tree1 1 in
      let* pr := vget ps1 rgt in
      let* ps2 := set_entry E ps1 player (entry pr) in
      if negb (Nat.eqb rgt (length ps2 - 1)) then UB else
      let ps3 := removelast ps2 in
      let* ps4 := set_leaf E ps3 lft parentPos in
      let tree2 := removelast (removelast tree1) in
      let* pp := vget ps4 player in
      let* (tree3, e) := replay_f n tree2 ps4 (leaf pp) player in
      Ok (mk_tt tree3 (tt_cap s) ps4 (tt_pcap s), top, e).
End Faults.
