(** The model of src/mathic/TourTree.h once more, for a configuration whose compare throws at any one of its calls: the first [b] calls return,
    the next one throws (Base/Fault.v).  In TourTree/Faults.v, in contrast, whether compare throws depends on its arguments. *)
From Coq Require Import List Arith Bool.
From Verif.Base Require Import Res Arr Fault.
From Verif.Heap Require Import Model.
From Verif.TourTree Require Import Model.
Import ListNotations.

Section Budget.
  Variable E : Type.
  Variable lt : E -> E -> bool.
  Notation tourtree := (tourtree E).
  Notation player := (player E).

  (** TourTree.h:131-141, the do loop of push *)
  Fixpoint push_loop_x (fuel b : nat) (tree : list nat) (ps : list player) (pos : nat) : res (fout (list nat) (list nat)) :=
    match fuel with
    | 0 => NoFuel
    | S f =>
        let posParent := pos / 2 in
        let* i := tget tree posParent in
        let* j := tget tree pos in
        let* pa := vget ps i in
        let* pb := vget ps j in
        client b tree (fun b =>
          if lt (entry pa) (entry pb) then
            let* tree' := tset tree posParent j in
            if Nat.eqb posParent 1 then Ok (Fine b tree') else push_loop_x f b tree' ps posParent
          else Ok (Fine b tree))
    end.

  (** The exception leaves the nodes of the tree as the loop has set them so far (TourTree.h:138, 161, 204), and all else as it was. *)
  Definition with_tree {A : Type} (s : tourtree) (m : res (fout (list nat) (list nat))) (k : tourtree -> A) : res (fout tourtree A) :=
    let* o := m in
    match o with
    | Fine b tree => Ok (Fine b (k (mk_tt tree (tt_cap s) (tt_players s) (tt_pcap s))))
    | Left tree => Ok (Left (mk_tt tree (tt_cap s) (tt_players s) (tt_pcap s)))
    end.

  (** TourTree.h:108-143 push: the player and both nodes are added before the first comparison *)
  Definition tt_push_x (b : nat) (s0 : tourtree) (x : E) : res (fout tourtree tourtree) :=
    let s := if Nat.leb 2 (tt_cap s0 - length (tt_tree s0)) then s0 else tt_reallocate E s0 in
    if tt_empty E s then
      let* s1 := players_push E s (mk_player x 1) in
      let* s2 := tree_push E s1 (length (tt_players s1) - 1) in
      Ok (Fine b s2)
    else
      let posParent := (length (tt_tree s) + 1) / 2 in
      let* moveDown := tget (tt_tree s) posParent in
      let* s1 := tree_push E s moveDown in
      let* ps := set_leaf E (tt_players s1) moveDown (length (tt_tree s1)) in
      let s2 := mk_tt (tt_tree s1) (tt_cap s1) ps (tt_pcap s1) in
      let* s3 := players_push E s2 (mk_player x (length (tt_tree s2) + 1)) in
      let* s4 := tree_push E s3 (length (tt_players s3) - 1) in
      with_tree s4 (push_loop_x (length (tt_tree s4)) b (tt_tree s4) (tt_players s4) (length (tt_tree s4))) (fun s => s).

  (** TourTree.h:157-162, 197-205 the loop to the root *)
  Fixpoint replay_x (fuel b : nat) (tree : list nat) (ps : list player) (pos player : nat) : res (fout (list nat) (list nat)) :=
    if Nat.eqb pos 1 then Ok (Fine b tree) else
      match fuel with
      | 0 => NoFuel
      | S f =>
          let* opponent := tget tree (sibling pos) in
          let* pp := vget ps player in
          let* po := vget ps opponent in
          client b tree (fun b =>
            let player' := if lt (entry pp) (entry po) then opponent else player in
            let* tree' := tset tree (pos / 2) player' in
            replay_x f b tree' ps (pos / 2) player')
      end.

  (** TourTree.h:153-164 decreaseTop *)
  Definition tt_decreaseTop_x (b : nat) (s : tourtree) (x : E) : res (fout tourtree tourtree) :=
    let* player := tget (tt_tree s) 1 in
    let* ps := set_entry E (tt_players s) player x in
    let* pp := vget ps player in
    with_tree (mk_tt (tt_tree s) (tt_cap s) ps (tt_pcap s)) (replay_x (length (tt_tree s)) b (tt_tree s) ps (leaf pp) player) (fun s => s).

  (** TourTree.h:167-208 pop *)
  Definition tt_pop_x (b : nat) (s : tourtree) : res (fout tourtree (tourtree * E)) :=
    let* root := tget (tt_tree s) 1 in
    let* proot := vget (tt_players s) root in
    let top := entry proot in
    let n := length (tt_tree s) in
    if Nat.eqb n 1 then
      Ok (Fine b (mk_tt (removelast (tt_tree s)) (tt_cap s) (removelast (tt_players s)) (tt_pcap s), top))
    else
      let parentPos := n / 2 in
      let* lft := tget (tt_tree s) (n - 1) in
      let* rgt := tget (tt_tree s) n in
      let* atParent := tget (tt_tree s) parentPos in
      let* (tree1, ps1) :=
        (if Nat.eqb rgt atParent then
           let* pl := vget (tt_players s) lft in
           let* pr := vget (tt_players s) rgt in
           let* psa := set_entry E (tt_players s) lft (entry pr) in
           let* psb := set_entry E psa rgt (entry pl) in
           let* t := replace_loop n (tt_tree s) parentPos rgt lft in
           Ok (t, psb)
         else Ok (tt_tree s, tt_players s)) in
      let* player := tget tree1 1 in
      let* pr := vget ps1 rgt in
      let* ps2 := set_entry E ps1 player (entry pr) in
      if negb (Nat.eqb rgt (length ps2 - 1)) then UB else
      let ps3 := removelast ps2 in
      let* ps4 := set_leaf E ps3 lft parentPos in
      let tree2 := removelast (removelast tree1) in
      let* pp := vget ps4 player in
      with_tree (mk_tt tree2 (tt_cap s) ps4 (tt_pcap s)) (replay_x n b tree2 ps4 (leaf pp) player) (fun s => (s, top)).
End Budget.
