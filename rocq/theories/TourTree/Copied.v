(** The model of src/mathic/TourTree.h once more, with the entries counted that are assigned in players or with players: an assignment to [player->entry] counts one, std::swap of two
    entries counts two, [_players.push_back] counts one and [_players.reserve] counts every player that it moves to a larger array.  The tree holds pointers only. *)
From Coq Require Import List Arith Bool.
From Verif.Base Require Import Res Arr Count.
From Verif.Spec Require Import PQ.
From Verif.Heap Require Import Model.
From Verif.TourTree Require Import Model.
Import ListNotations.

Section Copied.
  Variable E : Type.
  Variable lt : E -> E -> bool.
  Notation tourtree := (tourtree E).
  Notation player := (player E).

  (** TourTree.h:222-236 reallocate *)
  Definition tt_reallocate_k (s : tourtree) : counted tourtree :=
    let s' := tt_reallocate E s in
    Ok (s', if tt_pcap s <? tt_pcap s' then length (tt_players s) else 0).
  (** TourTree.h:113, 126 push_back *)
  Definition players_push_k (s : tourtree) (p : player) : counted tourtree :=
    let@ s' := free (players_push E s p) in Ok (s', 1).
  (** TourTree.h:156, 183, 191 *)
  Definition set_entry_k (ps : list player) (i : nat) (e : E) : counted (list player) :=
    let@ ps' := free (set_entry E ps i e) in Ok (ps', 1).

  (** TourTree.h:108-143 push *)
  Definition tt_push_k (s0 : tourtree) (x : E) : counted tourtree :=
    let@ s := if Nat.leb 2 (tt_cap s0 - length (tt_tree s0)) then Ok (s0, 0) else tt_reallocate_k s0 in
    if tt_empty E s then
      let@ s1 := players_push_k s (mk_player x 1) in
      free (tree_push E s1 (length (tt_players s1) - 1))
    else
      let posParent := (length (tt_tree s) + 1) / 2 in
      let@ moveDown := free (tget (tt_tree s) posParent) in
      let@ s1 := free (tree_push E s moveDown) in
      let@ ps := free (set_leaf E (tt_players s1) moveDown (length (tt_tree s1))) in
      let s2 := mk_tt (tt_tree s1) (tt_cap s1) ps (tt_pcap s1) in
      let@ s3 := players_push_k s2 (mk_player x (length (tt_tree s2) + 1)) in
      let@ s4 := free (tree_push E s3 (length (tt_players s3) - 1)) in
      let@ tree' := free (push_loop E lt (length (tt_tree s4)) (tt_tree s4) (tt_players s4) (length (tt_tree s4))) in
      Ok (mk_tt tree' (tt_cap s4) (tt_players s4) (tt_pcap s4), 0).
  (** TourTree.h:145-150 push(begin, end) *)
  Fixpoint tt_push_range_k (s : tourtree) (xs : list E) : counted tourtree :=
    match xs with
    | [] => Ok (s, 0)
    | x :: xs' => let@ s1 := tt_push_k s x in tt_push_range_k s1 xs'
    end.
  (** TourTree.h:153-164 decreaseTop *)
  Definition tt_decreaseTop_k (s : tourtree) (x : E) : counted tourtree :=
    let@ player := free (tget (tt_tree s) 1) in
    let@ ps := set_entry_k (tt_players s) player x in
    let@ pp := free (vget ps player) in
    let@ tree' := free (replay E lt (length (tt_tree s)) (tt_tree s) ps (leaf pp) player) in
    Ok (mk_tt tree' (tt_cap s) ps (tt_pcap s), 0).
  (** TourTree.h:167-208 pop *)
  Definition tt_pop_k (s : tourtree) : counted (tourtree * E) :=
    let@ root := free (tget (tt_tree s) 1) in
    let@ proot := free (vget (tt_players s) root) in
    let top := entry proot in
    let n := length (tt_tree s) in
    if Nat.eqb n 1 then
      Ok ((mk_tt (removelast (tt_tree s)) (tt_cap s) (removelast (tt_players s)) (tt_pcap s), top), 0)
    else
      let parentPos := n / 2 in
      let@ lft := free (tget (tt_tree s) (n - 1)) in
      let@ rgt := free (tget (tt_tree s) n) in
      let@ atParent := free (tget (tt_tree s) parentPos) in
      let@ (tree1, ps1) :=
        (if Nat.eqb rgt atParent then
           let@ pl := free (vget (tt_players s) lft) in
           let@ pr := free (vget (tt_players s) rgt) in
           let@ psa := set_entry_k (tt_players s) lft (entry pr) in
           let@ psb := set_entry_k psa rgt (entry pl) in
           let@ t := free (replace_loop n (tt_tree s) parentPos rgt lft) in
           Ok ((t, psb), 0)
         else Ok ((tt_tree s, tt_players s), 0)) in
      let@ player := free (tget tree1 1) in
      let@ pr := free (vget ps1 rgt) in
      let@ ps2 := set_entry_k ps1 player (entry pr) in
      if negb (Nat.eqb rgt (length ps2 - 1)) then UB (* as in tt_pop *) else
      let ps3 := removelast ps2 in
      let@ ps4 := free (set_leaf E ps3 lft parentPos) in
      let tree2 := removelast (removelast tree1) in
      let@ pp := free (vget ps4 player) in
      let@ tree3 := free (replay E lt n tree2 ps4 (leaf pp) player) in
      Ok ((mk_tt tree3 (tt_cap s) ps4 (tt_pcap s), top), 0).
  (** The public interface: TourTree.h:21-56 *)
  Definition tt_step_k (s : tourtree) (o : op E) : counted (tourtree * out E) :=
    match o with
    | Push x => let@ s' := tt_push_k s x in Ok ((s', ONone), 0)
    | PushRange xs => let@ s' := tt_push_range_k s xs in Ok ((s', ONone), 0)
    | Pop => let@ (s', x) := tt_pop_k s in Ok ((s', OEntry x), 0)
    | DecreaseTop x => let@ s' := tt_decreaseTop_k s x in Ok ((s', ONone), 0)
    | _ => free (tt_step E lt s o)
    end.
  (** The calls of a history; TourTree.h:21-56 *)
  Fixpoint tt_run_k (s : tourtree) (ops : list (op E)) : counted (tourtree * list (out E)) :=
    match ops with
    | [] => Ok ((s, []), 0)
    | o :: ops' => let@ (s1, r) := tt_step_k s o in let@ (s2, rs) := tt_run_k s1 ops' in Ok ((s2, r :: rs), 0)
    end.
End Copied.
