(** Model of src/mathic/TourTree.h.

    A [Player*] stored in the tree is the index of the player in [_players] (TourTree.h:76-77).  A push_back that relocates
    [_players] would leave all of these pointers dangling, so it is [UB] here.  The tree itself is the sequence of its nodes
    (see ComTree/Properties.v, C12) with its capacity. *)
From Coq Require Import List Arith Bool.
From Verif.Base Require Import Res Arr.
From Verif.Spec Require Import PQ.
From Verif.Heap Require Import Model.
Import ListNotations.

Section TourTree.
  Variable E : Type.
  (** [lt a b] is cmpLessThan(compare(a,b)) of the configuration. *)
  Variable lt : E -> E -> bool.

  (** TourTree.h:65-69 Player *)
  Record player := mk_player { entry : E; leaf : nat }.

  (** TourTree.h:76-78; [tt_cap] is the tree's capacity, [tt_pcap] the capacity of [_players]. *)
  Record tourtree := mk_tt {
    tt_tree : list nat;
    tt_cap : nat;
    tt_players : list player;
    tt_pcap : nat
  }.

  (** TourTree.h:222-236 reallocate.  increaseCapacity is ComTree.h:316-326.  reserve keeps a larger capacity.  The pointers are
      rebased to the new storage by lines 229-233, which leaves the indexes as they are. *)
  Definition tt_reallocate (s : tourtree) : tourtree :=
    let newCapacity := if Nat.eqb (tt_cap s) 0 then 16 else tt_cap s * 2 in
    mk_tt (tt_tree s) newCapacity (tt_players s) (Nat.max (tt_pcap s) (newCapacity / 2 + 2)).

  (** TourTree.h:96-98 TourTree(configuration) *)
  Definition tt_new : tourtree := tt_reallocate (mk_tt [] 0 [] 0).

  (** TourTree.h:31 empty *)
  Definition tt_empty (s : tourtree) : bool := match tt_tree s with [] => true | _ => false end.

  (** ComTree.h:210-214 pushBackWithCapacity *)
  Definition tree_push (s : tourtree) (p : nat) : res tourtree :=
    if Nat.ltb (length (tt_tree s)) (tt_cap s)
    then Ok (mk_tt (tt_tree s ++ [p]) (tt_cap s) (tt_players s) (tt_pcap s)) else UB.

  (** [_players.push_back] (TourTree.h:113, 126) *)
  Definition players_push (s : tourtree) (p : player) : res tourtree :=
    if Nat.ltb (length (tt_players s)) (tt_pcap s)
    then Ok (mk_tt (tt_tree s) (tt_cap s) (tt_players s ++ [p]) (tt_pcap s)) else UB.

  (** [player->entry = e] and [player->leaf = n] (TourTree.h:156, 183, 191; 122, 194) *)
  Definition set_entry (ps : list player) (i : nat) (e : E) : res (list player) :=
    let* p := vget ps i in vset ps i (mk_player e (leaf p)).
  (** TourTree.h:122, 194 *)
  Definition set_leaf (ps : list player) (i : nat) (n : nat) : res (list player) :=
    let* p := vget ps i in vset ps i (mk_player (entry p) n).

  (** TourTree.h:131-141, the do loop of push; [posParent] is always [pos / 2] *)
  Fixpoint push_loop (fuel : nat) (tree : list nat) (ps : list player) (pos : nat) : res (list nat) :=
    match fuel with
    | 0 => NoFuel
    | S f =>
        let posParent := pos / 2 in
        let* a := tget tree posParent in
        let* b := tget tree pos in
        let* pa := vget ps a in
        let* pb := vget ps b in
        if lt (entry pa) (entry pb) then
          let* tree' := tset tree posParent b in
          if Nat.eqb posParent 1 then Ok tree' else push_loop f tree' ps posParent
        else Ok tree
    end.

  (** TourTree.h:108-143 push *)
  Definition tt_push (s0 : tourtree) (x : E) : res tourtree :=
    let s := if Nat.leb 2 (tt_cap s0 - length (tt_tree s0)) then s0 else tt_reallocate s0 in
    if tt_empty s then
      let* s1 := players_push s (mk_player x 1) in
      tree_push s1 (length (tt_players s1) - 1)
    else
      let posParent := (length (tt_tree s) + 1) / 2 in
      let* moveDown := tget (tt_tree s) posParent in
      let* s1 := tree_push s moveDown in
      let* ps := set_leaf (tt_players s1) moveDown (length (tt_tree s1)) in
      let s2 := mk_tt (tt_tree s1) (tt_cap s1) ps (tt_pcap s1) in
      let* s3 := players_push s2 (mk_player x (length (tt_tree s2) + 1)) in
      let* s4 := tree_push s3 (length (tt_players s3) - 1) in
      let* tree' := push_loop (length (tt_tree s4)) (tt_tree s4) (tt_players s4) (length (tt_tree s4)) in
      Ok (mk_tt tree' (tt_cap s4) (tt_players s4) (tt_pcap s4)).

  (** TourTree.h:145-150 push(begin, end) *)
  Fixpoint tt_push_range (s : tourtree) (xs : list E) : res tourtree :=
    match xs with
    | [] => Ok s
    | x :: xs' => let* s1 := tt_push s x in tt_push_range s1 xs'
    end.

  (** TourTree.h:157-162 and 197-205, the replay of all matches on the path from [pos] to the root.  ComTree.h:252-254: the sibling
      of an even node is the next one, that of an odd node the previous one (C11). *)
  Definition sibling (pos : nat) : nat := if Nat.even pos then pos + 1 else pos - 1.
  (** TourTree.h:157-162, 197-205 the loop to the root *)
  Fixpoint replay (fuel : nat) (tree : list nat) (ps : list player) (pos player : nat) : res (list nat) :=
    if Nat.eqb pos 1 then Ok tree else
      match fuel with
      | 0 => NoFuel
      | S f =>
          let* opponent := tget tree (sibling pos) in
          let* pp := vget ps player in
          let* po := vget ps opponent in
          let player' := if lt (entry pp) (entry po) then opponent else player in
          let* tree' := tset tree (pos / 2) player' in
          replay f tree' ps (pos / 2) player'
      end.

  (** TourTree.h:153-164 decreaseTop *)
  Definition tt_decreaseTop (s : tourtree) (x : E) : res tourtree :=
    let* player := tget (tt_tree s) 1 in
    let* ps := set_entry (tt_players s) player x in
    let* pp := vget ps player in
    let* tree' := replay (length (tt_tree s)) (tt_tree s) ps (leaf pp) player in
    Ok (mk_tt tree' (tt_cap s) ps (tt_pcap s)).

  (** TourTree.h:184-188, the loop of pop that replaces right by left *)
  Fixpoint replace_loop (fuel : nat) (tree : list nat) (pos right left : nat) : res (list nat) :=
    match fuel with
    | 0 => NoFuel
    | S f =>
        let* q := tget tree pos in
        if Nat.eqb q right then
          let* tree' := tset tree pos left in
          if Nat.eqb pos 1 then Ok tree' else replace_loop f tree' (pos / 2) right left
        else Ok tree
    end.

  (** TourTree.h:167-208 pop; the reads of node 1 and of the last leaf on an empty tree are undefined *)
  Definition tt_pop (s : tourtree) : res (tourtree * E) :=
    let* root := tget (tt_tree s) 1 in
    let* proot := vget (tt_players s) root in
    let top := entry proot in
    let n := length (tt_tree s) in
    if Nat.eqb n 1 then
      Ok (mk_tt (removelast (tt_tree s)) (tt_cap s) (removelast (tt_players s)) (tt_pcap s), top)
    else
      let parentPos := n / 2 in
      let* lft := tget (tt_tree s) (n - 1) in
      let* rgt := tget (tt_tree s) n in
      let* atParent := tget (tt_tree s) parentPos in
      let* (tree1, ps1) :=
        (if Nat.eqb rgt atParent then
           let* pl := vget (tt_players s) lft in
           let* pr := vget (tt_players s) rgt in
           let* psa := set_entry (tt_players s) lft (entry pr) in
           let* psb := set_entry psa rgt (entry pl) in
           let* t := replace_loop n (tt_tree s) parentPos rgt lft in
           Ok (t, psb)
         else Ok (tt_tree s, tt_players s)) in
      let* player := tget tree1 1 in
      let* pr := vget ps1 rgt in
      let* ps2 := set_entry ps1 player (entry pr) in
      (* line 192 asserts right == &_players.back(); pop_back removes the last player, and right would dangle otherwise *)
      if negb (Nat.eqb rgt (length ps2 - 1)) then UB else
      let ps3 := removelast ps2 in
      let* ps4 := set_leaf ps3 lft parentPos in
      let tree2 := removelast (removelast tree1) in
      let* pp := vget ps4 player in
      let* tree3 := replay n tree2 ps4 (leaf pp) player in
      Ok (mk_tt tree3 (tt_cap s) ps4 (tt_pcap s), top).

  (** TourTree.h:211-214 top *)
  Definition tt_top (s : tourtree) : res E :=
    let* root := tget (tt_tree s) 1 in
    let* p := vget (tt_players s) root in
    Ok (entry p).

  (** TourTree.h:82-87 clear; 37-52 forAll with a callback that never stops *)
  Definition tt_clear (s : tourtree) : tourtree := mk_tt [] (tt_cap s) [] (tt_pcap s).
  (** TourTree.h:36-52 forAll *)
  Definition tt_forAll (s : tourtree) : list E := map entry (tt_players s).

  (** TourTree.h:239-272 isValid as compiled with MATHIC_DEBUG *)
  Definition tt_isValid (s : tourtree) : bool :=
    let n := length (tt_tree s) in
    let k := length (tt_players s) in
    let no_entries := match tt_tree s, tt_players s with [], [] => true | _, _ => false end in
    (no_entries || Nat.leb (tt_cap s + 1) (2 * tt_pcap s)) &&
    (no_entries || Nat.eqb (n + 1) (2 * k)) &&
    forallb (fun pos => match tget (tt_tree s) pos with Ok i => Nat.ltb i k | _ => false end) (seq 1 n) &&
    forallb (fun pos =>
      if Nat.leb n (2 * pos) then
        Nat.ltb n (2 * pos + 1) &&
        match tget (tt_tree s) pos with
        | Ok i => match vget (tt_players s) i with Ok p => Nat.eqb (leaf p) pos | _ => false end
        | _ => false
        end
      else
        Nat.leb (2 * pos + 1) n &&
        match tget (tt_tree s) pos, tget (tt_tree s) (2 * pos), tget (tt_tree s) (2 * pos + 1) with
        | Ok i, Ok l, Ok r =>
            negb (Nat.eqb l r) && (Nat.eqb i l || Nat.eqb i r) &&
            match vget (tt_players s) i, vget (tt_players s) l, vget (tt_players s) r with
            | Ok pi, Ok pl, Ok pr => negb (lt (entry pi) (entry pl)) && negb (lt (entry pi) (entry pr))
            | _, _, _ => false
            end
        | _, _, _ => false
        end) (seq 1 n).

  (** The public interface as a transition function.  TourTree has no size(); that call is not part of the interface and is not
      in [tt_api] (TourTree.h:21-56) *)
  Definition tt_api (o : op E) : bool := match o with Size => false | _ => true end.
  (** One call: TourTree.h:21-56 *)
  Definition tt_step (s : tourtree) (o : op E) : res (tourtree * out E) :=
    match o with
    | Push x => let* s' := tt_push s x in Ok (s', ONone)
    | PushRange xs => let* s' := tt_push_range s xs in Ok (s', ONone)
    | Pop => let* (s', x) := tt_pop s in Ok (s', OEntry x)
    | Top => let* x := tt_top s in Ok (s, OEntry x)
    | DecreaseTop x => let* s' := tt_decreaseTop s x in Ok (s', ONone)
    | Clear => Ok (tt_clear s, ONone)
    | Size => UB
    | Empty => Ok (s, OBool (tt_empty s))
    | ForAll => Ok (s, OList (tt_forAll s))
    end.
End TourTree.
Arguments mk_player {E}. Arguments entry {E}. Arguments leaf {E}.
Arguments mk_tt {E}. Arguments tt_tree {E}. Arguments tt_cap {E}. Arguments tt_players {E}. Arguments tt_pcap {E}.
