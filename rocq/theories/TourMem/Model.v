(** Model of src/mathic/TourTree.h with its memory: the nodes of a tree hold pointers, and the players they point at live in the memory of a
    std::vector that is allocated, relocated and freed.  TourTree/Model.v has indices instead.  Several trees share one memory.

    A pointer is the number of a piece of memory and an index into it.  Pieces are never reused, so that a pointer into freed memory is
    seen to dangle.  The memory of ComTree itself (ComTree.h:110-120) is the list of its nodes, as in TourTree/Model.v; see C12 and C70. *)
From Coq Require Import List Arith Bool.
From Verif.Base Require Import Res Arr.
From Verif.Spec Require Import PQ.
From Verif.Heap Require Import Model.
From Verif.TourTree Require Import Model.
Import ListNotations.

(** A Player* (TourTree.h:64) *)
Notation ptr := (nat * nat)%type.
(** Comparing pointers (TourTree.h:180, 184) *)
Definition ptr_eq (p q : ptr) : bool := Nat.eqb (fst p) (fst q) && Nat.eqb (snd p) (snd q).

Section TourMem.
  Variable E : Type.
  Variable lt : E -> E -> bool.

  (** The memory of all vectors of players (TourTree.h:77); [None] is memory that was freed *)
  Definition mem : Type := list (option (list (player E))).
  (** TourTree.h:77 _players: which memory it owns, and its capacity *)
  Record vec := mk_vec { v_block : nat; v_cap : nat }.

  (** *p, p->entry = e and p->leaf = n (TourTree.h:156, 159, 170, 178, 183, 190-194, 122): undefined if there is no such player *)
  Definition load (m : mem) (p : ptr) : res (player E) :=
    let* b := vget m (fst p) in match b with Some ps => vget ps (snd p) | None => UB end.
  (** *p = x, which player->entry = x and player->leaf = x do (TourTree.h:122, 156, 183, 191, 194) *)
  Definition store (m : mem) (p : ptr) (x : player E) : res mem :=
    let* b := vget m (fst p) in match b with Some ps => let* ps' := vset ps (snd p) x in vset m (fst p) (Some ps') | None => UB end.
  (** p->entry = e (TourTree.h:156, 183, 191) *)
  Definition store_entry (m : mem) (p : ptr) (e : E) : res mem := let* x := load m p in store m p (mk_player e (leaf x)).
  (** p->leaf = n (TourTree.h:122, 194) *)
  Definition store_leaf (m : mem) (p : ptr) (n : nat) : res mem := let* x := load m p in store m p (mk_player (entry x) n).

  (** std::vector<Player>: the elements, reserve, push_back, pop_back and clear (TourTree.h:77, 85, 113, 126, 172, 193, 226-232).  Growing moves the elements
      to new memory and frees the old; push_back doubles the capacity, which no theorem depends on. *)
  Definition v_elements (m : mem) (v : vec) : res (list (player E)) := let* b := vget m (v_block v) in of_option b.
  (** Growth: moving to new memory (TourTree.h:226-232) *)
  Definition v_relocate (m : mem) (v : vec) (ps : list (player E)) (cap : nat) : res (mem * vec) :=
    let* m1 := vset m (v_block v) None in Ok (m1 ++ [Some ps], mk_vec (length m) cap).
  (** reserve (TourTree.h:226-232) *)
  Definition v_reserve (m : mem) (v : vec) (n : nat) : res (mem * vec) :=
    if n <=? v_cap v then Ok (m, v) else let* ps := v_elements m v in v_relocate m v ps n.
  (** push_back (TourTree.h:113, 126) *)
  Definition v_push_back (m : mem) (v : vec) (x : player E) : res (mem * vec) :=
    let* ps := v_elements m v in
    if length ps <? v_cap v then let* m1 := vset m (v_block v) (Some (ps ++ [x])) in Ok (m1, v)
    else v_relocate m v (ps ++ [x]) (Nat.max 1 (2 * v_cap v)).
  (** pop_back (TourTree.h:172, 193) *)
  Definition v_pop_back (m : mem) (v : vec) : res mem :=
    let* ps := v_elements m v in match ps with [] => UB | _ => vset m (v_block v) (Some (removelast ps)) end.
  (** &_players.back() (TourTree.h:114, 127, 192) *)
  Definition v_back (m : mem) (v : vec) : res ptr :=
    let* ps := v_elements m v in match ps with [] => UB | _ => Ok (v_block v, length ps - 1) end.

  (** TourTree.h:76-78; [m_here] says whether _tree has its array, which it has not after it was moved from (ComTree.h:179-180).  A tree without capacity has
      none either, but nothing reads it then. *)
  Record mtour := mk_mt { m_tree : list ptr; m_cap : nat; m_vec : vec; m_here : bool }.
  (** _tree[n] (ComTree.h:186-195) *)
  Definition node (s : mtour) (n : nat) : res ptr := if m_here s then tget (m_tree s) n else UB.

  (** TourTree.h:229-233: the loop that rebases the pointers.  Subtracting pointers into different arrays is undefined; that oldBegin points to memory that has
      been freed by then is not held against it. *)
  Fixpoint rebase (old new : nat) (tree : list ptr) : res (list ptr) :=
    match tree with
    | [] => Ok []
    | p :: tree' => if Nat.eqb (fst p) old then (let* t := rebase old new tree' in Ok ((new, snd p) :: t)) else UB
    end.
  (** TourTree.h:222-236 reallocate; increaseCapacity is ComTree.h:316-326 *)
  Definition m_reallocate (m : mem) (s : mtour) : res (mem * mtour) :=
    let newCapacity := if Nat.eqb (m_cap s) 0 then 16 else m_cap s * 2 in
    if negb (m_here s) && negb (length (m_tree s) =? 0) then UB else   (* increaseCapacity copies the nodes *)
    let* ps := v_elements m (m_vec s) in
    let* (m1, v) := v_reserve m (m_vec s) (newCapacity / 2 + 2) in
    match ps with
    | [] => Ok (m1, mk_mt (m_tree s) newCapacity v true)
    | _ => let* t := rebase (v_block (m_vec s)) (v_block v) (m_tree s) in Ok (m1, mk_mt t newCapacity v true)
    end.
  (** TourTree.h:96-98 TourTree(configuration) *)
  Definition m_new (m : mem) : res (mem * mtour) := m_reallocate (m ++ [Some []]) (mk_mt [] 0 (mk_vec (length m) 0) true).
  (** The implicit destructor: ~vector frees the players; ~ComTree is ComTree.h:37-40 *)
  Definition m_destroy (m : mem) (s : mtour) : res mem := let* _ := v_elements m (m_vec s) in vset m (v_block (m_vec s)) None.

  (** ComTree.h:210-214 pushBackWithCapacity *)
  Definition mtree_push (s : mtour) (p : ptr) : res mtour :=
    if m_here s && (length (m_tree s) <? m_cap s) then Ok (mk_mt (m_tree s ++ [p]) (m_cap s) (m_vec s) true) else UB.
  (** TourTree.h:113-114 and 126-127: push_back of a player and of a pointer to it *)
  Definition m_append (m : mem) (s : mtour) (x : player E) : res (mem * mtour) :=
    let* (m1, v) := v_push_back m (m_vec s) x in
    let* p := v_back m1 v in
    let* s1 := mtree_push (mk_mt (m_tree s) (m_cap s) v (m_here s)) p in
    Ok (m1, s1).
  (** TourTree.h:131-141 *)
  Fixpoint m_push_loop (fuel : nat) (m : mem) (tree : list ptr) (pos : nat) : res (list ptr) :=
    match fuel with
    | 0 => NoFuel
    | S f =>
        let posParent := pos / 2 in
        let* a := tget tree posParent in
        let* b := tget tree pos in
        let* pa := load m a in
        let* pb := load m b in
        if lt (entry pa) (entry pb) then
          let* tree' := tset tree posParent b in
          if Nat.eqb posParent 1 then Ok tree' else m_push_loop f m tree' posParent
        else Ok tree
    end.
  (** TourTree.h:108-143 push *)
  Definition m_push (m0 : mem) (s0 : mtour) (x : E) : res (mem * mtour) :=
    let* (m, s) := if 2 <=? m_cap s0 - length (m_tree s0) then Ok (m0, s0) else m_reallocate m0 s0 in
    match m_tree s with
    | [] => m_append m s (mk_player x 1)
    | _ =>
        let* moveDown := node s ((length (m_tree s) + 1) / 2) in
        let* s1 := mtree_push s moveDown in
        let* m1 := store_leaf m moveDown (length (m_tree s1)) in
        let* (m2, s2) := m_append m1 s1 (mk_player x (length (m_tree s1) + 1)) in
        let* tree' := m_push_loop (length (m_tree s2)) m2 (m_tree s2) (length (m_tree s2)) in
        Ok (m2, mk_mt tree' (m_cap s2) (m_vec s2) true)
    end.
  (** TourTree.h:145-150 push(begin, end) *)
  Fixpoint m_push_range (m : mem) (s : mtour) (xs : list E) : res (mem * mtour) :=
    match xs with
    | [] => Ok (m, s)
    | x :: xs' => let* (m1, s1) := m_push m s x in m_push_range m1 s1 xs'
    end.
  (** TourTree.h:157-162, 197-205 *)
  Fixpoint m_replay (fuel : nat) (m : mem) (tree : list ptr) (pos : nat) (player : ptr) : res (list ptr) :=
    if Nat.eqb pos 1 then Ok tree else
      match fuel with
      | 0 => NoFuel
      | S f =>
          let* opponent := tget tree (sibling pos) in
          let* pp := load m player in
          let* po := load m opponent in
          let player' := if lt (entry pp) (entry po) then opponent else player in
          let* tree' := tset tree (pos / 2) player' in
          m_replay f m tree' (pos / 2) player'
      end.
  (** TourTree.h:153-164 decreaseTop *)
  Definition m_decreaseTop (m : mem) (s : mtour) (x : E) : res (mem * mtour) :=
    let* player := node s 1 in
    let* m1 := store_entry m player x in
    let* pp := load m1 player in
    let* tree' := m_replay (length (m_tree s)) m1 (m_tree s) (leaf pp) player in
    Ok (m1, mk_mt tree' (m_cap s) (m_vec s) true).
  (** TourTree.h:184-188 *)
  Fixpoint m_replace_loop (fuel : nat) (tree : list ptr) (pos : nat) (right left : ptr) : res (list ptr) :=
    match fuel with
    | 0 => NoFuel
    | S f =>
        let* q := tget tree pos in
        if ptr_eq q right then
          let* tree' := tset tree pos left in
          if Nat.eqb pos 1 then Ok tree' else m_replace_loop f tree' (pos / 2) right left
        else Ok tree
    end.
  (** TourTree.h:167-208 pop *)
  Definition m_pop (m : mem) (s : mtour) : res (mem * mtour * E) :=
    let* root := node s 1 in
    let* proot := load m root in
    let top := entry proot in
    let n := length (m_tree s) in
    if Nat.eqb n 1 then
      let* m1 := v_pop_back m (m_vec s) in
      Ok (m1, mk_mt (removelast (m_tree s)) (m_cap s) (m_vec s) true, top)
    else
      let parentPos := n / 2 in
      let* lft := node s (n - 1) in
      let* rgt := node s n in
      let* atParent := node s parentPos in
      let* (tree1, m1) :=
        (if ptr_eq rgt atParent then
           let* pl := load m lft in
           let* pr := load m rgt in
           let* ma := store_entry m lft (entry pr) in
           let* mb := store_entry ma rgt (entry pl) in
           let* t := m_replace_loop n (m_tree s) parentPos rgt lft in
           Ok (t, mb)
         else Ok (m_tree s, m)) in
      let* player := tget tree1 1 in
      let* pr := load m1 rgt in
      let* m2 := store_entry m1 player (entry pr) in
      let* m3 := v_pop_back m2 (m_vec s) in
      let* m4 := store_leaf m3 lft parentPos in
      let tree2 := removelast (removelast tree1) in
      let* pp := load m4 player in
      let* tree3 := m_replay n m4 tree2 (leaf pp) player in
      Ok (m4, mk_mt tree3 (m_cap s) (m_vec s) true, top).
  (** TourTree.h:211-214 top *)
  Definition m_top (m : mem) (s : mtour) : res E :=
    let* root := node s 1 in
    let* p := load m root in
    Ok (entry p).
  (** TourTree.h:82-87 clear *)
  Definition m_clear (m : mem) (s : mtour) : res (mem * mtour) :=
    let* m1 := vset m (v_block (m_vec s)) (Some []) in Ok (m1, mk_mt [] (m_cap s) (m_vec s) (m_here s)).
  (** TourTree.h:36-52 forAll *)
  Definition m_forAll (m : mem) (s : mtour) : res (list E) := let* ps := v_elements m (m_vec s) in Ok (map entry ps).
  (** TourTree.h:31 empty *)
  Definition m_empty (s : mtour) : bool := match m_tree s with [] => true | _ => false end.
  (** One call: TourTree.h:21-56 *)
  Definition m_call (m : mem) (s : mtour) (o : op E) : res (mem * mtour * out E) :=
    match o with
    | Push x => let* (m', s') := m_push m s x in Ok (m', s', ONone)
    | PushRange xs => let* (m', s') := m_push_range m s xs in Ok (m', s', ONone)
    | Pop => let* (m', s', x) := m_pop m s in Ok (m', s', OEntry x)
    | Top => let* x := m_top m s in Ok (m, s, OEntry x)
    | DecreaseTop x => let* (m', s') := m_decreaseTop m s x in Ok (m', s', ONone)
    | Clear => let* (m', s') := m_clear m s in Ok (m', s', ONone)
    | Size => UB
    | Empty => Ok (m, s, OBool (m_empty s))
    | ForAll => let* xs := m_forAll m s in Ok (m, s, OList xs)
    end.

  (** The implicit copy constructor of TourTree.h:16-79: the nodes are copied by ComTree.h:152-170, which makes the capacity the size, the players by
      std::vector, and the pointers stay what they are *)
  Definition m_copy (m : mem) (s : mtour) : res (mem * mtour) :=
    let* ps := v_elements m (m_vec s) in
    if negb (m_here s) && negb (length (m_tree s) =? 0) then UB else
    Ok (m ++ [Some ps], mk_mt (m_tree s) (length (m_tree s)) (mk_vec (length m) (length ps)) true).
  (** The implicit move constructor: the new tree and what is left of the old one.  ComTree.h:173-183 leaves the new tree empty and without capacity, and the
      old one with its number of nodes and no array; the vector hands its memory over. *)
  Definition m_move (m : mem) (s : mtour) : mem * mtour * mtour :=
    (m ++ [Some []], mk_mt [] 0 (m_vec s) (m_here s), mk_mt (m_tree s) (m_cap s) (mk_vec (length m) 0) false).

  (** A program with any number of trees of the class in TourTree.h:17-79: [None] is a tree that was destroyed *)
  Record world := mk_world { w_mem : mem; w_trees : list (option mtour) }.
  (** What it does with them: TourTree.h:21-56 and the implicit special members *)
  Inductive wop :=
  | WNew                       (* TourTree t(conf); it gets the next number *)
  | WDestroy (i : nat)         (* the end of tree i *)
  | WCall (i : nat) (o : op E) (* a call on tree i *)
  | WCopy (i : nat)            (* TourTree t(tree i) *)
  | WMove (i : nat).           (* TourTree t(std::move(tree i)) *)
  (** The tree with a given number, which must not be destroyed; a use of an object of TourTree.h:17-79 *)
  Definition tree_at (w : world) (i : nat) : res mtour := let* t := vget (w_trees w) i in of_option t.
  (** One such use: TourTree.h:21-56 *)
  Definition w_step (w : world) (o : wop) : res (world * out E) :=
    match o with
    | WNew => let* (m, s) := m_new (w_mem w) in Ok (mk_world m (w_trees w ++ [Some s]), ONone)
    | WDestroy i => let* s := tree_at w i in let* m := m_destroy (w_mem w) s in Ok (mk_world m (upd (w_trees w) i None), ONone)
    | WCall i o => let* s := tree_at w i in let* (m, s', r) := m_call (w_mem w) s o in Ok (mk_world m (upd (w_trees w) i (Some s')), r)
    | WCopy i => let* s := tree_at w i in let* (m, s') := m_copy (w_mem w) s in Ok (mk_world m (w_trees w ++ [Some s']), ONone)
    | WMove i => let* s := tree_at w i in let '(m, new, old) := m_move (w_mem w) s in Ok (mk_world m (upd (w_trees w) i (Some old) ++ [Some new]), ONone)
    end.
End TourMem.
Arguments load {E}. Arguments store {E}. Arguments store_entry {E}. Arguments store_leaf {E}. Arguments v_elements {E}. Arguments v_relocate {E}. Arguments v_reserve {E}.
Arguments v_push_back {E}. Arguments v_pop_back {E}. Arguments v_back {E}. Arguments m_reallocate {E}. Arguments m_new {E}. Arguments m_destroy {E}. Arguments m_append {E}.
Arguments m_push_loop {E}. Arguments m_push {E}. Arguments m_push_range {E}. Arguments m_replay {E}. Arguments m_decreaseTop {E}. Arguments m_pop {E}. Arguments m_top {E}.
Arguments m_clear {E}. Arguments m_forAll {E}. Arguments m_call {E}. Arguments m_copy {E}. Arguments m_move {E}. Arguments mk_world {E}. Arguments w_mem {E}.
Arguments w_trees {E}. Arguments WNew {E}. Arguments WDestroy {E}. Arguments WCall {E}. Arguments WCopy {E}. Arguments WMove {E}. Arguments tree_at {E}. Arguments w_step {E}.
