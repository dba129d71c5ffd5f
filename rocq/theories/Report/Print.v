(** Model of the print functions of ComTree.h, Heap.h, TourTree.h, StlSet.h, Geobucket.h, BinaryKDTree.h and PackedKDTree.h.

    How a std::ostream shows an entry, a pointer or an exponent is a parameter. *)
From Coq Require Import List Bool NArith ZArith Ascii String.
From Verif.Base Require Import Res Arr Text.
From Verif.DivMask Require Import Model.
From Verif.Geobucket Require Import Model.
From Verif.KD Require Import EntryArray Tree.
From Verif.Report Require Import Names.
Import ListNotations.
Local Notation length := List.length.

Section Queues.
  Context {E : Type}.
  (** out << e *)
  Variable show : E -> text.

  (** ComTree.h:279-283: the loop over the nodes; [i] is the field _index of the node, which grows by [step] from node to node (ComTree.h:267) *)
  Fixpoint com_print_loop (step i : N) (t : list E) : text :=
    match t with
    | [] => []
    | e :: t' =>
        (if N.land i (i - 1) =? 0 then [newline] ++ txt " " ++ decimal i ++ txt ":" else [])%N ++
        txt " " ++ show e ++ com_print_loop step (i + step)%N t'
    end.
  (** ComTree.h:277-285 print; [scale] is 1, or sizeof(Entry) if FastIndex (ComTree.h:60) *)
  Definition com_print (scale : N) (t : list E) : text := com_print_loop scale scale t ++ txt "}" ++ [newline].
  (** Heap.h:136-138 print; [size] is sizeof(Entry) *)
  Definition heap_print (fastIndex dedup : bool) (size : N) (t : list E) : text :=
    heap_name fastIndex dedup ++ txt ": {" ++ com_print (if fastIndex then size else 1) t ++ txt "}" ++ [newline].
  (** TourTree.h:217-219 print; the entries of the ComTree are pointers to players (TourTree.h:70), and so is [E] here *)
  Definition tour_print (fastIndex : bool) (size : N) (t : list E) : text :=
    tour_name fastIndex ++ txt ": {" ++ [newline] ++ com_print (if fastIndex then size else 1) t ++ txt "}" ++ [newline].
  (** StlSet.h:36-42 print *)
  Definition stlset_print (m : list E) : text :=
    stlset_name ++ txt ":" ++ [newline] ++ flat_map (fun e => txt " " ++ show e) m ++ [newline].

  (** Geobucket.h:491-497: the entries of a bucket *)
  Definition bucket_entries (l : list E) : res text :=
    if (4 <? length l)%nat then
      let* a := vget l 0 in let* b := vget l 1 in let* c := vget l (length l - 2) in let* d := vget l (length l - 1) in
      Ok (txt " " ++ show a ++ txt " " ++ show b ++ txt " ... " ++ show c ++ txt " " ++ show d)
    else Ok (flat_map (fun e => txt " " ++ show e) l).
  (** Geobucket.h:489-499: the lines of the buckets from number [n] on *)
  Fixpoint buckets_print (n : nat) (bs : list (bucket E)) : res text :=
    match bs with
    | [] => Ok []
    | b :: bs' =>
        let* es := bucket_entries (b_ents b) in
        let* rest := buckets_print (S n) bs' in
        Ok (txt " " ++ decimal (N.of_nat n) ++ txt ":" ++ es ++ txt " [" ++ decimal (N.of_nat (length (b_ents b))) ++ txt "/" ++ decimal (N.of_nat (b_cap b)) ++ txt "]" ++
            [newline] ++ rest)
    end.
  (** Geobucket.h:487-501 print *)
  Definition geobucket_print (C : config) (bs : list (bucket E)) : res text :=
    let* body := buckets_print 0 bs in
    Ok (geobucket_name C ++ txt ": {" ++ [newline] ++ body ++ txt "}" ++ [newline]).
End Queues.

Section Trees.
  Context {M : Type}.
  (** out << entry, out << exponent, and out << node for the node at the end of a way from the root *)
  Variable show : M -> text.
  Variable show_exponent : Z -> text.
  Variable show_node : list bool -> text.

  (** BinaryKDTree.h:607-610 and PackedKDTree.h:563-566: the entries of a leaf from number [i] on *)
  Fixpoint entries_print (i : nat) (l : list (ext M)) : text :=
    match l with
    | [] => []
    | e :: l' => txt "Entry " ++ decimal (N.of_nat (i + 1)) ++ txt ": " ++ show (x_t e) ++ [newline] ++ entries_print (S i) l'
    end.
  (** BinaryKDTree.h:592-617: [p] is the way to the node, the stack is _tmp; the strictly-greater side is pushed last and so comes first *)
  Fixpoint binary_loop (fuel : nat) (p : list bool) (t : tree M) (stack : todo) : res text :=
    match fuel with
    | 0 => NoFuel
    | S f =>
        match t with
        | Split v e _ le gt =>
            let* rest := binary_loop f (p ++ [true]) gt ((p ++ [false], le) :: stack) in
            Ok (txt "**** Interior Node " ++ show_node p ++ [newline] ++
                txt "Split on " ++ decimal (N.of_nat v) ++ txt "^" ++ show_exponent e ++ [newline] ++
                txt "Child <=: " ++ show_node (p ++ [false]) ++ [newline] ++
                txt "Child > : " ++ show_node (p ++ [true]) ++ [newline] ++ [newline] ++ rest)
        | Leaf a =>
            let* rest := match stack with [] => Ok [] | (p', t') :: stack' => binary_loop f p' t' stack' end in
            Ok (txt "**** Leaf Node " ++ show_node p ++ [newline] ++ entries_print 0 (a_list a) ++ [newline] ++ rest)
        end
    end.
  (** BinaryKDTree.h:587-620 print *)
  Definition binary_print (root : option (tree M)) : res text :=
    let* body := match root with None => Ok [] | Some t => binary_loop (nodes t) [] t [] end in
    Ok (txt "<<<<<<<< BinaryKDTree >>>>>>>>" ++ [newline] ++ body).

  (** PackedKDTree.h:556-562: the lines of the children of a node from number [i] on, and _tmp with the children pushed *)
  Fixpoint children_print (i : nat) (p : list bool) (t : tree M) (stack : todo) : text * todo :=
    match t with
    | Leaf _ => ([], stack)
    | Split v e _ le gt =>
        let '(lines, stack') := children_print (S i) (p ++ [false]) le ((p ++ [true], gt) :: stack) in
        (txt "Child " ++ decimal (N.of_nat (i + 1)) ++ txt ": >" ++ decimal (N.of_nat (v + 1)) ++ txt "^" ++ show_exponent e ++ txt " " ++ show_node (p ++ [true]) ++ [newline] ++
         lines, stack')
    end.
  (** PackedKDTree.h:553-571 *)
  Fixpoint packed_loop (fuel : nat) (p : list bool) (t : tree M) (stack : todo) : res text :=
    match fuel with
    | 0 => NoFuel
    | S f =>
        let '(children, stack1) := children_print 0 p t stack in
        let* rest := match stack1 with [] => Ok [] | (p', t') :: stack' => packed_loop f p' t' stack' end in
        Ok (txt "**** Node " ++ show_node p ++ [newline] ++ txt "children:" ++ [newline] ++ children ++ entries_print 0 (a_list (node_entries t)) ++ [newline] ++ rest)
    end.
  (** PackedKDTree.h:548-573 print *)
  Definition packed_print (root : option (tree M)) : res text :=
    let* body := match root with None => Ok [] | Some t => packed_loop (nodes t) [] t [] end in
    Ok (txt "<<<<<<<< PackedKDTree >>>>>>>>" ++ [newline] ++ body).
End Trees.
