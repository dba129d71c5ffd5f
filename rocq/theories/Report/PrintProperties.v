(** Property theorems about the print functions (C79). *)
From Coq Require Import List Bool Arith NArith ZArith Ascii String Lia Permutation.
From Verif.Base Require Import Res Arr Text.
From Verif.Spec Require Import PQ Lines.
From Verif.DivMask Require Import Model.
From Verif.Geobucket Require Model.
From Verif.KD Require Import EntryArray Tree Model.
From Verif.TourMem Require Model CopyProofs.
From Verif.Report Require Import Names NamesProofs Print PrintProofs.
Import ListNotations.
Local Notation length := List.length.

(** An entry is shown as a word, and different entries as different words. *)
Definition shows_words {E : Type} (show : E -> text) : Prop :=
  (forall e, ~ In space (show e) /\ ~ In newline (show e)) /\ forall e e', show e = show e' -> e = e'.

(** C79.  What a heap prints determines its entries and their places. *)
Theorem C79_heap_print : forall (E : Type) (show : E -> text) fi dd size t t', shows_words show ->
  heap_print show fi dd size t = heap_print show fi dd size t' -> t = t'.
Proof. exact (fun E show fi dd size t t' H => heap_print_inj show (proj1 H) (proj2 H) fi dd size t t'). Qed.
Print Assumptions C79_heap_print.
(** C79.  Each level of the tree is on a line of its own, which begins with the index of its first node (with the offset of that node if fastIndex). *)
Theorem C79_heap_levels : forall (E : Type) (show : E -> text) (fi dd : bool) s t, let scale := (if fi then 2 ^ s else 1)%N in
  heap_print show fi dd (2 ^ s) t = heap_name fi dd ++ txt ": {" ++
    flat_map (fun k => newline :: txt " " ++ decimal (2 ^ N.of_nat k * scale) ++ txt ":" ++
                       flat_map (fun e => txt " " ++ show e) (firstn (2 ^ k) (skipn (2 ^ k - 1) t)))
             (seq 0 (Nat.log2_up (length t + 1))) ++
    txt "}" ++ [newline] ++ txt "}" ++ [newline].
Proof. intros E show fi dd s t scale. exact (heap_levels show fi dd s t). Qed.
Print Assumptions C79_heap_levels.
(** C79.  "The braces match" is false of every heap and every tournament tree: one is opened and two are closed. *)
Theorem C79_braces_refuted : forall (E : Type) (show : E -> text) fi dd size t, (forall e, occurrences "{" (show e) = 0 /\ occurrences "}" (show e) = 0) ->
  (occurrences "{" (heap_print show fi dd size t) = 1 /\ occurrences "}" (heap_print show fi dd size t) = 2) /\
  (occurrences "{" (tour_print show fi size t) = 1 /\ occurrences "}" (tour_print show fi size t) = 2).
Proof. exact (fun E show fi dd size t H => conj (heap_braces show fi dd size t H) (tour_braces show fi size t H)). Qed.
Print Assumptions C79_braces_refuted.
(** C79.  "What a tournament tree prints determines its entries" is false: it prints the addresses of its players, whatever the way addresses are shown. *)
Theorem C79_tourtree_print_refuted : exists w w' rs rs' s s',
  run (TourMem.Model.w_step Nat.ltb) CopyProofs.start [TourMem.Model.WNew; TourMem.Model.WCall 0 (Push 3); TourMem.Model.WCall 0 Top] = Ok (w, rs) /\
  run (TourMem.Model.w_step Nat.ltb) CopyProofs.start [TourMem.Model.WNew; TourMem.Model.WCall 0 (Push 8); TourMem.Model.WCall 0 Top] = Ok (w', rs') /\ rs <> rs' /\
  TourMem.Model.w_trees w = [Some s] /\ TourMem.Model.w_trees w' = [Some s'] /\
  forall show fi size, tour_print show fi size (TourMem.Model.m_tree s) = tour_print show fi size (TourMem.Model.m_tree s').
Proof. do 6 eexists. split; [vm_compute; reflexivity|]. split; [vm_compute; reflexivity|]. split; [discriminate|]. split; [reflexivity|]. split; reflexivity. Qed.
Print Assumptions C79_tourtree_print_refuted.
(** C79.  What an StlSet prints determines its entries and their order. *)
Theorem C79_stlset_print : forall (E : Type) (show : E -> text) m m', shows_words show -> stlset_print show m = stlset_print show m' -> m = m'.
Proof. exact (fun E show m m' H => stlset_print_inj show (proj1 H) (proj2 H) m m'). Qed.
Print Assumptions C79_stlset_print.

(** C79.  What a geobucket prints determines how many buckets it has, how many entries each holds and has room for, and the entries of buckets with at most four. *)
Theorem C79_geobucket_print_partial : forall (E : Type) (show : E -> text) C bs, shows_words show ->
  (exists t, geobucket_print show C bs = Ok t) /\
  forall bs', geobucket_print show C bs = geobucket_print show C bs' ->
    Forall2 (fun b b' => length (Geobucket.Model.b_ents b) = length (Geobucket.Model.b_ents b') /\ Geobucket.Model.b_cap b = Geobucket.Model.b_cap b' /\
                         (length (Geobucket.Model.b_ents b) <= 4 -> Geobucket.Model.b_ents b = Geobucket.Model.b_ents b')) bs bs'.
Proof. exact (fun E show C bs H => geobucket_prints show (proj1 H) (proj2 H) C bs). Qed.
Print Assumptions C79_geobucket_print_partial.
(** Buckets for five, ten, ... entries *)
Definition five : Geobucket.Model.config := Geobucket.Model.mk_config 2 5 1 false false false false false Geobucket.Model.Plain.
(** C79.  "... and all its entries" is false: of more than four entries the first two and the last two are printed. *)
Theorem C79_geobucket_print_refuted : exists g g' rs rs',
  run (Geobucket.Model.gb_step nat Nat.ltb Nat.eqb max five) (Geobucket.Model.gb_new nat five) [PushRange [9; 8; 6; 4; 2]; ForAll] = Ok (g, rs) /\
  run (Geobucket.Model.gb_step nat Nat.ltb Nat.eqb max five) (Geobucket.Model.gb_new nat five) [PushRange [9; 8; 5; 4; 2]; ForAll] = Ok (g', rs') /\
  rs <> rs' /\ forall show, geobucket_print show five (Geobucket.Model.g_bs g) = geobucket_print show five (Geobucket.Model.g_bs g').
Proof. do 4 eexists. split; [vm_compute; reflexivity|]. split; [vm_compute; reflexivity|]. split; [discriminate|reflexivity]. Qed.
Print Assumptions C79_geobucket_print_refuted.

(** C79.  A KD tree of either kind prints each of its entries exactly once: the lines "Entry n: x" are those of its contents, in some order. *)
Theorem C79_kdtree_print : forall (M : Type) (show : M -> text) (show_exponent : Z -> text) (show_node : list bool -> text) (s : kd M) (packed : bool),
  (forall m, ~ In newline (show m)) -> (forall e, ~ In newline (show_exponent e)) -> (forall p, ~ In newline (show_node p)) ->
  exists t, (if packed then packed_print show show_exponent show_node (k_tree s) else binary_print show show_exponent show_node (k_tree s)) = Ok t /\
            Permutation (entries_shown t) (map show (kcontents s)).
Proof. exact (fun M show sx sn s packed H1 H2 H3 => kd_prints show sx sn H1 H2 H3 s packed). Qed.
Print Assumptions C79_kdtree_print.

(** Numbers are shown as words; a heap with five numbers, and a tree with two leaves. *)
Definition show_nat (n : nat) : text := decimal (N.of_nat n).
Definition heap_example : string := "heap(si): {
 1: 9
 2: 7 5
 4: 1 2}
}
".
Definition tree_example : string := "<<<<<<<< BinaryKDTree >>>>>>>>
**** Interior Node x
Split on 1^4
Child <=: x0
Child > : x1

**** Leaf Node x1
Entry 1: 30

**** Leaf Node x0
Entry 1: 10
Entry 2: 20

".
Example C79_nonvacuous : shows_words show_nat /\ heap_print show_nat false false 8 [9; 7; 5; 1; 2] = txt heap_example /\
  binary_print show_nat (fun z => decimal (Z.to_N z)) (fun p => txt "x" ++ map (fun b : bool => if b then "1"%char else "0"%char) p)
    (Some (Split 1 4%Z 0%N (Leaf (mk_arr [mk_ext 10 0%N; mk_ext 20 0%N] 0%N)) (Leaf (mk_arr [mk_ext 30 0%N] 0%N)))) = Ok (txt tree_example) /\
  entries_shown (txt tree_example) = [txt "30"; txt "10"; txt "20"].
Proof.
  split; [|split; [vm_compute; reflexivity|split; vm_compute; reflexivity]]. split.
  - intros n. split; apply digit_not; reflexivity.
  - intros n m H. apply decimal_inj in H. now apply Nnat.Nat2N.inj.
Qed.
