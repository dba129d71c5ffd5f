(** Properties of the names of data structures (C76): a name determines the configuration it stands for. *)
From Coq Require Import List Bool Arith NArith ZArith Ascii String Lia.
From Verif.Base Require Import Text Res.
From Verif.Spec Require Import DivFinder.
From Verif.Geobucket Require Import Model.
From Verif.KD Require Import EntryArray Legal Model Properties.
From Verif.DivList Require Import Properties.
From Verif.PqSim Require Model.
From Verif.DivSim Require Model.
From Verif.Report Require Import Names NamesProofs.
Import ListNotations.

(** C76.  The names of two geobuckets are the same only if all their options are. *)
Theorem C76_geobucket_name : forall C C' : Geobucket.Model.config, geobucket_name C = geobucket_name C' -> C = C'.
Proof. exact geobucket_name_inj. Qed.
Print Assumptions C76_geobucket_name.
(** C76.  So it is with all queues of pqsim, which have names of their own: kind, options, and whether they hold pointers into spans. *)
Theorem C76_queue_name : forall q q', name_of_queue q = name_of_queue q' -> q = q'.
Proof. exact name_of_queue_inj. Qed.
Print Assumptions C76_queue_name.
Example C76_queue_nonvacuous : name_of_queue (QGeo false (PqSim.Model.main_geobucket 4 true)) = txt "Geobucket(b4m32i1 dedup) on elements"
  /\ name_of_queue (QHeap true true false) = txt "heap(si dedup) dectop on spans" /\ name_of_queue (QTour false false) = txt "t-tree (si) dectop on elements"
  /\ name_of_queue (QStl true) = txt "stlset on spans" /\ pairqueue_name = txt "PairQueue-t-tree (si)".
Proof. repeat split. Qed.

(** C76.  The name of a DivList tells its options, and with masks whether and how it is rebuilt. *)
Theorem C76_divlist_name : forall linked mask auto sorted ratio rmin linked' mask' auto' sorted' ratio' rmin',
  plain_ratio ratio -> plain_ratio ratio' -> divlist_name linked mask auto sorted ratio rmin = divlist_name linked' mask' auto' sorted' ratio' rmin' ->
  linked = linked' /\ mask = mask' /\ sorted = sorted' /\ (mask = true -> auto = auto' /\ (auto = true -> ratio = ratio' /\ rmin = rmin')).
Proof. exact divlist_name_inj. Qed.
Print Assumptions C76_divlist_name.
(** C76.  The name of a KDTree tells its options, and with masks whether and how it is rebuilt.  What is missing is said by
    C76_kdtree_name_refuted. *)
Theorem C76_kdtree_name_partial : forall (M : Type) (C C' : kconf M) packed packed' ratio ratio',
  plain_ratio ratio -> plain_ratio ratio' -> (c_tree C = true -> c_use C = true) -> (c_tree C' = true -> c_use C' = true) ->
  kdtree_name C packed ratio = kdtree_name C' packed' ratio' ->
  packed = packed' /\ c_leaf C = c_leaf C' /\ c_use C = c_use C' /\ c_tree C = c_tree C' /\ c_sorted C = c_sorted C' /\ c_cache C = c_cache C' /\ c_removals C = c_removals C' /\
  (c_use C = true -> c_auto C = c_auto C' /\ (c_auto C = true -> ratio = ratio' /\ c_min C = c_min C')).
Proof. exact @kdtree_name_inj. Qed.
Print Assumptions C76_kdtree_name_partial.
(** C76.  Without masks the name is silent about automatic rebuilds, although the tree is rebuilt and then handed to forAll in another order. *)
Theorem C76_kdtree_name_refuted : exists (C C' : kconf mono) (ops : list (dop mono)),
  klegal C int_mono /\ klegal C' int_mono /\ kdtree_name C false (txt "0.5") = kdtree_name C' false (txt "0.5") /\
  tree_answers C false ops <> tree_answers C' false ops.
Proof.
  exists (mono_tree false false 2 true false false true), (mono_tree false false 2 true false false false).
  exists [DInsert (0, 9); DInsert (1, 8); DInsert (2, 7); DInsert (3, 6); DInsert (9, 0); DInsert (8, 1); DForAll go_on]%Z.
  split; [apply mono_tree_legal; auto with arith; discriminate|]. split; [apply mono_tree_legal; auto with arith; discriminate|].
  split; [reflexivity|]. vm_compute. discriminate.
Qed.
Print Assumptions C76_kdtree_name_refuted.
Example C76_finder_nonvacuous : forall std,
  name_of_finder std (FTree true false false 7 false true true true DivSim.Model.ratio_half (txt "0.5") 10)
    = txt "KDTree(binary) leaf:7 autob:0.5/10 dmask sort cache no-removals remin"
  /\ name_of_finder std (FTree true true true 1 true false false false DivSim.Model.ratio_1 (txt "1") 1000) = txt "KDTree(packed) leaf:1 autob:1/1000 tree-dmask nomin"
  /\ name_of_finder std (FList true true true true true DivSim.Model.ratio_half (txt "0.5") 500) = txt "DivList linked autob:0.5/500 sort dmask remin toFront"
  /\ plain_ratio (txt "0.5") /\ plain_ratio (txt "1").
Proof. intros std. repeat split; intros H; repeat destruct H as [H|H]; discriminate || contradiction. Qed.

(** C76.  The queues named are those that pqMain simulates, and no two of them print the same name. *)
Theorem C76_pqMain_names : forall debug, map queue_model (main_queues debug) = PqSim.Model.main_subjects debug /\ NoDup (map name_of_queue (main_queues debug)).
Proof.
  intros debug. split; [destruct debug; reflexivity|]. apply FinFun.Injective_map_NoDup; [exact name_of_queue_inj|].
  destruct debug; repeat constructor; cbn [In]; intros H; repeat destruct H as [H|H]; try discriminate H; contradiction.
Qed.
Print Assumptions C76_pqMain_names.
(** C76.  Two finders of divsim with the same name behave in the same way, if the same text never stands for two ratios. *)
Theorem C76_finder_name : forall std f f',
  plain_ratio (shown_of f) -> plain_ratio (shown_of f') -> (shown_of f = shown_of f' -> ratio_of f = ratio_of f') -> masks_ok f -> masks_ok f' ->
  name_of_finder std f = name_of_finder std f' -> alike (finder_model std f) (finder_model std f').
Proof. exact name_of_finder_alike. Qed.
Print Assumptions C76_finder_name.
(** C76.  The finders named are those that divMain runs; without DEBUG no two print the same name. *)
Theorem C76_divMain_names : forall std, map (finder_model std) (main_finders false) = DivSim.Model.main_subjects std /\
  map (finder_model std) (main_finders true) = DivSim.Model.debug_subjects std /\ NoDup (map (name_of_finder std) (main_finders false)).
Proof.
  intros std. split; [reflexivity|]. split; [reflexivity|]. repeat constructor; cbn [In map name_of_finder]; intros H; repeat destruct H as [H|H]; try discriminate H; contradiction.
Qed.
Print Assumptions C76_divMain_names.
(** C76.  With DEBUG two runs of divMain have the same name: that with ratio 0 and that with ratio 0.5 and 10, both without masks; they do the same. *)
Theorem C76_divMain_names_refuted : forall std, ~ NoDup (map (name_of_finder std) (main_finders true)).
Proof.
  intros std H. pose proof (proj1 (NoDup_nth (map (name_of_finder std) (main_finders true)) []) H 0 4) as E.
  assert (X : 0 = 4) by (apply E; [cbn; lia|cbn; lia|reflexivity]). discriminate.
Qed.
Print Assumptions C76_divMain_names_refuted.
