(** Model of the names that data structures give themselves: getName of Heap.h, TourTree.h, Geobucket.h, StlSet.h, PairQueue.h, DivList.h and KDTree.h, and of
    the models of pqsim and divsim.

    How a std::ostream shows the double getRebuildRatio() is not modelled: the text it writes is a parameter. *)
From Coq Require Import List Bool NArith Ascii String.
From Verif.Base Require Import Text.
From Verif.Geobucket Require Import Model.
From Verif.KD Require Import EntryArray.
From Verif.PqSim Require Model.
From Verif.DivSim Require Model.
Import ListNotations.
Local Notation length := List.length.

(** (b ? s : "") (Heap.h:93, Geobucket.h:331-339, KDTree.h:321-325) *)
Definition opt (b : bool) (s : string) : text := if b then txt s else [].
(** (b ? s : t) (Heap.h:92, TourTree.h:103, KDTree.h:312) *)
Definition alt (b : bool) (s t : string) : text := if b then txt s else txt t.

(** Heap.h:89-95 *)
Definition heap_name (fastIndex supportDeduplication : bool) : text :=
  txt "heap(" ++ alt fastIndex "fi" "si" ++ opt supportDeduplication " dedup" ++ txt ")".
(** TourTree.h:100-105 *)
Definition tour_name (fastIndex : bool) : text := txt "t-tree (" ++ alt fastIndex "fi" "si" ++ txt ")".
(** StlSet.h:21 *)
Definition stlset_name : text := txt "stlset".
(** Geobucket.h:325-341 *)
Definition geobucket_name (C : config) : text :=
  txt "Geobucket(" ++ txt "b" ++ decimal (N.of_nat (geoBase C)) ++ txt "m" ++ decimal (N.of_nat (minBucketSize C)) ++ txt "i" ++ decimal (N.of_nat (insertFactor C)) ++
  opt (minBucketBinarySearch C) " mbin" ++ opt (trackFront C) " tf" ++ opt (supportDeduplication C) " dedup" ++ opt (premerge C) " prem" ++ opt (collectMax C) " col" ++
  opt (match bucketStorage C with DoubleBuffer => true | _ => false end) " db" ++ opt (match bucketStorage C with SameSizeBuffer => true | _ => false end) " ss" ++ txt ")".
(** PairQueue.h:617-620; the queue of columns is a TourTree whose fastIndex is false (368, 371) *)
Definition pairqueue_name : text := txt "PairQueue-" ++ tour_name false.

(** DivList.h:560-563 and KDTree.h:316-319: the part about automatic rebuilds; [ratio] is how the rebuild ratio is shown *)
Definition autob (mask auto : bool) (ratio : text) (rmin : nat) : text :=
  if mask && auto then txt " autob:" ++ ratio ++ txt "/" ++ decimal (N.of_nat rmin) else [].
(** DivList.h:556-567 *)
Definition divlist_name (linked mask auto sorted : bool) (ratio : text) (rmin : nat) : text :=
  txt "DivList" ++ alt linked " linked" " array" ++ autob mask auto ratio rmin ++ opt sorted " sort" ++ opt mask " dmask".
(** KDTree.h:310-326 *)
Definition kdtree_name {M : Type} (C : kconf M) (packed : bool) (ratio : text) : text :=
  txt "KDTree(" ++ alt packed "packed" "binary" ++ txt ")" ++ txt " leaf:" ++ decimal (N.of_nat (c_leaf C)) ++ autob (c_use C) (c_auto C) ratio (c_min C) ++
  opt (c_use C && negb (c_tree C)) " dmask" ++ opt (c_tree C) " tree-dmask" ++ opt (c_sorted C) " sort" ++ opt (c_cache C) " cache" ++
  (if c_removals C then [] else txt " no-removals").

(** pqsim/Model.h:44-48 *)
Definition queue_name (name : text) (useDecreaseTop onSpans : bool) : text := name ++ opt useDecreaseTop " dectop" ++ alt onSpans " on spans" " on elements".
(** The queues of pqsim: TourTreeModel.h:12-14, HeapModel.h:12-14, StlSetModel.h:7-8, GeobucketModel.h:30-64 *)
Inductive queue := QTour (onSpans fastIndex : bool) | QHeap (onSpans dedup fastIndex : bool) | QStl (onSpans : bool) | QGeo (onSpans : bool) (C : config).
(** pqsim/Model.h:44-48 for each of them *)
Definition name_of_queue (q : queue) : text :=
  match q with
  | QTour onSpans fastIndex => queue_name (tour_name fastIndex) true onSpans
  | QHeap onSpans dedup fastIndex => queue_name (heap_name fastIndex dedup) true onSpans
  | QStl onSpans => queue_name stlset_name false onSpans
  | QGeo onSpans C => queue_name (geobucket_name C) false onSpans
  end.
(** The model in PqSim/Model.v of a queue of TourTreeModel.h:12-14, HeapModel.h:12-14, StlSetModel.h:7-8 or GeobucketModel.h:30-64; Geobucket with both de-duplication and spans has none *)
Definition queue_model (q : queue) : PqSim.Model.subject :=
  match q with
  | QTour onSpans _ => if onSpans then PqSim.Model.tourtree_on_spans else PqSim.Model.tourtree_on_values
  | QHeap onSpans dedup _ => if onSpans then PqSim.Model.heap_on_spans dedup else PqSim.Model.heap_on_values dedup
  | QStl onSpans => if onSpans then PqSim.Model.stlset_on_spans else PqSim.Model.stlset_on_values
  | QGeo onSpans C => if onSpans then PqSim.Model.geobucket_on_spans C else PqSim.Model.geobucket_on_values C
  end.
(** pqMain.cpp:47-48 and 50-60 *)
Definition main_queues (debug : bool) : list queue :=
  if debug then [QTour false false; QHeap false false false]
  else [QTour true false; QTour false false; QGeo false (PqSim.Model.main_geobucket 4 false); QGeo false (PqSim.Model.main_geobucket 2 false);
        QGeo false (PqSim.Model.main_geobucket 4 true); QStl true; QStl false; QHeap false false false; QHeap true false false; QHeap false true false; QHeap true true false].

(** The finders of divsim with the arguments of their constructors (DivListModel.h:97-113, KDTreeModel.h:101-118) and how their ratio is shown *)
Inductive finder :=
| FList (ULL UDM minimizeOnInsert moveDivisorToFront sortOnInsert : bool) (r : DivSim.Model.ratio) (shown : text) (minRebuild : nat)
| FTree (UDM UTDM PT : bool) (LS : nat) (AR minimizeOnInsert sortOnInsert useDivisorCache : bool) (r : DivSim.Model.ratio) (shown : text) (minRebuild : nat).
(** DivListModel.h:188-193 and KDTreeModel.h:187-191.  Whether automatic rebuilds are done is decided by
    DivListModel.h:27 and KDTreeModel.h:34. *)
Definition name_of_finder (std : DivSim.Model.stdlib) (f : finder) : text :=
  match f with
  | FList ULL UDM mini toFront sorted r shown rmin =>
      divlist_name ULL UDM ((DivSim.Model.r_positive r || negb (Nat.eqb rmin 0)) && UDM) sorted shown rmin ++ alt mini " remin" " nomin" ++ opt toFront " toFront"
  | FTree UDM UTDM PT LS AR mini sorted cache r shown rmin =>
      kdtree_name (DivSim.Model.tree_conf std 10 UDM UTDM LS AR sorted cache r rmin) PT shown ++ alt mini " remin" " nomin"
  end.
(** The model in DivSim/Model.v of a finder of DivListModel.h:97-113 or KDTreeModel.h:101-118 *)
Definition finder_model (std : DivSim.Model.stdlib) (f : finder) : DivSim.Model.subject :=
  match f with
  | FList ULL UDM mini toFront sorted r _ rmin => DivSim.Model.list_model std 10 ULL UDM mini toFront sorted r rmin
  | FTree UDM UTDM PT LS AR mini sorted cache r _ rmin => DivSim.Model.tree_model std 10 UDM UTDM PT LS AR mini sorted cache r rmin
  end.
(** divMain.cpp:25-26, the runs without DEBUG, and 63-84, those with DEBUG; the ratios 1.0, 0.0 and 0.5 are shown as 1, 0 and 0.5 *)
Definition main_finders (debug : bool) : list finder :=
  if negb debug then
    [FTree true true true 1 true false false false DivSim.Model.ratio_1 (txt "1") 1000; FTree true true true 1 false false false false DivSim.Model.ratio_1 (txt "1") 1000]
  else
    [FTree false false true 1 false false false false DivSim.Model.ratio_0 (txt "0") 0; FList false false false true false DivSim.Model.ratio_half (txt "0.5") 500] ++
    flat_map (fun sortOnInsert => flat_map (fun useDivCache =>
      let tree UDM UTDM PT LS := FTree UDM UTDM PT LS false false sortOnInsert useDivCache DivSim.Model.ratio_half (txt "0.5") 10 in
      [tree true true true 1; tree true false true 1; tree false false true 1;
       tree true true true 2; tree true false true 2; tree false false true 2;
       tree true true true 3; tree true false true 3; tree false false true 3;
       tree true true true 20;
       tree true true false 1; tree true true false 2; tree true true false 40]) [false; true]) [false; true].
