(** Property theorems: KD trees look at entries only through the functions of the configuration (C113). *)
From Coq Require Import List Arith Bool ZArith NArith String.
From Verif.Base Require Import Res Arr StdAlg.
From Verif.DivMask Require Import Model.
From Verif.Spec Require Import DivFinder.
From Verif.DivList Require Import RelabelProofs.
From Verif.KD Require Import EntryArray Tree Model RelabelProofs.
From Verif.Queues Require Import RelabelProofs.
Import ListNotations.

(** A history from the constructor on, and its answers *)
Definition kd_answers {M} (C : kconf M) (packed : bool) (ops : list (dop M)) : res (list (dout M)) := let* s := construct C in rmap snd (run (step C packed) s ops).

(** [f] preserves what the configuration computes from entries, and std::sort and std::partition cannot tell the entries from their images either. *)
Definition unnoticed {M P} (f : M -> P) (C : kconf M) (ex' : P -> nat -> Z) (divides' less' : P -> P -> bool) (sort' : list (ext P) -> list (ext P))
  (part_ext' : (ext P -> bool) -> list (ext P) -> list (ext P) * list (ext P)) (part' : (P -> bool) -> list P -> list P * list P) : Prop :=
  (forall a v, ex' (f a) v = c_ex C a v) /\ (forall a b, divides' (f a) (f b) = c_divides C a b) /\ (forall a b, less' (f a) (f b) = c_less C a b) /\
  (forall l, sort' (map (emap f) l) = map (emap f) (c_sort_ext C l)) /\
  (forall p p' l, (forall x, p' (emap f x) = p x) -> part_ext' p' (map (emap f) l) = (map (emap f) (fst (c_part_ext C p l)), map (emap f) (snd (c_part_ext C p l)))) /\
  (forall p p' l, (forall x, p' (f x) = p x) -> part' p' (map f l) = (map f (fst (c_part C p l)), map f (snd (c_part C p l)))).

(** C113.  The tree of the images answers in every history with the images of the answers, provided the callbacks give the same advice; it throws the same exceptions, and is
    undefined if and only if the other is. *)
Theorem C113_kdtree :
  forall (M P : Type) (f : M -> P) (C : kconf M) ex' divides' less' sort' part_ext' part', unnoticed f C ex' divides' less' sort' part_ext' part' ->
  forall packed ops ops', Forall2 (dop_rel f) ops ops' ->
  kd_answers (other_entries C ex' divides' less' sort' part_ext' part') packed ops' = rmap (map (dout_map f)) (kd_answers C packed ops).
Proof.
  intros * (H1 & H2 & H3 & H4 & H5 & H6) packed ops ops' H. unfold kd_answers. rewrite (construct_map f C) by assumption. go.
  rewrite (kd_run_map f C ex' divides' less' sort' part_ext' part' H1 H2 H3 H4 H5 H6 packed ops ops' H). now destruct (run _ a ops).
Qed.
Print Assumptions C113_kdtree.

(** C113.  What an entry carries besides its monomial has no influence on which monomials are found, reported or removed. *)
Theorem C113_only_monomials_matter :
  forall (E M : Type) (mono : E -> M) (C : kconf E) ex divides less sort' part_ext' part', unnoticed mono C ex divides less sort' part_ext' part' ->
  forall packed ops1 ops2 ops', Forall2 (dop_rel mono) ops1 ops' -> Forall2 (dop_rel mono) ops2 ops' ->
  rmap (map (dout_map mono)) (kd_answers C packed ops1) = rmap (map (dout_map mono)) (kd_answers C packed ops2).
Proof. intros * H packed ops1 ops2 ops' H1 H2. now rewrite <- (C113_kdtree _ _ _ _ _ _ _ _ _ _ H packed ops1 ops' H1), <- (C113_kdtree _ _ _ _ _ _ _ _ _ _ H packed ops2 ops' H2). Qed.
Print Assumptions C113_only_monomials_matter.

(** C113 on an example: monomials in two variables with a coefficient, leaves of two entries, masks, sorted leaves, a divisor cache and automatic rebuilds *)
Notation entry := ((nat * nat) * nat)%type.
Definition ex_exp (m : nat * nat) (v : nat) : Z := Z.of_nat (if v =? 0 then fst m else snd m).
Definition ex_div (a b : nat * nat) : bool := (fst a <=? fst b) && (snd a <=? snd b).
Definition ex_less (a b : nat * nat) : bool := (fst a <? fst b) || ((fst a =? fst b) && (snd a <? snd b)).
Definition ins_sort {E} (less : E -> E -> bool) (l : list (ext E)) : list (ext E) := fold_left (fun s x => DivList.Model.insert_list E less s x) l [].
Definition ex_conf : kconf entry :=
  mk_kconf entry (fun e => ex_exp (fst e)) 2 Unbounded (fun a b => ex_div (fst a) (fst b)) (fun a b => ex_less (fst a) (fst b)) true true 2 true true true true (fun n => n) 3
    (fun l => l) (ins_sort (fun a b => ex_less (fst a) (fst b))) keep_order keep_order.
Definition ex_kops (c : nat) : list (dop entry) :=
  [DInsert ((5, 1), c); DInsert ((3, 4), c + 1); DInsert ((4, 2), c); DInsert ((0, 7), c); DFindDivisor ((4, 4), 77); DAllDivisors ((9, 9), c) (fun l => List.length l <? 2);
   DRemoveMultiples ((3, 2), c); DForAll (fun _ => true); DSize].
Definition ex_kops' : list (dop (nat * nat)) :=
  [DInsert (5, 1); DInsert (3, 4); DInsert (4, 2); DInsert (0, 7); DFindDivisor (4, 4); DAllDivisors (9, 9) (fun l => List.length l <? 2);
   DRemoveMultiples (3, 2); DForAll (fun _ => true); DSize].
Lemma keep_order_map {A B} (g : A -> B) p p' l : (forall x, p' (g x) = p x) -> keep_order p' (map g l) = (map g (fst (keep_order p l)), map g (snd (keep_order p l))).
Proof. intros H. unfold keep_order. cbn [fst snd]. f_equal; induction l as [|x l IH]; cbn [map filter]; try reflexivity; rewrite H, IH; now destruct (p x). Qed.
Example C113_nonvacuous :
  unnoticed (@fst (nat * nat) nat) ex_conf ex_exp ex_div ex_less (ins_sort ex_less) keep_order keep_order /\
  (forall c, Forall2 (dop_rel fst) (ex_kops c) ex_kops') /\
  (forall packed, kd_answers ex_conf packed (ex_kops 1) <> kd_answers ex_conf packed (ex_kops 2)) /\
  nth_error (match kd_answers ex_conf true (ex_kops 1) with Ok l => l | _ => [] end) 6 = Some (DORemoved true [((3, 4), 2); ((4, 2), 1)]).
Proof.
  repeat split; try reflexivity.
  - intros l. cbn [c_sort_ext ex_conf]. unfold ins_sort. change (@nil (ext (nat * nat))) with (map (emap (@fst (nat * nat) nat)) []). generalize (@nil (ext entry)).
    induction l as [|x l IH]; intros s; cbn [fold_left map]; [reflexivity|]. rewrite <- IH. f_equal. now apply insert_list_map.
  - intros. now apply keep_order_map.
  - intros. now apply keep_order_map.
  - intros c. unfold ex_kops, ex_kops'. repeat constructor. intros l. now rewrite map_length.
  - intros []; vm_compute; discriminate.
Qed.
