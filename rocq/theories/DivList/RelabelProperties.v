(** Property theorems: DivList looks at entries only through the functions of the configuration (C111). *)
From Coq Require Import List Arith Bool ZArith NArith.
From Verif.Base Require Import Res Arr.
From Verif.DivMask Require Import Model.
From Verif.Spec Require Import DivFinder.
From Verif.DivList Require Import Model RelabelProofs.
From Verif.Queues Require Import RelabelProofs.
Import ListNotations.

(** A history from the constructor on, and its answers *)
Definition answers M ex nvars T sort_data use divides less linked sorted auto ratio rmin sort_ext ops : res (list (dout M)) :=
  let* s := construct M ex nvars T sort_data use auto ratio rmin in
  rmap snd (run (step M ex nvars T sort_data use divides less linked sorted auto ratio rmin sort_ext) s ops).

(** C111.  If [f] preserves exponents, divisibility and the order, and std::sort cannot tell the entries from their images either, then the list of the images answers in
    every history with the images of the answers, provided the callbacks give the same advice, and is undefined if and only if the other is. *)
Theorem C111_divlist :
  forall (M P : Type) (f : M -> P) ex ex' divides divides' less less' nvars T sort_data use linked sorted auto ratio rmin sort_ext sort_ext',
  (forall a v, ex' (f a) v = ex a v) -> (forall a b, divides' (f a) (f b) = divides a b) -> (forall a b, less' (f a) (f b) = less a b) ->
  (forall l, sort_ext' (map (emap f) l) = map (emap f) (sort_ext l)) ->
  forall ops ops', Forall2 (dop_rel f) ops ops' ->
  answers P ex' nvars T sort_data use divides' less' linked sorted auto ratio rmin sort_ext' ops' =
  rmap (map (dout_map f)) (answers M ex nvars T sort_data use divides less linked sorted auto ratio rmin sort_ext ops).
Proof.
  intros * Hex Hd Hl Hs ops ops' H. unfold answers. rewrite (construct_map f ex ex' nvars T sort_data use auto ratio rmin Hex). go.
  rewrite (dl_run_map f ex ex' divides less divides' less' nvars T sort_data use linked sorted auto ratio rmin sort_ext sort_ext' Hex Hd Hl Hs ops ops' H). now destruct (run _ a ops).
Qed.
Print Assumptions C111_divlist.

(** C111.  Entries that carry something besides their monomial: what they carry has no influence on which monomials are found, reported or removed. *)
Theorem C111_only_monomials_matter :
  forall (E M : Type) (mono : E -> M) ex divides less nvars T sort_data use linked sorted auto ratio rmin sort_ext sort_mono,
  (forall l, sort_mono (map (emap mono) l) = map (emap mono) (sort_ext l)) ->
  forall ops1 ops2 ops', Forall2 (dop_rel mono) ops1 ops' -> Forall2 (dop_rel mono) ops2 ops' ->
  let run_on ops := answers E (fun e => ex (mono e)) nvars T sort_data use (fun a b => divides (mono a) (mono b)) (fun a b => less (mono a) (mono b)) linked sorted auto ratio rmin sort_ext ops in
  rmap (map (dout_map mono)) (run_on ops1) = rmap (map (dout_map mono)) (run_on ops2).
Proof.
  intros * Hs ops1 ops2 ops' H1 H2 run_on.
  assert (G : forall ops, Forall2 (dop_rel mono) ops ops' ->
    answers M ex nvars T sort_data use divides less linked sorted auto ratio rmin sort_mono ops' = rmap (map (dout_map mono)) (run_on ops)) by (intros ops H; now apply C111_divlist).
  now rewrite <- (G ops1 H1), <- (G ops2 H2).
Qed.
Print Assumptions C111_only_monomials_matter.

(** C111 on an example: powers of one variable with a coefficient, in a sorted list with masks; insertion sort commutes with forgetting the coefficient. *)
Definition ex_exp (e : nat) (v : nat) : Z := Z.of_nat e.
Definition sort_by {E} (mono : E -> nat) (l : list (ext E)) : list (ext E) := fold_left (fun s x => insert_list E (fun a b => mono a <? mono b) s x) l [].
Definition ex_dops (c : nat) : list (dop (nat * nat)) :=
  [DInsertRange [(5, c); (3, c + 1)]; DInsert (4, c); DFindDivisor (4, 77); DAllDivisors (9, c) (fun l => length l <? 2); DRemoveMultiples (4, c); DForAll (fun _ => true)].
Definition ex_dops' : list (dop nat) := [DInsertRange [5; 3]; DInsert 4; DFindDivisor 4; DAllDivisors 9 (fun l => length l <? 2); DRemoveMultiples 4; DForAll (fun _ => true)].
Definition ex_answers (ops : list (dop (nat * nat))) :=
  answers (nat * nat) (fun e => ex_exp (fst e)) 1 Unbounded (fun l => l) true (fun a b => fst a <=? fst b) (fun a b => fst a <? fst b) false true true (fun n => n) 2 (sort_by fst) ops.
Lemma sort_by_map (l : list (ext (nat * nat))) : sort_by (fun e => e) (map (emap fst) l) = map (emap fst) (sort_by fst l).
Proof.
  unfold sort_by. change (@nil (ext nat)) with (map (emap (@fst nat nat)) []). generalize (@nil (ext (nat * nat))).
  induction l as [|x l IH]; intros s; cbn [fold_left map]; [reflexivity|]. rewrite <- IH. f_equal. now apply insert_list_map.
Qed.
Example C111_divlist_nonvacuous :
  (forall c, Forall2 (dop_rel fst) (ex_dops c) ex_dops') /\ ex_answers (ex_dops 1) <> ex_answers (ex_dops 2) /\
  ex_answers (ex_dops 1) = Ok [DONone; DONone; DOFound (Some (3, 2)); DOList [(3, 2); (4, 1)]; DORemoved true [(4, 1); (5, 1)]; DOList [(3, 2)]].
Proof.
  split; [|split; vm_compute; [discriminate|reflexivity]]. intros c. unfold ex_dops, ex_dops'.
  repeat constructor. intros l. now rewrite map_length.
Qed.
