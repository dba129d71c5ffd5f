(** Property theorems about searches made in the callback of a search of KDTree (C100). *)
From Coq Require Import List Arith Bool ZArith NArith Lia Permutation.
From Verif.Base Require Import Res.
From Verif.Spec Require Import Reach DivFinder DivStale.
From Verif.DivList Require Import Properties.
From Verif.KD Require Import EntryArray Tree Model Legal ArrayProofs Proofs Properties ThrowsProperties Nested NestedProofs.
Import ListNotations.

(** Whatever has been reported, the callback makes searches only. *)
Definition only_searches {M} (inner : list M -> list (dop M)) : Prop := forall xs, forallb is_search (inner xs) = true.
(** Of [all], the callback [cb] got [xs]: different members of it, at least one if there is one, and it agreed to proceed after each but the last. *)
Definition partly {M} (cb : callback M) (all xs : list M) : Prop :=
  exists rest, Permutation (xs ++ rest) all /\ (forall p q, xs = p ++ q -> p <> [] -> q <> [] -> cb p = true) /\ (xs = [] -> all = []).
(** The answer to a search of a finder that holds [l], where some entries [again] may be gone over twice. *)
Definition right_up_to_repeats {M} (divides : M -> M -> bool) (l : list M) (c : dop M * dout M) : Prop :=
  match fst c with
  | DFindDivisor m => exists r, snd c = DOFound r /\ is_divisor divides m l r
  | DSize => snd c = DOSize (length l)
  | o => exists again cb all xs, incl again l /\ wanted divides o (l ++ again) = Some (cb, all) /\ snd c = DOList xs /\ reported cb all xs
  end.
Lemma answers_right {M} (C : kconf M) l log : Forall (answer_ok C l) log -> Forall (right_up_to_repeats (c_divides C) l) log.
Proof.
  intros H. eapply Forall_impl; [|exact H]. intros [o r] (d' & Hs). cbn [fst snd] in Hs. unfold right_up_to_repeats. cbn [fst snd]. inversion Hs; subst; eauto.
  match goal with H1 : wanted _ ?o _ = Some _ |- _ => destruct o; try discriminate H1; eauto 10 end.
Qed.

(** C100.  A callback may search the tree that is being searched.  Each such search returns, findDivisor with a right answer, and the others
    having reported all that they should, though perhaps some of it twice.  The search whose callback it is returns as well: all that it
    reports is right and reported once, and it reports something if there is anything.  The tree holds what it held and is in a state that
    ordinary calls lead to, so that all later calls are as ever. *)
Theorem C100_searches_in_callbacks : forall (M : Type) (C : kconf M) valid packed, klegal C valid ->
  forall ops s rs, kreached C packed valid ops s rs -> forall o cb all inner, wanted (c_divides C) o (kcontents s) = Some (cb, all) -> only_searches inner ->
  exists s' log xs rs', nested C packed s o inner = Ok (s', log, xs) /\ kcontents s' = kcontents s /\
    partly cb all xs /\ Forall (right_up_to_repeats (c_divides C) (kcontents s)) log /\ kreached C packed valid (ops ++ map fst log) s' (rs ++ rs').
Proof.
  intros M C valid packed H ops s rs Hr o cb all inner Hw Hi.
  destruct (nested_ok C valid H packed s o cb all inner (kreached_inv C packed valid ops s rs H Hr) Hi Hw) as (s' & log & xs & E & H1 & [(zs & rest & G1 & G2 & G3 & G4) _] & H3 & H4 & rs' & H5).
  cbn [app] in *. subst zs. exists s', log, xs, rs'. split; auto. split; auto. split; [exists rest; auto|]. split; [now apply answers_right|]. eapply kreached_more; eauto.
Qed.
Print Assumptions C100_searches_in_callbacks.

(** C100.  A callback that does not search, but for size(), gets everything that it wants. *)
Theorem C100_callbacks_that_do_not_search : forall (M : Type) (C : kconf M) valid packed, klegal C valid ->
  forall ops s rs, kreached C packed valid ops s rs -> forall o cb all inner, wanted (c_divides C) o (kcontents s) = Some (cb, all) ->
  (forall xs o, In o (inner xs) -> o = DSize) -> exists s' log xs, nested C packed s o inner = Ok (s', log, xs) /\ reported cb all xs.
Proof.
  intros M C valid packed H ops s rs Hr o cb all inner Hw Hq.
  assert (Hi : only_searches inner) by (intros xs; apply forallb_forall; intros o' Ho; now rewrite (Hq xs o' Ho)).
  destruct (nested_ok C valid H packed s o cb all inner (kreached_inv C packed valid ops s rs H Hr) Hi Hw) as (s' & log & xs & E & _ & [_ G] & _).
  exists s', log, xs. split; auto. destruct (G Hq) as [go Hf]. eapply feeds_reported; exact Hf.
Qed.
Print Assumptions C100_callbacks_that_do_not_search.

(** What a client would like: the search reports all that the callback wants, and the searches in the callback report what is there. *)
Definition outer_right (packed : bool) (which : dop mono -> bool) : Prop :=
  forall (C : kconf mono) valid, klegal C valid -> forall ops s rs, kreached C packed valid ops s rs ->
    forall o cb all inner s' log xs, which o = true -> wanted (c_divides C) o (kcontents s) = Some (cb, all) -> only_searches inner ->
    nested C packed s o inner = Ok (s', log, xs) -> reported cb all xs.
Definition inner_right (packed : bool) (which : dop mono -> bool) : Prop :=
  forall (C : kconf mono) valid, klegal C valid -> forall ops s rs, kreached C packed valid ops s rs ->
    forall o w inner s' log xs o' xs', which o' = true -> wanted (c_divides C) o (kcontents s) = Some w -> only_searches inner ->
    nested C packed s o inner = Ok (s', log, xs) -> In (o', DOList xs') log ->
    forall cb all, wanted (c_divides C) o' (kcontents s) = Some (cb, all) -> reported cb all xs'.
(** A callback that looks for a divisor, and one that makes one search when it gets its first entry *)
Definition look (_ : list mono) : list (dop mono) := [DFindDivisor (9, 9)%Z].
Definition first (o : dop mono) (xs : list mono) : list (dop mono) := match xs with [_] => [o] | _ => [] end.
Lemma look_searches : only_searches look.
Proof. intros xs. reflexivity. Qed.
Lemma first_searches o : is_search o = true -> only_searches (first o).
Proof. intros H [|x [|]]; cbn [first forallb]; auto. now rewrite H. Qed.
Ltac too_few H packed o :=
  let Hr := fresh "Hr" in let Hc := fresh "Hc" in reach_five packed Hr;
  match type of Hr with kreached _ _ _ _ ?s _ => eassert (Hc : nested plain packed s o look = Ok (_, _, _)) by (vm_compute; reflexivity) end;
  specialize (H plain int_mono plain_legal _ _ _ Hr o _ _ look _ _ _ eq_refl eq_refl look_searches Hc); clear - H;
  destruct H as (rest & H1 & _ & H2); destruct rest; [apply Permutation_length in H1; vm_compute in H1; discriminate|];
  destruct H2 as [_ H2]; [discriminate|]; vm_compute in H2; discriminate.
Ltac too_often H packed o :=
  let Hr := fresh "Hr" in let Hc := fresh "Hc" in reach_five packed Hr;
  match type of Hr with kreached _ _ _ _ ?s _ => eassert (Hc : nested plain packed s o (first o) = Ok (_, _, _)) by (vm_compute; reflexivity) end;
  specialize (H plain int_mono plain_legal _ _ _ Hr o _ (first o) _ _ _ o _ eq_refl eq_refl (first_searches o eq_refl) Hc (or_introl eq_refl) _ _ eq_refl); clear - H;
  destruct H as (rest & H & _); apply Permutation_length in H; rewrite app_length in H; vm_compute in H; lia.

(** C100.  If the callback looks for a divisor, the search it belongs to forgets where it still has to look: it misses entries.  So do forAll, ... *)
Theorem C100_for_all_misses_refuted : forall packed, ~ outer_right packed (fun o => match o with DForAll _ => true | _ => false end).
Proof. intros packed H. destruct packed; [too_few H true (DForAll (M := mono) go_on)|too_few H false (DForAll (M := mono) go_on)]. Qed.
Print Assumptions C100_for_all_misses_refuted.
(** C100.  ... findAllDivisors ... *)
Theorem C100_all_divisors_misses_refuted : forall packed, ~ outer_right packed (fun o => match o with DAllDivisors _ _ => true | _ => false end).
Proof. intros packed H. destruct packed; [too_few H true (DAllDivisors (9, 9)%Z go_on)|too_few H false (DAllDivisors (9, 9)%Z go_on)]. Qed.
Print Assumptions C100_all_divisors_misses_refuted.
(** C100.  ... and findAllMultiples. *)
Theorem C100_all_multiples_misses_refuted : forall packed, ~ outer_right packed (fun o => match o with DAllMultiples _ _ => true | _ => false end).
Proof. intros packed H. destruct packed; [too_few H true (DAllMultiples (0, 0)%Z go_on)|too_few H false (DAllMultiples (0, 0)%Z go_on)]. Qed.
Print Assumptions C100_all_multiples_misses_refuted.
(** C100.  A search made in a callback may report an entry twice. *)
Theorem C100_repeats_refuted : forall packed,
  ~ inner_right packed (fun o => match o with DAllDivisors _ _ => true | _ => false end) /\ ~ inner_right packed (fun o => match o with DAllMultiples _ _ => true | _ => false end).
Proof.
  intros packed. split; intros H.
  - destruct packed; [too_often H true (DAllDivisors (9, 9)%Z go_on)|too_often H false (DAllDivisors (9, 9)%Z go_on)].
  - destruct packed; [too_often H true (DAllMultiples (0, 0)%Z go_on)|too_often H false (DAllMultiples (0, 0)%Z go_on)].
Qed.
Print Assumptions C100_repeats_refuted.

(** Both trees: a callback of findAllDivisors that looks for divisors, and one that enumerates all entries. *)
Definition kd_nested (packed : bool) (o : dop mono) (inner : list mono -> list (dop mono)) : res (list (dout mono) * list mono) :=
  let* s := construct plain in let* (s, _) := run (step plain packed) s five in let* (_, log, xs) := nested plain packed s o inner in Ok (map snd log, xs).
Example C100_nonvacuous : klegal plain int_mono /\ (forall packed, exists s rs, kreached plain packed int_mono five s rs) /\ only_searches look /\
  kd_nested false (DAllDivisors (9, 9)%Z go_on) (fun _ => []) = Ok ([], [(2, 2); (1, 4); (0, 9); (3, 1); (4, 4)])%Z /\
  kd_nested false (DAllDivisors (9, 9)%Z go_on) look = Ok ([DOFound (Some (2, 2)); DOFound (Some (2, 2))], [(2, 2); (1, 4)])%Z /\
  kd_nested true (DForAll go_on) look = Ok ([DOFound (Some (2, 2)); DOFound (Some (2, 2)); DOFound (Some (2, 2))], [(2, 2); (1, 4); (0, 9)])%Z /\
  kd_nested true (DAllDivisors (9, 9)%Z go_on) (first (DForAll go_on)) =
    Ok ([DOList [(2, 2); (1, 4); (0, 9); (3, 1); (4, 4); (0, 9); (3, 1); (4, 4)]], [(2, 2); (1, 4)])%Z.
Proof.
  split; [exact plain_legal|]. split; [intros packed; destruct packed; [reach_five true Hr|reach_five false Hr]; eauto|]. split; [exact look_searches|].
  repeat split; vm_compute; reflexivity.
Qed.
