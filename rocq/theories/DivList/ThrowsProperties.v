(** Property theorems about DivList when client functions throw (C86). *)
From Coq Require Import List Arith Bool ZArith NArith Lia Permutation.
From Verif.Base Require Import Res Arr ResList StdAlg Order Sort Fault FaultFacts.
From Verif.DivMask Require Import Model Proofs Defined.
From Verif.Spec Require Import DivFinder DivFinderFacts DivCaught.
From Verif.DivList Require Import Model Proofs Throws ThrowsProofs LeftProofs CaughtProofs RecoverProofs Properties.
Import ListNotations.

(** What the standard library does when comparisons throw: the number of comparisons of std::upper_bound, and the outcome of a sort with a
    number of comparisons that return. *)
Record library (M : Type) := mk_library {
  y_upper : list (ext M) -> ext M -> nat;
  y_sort : nat -> list (ext M) -> fout (list (ext M)) (list (ext M)) }.
Arguments y_upper {M}. Arguments y_sort {M}.
(** A sort that returns has sorted.  One that throws loses nothing if the container is a std::list. *)
Record lawful {M} (c : config M) (y : library M) : Prop := {
  w_sorted : forall b l b' l', y_sort y b l = Fine b' l' -> l' = f_sort_ext c l;
  w_list : f_linked c = true -> forall b l l', y_sort y b l = Left l' -> Permutation l' l }.

(** A call together with the number of client calls that return before one throws. *)
Definition lcatch {M} (c : config M) (y : library M) : dlist M -> dop M * nat -> res (dlist M * outcome M) :=
  catch_x M (f_ex c) (f_nvars c) (f_type c) (f_sort_data c) (f_use c) (f_divides c) (f_less c) (f_linked c) (f_sorted c) (f_auto c) (f_ratio c) (f_min c) (y_upper y) (y_sort y).

(** The calls in which exceptions are harmless: not a rebuild of the masks, explicit or automatic, not a range insertion into a sorted
    list, and not removeMultiples on a sorted vector. *)
Definition harmless {M} (c : config M) (o : dop M) : bool :=
  match o with
  | DRebuild => negb (f_use c)
  | DInsert _ => negb (f_use c && f_auto c)
  | DInsertRange _ => negb (f_use c && f_auto c) && negb (f_sorted c)
  | DRemoveMultiples _ => negb (f_use c && f_auto c) && (f_linked c || negb (f_sorted c))
  | _ => true
  end.
(** std::sort of a vector may lose entries when a comparison throws. *)
Definition may_lose {M} (c : config M) (o : dop M) : bool :=
  match o with DInsertRange _ => f_sorted c && negb (f_linked c) | _ => false end.

(** C86.  Whatever throws, a call throws or does what it does without exceptions. *)
Theorem C86_throws_or_same : forall (M : Type) (c : config M) (y : library M), lawful c y ->
  forall s o b s' r, lstep c s o = Ok (s', r) ->
    lcatch c y s (o, b) = Ok (s', Answered r) \/ exists s'' xs, lcatch c y s (o, b) = Ok (s'', Threw xs).
Proof.
  intros M c y Hy s o b s' r H.
  destruct (tot_step (f_ex c) (f_nvars c) (f_type c) (f_sort_data c) (f_use c) (f_divides c) (f_less c) (f_linked c) (f_sorted c) (f_auto c) (f_ratio c) (f_min c) (f_sort_ext c)
    (y_upper y) (y_sort y) (w_sorted c y Hy) b s o _ H) as ([b' a|[s'' xs]] & H1 & H2); unfold lcatch, catch_x; cbn [fst snd]; rewrite H1; cbn [bind]; [left; now subst a|right; eauto].
Qed.
Print Assumptions C86_throws_or_same.

(** C86.  A client that catches exceptions may go on: unless an exception comes from a call in which it does harm, all later calls are
    answered correctly, and what an exception leaves is what the specification says.  In a linked list, the entries reported by a
    removeMultiples that throws are gone and the others are there. *)
Theorem C86_client_may_go_on : forall (M : Type) (c : config M) (y : library M), legal c -> (f_sorted c = true -> compatible_order c) -> lawful c y ->
  exists s0, linit c = Ok s0 /\ contents s0 = [] /\
    goes_on (f_divides c) (lsame c) (f_linked c) (lcatch c y) s0 contents (lpre c) (harmless c) (may_lose c).
Proof.
  intros M c y H Ho Hy.
  destruct (construct_ok (f_ex c) (f_nvars c) (f_type c) (f_sort_data c) (fun l => proj1 (k_sort c H l)) (f_use c) (f_less c) (f_sorted c) (f_auto c) (f_ratio c) (f_min c) (f_valid c)
    (k_defined c H)) as (s0 & H1 & H2 & H3).
  exists s0. split; auto. split; auto.
  exact (goes_on_from (f_ex c) (f_nvars c) (f_type c) (f_sort_data c) (fun l => proj1 (k_sort c H l)) (f_use c) (f_divides c) (f_less c) (k_divides c H)
    (f_linked c) (f_sorted c) (f_auto c) Ho (f_ratio c) (f_min c) (f_sort_ext c) (fun Hs => k_sort_ext c H (proj1 (Ho Hs))) (f_valid c) (k_defined c H)
    (y_upper y) (y_sort y) (w_sorted c y Hy) (w_list c y Hy) s0 H2).
Qed.
Print Assumptions C86_client_may_go_on.

(** C86.  Exceptions in rebuilds do no lasting harm to an unsorted list: no call is undefined after them, and after a call of rebuild
    that returns all answers are right again, about the entries that were there before. *)
Theorem C86_rebuild_repairs : forall (M : Type) (c : config M) (y : library M), legal c -> f_sorted c = false -> f_use c = true -> lawful c y ->
  exists s0, linit c = Ok s0 /\ forall h, forallb (fun o => lpre c [] (fst o)) h = true ->
  exists s rs, run (lcatch c y) s0 h = Ok (s, rs) /\
    forall b s' r, lcatch c y s (DRebuild, b) = Ok (s', Answered r) ->
      contents s' = contents s /\ goes_on (f_divides c) (lsame c) (f_linked c) (lcatch c y) s' contents (lpre c) (harmless c) (may_lose c).
Proof.
  intros M c y H Hs Hu Hy.
  destruct (construct_ok (f_ex c) (f_nvars c) (f_type c) (f_sort_data c) (fun l => proj1 (k_sort c H l)) (f_use c) (f_less c) (f_sorted c) (f_auto c) (f_ratio c) (f_min c) (f_valid c)
    (k_defined c H)) as (s0 & H1 & H2 & H3).
  assert (Ho : f_sorted c = true -> compatible_order c) by congruence.
  assert (Hgo := goes_on_from (f_ex c) (f_nvars c) (f_type c) (f_sort_data c) (fun l => proj1 (k_sort c H l)) (f_use c) (f_divides c) (f_less c) (k_divides c H)
    (f_linked c) (f_sorted c) (f_auto c) Ho (f_ratio c) (f_min c) (f_sort_ext c) (fun Hs => k_sort_ext c H (proj1 (Ho Hs))) (f_valid c) (k_defined c H)
    (y_upper y) (y_sort y) (w_sorted c y Hy) (w_list c y Hy)).
  exists s0. split; auto. intros h Hh. unfold lcatch, lpre, harmless, may_lose in *. unfold safe, wild, calls in Hgo. rewrite Hs in *.
  destruct (run_good (f_ex c) (f_nvars c) (f_type c) (f_sort_data c) (f_use c) (f_divides c) (f_less c) (f_linked c) (f_auto c) (f_ratio c) (f_min c) (f_sort_ext c) (f_valid c)
    (k_defined c H) (y_upper y) (y_sort y) (w_sorted c y Hy) h s0) as (s & rs & R1 & R2).
  - intros x Hx. rewrite H3 in Hx. destruct Hx.
  - exact Hh.
  - exists s, rs. split; auto. intros b s' r Hr.
    apply (rebuild_answers (f_ex c) (f_nvars c) (f_type c) (f_sort_data c) (fun l => proj1 (k_sort c H l)) (f_use c) (f_divides c) (f_less c) (f_linked c) (f_auto c) (f_ratio c) (f_min c)
      (f_sort_ext c) (f_valid c) (k_defined c H) (y_upper y) (y_sort y) (w_sorted c y Hy)) in Hr as [Hr1 Hr2]; auto.
Qed.
Print Assumptions C86_rebuild_repairs.

(** What searching a list should mean to a client that has caught exceptions: findDivisor finds a divisor if there is one.  [also o]
    holds of calls in which exceptions do harm but are taken to be allowed nevertheless. *)
Definition allowed {M} (c : config M) (also : dop M -> bool) (o : dop M) (r : outcome M) : bool :=
  match r with Answered _ => true | Threw _ => harmless c o || also o end.
Definition searches_right {M} (c : config M) (y : library M) (also : dop M -> bool) : Prop :=
  forall s0 h s rs m b, linit c = Ok s0 -> run (lcatch c y) s0 h = Ok (s, rs) ->
    forallb (fun o => lpre c [] (fst o)) h = true -> forallb (fun p => allowed c also (fst p) (snd p)) (combine (map fst h) rs) = true ->
    match lcatch c y s (DFindDivisor m, b) with
    | Ok (_, Answered (DOFound r)) => is_divisor (f_divides c) m (contents s) r
    | Ok (_, Threw _) => True
    | _ => False
    end.

(** A library that gives up at once if not all comparisons return. *)
Definition mono_library : library mono :=
  mk_library mono (fun l _ => length l) (fun b l => if length l <=? b then Fine (b - length l) (isort (comp mono lex) l) else Left l).
Lemma mono_lawful use linked sorted auto : lawful (mono_config lex use linked sorted auto) mono_library.
Proof.
  split; cbn [mono_library y_sort mono_config f_sort_ext].
  - intros b l b' l' H. destruct (length l <=? b); [|discriminate]. now injection H as _ <-.
  - intros _ b l l' H. destruct (length l <=? b); [discriminate|]. injection H as <-. reflexivity.
Qed.

(** C86.  An exception in rebuild leaves masks that do not belong to the calculator, and findDivisor misses a divisor. *)
Theorem C86_rebuild_throws_refuted : ~ (forall (M : Type) (c : config M) (y : library M), legal c -> f_sorted c = false -> lawful c y ->
  searches_right c y (fun o => match o with DRebuild => true | _ => false end)).
Proof.
  intros H. specialize (H mono (mono_config lex true false false false) mono_library (mono_legal lex true false false false) eq_refl (mono_lawful true false false false)).
  eassert (Hi : linit (mono_config lex true false false false) = Ok _) by (vm_compute; reflexivity).
  match type of Hi with _ = Ok ?s0 => eassert (Hr : run (lcatch (mono_config lex true false false false) mono_library) s0 [(DInsert (1, 1), 100%nat); (DRebuild, 0%nat)]%Z = Ok (_, _)) by (vm_compute; reflexivity) end.
  specialize (H _ _ _ _ (2, 2)%Z 100 Hi Hr eq_refl eq_refl). clear Hi Hr.
  vm_compute in H. specialize (H (1, 1)%Z (or_introl eq_refl)). discriminate H.
Qed.
Print Assumptions C86_rebuild_throws_refuted.

(** C86.  So does an exception in the rebuild that an insertion makes on its own. *)
Theorem C86_insert_throws_refuted : ~ (forall (M : Type) (c : config M) (y : library M), legal c -> f_sorted c = false -> lawful c y ->
  searches_right c y (fun o => match o with DInsert _ => true | _ => false end)).
Proof.
  intros H. specialize (H mono (mono_config lex true false false true) mono_library (mono_legal lex true false false true) eq_refl (mono_lawful true false false true)).
  eassert (Hi : linit (mono_config lex true false false true) = Ok _) by (vm_compute; reflexivity).
  match type of Hi with _ = Ok ?s0 => eassert (Hr : run (lcatch (mono_config lex true false false true) mono_library) s0 [(DInsert (1, 1), 100%nat); (DInsert (5, 0), 100%nat); (DInsert (0, 7), 40%nat)]%Z = Ok (_, _)) by (vm_compute; reflexivity) end.
  specialize (H _ _ _ _ (2, 2)%Z 100 Hi Hr eq_refl eq_refl). clear Hi Hr.
  vm_compute in H. specialize (H (1, 1)%Z (or_introl eq_refl)). discriminate H.
Qed.
Print Assumptions C86_insert_throws_refuted.

(** C86.  An exception in the insertion of a range leaves a sorted list out of order, and a later search is undefined. *)
Theorem C86_sorted_range_throws_refuted : ~ (forall (M : Type) (c : config M) (y : library M), legal c -> compatible_order c -> lawful c y ->
  searches_right c y (fun o => match o with DInsertRange _ => true | _ => false end)).
Proof.
  intros H. specialize (H mono (mono_config lex false false true false) mono_library (mono_legal lex false false true false) (lex_compatible false false true false) (mono_lawful false false true false)).
  eassert (Hi : linit (mono_config lex false false true false) = Ok _) by (vm_compute; reflexivity).
  match type of Hi with _ = Ok ?s0 => eassert (Hr : run (lcatch (mono_config lex false false true false) mono_library) s0 [(DInsertRange [(2, 0); (1, 1)], 1%nat)]%Z = Ok (_, _)) by (vm_compute; reflexivity) end.
  specialize (H _ _ _ _ (1, 1)%Z 100 Hi Hr eq_refl eq_refl). clear Hi Hr.
  vm_compute in H. exact H.
Qed.
Print Assumptions C86_sorted_range_throws_refuted.

(** C86.  An exception in removeMultiples leaves a sorted vector out of order, and a later search is undefined. *)
Theorem C86_sorted_remove_throws_refuted : ~ (forall (M : Type) (c : config M) (y : library M), legal c -> compatible_order c -> lawful c y ->
  searches_right c y (fun o => match o with DRemoveMultiples _ => true | _ => false end)).
Proof.
  intros H. specialize (H mono (mono_config lex false false true false) mono_library (mono_legal lex false false true false) (lex_compatible false false true false) (mono_lawful false false true false)).
  eassert (Hi : linit (mono_config lex false false true false) = Ok _) by (vm_compute; reflexivity).
  match type of Hi with _ = Ok ?s0 => eassert (Hr : run (lcatch (mono_config lex false false true false) mono_library) s0 [(DInsertRange [(0, 5); (1, 1); (1, 2); (1, 3); (2, 0); (3, 0)], 100%nat); (DRemoveMultiples (1, 1), 8%nat)]%Z = Ok (_, _)) by (vm_compute; reflexivity) end.
  specialize (H _ _ _ _ (1, 5)%Z 100 Hi Hr eq_refl eq_refl). clear Hi Hr.
  vm_compute in H. exact H.
Qed.
Print Assumptions C86_sorted_remove_throws_refuted.

(** C86.  When removeMultiples throws on a vector, entries that it has reported as removed are still there. *)
Theorem C86_vector_remove_throws_refuted : ~ (forall (M : Type) (c : config M) (y : library M), legal c -> f_sorted c = false -> lawful c y ->
  forall s0 h s rs m b s' xs, linit c = Ok s0 -> run (lcatch c y) s0 h = Ok (s, rs) -> forallb (fun o => lpre c [] (fst o)) h = true ->
    lcatch c y s (DRemoveMultiples m, b) = Ok (s', Threw xs) -> Permutation (xs ++ contents s') (contents s)).
Proof.
  intros H. specialize (H mono (mono_config lex false false false false) mono_library (mono_legal lex false false false false) eq_refl (mono_lawful false false false false)).
  eassert (Hi : linit (mono_config lex false false false false) = Ok _) by (vm_compute; reflexivity).
  match type of Hi with _ = Ok ?s0 => eassert (Hr : run (lcatch (mono_config lex false false false false) mono_library) s0 [(DInsertRange [(1, 1); (5, 0)], 100%nat)]%Z = Ok (_, _)) by (vm_compute; reflexivity) end.
  match type of Hr with _ = Ok (?s, _) => eassert (Hc : lcatch (mono_config lex false false false false) mono_library s (DRemoveMultiples (1, 1)%Z, 2%nat) = Ok (_, Threw _)) by (vm_compute; reflexivity) end.
  specialize (H _ _ _ _ _ _ _ _ Hi Hr eq_refl Hc). clear Hi Hr Hc.
  apply Permutation_length in H. vm_compute in H. discriminate H.
Qed.
Print Assumptions C86_vector_remove_throws_refuted.

(** Exceptions of every kind and what happens: in [findDivisor], in [insert], in [removeMultiples] on a linked list after one entry was
    reported, in a callback, and in a rebuild that is then repeated. *)
Definition outcomes (c : config mono) (h : list (dop mono * nat)) : res (list (outcome mono) * list mono) :=
  let* s := linit c in let* (s', rs) := run (lcatch c mono_library) s h in Ok (rs, contents s').
Example C86_nonvacuous :
  legal (mono_config lex true true false false) /\ lawful (mono_config lex true true false false) mono_library /\
  outcomes (mono_config lex true true false false)
    [(DInsertRange [(3, 1); (2, 2); (1, 4); (3, 3); (5, 5)], 1000%nat); (DFindDivisor (3, 3), 32%nat); (DInsert (7, 7), 3%nat); (DRemoveMultiples (3, 0), 35%nat);
     (DAllMultiples (0, 0) go_on, 35%nat); (DRebuild, 3%nat); (DFindDivisor (2, 2), 100%nat); (DRebuild, 1000%nat); (DFindDivisor (2, 2), 100%nat)]%Z =
  Ok ([Answered DONone; Threw []; Threw []; Threw [(3, 1)]; Threw [(2, 2)]; Threw []; Answered (DOFound None); Answered DONone;
       Answered (DOFound (Some (2, 2)))]%Z, [(2, 2); (1, 4); (3, 3); (5, 5)]%Z).
Proof. split; [apply mono_legal|]. split; [apply mono_lawful|]. vm_compute. reflexivity. Qed.
