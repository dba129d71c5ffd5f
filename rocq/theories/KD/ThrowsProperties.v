(** Property theorems about searches in KDTree when client functions throw (C87). *)
From Coq Require Import List Arith Bool ZArith NArith Lia Permutation.
From Verif.Base Require Import Res Arr ResList StdAlg Order Sort Fault FaultFacts.
From Verif.DivMask Require Import Model Defined.
From Verif.Spec Require Import Reach DivFinder DivFinderFacts DivCaught DivStale.
From Verif.DivList Require Import Properties.
From Verif.KD Require Import EntryArray Tree Model Legal ArrayProofs TreeProofs Proofs Properties Throws ThrowsProofs ThrowsLeft ThrowsSearch.
Import ListNotations.

(** A tree together with its member _tmp, and calls with the number of client calls that return before one throws.  [upper] is the number of
    comparisons of std::upper_bound. *)
Definition kcatch {M} (C : kconf M) (packed : bool) (upper : list (ext M) -> ext M -> nat) : kd M * todo -> dop M * nat -> res (kd M * todo * outcome M) :=
  catch_x C packed upper.
Definition searches_only {M} (h : list (dop M * nat)) : bool := forallb (fun c => is_search (fst c)) h.
(** The state of a new tree after a history of calls that did not throw. *)
Lemma kreached_inv {M} (C : kconf M) packed valid ops s rs : klegal C valid -> kreached C packed valid ops s rs -> inv C valid false s.
Proof.
  intros H (s0 & Hi & Hr). assert (Hf : false = true -> c_cache C = false) by discriminate.
  destruct (construct_ok C valid H false Hf) as (s1 & E & Hs & _). rewrite Hi in E. injection E as <-.
  induction Hr as [|ops s rs o s1 r1 Hr IH Hp Hst]; auto. rewrite (tree_pre_kpre C valid packed) in Hp.
  destruct (step_ok C valid H packed false Hf s o IH Hp) as (s2 & r2 & G1 & G2 & _). rewrite Hst in G1. now injection G1 as <- _.
Qed.
Lemma kreached_more {M} (C : kconf M) packed valid : forall more ops s rs s' rs', kreached C packed valid ops s rs -> forallb is_search more = true ->
  run (step C packed) s more = Ok (s', rs') -> kreached C packed valid (ops ++ more) s' (rs ++ rs').
Proof.
  induction more as [|o more IH]; intros ops s rs s' rs' H Hm Hr; cbn [forallb run] in *.
  - injection Hr as <- <-. now rewrite !app_nil_r.
  - apply andb_prop in Hm as [Ho Hm]. apply bind_inv in Hr as ([s1 r1] & H1 & Hr). apply bind_inv in Hr as ([s2 r2] & H2 & Hr). injection Hr as <- <-.
    assert (Hp : tree_pre C valid (kcontents s) o = true) by (destruct o; auto; discriminate Ho).
    specialize (IH (ops ++ [o]) s1 (rs ++ [r1]) s2 r2 (kreached_snoc C packed valid ops s rs o s1 r1 H Hp H1) Hm H2). now rewrite <- !app_assoc in IH.
Qed.
Lemma returned_searches {M} : forall (h : list (dop M * nat)) os, searches_only h = true -> forallb is_search (returned (map fst h) os) = true.
Proof.
  unfold searches_only. induction h as [|[o b] h IH]; intros [|[a|xs] os] H; cbn [map fst returned forallb] in *; auto; apply andb_prop in H as [H1 H2]; auto.
  now rewrite H1, IH.
Qed.

(** C87.  Whatever throws, a search in a tree whose _tmp is empty throws or answers as it does without exceptions. *)
Theorem C87_throws_or_same : forall (M : Type) (C : kconf M) packed upper s o b s' r, is_search o = true -> step C packed s o = Ok (s', r) ->
  kcatch C packed upper (s, []) (o, b) = Ok (s', [], Answered r) \/ exists tmp xs, kcatch C packed upper (s, []) (o, b) = Ok (s, tmp, Threw xs).
Proof.
  intros M C packed upper s o b s' r Ho H. assert (Ht := tot_search C packed upper b s o Ho). unfold kcatch, catch_x. cbn [fst snd].
  destruct (Ht (s', [], r)) as ([b' a|[tmp xs]] & -> & E); [now rewrite H|subst a; left; reflexivity|right; exists tmp, xs; reflexivity].
Qed.
Print Assumptions C87_throws_or_same.

(** C87.  Exceptions in searches do not harm the tree, whichever and however many there are: the entries are those of before, findDivisor
    finds a divisor exactly if there is one, and the others report all that they should, though perhaps some of it twice.  Once one of them has
    returned, that is over: _tmp is empty again, and the tree is in a state that calls without any exception lead to. *)
Theorem C87_searches_go_on : forall (M : Type) (C : kconf M) valid packed upper, klegal C valid ->
  forall ops s rs, kreached C packed valid ops s rs -> forall h, searches_only h = true ->
  exists s' tmp os rs', run (kcatch C packed upper) (s, []) h = Ok (s', tmp, os) /\ kcontents s' = kcontents s /\
    strace (c_divides C) (kcontents s) false (map fst h) os (dirty tmp) /\ (dirty tmp = false -> tmp = []) /\
    kreached C packed valid (ops ++ returned (map fst h) os) s' (rs ++ rs').
Proof.
  intros M C valid packed upper H ops s rs Hr h Hh.
  assert (Hi := kreached_inv C packed valid ops s rs H Hr).
  assert (Hf : false = true -> c_cache C = false) by discriminate.
  destruct (searches_ok C valid H packed upper false Hf eq_refl h s [] Hi) as (s' & tmp & os & H1 & H2 & H3 & H4 & rs' & H5); auto.
  { unfold tmp_ok. destruct (k_tree s); auto. }
  exists s', tmp, os, rs'. split; [exact H1|]. split; [exact H3|]. split; [exact H4|]. split; [destruct tmp; [auto|discriminate]|].
  eapply kreached_more; eauto. now apply returned_searches.
Qed.
Print Assumptions C87_searches_go_on.

(** What a client would like: a search that returns reports what is there. *)
Definition reports_right {M} (C : kconf M) valid packed upper (which : dop M -> bool) : Prop :=
  forall ops s rs h s' tmp os o b s'' tmp' xs, kreached C packed valid ops s rs ->
    run (kcatch C packed upper) (s, []) h = Ok (s', tmp, os) -> kcatch C packed upper (s', tmp) (o, b) = Ok (s'', tmp', Answered (DOList xs)) ->
    searches_only h = true -> which o = true -> forall cb all, wanted (c_divides C) o (kcontents s) = Some (cb, all) -> reported cb all xs.

(** Leaves of two entries, divmasks, no sorting, no cache and no automatic rebuilds. *)
Definition plain : kconf mono := mono_tree true true 2 true false false false.
Definition five : list (dop mono) := [DInsert (3, 1); DInsert (2, 2); DInsert (1, 4); DInsert (0, 9); DInsert (4, 4)]%Z.
Definition many : nat := 1000.
Definition some (_ : list (ext mono)) (_ : ext mono) : nat := 1.
Lemma plain_legal : klegal plain int_mono.
Proof. apply mono_tree_legal; auto with arith. Qed.
Ltac reach_five packed Hr :=
  let H0 := fresh "Hz" in let H1 := fresh "Hy" in let H2 := fresh "Hx" in
  eassert (H0 : construct plain = Ok _) by (vm_compute; reflexivity);
  match type of H0 with _ = Ok ?s0 =>
    eassert (H1 : run (step plain packed) s0 five = Ok (_, _)) by (vm_compute; reflexivity);
    assert (H2 : keeps (step plain packed) (fun s o => tree_pre plain int_mono (kcontents s) o = true) s0 five) by (vm_compute; tauto)
  end;
  assert (Hr := kreached_run plain packed int_mono _ _ _ _ H0 H1 H2).

(** Searched once with an exception after [b] calls and once more without, the tree reports more than it should. *)
Ltac too_much H packed o b :=
  let Hr := fresh "Hr" in let Hc := fresh "Hc" in let Hd := fresh "Hd" in reach_five packed Hr;
  match type of Hr with kreached _ _ _ _ ?s _ =>
    eassert (Hc : run (kcatch plain packed some) (s, []) [(o, b)] = Ok (_, _, _)) by (vm_compute; reflexivity);
    match type of Hc with _ = Ok (?s', ?tmp, _) => eassert (Hd : kcatch plain packed some (s', tmp) (o, many) = Ok (_, _, Answered (DOList _))) by (vm_compute; reflexivity) end
  end;
  specialize (H _ _ _ _ _ _ _ _ _ _ _ _ Hr Hc Hd eq_refl eq_refl _ _ eq_refl); clear - H;
  destruct H as (rest & H & _); apply Permutation_length in H; rewrite app_length in H; vm_compute in H; lia.

(** C87.  After an exception, a search that returns may report an entry twice.  In each tree this goes for forAll, ... *)
Theorem C87_for_all_refuted : forall packed, ~ (forall (M : Type) (C : kconf M) valid upper, klegal C valid ->
  reports_right C valid packed upper (fun o => match o with DForAll _ => true | _ => false end)).
Proof.
  intros packed H. specialize (H mono plain int_mono some plain_legal).
  destruct packed; [too_much H true (DForAll go_on) 4%nat|too_much H false (DForAll go_on) 4%nat].
Qed.
Print Assumptions C87_for_all_refuted.
(** C87.  ... findAllDivisors ... *)
Theorem C87_all_divisors_refuted : forall packed, ~ (forall (M : Type) (C : kconf M) valid upper, klegal C valid ->
  reports_right C valid packed upper (fun o => match o with DAllDivisors _ _ => true | _ => false end)).
Proof.
  intros packed H. specialize (H mono plain int_mono some plain_legal).
  destruct packed; [too_much H true (DAllDivisors (9, 9)%Z go_on) 36%nat|too_much H false (DAllDivisors (9, 9)%Z go_on) 36%nat].
Qed.
Print Assumptions C87_all_divisors_refuted.
(** C87.  ... and findAllMultiples. *)
Theorem C87_all_multiples_refuted : forall packed, ~ (forall (M : Type) (C : kconf M) valid upper, klegal C valid ->
  reports_right C valid packed upper (fun o => match o with DAllMultiples _ _ => true | _ => false end)).
Proof.
  intros packed H. specialize (H mono plain int_mono some plain_legal).
  destruct packed; [too_much H true (DAllMultiples (0, 0)%Z go_on) 36%nat|too_much H false (DAllMultiples (0, 0)%Z go_on) 36%nat].
Qed.
Print Assumptions C87_all_multiples_refuted.

(** C87.  A rebuild after an exception makes entries of its own: the tree then holds some entries twice, and size() is not their number. *)
Theorem C87_rebuild_refuted : forall packed, ~ (forall (M : Type) (C : kconf M) valid upper, klegal C valid ->
  forall ops s rs h s' tmp os b s'' tmp' r, kreached C packed valid ops s rs -> searches_only h = true -> run (kcatch C packed upper) (s, []) h = Ok (s', tmp, os) ->
    kcatch C packed upper (s', tmp) (DRebuild, b) = Ok (s'', tmp', r) -> length (kcontents s'') = k_size s'' \/ Permutation (kcontents s'') (kcontents s)).
Proof.
  intros packed H. specialize (H mono plain int_mono some plain_legal).
  assert (Hd : forall packed, exists ops s rs h s' tmp os b s'' tmp' r, kreached plain packed int_mono ops s rs /\ searches_only h = true /\
    run (kcatch plain packed some) (s, []) h = Ok (s', tmp, os) /\ kcatch plain packed some (s', tmp) (DRebuild, b) = Ok (s'', tmp', r) /\
    k_size s'' = 5%nat /\ length (kcontents s) = 5%nat /\ (length (kcontents s'') > 5)%nat).
  { clear. intros packed. destruct packed; [reach_five true Hr|reach_five false Hr];
      match type of Hr with kreached _ ?packed _ ?ops ?s ?rs =>
        eassert (Hc : run (kcatch plain packed some) (s, []) [(DForAll go_on, 4%nat)] = Ok (_, _, _)) by (vm_compute; reflexivity);
        match type of Hc with _ = Ok (?s', ?tmp, ?os) =>
          eassert (Hd : kcatch plain packed some (s', tmp) (DRebuild, many) = Ok (_, _, _)) by (vm_compute; reflexivity);
          match type of Hd with _ = Ok (?s'', ?tmp', ?r) => exists ops, s, rs, [(DForAll go_on, 4%nat)], s', tmp, os, many, s'', tmp', r end
        end
      end; (split; [exact Hr|]; split; [reflexivity|]; split; [exact Hc|]; split; [exact Hd|]; split; [reflexivity|]; split; [reflexivity|vm_compute; lia]). }
  destruct (Hd packed) as (ops & s & rs & h & s' & tmp & os & b & s'' & tmp' & r & H1 & H2 & H3 & H4 & H5 & H6 & H7).
  destruct (H _ _ _ _ _ _ _ _ _ _ _ H1 H2 H3 H4) as [E|E]; [|apply Permutation_length in E]; lia.
Qed.
Print Assumptions C87_rebuild_refuted.

(** Both trees: two enumerations end in an exception, and after the second one the next one goes over some entries twice; the one after that is
    right again. *)
Definition kd_upset : list (dop mono * nat) :=
  [(DForAll go_on, many); (DForAll go_on, 4); (DSize, many); (DFindDivisor (2, 5)%Z, many); (DForAll go_on, 3); (DForAll go_on, many); (DForAll go_on, many)]%nat.
Definition kd_outcomes (packed : bool) : res (list (outcome mono)) :=
  let* s := construct plain in let* (s, _) := run (step plain packed) s five in let* (_, os) := run (kcatch plain packed some) (s, []) kd_upset in Ok os.
Example C87_nonvacuous : klegal plain int_mono /\ searches_only kd_upset = true /\ (exists s rs, kreached plain false int_mono five s rs) /\
  (exists s rs, kreached plain true int_mono five s rs) /\
  kd_outcomes false =
   Ok [Answered (DOList [(2, 2); (1, 4); (0, 9); (3, 1); (4, 4)]); Threw [(2, 2); (1, 4)]; Answered (DOSize 5); Answered (DOFound (Some (2, 2)));
    Threw [(2, 2)]; Answered (DOList [(2, 2); (1, 4); (0, 9); (3, 1); (4, 4); (0, 9); (3, 1); (4, 4)]); Answered (DOList [(2, 2); (1, 4); (0, 9); (3, 1); (4, 4)])]%Z /\ 
  kd_outcomes true =
   Ok [Answered (DOList [(2, 2); (1, 4); (0, 9); (3, 1); (4, 4)]); Threw [(2, 2); (1, 4)]; Answered (DOSize 5); Answered (DOFound (Some (2, 2)));
    Threw [(2, 2); (1, 4)]; Answered (DOList [(2, 2); (1, 4); (0, 9); (3, 1); (4, 4); (3, 1); (4, 4)]); Answered (DOList [(2, 2); (1, 4); (0, 9); (3, 1); (4, 4)])]%Z.
Proof.
  split; [exact plain_legal|]. split; [reflexivity|]. split; [reach_five false Hr; eauto|]. split; [reach_five true Hr; eauto|]. split; vm_compute; reflexivity.
Qed.
