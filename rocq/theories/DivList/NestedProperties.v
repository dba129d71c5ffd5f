(** Property theorems about searches made in the callback of a search of DivList (C100). *)
From Coq Require Import List Arith Bool ZArith NArith.
From Verif.Base Require Import Res.
From Verif.DivMask Require Import Model.
From Verif.Spec Require Import Reach DivFinder DivStale.
From Verif.DivList Require Import Model Proofs Properties Nested NestedProofs.
Import ListNotations.

(** A search that reports entries to a callback that makes the searches [inner]: the list, these searches with their answers, and the entries
    reported. *)
Definition lnested {M} (c : config M) (s : dlist M) (o : dop M) (inner : list M -> list (dop M)) : res (dlist M * list (dop M * dout M) * list M) :=
  match o with
  | DAllDivisors m cb => all_divisors_l (f_ex c) (f_use c) (f_divides c) (f_less c) (f_linked c) (f_sorted c) (lstep c) cb inner s m
  | DAllMultiples m cb => all_multiples_l (f_ex c) (f_use c) (f_divides c) (lstep c) cb inner s m
  | DForAll cb => for_all_l (lstep c) cb inner s
  | _ => UB
  end.

(** C100.  In DivList a callback may search the list that is being searched: all of these searches, and the one whose callback it is, answer as
    they do one after the other, and the list stays as it is. *)
Theorem C100_divlist_searches_in_callbacks : forall (M : Type) (c : config M) ops s rs, legal c -> (f_sorted c = true -> compatible_order c) -> lreached c ops s rs ->
  forall o cb all inner, wanted (f_divides c) o (contents s) = Some (cb, all) -> (forall xs, forallb is_search (inner xs) = true) ->
  exists log xs, lnested c s o inner = Ok (s, log, xs) /\ lstep c s o = Ok (s, DOList xs) /\ reported cb all xs /\
    Forall (fun call => lstep c s (fst call) = Ok (s, snd call)) log.
Proof.
  intros M c ops s rs H Ho Hr o cb all inner Hw Hi.
  assert (Hin : forall xs o, In o (inner xs) -> exists r, lstep c s o = Ok (s, r)).
  { intros xs o' Hin. specialize (Hi xs). rewrite forallb_forall in Hi. apply Hi in Hin.
    destruct (lreached_step c ops s rs o' H Ho Hr) as (s' & r & H1 & H2); [destruct o'; auto; discriminate Hin|]. exists r.
    rewrite <- (list_pure c s o' s' r) at 2; auto. destruct o'; auto; discriminate Hin. }
  destruct (list_enumerations c ops s rs H Ho Hr) as (E1 & E2 & E3).
  destruct o as [e|es|m|m|m|m cb0|m cb0|cb0|m| |]; try discriminate Hw; cbn [wanted] in Hw; injection Hw as -> <-; cbn [lnested].
  - destruct (E1 m cb) as (xs & G1 & G2). assert (G : all_divisors M (f_ex c) (f_use c) (f_divides c) (f_less c) (f_linked c) (f_sorted c) s m cb = Ok xs).
    { unfold lstep in G1. cbn [step] in G1. destruct (all_divisors _ _ _ _ _ _ _ s m cb); cbn [bind] in G1; congruence. }
    destruct (all_divisors_l_ok _ _ _ _ _ _ (lstep c) cb inner s Hin m xs G) as (log & G3 & G4). exists log, xs. auto.
  - destruct (E2 m cb) as (xs & G1 & G2). unfold all_multiples_l. cbv zeta. edestruct (feed_l_ok (lstep c) cb inner s Hin) as (log & G3 & G4); [constructor|]. rewrite G3.
    exists log. eexists. split; [reflexivity|]. assert (G1' := G1). unfold lstep in G1. cbn [step] in G1. injection G1 as <-. auto.
  - destruct (E3 cb) as (xs & G1 & G2). unfold for_all_l. edestruct (feed_l_ok (lstep c) cb inner s Hin) as (log & G3 & G4); [constructor|]. rewrite G3.
    exists log. eexists. split; [reflexivity|]. assert (G1' := G1). unfold lstep in G1. cbn [step] in G1. injection G1 as <-. auto.
Qed.
Print Assumptions C100_divlist_searches_in_callbacks.

(** A sorted linked list with a callback that enumerates the multiples of what it has got last. *)
Definition list_nested : res (list (dout mono) * list mono) :=
  let c := mono_config lex true true true true in
  let* s := linit c in let* (s, _) := run (lstep c) s [DInsert (3, 1); DInsert (2, 2); DInsert (1, 1)]%Z in
  let* (_, log, xs) := lnested c s (DAllDivisors (9, 9)%Z go_on) (fun xs => [DAllMultiples (last xs (0, 0)%Z) go_on]) in Ok (map snd log, xs).
Example C100_divlist_nonvacuous : (exists s rs, lreached (mono_config lex true false false true) demo s rs) /\
  list_nested = Ok ([DOList [(1, 1); (2, 2); (3, 1)]; DOList [(2, 2)]; DOList [(3, 1)]], [(1, 1); (2, 2); (3, 1)])%Z.
Proof.
  split; [|vm_compute; reflexivity]. eexists. eexists. eapply lreached_run; [vm_compute; reflexivity|vm_compute; reflexivity|vm_compute; tauto].
Qed.
