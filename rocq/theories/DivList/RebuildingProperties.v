(** Property theorems about callbacks that change the DivList that is being searched (C104). *)
From Coq Require Import List Arith Bool ZArith NArith Permutation Lia.
From Verif.Base Require Import Res.
From Verif.DivMask Require Import Model.
From Verif.Spec Require Import Reach DivFinder DivStale.
From Verif.DivList Require Import Model Proofs Properties Nested Rebuilding RebuildingProofs.
Import ListNotations.

(** A search that reports entries to a callback that makes the calls [inner]: the list in the end, these calls with their answers, and the entries reported. *)
Definition lchanging {M} (c : config M) (fuel : nat) (s : dlist M) (o : dop M) (inner : list M -> list (dop M)) : res (dlist M * list (dop M * dout M) * list M) :=
  match o with
  | DAllDivisors m cb => all_divisors_r (f_ex c) (f_use c) (f_divides c) (f_linked c) (lstep c) cb inner fuel s m
  | DAllMultiples m cb => all_multiples_r (f_ex c) (f_use c) (f_divides c) (f_linked c) (lstep c) cb inner fuel s m
  | DForAll cb => for_all_r (f_linked c) (lstep c) cb inner fuel s
  | _ => UB
  end.

(** C104.  A search of an unsorted DivList may go on after a callback has rebuilt it, or has inserted into it if it is a linked list: all that is reported is in the list in
    the end and is wanted, and nothing is reported twice.  The list in the end is the one that the calls of the callback lead to.  Missing: that all wanted entries
    are reported, see [C104_masks_refuted] and [C104_insert_refuted]. *)
Theorem C104_changes_partial : forall (M : Type) (c : config M), f_sorted c = false -> forall fuel s o inner s' log xs cb all, lchanging c fuel s o inner = Ok (s', log, xs) ->
  wanted (f_divides c) o (contents s') = Some (cb, all) ->
  (exists rest, Permutation all (xs ++ rest)) /\
  run (lstep c) s (map fst log) = Ok (s', map snd log) /\ exists added, contents s' = contents s ++ added.
Proof.
  intros M c Hs fuel s o inner s' log xs cb all H Hw.
  assert (Hmain : forall p q cb0, (forall x, p x = true -> q (x_t x) = true) -> feed_r (f_linked c) (lstep c) cb0 inner fuel p 0 (s, []) [] = Ok ((s', log), xs) ->
    (exists rest, Permutation (filter q (contents s')) (xs ++ rest)) /\ run (lstep c) s (map fst log) = Ok (s', map snd log) /\ exists added, contents s' = contents s ++ added).
  { intros p q cb0 Hp Hf. destruct (feed_sound c Hs cb0 inner p q Hp fuel 0 _ _ _ _ Hf) as ((ops & rs & added & A1 & A2 & A3 & _ & A5) & xs' & rest & E & P). cbn [fst snd app skipn] in *. subst xs' log.
    split; [eauto|]. assert (Hc : map fst (combine ops rs) = ops /\ map snd (combine ops rs) = rs).
    { clear - A3. revert rs A3. induction ops as [|o ops IH]; intros [|r rs] H; try discriminate; [auto|]. injection H as H. destruct (IH rs H) as [E1 E2]. cbn [combine map fst snd]. now rewrite E1, E2. }
    destruct Hc as [-> ->]. split; [exact A1|eauto]. }
  destruct o as [e|es|m|m|m|m cb0|m cb0|cb0|m| |]; cbn [lchanging wanted] in H, Hw; try discriminate H; injection Hw as -> <-.
  - eapply Hmain; [|exact H]. cbv beta. intros x Hx. unfold ext_divides in Hx. destruct (has_can_divide _ _ _); [exact Hx|discriminate].
  - eapply Hmain; [|exact H]. cbv beta. intros x Hx. unfold ext_divides in Hx. destruct (has_can_divide _ _ _); [exact Hx|discriminate].
  - destruct (Hmain (fun _ => true) (fun _ => true) cb (fun _ _ => eq_refl) H) as [[rest P] R]. split; [|exact R]. exists rest. rewrite <- P.
    assert (E : forall l : list M, filter (fun _ => true) l = l) by (induction l as [|a l IH]; [reflexivity|cbn [filter]; now rewrite IH]). now rewrite E.
Qed.
Print Assumptions C104_changes_partial.

(** C104.  Without masks, and for forAll always, the search reports exactly what it reports when it is made after the calls of the callback. *)
Theorem C104_exact_without_masks : forall (M : Type) (c : config M), f_sorted c = false -> forall fuel s o inner s' log xs, lchanging c fuel s o inner = Ok (s', log, xs) ->
  f_use c = false \/ (exists cb, o = DForAll cb) -> lstep c s' o = Ok (s', DOList xs).
Proof.
  intros M c Hs fuel s o inner s' log xs H Hu.
  destruct o as [e|es|m|m|m|m cb|m cb|cb|m| |]; cbn [lchanging] in H; try discriminate H; unfold lstep; cbn [step].
  - destruct Hu as [Hu|[cb' Hu]]; [|discriminate Hu]. unfold all_divisors_r in H. cbv zeta in H. rewrite Hu in H.
    pose proof (feed_exact c Hs cb inner (fun x => ext_divides M false (f_divides c) x (extend M (f_ex c) false (l_bits s) m)) (fun t => f_divides c t m) (fun x => eq_refl) fuel 0 _ _ _ _ H) as E. cbn [fst skipn] in E.
    unfold all_divisors. cbv zeta. rewrite Hs, Hu. cbn [negb bind]. rewrite E. reflexivity.
  - destruct Hu as [Hu|[cb' Hu]]; [|discriminate Hu]. unfold all_multiples_r in H. cbv zeta in H. rewrite Hu in H.
    pose proof (feed_exact c Hs cb inner (fun x => ext_divides M false (f_divides c) (extend M (f_ex c) false (l_bits s) m) x) (fun t => f_divides c m t) (fun x => eq_refl) fuel 0 _ _ _ _ H) as E. cbn [fst skipn] in E.
    unfold all_multiples. cbv zeta. rewrite Hu, E. reflexivity.
  - pose proof (feed_exact c Hs cb inner (fun _ => true) (fun _ => true) (fun x => eq_refl) fuel 0 _ _ _ _ H) as E. cbn [fst skipn] in E. unfold for_all. now rewrite E.
Qed.
Print Assumptions C104_exact_without_masks.

(** C104.  A search whose callback makes searches and rebuilds comes to an end and leaves the same entries. *)
Theorem C104_rebuilds_end : forall (M : Type) (c : config M), f_sorted c = false -> legal c -> forall ops s rs, lreached c ops s rs -> forall o inner cb all,
  wanted (f_divides c) o (contents s) = Some (cb, all) -> (forall xs, forallb quiet (inner xs) = true) ->
  exists s' log xs, lchanging c (S (length (contents s))) s o inner = Ok (s', log, xs) /\ contents s' = contents s.
Proof.
  intros M c Hs Hl ops s rs Hr o inner cb all Hw Hq.
  assert (Hmain : forall p cb0, exists s' log xs, feed_r (f_linked c) (lstep c) cb0 inner (S (length (contents s))) p 0 (s, []) [] = Ok (s', log, xs) /\ contents s' = contents s).
  { intros p cb0. destruct (quiet_feed c Hs cb0 inner Hl Hq p (S (length (contents s))) 0 (s, []) []) as ([s' log] & xs & H & E); [exists ops, rs; exact Hr|cbn [fst]; lia|]. exists s', log, xs. auto. }
  destruct o as [e|es|m|m|m|m cb0|m cb0|cb0|m| |]; cbn [wanted] in Hw; try discriminate Hw; cbn [lchanging]; apply Hmain.
Qed.
Print Assumptions C104_rebuilds_end.

(** C104.  With masks a search misses divisors once the callback has called rebuild: the masks of the entries are new, that of the monomial is old. *)
Definition once {M} (o : dop M) (xs : list M) : list (dop M) := match xs with [_] => [o] | _ => [] end.
Definition far : list (dop mono) := [DInsert (0, 0); DInsert (99, 99)]%Z.
Theorem C104_masks_refuted : exists c : config mono, legal c /\ f_sorted c = false /\ f_linked c = false /\ exists s rs, lreached c far s rs /\
  lstep c s (DAllDivisors (100, 100)%Z go_on) = Ok (s, DOList [(0, 0); (99, 99)]%Z) /\
  exists s', lchanging c 3 s (DAllDivisors (100, 100)%Z go_on) (once DRebuild) = Ok (s', [(DRebuild, DONone)], [(0, 0)]%Z) /\ contents s' = [(0, 0); (99, 99)]%Z.
Proof.
  exists (mono_config lex true false false false). split; [apply mono_legal|]. split; [reflexivity|]. split; [reflexivity|]. eexists. eexists. split.
  - eapply lreached_run; [vm_compute; reflexivity|vm_compute; reflexivity|vm_compute; tauto].
  - split; [vm_compute; reflexivity|]. eexists. split; vm_compute; reflexivity.
Qed.
Print Assumptions C104_masks_refuted.

(** C104.  In a linked list one insertion made in the callback is enough, if it triggers the automatic rebuild: (99, 99) was in the list before and is in it after, but is not
    reported. *)
Theorem C104_insert_refuted : exists c : config mono, legal c /\ f_sorted c = false /\ f_linked c = true /\ exists s rs, lreached c far s rs /\
  exists s', lchanging c 4 s (DAllDivisors (100, 100)%Z go_on) (once (DInsert (5, 5)%Z)) = Ok (s', [(DInsert (5, 5)%Z, DONone)], [(0, 0); (5, 5)]%Z) /\
  contents s' = [(0, 0); (99, 99); (5, 5)]%Z /\ lstep c s' (DAllDivisors (100, 100)%Z go_on) = Ok (s', DOList [(0, 0); (99, 99); (5, 5)]%Z).
Proof.
  exists (mono_config lex true true false true). split; [apply mono_legal|]. split; [reflexivity|]. split; [reflexivity|]. eexists. eexists. split.
  - eapply lreached_run; [vm_compute; reflexivity|vm_compute; reflexivity|vm_compute; tauto].
  - eexists. split; [|split]; vm_compute; reflexivity.
Qed.
Print Assumptions C104_insert_refuted.

(** Without masks nothing is missed, and what was inserted is found too. *)
Example C104_nonvacuous : exists s rs s', lreached (mono_config lex false true false true) far s rs /\
  lchanging (mono_config lex false true false true) 4 s (DAllDivisors (100, 100)%Z go_on) (once (DInsert (5, 5)%Z)) = Ok (s', [(DInsert (5, 5)%Z, DONone)], [(0, 0); (99, 99); (5, 5)]%Z).
Proof.
  eexists. eexists. eexists. split.
  - eapply lreached_run; [vm_compute; reflexivity|vm_compute; reflexivity|vm_compute; tauto].
  - vm_compute. reflexivity.
Qed.
