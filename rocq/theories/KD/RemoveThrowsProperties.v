(** Property theorems about removeMultiples of KDTree, and all its calls together, when client functions throw (C89). *)
From Coq Require Import List Arith Bool ZArith NArith Lia Permutation.
From Verif.Base Require Import Res Arr ResList StdAlg Order Sort Fault FaultFacts.
From Verif.DivMask Require Import Model Defined.
From Verif.Spec Require Import Reach DivFinder DivFinderFacts DivCaught DivStale DivHurt.
From Verif.DivList Require Import Properties.
From Verif.KD Require Import EntryArray Tree Model Legal ArrayProofs TreeProofs Proofs Properties Throws ThrowsSearch ThrowsProperties InsertThrows InsertThrowsProofs
  InsertThrowsProperties RemoveThrows RemoveThrowsProofs.
Import ListNotations.

(** Calls with the number of client calls, and allocations if [alloc], that return before one throws; _tmp goes from call to call. *)
Definition acatch {M} (C : kconf M) (packed alloc : bool) (A : algs M) : kd M * todo -> dop M * nat -> res (kd M * todo * outcome M) :=
  catch_all C packed alloc (g_upper A) (g_sort A) (g_part A).

(** C89.  Whatever throws, a call on a tree with an empty _tmp throws or does what it does without exceptions. *)
Theorem C89_throws_or_same : forall (M : Type) (C : kconf M) packed alloc A, alegal C A -> forall s o b s' r, step C packed s o = Ok (s', r) ->
  acatch C packed alloc A (s, []) (o, b) = Ok (s', [], Answered r) \/ exists s'' tmp xs, acatch C packed alloc A (s, []) (o, b) = Ok (s'', tmp, Threw xs).
Proof.
  intros M C packed alloc A (_ & H1 & H2) s o b s' r H. assert (Ht := tot_all C packed alloc (g_upper A) (g_sort A) (g_part A) b s o H1 H2). rewrite H in Ht.
  destruct (Ht _ eq_refl) as ([b' a|[[s'' tmp] xs]] & E & G); unfold acatch, catch_all; cbn [fst snd]; rewrite E; cbn [bind]; [subst a; now left|right; eauto].
Qed.
Print Assumptions C89_throws_or_same.

(** What a client expects of a tree in which removeMultiples has thrown: [good] of the entries before, of those given to the output, and of the tree. *)
Definition after_throw {M} (C : kconf M) valid packed (good : M -> list M -> list M -> kd M -> todo -> Prop) : Prop :=
  forall alloc A, alegal C A -> forall ops s rs m b s' tmp xs, kreached C packed valid ops s rs ->
    acatch C packed alloc A (s, []) (DRemoveMultiples m, b) = Ok (s', tmp, Threw xs) -> good m (kcontents s) xs s' tmp.

(** C89.  removeMultiples that throws has given multiples to the output, each of them once.  All entries that are not multiples and all multiples that were not
    given to the output are still there; any others are not more than those that were given to the output, and there are none if a leaf has one entry.
    size() has not changed. *)
Theorem C89_what_is_left : forall (M : Type) (C : kconf M) valid packed, klegal C valid -> c_removals C = true ->
  after_throw C valid packed (fun m l xs s' _ => dcaught (c_divides C) (c_leaf C =? 1) l (DRemoveMultiples m) xs (kcontents s') /\ k_size s' = length l).
Proof.
  intros M C valid packed H Hrem alloc A _ ops s rs m b s' tmp xs Hr Hc. assert (Hi := kreached_inv C packed valid ops s rs H Hr).
  unfold acatch, catch_all in Hc. cbn [fst snd all_x] in Hc. apply bind_inv in Hc as ([b' [[s1 t1] r1]|[[s1 t1] x1]] & E & Hc); [discriminate Hc|]. injection Hc as -> -> ->.
  apply fbind_left in E as [E|(b1 & [[[s2 c] out] t2] & _ & E)]; [|discriminate E].
  assert (Ht : tmp_ok C valid s []) by (unfold tmp_ok; destruct (k_tree s); auto).
  destruct (multiples_left C valid H packed Hrem b s m [] s' tmp xs (i_root _ _ _ _ Hi) (i_bits _ _ _ _ Hi) Ht E) as (G1 & G2 & _). split; auto. rewrite G2. apply (i_size _ _ _ _ Hi).
Qed.
Print Assumptions C89_what_is_left.

(** The precondition of the calls of a tree whose calls may throw: an entry is not inserted once too often, and as long as the last call that threw has left nodes in
    _tmp only removeMultiples and searches are made. *)
Definition all_pre {M} (C : kconf M) (valid : M -> bool) (packed : bool) (l : list M) (d : bool) (o : dop M) : bool :=
  match o with
  | DInsert e => valid e && (copies (ksame C) e l <? c_leaf C) && negb d
  | DRemoveElement _ => packed && negb d
  | DRebuild => negb d
  | DInsertRange _ | DToFront _ => false
  | _ => true
  end.
(** C89.  A tree that allows removals, without the divisor cache and with leaves of one entry if they are sorted, goes on whatever throws in any call: every history
    runs to its end as allowed, unless it makes a call that breaks the precondition, or a risky insertion (see C88) throws. *)
Theorem C89_all_calls_go_on : forall (M : Type) (C : kconf M) valid packed alloc A, klegal C valid -> alegal C A -> c_removals C = true -> c_cache C = false ->
  (c_sorted C = true -> c_leaf C = 1) -> exists s0, construct C = Ok s0 /\ forall h,
  (exists s tmp rs, run (acatch C packed alloc A) (s0, []) h = Ok (s, tmp, rs) /\
    htrace (c_divides C) (ksame C) (c_leaf C =? 1) [] false (map fst h) rs (kcontents s) (dirty tmp)) \/
  (exists h1 o b h2 s tmp rs, h = h1 ++ (o, b) :: h2 /\ run (acatch C packed alloc A) (s0, []) h1 = Ok (s, tmp, rs) /\
    htrace (c_divides C) (ksame C) (c_leaf C =? 1) [] false (map fst h1) rs (kcontents s) (dirty tmp) /\
    (all_pre C valid packed (kcontents s) (dirty tmp) o = false \/
     risky C packed alloc s o = true /\ exists s', acatch C packed alloc A (s, tmp) (o, b) = Ok (s', [], Threw []))).
Proof.
  intros M C valid packed alloc A H (H0 & H1 & H2) Hrem Hc Hone. destruct (construct_ok C valid H true (fun _ => Hc)) as (s0 & E & Hs & Hn). exists s0. split; [exact E|]. intros h.
  assert (Ht : tmp_ok C valid s0 []) by (unfold tmp_ok; destruct (k_tree s0); auto).
  assert (G := alls_ok C valid H packed Hrem Hone alloc (g_upper A) (g_sort A) (g_part A) H1 H2 H0 Hc h s0 [] Hs Ht). rewrite Hn in G. exact G.
Qed.
Print Assumptions C89_all_calls_go_on.

(** ** What an exception may leave *)
Definition three : kconf mono := mono_tree true true 3 true false false false.
Definition four : kconf mono := mono_tree true true 4 true true false false.
(** The removal of the multiples of [m] throws after [b] calls; see [after_throw] for [H]. *)
Ltac interrupt H C packed ops m b :=
  let Hr := fresh "Hr" in let Hc := fresh "Hc" in reach C packed ops Hr;
  match type of Hr with kreached _ _ _ _ ?s _ => eassert (Hc : acatch C packed false (few C) (s, []) (DRemoveMultiples m, b) = Ok (_, _, Threw _)) by (vm_compute; reflexivity) end;
  specialize (H false (few C) (few_legal C) _ _ _ _ _ _ _ _ Hr Hc); clear - H.
(** C89.  size() is then not the number of entries. *)
Theorem C89_size_refuted : forall packed, ~ (forall (M : Type) (C : kconf M) valid, klegal C valid -> c_removals C = true ->
  after_throw C valid packed (fun _ _ _ s' _ => k_size s' = length (kcontents s'))).
Proof.
  intros packed H. specialize (H mono plain int_mono plain_legal eq_refl).
  destruct packed; [interrupt H plain true five (1, 1)%Z 42%nat|interrupt H plain false five (1, 1)%Z 42%nat]; vm_compute in H; discriminate H.
Qed.
Print Assumptions C89_size_refuted.
(** C89.  With leaves of several entries, an entry that was given to the output may still be there. *)
Theorem C89_reported_refuted : forall packed, ~ (forall (M : Type) (C : kconf M) valid, klegal C valid -> c_removals C = true ->
  after_throw C valid packed (fun _ l xs s' _ => NoDup l -> forall x, In x xs -> ~ In x (kcontents s'))).
Proof.
  intros packed H. specialize (H mono plain int_mono plain_legal eq_refl).
  destruct packed; [interrupt H plain true five (1, 1)%Z 38%nat; apply H with (2, 2)%Z|interrupt H plain false five (1, 1)%Z 36%nat; apply H with (3, 1)%Z];
    try (vm_compute; tauto); vm_compute; repeat constructor; cbn; intuition discriminate.
Qed.
Print Assumptions C89_reported_refuted.
(** C89.  With leaves of three entries, an entry may then be there twice. *)
Theorem C89_twice_refuted : forall packed, ~ (forall (M : Type) (C : kconf M) valid, klegal C valid -> c_removals C = true ->
  after_throw C valid packed (fun _ l _ s' _ => NoDup l -> NoDup (kcontents s'))).
Proof.
  intros packed H. assert (Hl : klegal three int_mono) by (apply mono_tree_legal; auto with arith). specialize (H mono three int_mono Hl eq_refl).
  destruct packed; [interrupt H three true [DInsert (3, 1); DInsert (0, 2); DInsert (1, 4)]%Z (1, 1)%Z 34%nat|interrupt H three false [DInsert (3, 1); DInsert (0, 2); DInsert (1, 4)]%Z (1, 1)%Z 34%nat];
    (eassert (Hd : NoDup _) by (apply H; vm_compute; repeat constructor; cbn; intuition discriminate)); vm_compute in Hd; inversion Hd as [|? ? Hx]; apply Hx; now left.
Qed.
Print Assumptions C89_twice_refuted.
(** C89.  With sortOnInsert and leaves of four entries, a later search may be undefined. *)
Definition searchable {M} (C : kconf M) packed (_ : M) (_ _ : list M) (s' : kd M) (_ : @todo M) : Prop :=
  forall o, is_search o = true -> exists s'' r, step C packed s' o = Ok (s'', r).
Theorem C89_sorted_refuted : forall packed, ~ (forall (M : Type) (C : kconf M) valid, klegal C valid -> c_removals C = true -> c_cache C = false ->
  after_throw C valid packed (searchable C packed)).
Proof.
  intros packed H. assert (Hl : klegal four int_mono) by (apply mono_tree_legal; auto with arith). specialize (H mono four int_mono Hl eq_refl eq_refl). destruct packed.
  - interrupt H four true [DInsert (1, 1); DInsert (2, 2); DInsert (3, 0); DInsert (4, 1)]%Z (1, 1)%Z 36%nat. stuck H (DFindDivisor (2, 9)%Z).
  - interrupt H four false [DInsert (1, 1); DInsert (2, 2); DInsert (3, 0); DInsert (4, 1)]%Z (1, 1)%Z 36%nat. stuck H (DFindDivisor (2, 9)%Z).
Qed.
Print Assumptions C89_sorted_refuted.
(** C89.  With the divisor cache, it may point to an entry that is gone, which the next findDivisor reads. *)
Theorem C89_cache_refuted : forall packed, ~ (forall (M : Type) (C : kconf M) valid, klegal C valid -> c_removals C = true -> c_sorted C = false ->
  after_throw C valid packed (searchable C packed)).
Proof.
  intros packed H. assert (Hl : klegal cached int_mono) by (apply mono_tree_legal; auto with arith). specialize (H mono cached int_mono Hl eq_refl eq_refl). destruct packed.
  - interrupt H cached true (five ++ [DFindDivisor (2, 2)%Z]) (1, 1)%Z 40%nat. stuck H (DFindDivisor (9, 9)%Z).
  - interrupt H cached false (five ++ [DFindDivisor (3, 1)%Z]) (1, 1)%Z 38%nat. stuck H (DFindDivisor (9, 9)%Z).
Qed.
Print Assumptions C89_cache_refuted.
(** C89.  The next enumeration may report entries twice. *)
Theorem C89_enumeration_refuted : forall packed, ~ (forall (M : Type) (C : kconf M) valid, klegal C valid -> c_removals C = true ->
  after_throw C valid packed (fun _ _ _ s' tmp => forall A b s'' tmp' xs, acatch C packed false A (s', tmp) (DForAll (fun _ => true), b) = Ok (s'', tmp', Answered (DOList xs)) -> length xs <= length (kcontents s'))).
Proof.
  intros packed H. specialize (H mono plain int_mono plain_legal eq_refl). destruct packed.
  - interrupt H plain true five (1, 1)%Z 38%nat. specialize (H (few plain) many _ _ _ eq_refl). vm_compute in H. lia.
  - interrupt H plain false five (1, 1)%Z 36%nat. specialize (H (few plain) many _ _ _ eq_refl). vm_compute in H. lia.
Qed.
Print Assumptions C89_enumeration_refuted.

(** Both trees: removals throw before the first leaf, in a leaf and between leaves; searches report entries twice or do not, size() is too great, and a removal that returns
    removes what is left. *)
Definition interrupted : list (dop mono * nat) :=
  map (fun o => (o, many)) five ++
  [(DRemoveMultiples (1, 1)%Z, 10); (DRemoveMultiples (1, 1)%Z, 38); (DForAll go_on, many); (DFindDivisor (2, 2)%Z, 36); (DRemoveMultiples (1, 1)%Z, 42); (DSize, many);
   (DRemoveMultiples (1, 1)%Z, many); (DForAll go_on, many); (DInsert (5, 1)%Z, many); (DSize, many)]%nat.
Definition all_outcomes (C : kconf mono) (packed : bool) (h : list (dop mono * nat)) : res (list (outcome mono)) :=
  let* s := construct C in let* (_, os) := run (acatch C packed packed (few C)) (s, []) h in Ok os.
Example C89_nonvacuous : klegal plain int_mono /\ alegal plain (few plain) /\ c_removals plain = true /\ c_cache plain = false /\ c_sorted plain = false /\
  all_outcomes plain true interrupted = Ok (repeat (Answered DONone) 5 ++
    [Threw []; Threw [(2, 2)]; Answered (DOList [(2, 2); (1, 4); (0, 9); (3, 1); (4, 4); (0, 9); (3, 1); (4, 4)]); Answered (DOFound (Some (2, 2)));
     Threw [(2, 2); (1, 4); (3, 1)]; Answered (DOSize 5); Answered (DORemoved true [(3, 1); (4, 4)]); Answered (DOList [(0, 9)]); Answered DONone; Answered (DOSize 4)]%Z) /\
  all_outcomes plain false interrupted = Ok (repeat (Answered DONone) 5 ++
    [Threw []; Threw [(3, 1); (4, 4)]; Answered (DOList [(2, 2); (1, 4); (0, 9)]); Answered (DOFound (Some (2, 2)));
     Answered (DORemoved true [(2, 2); (1, 4)]); Answered (DOSize 3); Answered (DORemoved false []); Answered (DOList [(0, 9)]); Answered DONone; Answered (DOSize 4)]%Z) /\
  exists s rs s' tmp xs, kreached plain true int_mono five s rs /\ acatch plain true false (few plain) (s, []) (DRemoveMultiples (1, 1)%Z, 38%nat) = Ok (s', tmp, Threw xs) /\ xs <> [] /\ tmp <> [].
Proof.
  split; [apply plain_legal|]. split; [apply few_legal|]. repeat (split; [vm_compute; reflexivity|]). reach plain true five Hr.
  match type of Hr with kreached _ _ _ _ ?s _ => eassert (Hc : acatch plain true false (few plain) (s, []) (DRemoveMultiples (1, 1)%Z, 38%nat) = Ok (_, _, Threw _)) by (vm_compute; reflexivity) end.
  do 5 eexists. split; [exact Hr|]. split; [exact Hc|]. split; discriminate.
Qed.
