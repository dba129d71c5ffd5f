(** Property theorems about how often a DivList calls isLessThan (C105). *)
From Coq Require Import List Arith Bool ZArith NArith Lia Permutation.
From Verif.Base Require Import Res Arr StdAlg Order Count FaultFacts.
From Verif.DivMask Require Import Model.
From Verif.Spec Require Import Reach DivFinder.
From Verif.DivList Require Import Model Proofs Properties Ordered OrderedProofs.
Import ListNotations.

(** A call, and a history, with the number of calls of isLessThan that it makes *)
Definition lcompared {M} (c : config M) : dlist M -> dop M -> counted (dlist M * dout M) :=
  step_o M (f_ex c) (f_nvars c) (f_type c) (f_sort_data c) (f_use c) (f_divides c) (f_less c) (f_linked c) (f_sorted c) (f_auto c) (f_ratio c) (f_min c) (f_sort_ext c).
Definition lcompared_run {M} (c : config M) : dlist M -> list (dop M) -> counted (dlist M * list (dout M)) :=
  run_o M (f_ex c) (f_nvars c) (f_type c) (f_sort_data c) (f_use c) (f_divides c) (f_less c) (f_linked c) (f_sorted c) (f_auto c) (f_ratio c) (f_min c) (f_sort_ext c).
(** What is inserted, and how many calls look for divisors *)
Definition put_in {M} (ops : list (dop M)) : list M := flat_map (fun o => match o with DInsert e => [e] | DInsertRange es => es | _ => [] end) ops.
Definition looks {M} (o : dop M) : bool := match o with DFindDivisor _ | DAllDivisors _ _ | DToFront _ => true | _ => false end.

Lemma contents_length {M} (s : dlist M) : length (contents s) = length (l_list s).
Proof. unfold contents, Model.contents. apply map_length. Qed.

(** C105.  In a vector std::upper_bound, halving the range, finds the place that the specification of std::upper_bound asks for, with at most log2 n + 1 comparisons, so
    the calls do what they do when the comparisons are not counted.  An insertion and a search compare at most log2 n + 1 times, for n entries. *)
Theorem C105_vector : forall (M : Type) (c : config M), f_sorted c = true -> f_linked c = false -> forall s o s' r, lstep c s o = Ok (s', r) ->
  exists n, lcompared c s o = Ok ((s', r), n) /\
    match o with
    | DInsert _ | DFindDivisor _ | DAllDivisors _ _ | DToFront _ => n <= S (Nat.log2 (length (contents s))) /\ (contents s = [] -> n = 0)
    | DInsertRange es => n <= length es * S (Nat.log2 (length (contents s) + length es)) /\ (contents s = [] -> n = 0)
    | _ => n = 0
    end.
Proof.
  intros M c Hs Hl s o s' r H. destruct (step_count _ _ _ _ _ _ _ _ _ _ _ _ _ s o s' r H) as (n & Hn & Hb). exists n. split; [exact Hn|].
  assert (Hh : forall k, halvings k <= S (Nat.log2 k)) by (intros [|k]; cbn [halvings]; lia). unfold call_cost, insert_cost, search_cost in Hb. rewrite Hs, Hl in Hb.
  rewrite !contents_length. pose proof (Hh (length (l_list s))) as H1.
  assert (H0 : contents s = [] -> length (l_list s) = 0) by (intros E; now rewrite <- contents_length, E).
  destruct o as [e|es|m|m|m|m cb|m cb|cb|m| |]; try lia; (split; [|intros E; rewrite (H0 E) in Hb; cbn in Hb; lia]); try lia.
  destruct (length (l_list s)) as [|k] eqn:E; [lia|]. etransitivity; [exact Hb|]. apply Nat.mul_le_mono_l, Hh.
Qed.
Print Assumptions C105_vector.

(** C105.  In a linked list a search compares once for every 35 entries that it passes and an insertion compares at most once with each entry: with those that end up before
    the new one and with the one after it. *)
Theorem C105_linked : forall (M : Type) (c : config M), f_sorted c = true -> f_linked c = true -> forall s o s' r, lstep c s o = Ok (s', r) ->
  exists n, lcompared c s o = Ok ((s', r), n) /\
    match o with
    | DInsert e => exists before after, contents s = before ++ after /\ contents s' = before ++ e :: after /\ n = length before + match after with [] => 0 | _ => 1 end
    | DFindDivisor _ | DAllDivisors _ _ | DToFront _ => 35 * n <= length (contents s)
    | DInsertRange es => n <= length es * (length (contents s) + length es) /\ (contents s = [] -> n = 0)
    | _ => n = 0
    end.
Proof.
  intros M c Hs Hl s o s' r H. destruct (step_count _ _ _ _ _ _ _ _ _ _ _ _ _ s o s' r H) as (n & Hn & Hb). exists n. split; [exact Hn|].
  unfold call_cost, insert_cost, search_cost in Hb. rewrite Hs, Hl in Hb. rewrite ?contents_length.
  assert (H35 : n <= length (l_list s) / 35 -> 35 * n <= length (l_list s)) by (intros G; pose proof (Nat.mul_div_le (length (l_list s)) 35 ltac:(lia)); lia).
  destruct o as [e|es|m|m|m|m cb|m cb|cb|m| |]; auto; try lia.
  - unfold step_o in Hn. apply cbind_ok in Hn. destruct Hn as (s1 & n1 & n2 & H1 & H2 & ->). injection H2 as -> _ <-. unfold insert_o in H1. rewrite Hs, Hl in H1. cbn [negb insert_sort_o] in H1.
    apply cbind_ok in H1. destruct H1 as (l & n3 & n4 & H3 & H4 & ->). unfold insert_sort_o in H3. set (x := extend M (f_ex c) (f_use c) (l_bits s) e) in *.
    destruct (insert_list_count (f_less c) (l_list s) x) as (n & E1 & i & Hi & En & E2). rewrite E1 in H3. injection H3 as <- <-. apply free_ok in H4. destruct H4 as [H4 ->].
    exists (map x_t (firstn i (l_list s))), (map x_t (skipn i (l_list s))). split; [rewrite <- map_app, firstn_skipn; reflexivity|].
    assert (Hrep : contents s' = map x_t (insert_list M (f_less c) (l_list s) x)).
    { unfold report_changes, rebuild_list, reset_left in H4. cbn [l_left l_list l_bits l_rebuilds] in H4. destruct (negb (f_auto c)); [injection H4 as <-; reflexivity|]. destruct (1 <? l_left s); [injection H4 as <-; reflexivity|].
      apply bind_inv in H4. destruct H4 as (b & _ & H4). injection H4 as <-. unfold contents, Model.contents. cbn [l_list]. rewrite map_map. apply map_ext. intros [] ; reflexivity. }
    split; [rewrite Hrep, E2, map_app; cbn [map]; reflexivity|]. rewrite map_length, firstn_length, En. pose proof (skipn_length i (l_list s)) as Hsk. destruct (skipn i (l_list s)); cbn [map length] in *; lia.
  - split; [destruct (length (l_list s)); lia|]. intros E. rewrite <- contents_length, E in Hb. cbn in Hb. lia.
Qed.
Print Assumptions C105_linked.

(** C105.  An unsorted DivList never compares. *)
Theorem C105_unsorted : forall (M : Type) (c : config M), f_sorted c = false -> forall s o s' r, lstep c s o = Ok (s', r) -> lcompared c s o = Ok ((s', r), 0).
Proof.
  intros M c Hs s o s' r H. destruct (step_count _ _ _ _ _ _ _ _ _ _ _ _ _ s o s' r H) as (n & Hn & Hb). unfold call_cost, insert_cost, search_cost in Hb. rewrite Hs in Hb.
  replace n with 0 in Hn; [exact Hn|]. destruct o as [e|es|m|m|m|m cb|m cb|cb|m| |]; try lia. destruct (length (l_list s)); lia.
Qed.
Print Assumptions C105_unsorted.

Lemma run_o_snoc {M} (c : config M) ops : forall s s1 rs n o s2 r k, lcompared_run c s ops = Ok ((s1, rs), n) -> lcompared c s1 o = Ok ((s2, r), k) ->
  lcompared_run c s (ops ++ [o]) = Ok ((s2, rs ++ [r]), n + k).
Proof.
  induction ops as [|o' ops IH]; intros s s1 rs n o s2 r k H1 H2.
  - cbn in H1. injection H1 as -> <- <-. unfold lcompared_run. cbn [run_o app]. fold (lcompared c). rewrite H2. unfold cbind. cbn [bind]. do 2 f_equal. lia.
  - unfold lcompared_run in *. cbn [run_o app] in *. fold (lcompared c) in *. apply cbind_ok in H1. destruct H1 as ((s3 & r3) & a & b & E1 & E2 & ->).
    apply cbind_ok in E2. destruct E2 as ((s4 & rs4) & a' & b' & E3 & E4 & ->). injection E4 as -> <- <-. rewrite E1. unfold cbind at 1. cbn [bind].
    rewrite (IH _ _ _ _ _ _ _ _ E3 H2). unfold cbind. cbn [bind]. do 2 f_equal. lia.
Qed.
Lemma filter_length {A} (p : A -> bool) l : length (filter p l) <= length l.
Proof. induction l as [|a l IH]; cbn; [lia|]. destruct (p a); cbn; lia. Qed.
Lemma dstep_size {M} (divides same : M -> M -> bool) l o r l' : dstep divides same l o r l' -> length l' <= length l + length (put_in [o]).
Proof.
  intros H. destruct H; cbn [put_in flat_map app length];
    repeat match goal with H : Permutation _ _ |- _ => apply Permutation_length in H end; rewrite ?app_nil_r; cbn [length] in *; rewrite ?app_length in *; try lia.
  unfold non_multiples in *. pose proof (filter_length (fun e => negb (divides m e)) l). lia.
Qed.

(** C105.  Over a whole history. *)
Theorem C105_history : forall (M : Type) (c : config M), legal c -> compatible_order c -> f_sorted c = true -> forall ops s rs, lreached c ops s rs ->
  exists s0 n, linit c = Ok s0 /\ lcompared_run c s0 ops = Ok ((s, rs), n) /\
    let i := length (put_in ops) in
    n <= i * (if f_linked c then i else S (Nat.log2 i)) + length (filter looks ops) * (if f_linked c then i / 35 else S (Nat.log2 i)).
Proof.
  intros M c H Ho Hs ops s rs (s0 & Hi & Hr). exists s0.
  enough (G : length (contents s) <= length (put_in ops) /\ exists n, lcompared_run c s0 ops = Ok ((s, rs), n) /\
    n <= length (put_in ops) * insert_cost (f_linked c) true (length (put_in ops)) + length (filter looks ops) * search_cost (f_linked c) true (length (put_in ops))).
  { destruct G as (_ & n & G1 & G2). exists n. split; [exact Hi|]. split; [exact G1|]. cbv zeta. unfold insert_cost, search_cost in G2.
    assert (Hh : forall k, halvings k <= S (Nat.log2 k)) by (intros [|k]; cbn [halvings]; lia).
    destruct (f_linked c); [exact G2|]. etransitivity; [exact G2|]. apply Nat.add_le_mono; apply Nat.mul_le_mono_l, Hh. }
  induction Hr as [|ops s rs o s' r Hr IH Hp Hst].
  - destruct (list_steps c H (fun _ => Ho)) as (s1 & E1 & E2 & _). assert (s1 = s0) as -> by congruence. split; [rewrite E2; cbn; lia|]. exists 0. split; [reflexivity|lia].
  - destruct IH as (B & n & R & C).
    destruct (lreached_step c ops s rs o H (fun _ => Ho) (ex_intro _ s0 (conj Hi Hr)) Hp) as (s2 & r2 & E1 & E2). rewrite Hst in E1. injection E1 as <- <-. apply dstep_size in E2.
    destruct (step_count _ _ _ _ _ _ _ _ _ _ _ _ _ s o s' r Hst) as (k & K1 & K2). fold (lcompared c) in K1. rewrite Hs in K2.
    assert (Ep : length (put_in (ops ++ [o])) = length (put_in ops) + length (put_in [o])) by (unfold put_in; rewrite flat_map_app, app_length; reflexivity).
    assert (El : length (filter looks (ops ++ [o])) = length (filter looks ops) + (if looks o then 1 else 0)) by (rewrite filter_app, app_length; cbn [filter]; destruct (looks o); reflexivity).
    split; [lia|]. exists (n + k). split; [eapply run_o_snoc; eauto|]. rewrite Ep, El. rewrite contents_length in B. set (a := length (put_in ops)) in *. set (b := length (put_in [o])) in *. set (q := length (filter looks ops)) in *.
    pose proof (insert_cost_mono (f_linked c) true a (a + b) ltac:(lia)) as M1. pose proof (search_cost_mono (f_linked c) true a (a + b) ltac:(lia)) as M2.
    pose proof (Nat.mul_le_mono_l _ _ a M1) as M3. pose proof (Nat.mul_le_mono_l _ _ q M2) as M4.
    assert (K : k <= b * insert_cost (f_linked c) true (a + b) + (if looks o then 1 else 0) * search_cost (f_linked c) true (a + b)).
    { pose proof (insert_cost_mono (f_linked c) true (length (l_list s)) (a + b) ltac:(lia)) as M5. pose proof (search_cost_mono (f_linked c) true (length (l_list s)) (a + b) ltac:(lia)) as M6.
      pose proof (insert_cost_mono (f_linked c) true (length (l_list s) + b) (a + b) ltac:(lia)) as M7.
      unfold call_cost in K2. destruct o as [e|es|m|m|m|m cb|m cb|cb|m| |]; cbn [looks] in *; try lia.
      - subst b. cbn in *. lia.
      - assert (Eb : length es = b) by (subst b; cbn; now rewrite app_nil_r). rewrite Eb in K2. pose proof (Nat.mul_le_mono_l _ _ b M7). destruct (length (l_list s)); lia. }
    rewrite !Nat.mul_add_distr_r. lia.
Qed.
Print Assumptions C105_history.

(** C105.  The bound for a linked list is reached: n insertions in increasing order make n (n - 1) / 2 comparisons. *)
Definition rising (n : nat) : list (dop mono) := map (fun i => DInsert (Z.of_nat i, 0%Z)) (seq 0 n).
Lemma insert_last {M} (less : M -> M -> bool) (e : ext M) l : (forall x, In x l -> less (x_t e) (x_t x) = false) -> insert_list_o M less l e = Ok (l ++ [e], length l).
Proof.
  induction l as [|x l IH]; intros H; cbn [insert_list_o]; [reflexivity|]. unfold cbind at 1. cbn [bind]. rewrite (H x (or_introl eq_refl)), IH by (intros y Hy; apply H; now right). unfold cbind. cbn [bind app length]. do 2 f_equal. lia.
Qed.
Theorem C105_linked_quadratic : legal (mono_config lex false true true false) /\ compatible_order (mono_config lex false true true false) /\
  forall n, exists s0 s rs k, linit (mono_config lex false true true false) = Ok s0 /\ lcompared_run (mono_config lex false true true false) s0 (rising n) = Ok ((s, rs), k) /\ 2 * k = n * (n - 1).
Proof.
  split; [apply mono_legal|]. split; [apply lex_compatible|]. set (c := mono_config lex false true true false). intros n.
  destruct (list_steps c (mono_legal _ _ _ _ _) (fun _ => lex_compatible _ _ _ _)) as (s0 & Hi & H0 & _). exists s0.
  enough (G : exists s rs k, lcompared_run c s0 (rising n) = Ok ((s, rs), k) /\ 2 * k = n * (n - 1) /\ length (l_list s) = n /\ forall x, In x (l_list s) -> (fst (x_t x) < Z.of_nat n)%Z).
  { destruct G as (s & rs & k & G1 & G2 & _). exists s, rs, k. auto. }
  induction n as [|n (s & rs & k & G1 & G2 & G3 & G4)].
  - exists s0, [], 0. split; [reflexivity|]. split; [reflexivity|]. rewrite <- contents_length, H0. split; [reflexivity|]. intros x Hx. unfold contents, Model.contents in H0. apply map_eq_nil in H0. rewrite H0 in Hx. destruct Hx.
  - unfold rising. rewrite seq_S, map_app. cbn [map plus]. fold (rising n).
    assert (E : lcompared c s (DInsert (Z.of_nat n, 0%Z)) =
      Ok ((mk_dlist (l_list s ++ [extend mono mono_ex false (l_bits s) (Z.of_nat n, 0%Z)]) (l_bits s) (l_left s) (l_rebuilds s), DONone), n)).
    { unfold lcompared, step_o, insert_o, insert_sort_o. cbn [c mono_config f_ex f_nvars f_type f_sort_data f_use f_divides f_less f_linked f_sorted f_auto f_ratio f_min f_sort_ext negb]. rewrite insert_last.
      - rewrite G3. unfold cbind, free, report_changes. cbn [negb bind]. do 2 f_equal. lia.
      - intros x Hx. specialize (G4 x Hx). unfold extend. cbn [x_t]. unfold lex. cbn [fst snd]. apply orb_false_iff. rewrite andb_false_iff, !Z.ltb_ge, Z.eqb_neq. lia. }
    do 3 eexists. split; [eapply run_o_snoc; [exact G1|exact E]|]. cbn [l_list]. split; [destruct n; nia|]. split; [rewrite app_length; cbn; lia|].
    intros x Hx. apply in_app_or in Hx. destruct Hx as [Hx|[<-|[]]]; [specialize (G4 x Hx); lia|]. unfold extend. cbn [x_t fst]. lia.
Qed.
Print Assumptions C105_linked_quadratic.

(** C105 on an example: nine entries, in a vector and in a linked list; then a search and an insertion. *)
Definition compares (linked : bool) : list (dop mono) -> res nat := fun ops =>
  let c := mono_config lex true linked true true in
  let* s := linit c in let* (_, n) := lcompared_run c s ops in Ok n.
Example C105_nonvacuous :
  legal (mono_config lex true false true true) /\ compatible_order (mono_config lex true false true true) /\
  map (compares false) [rising 9; rising 9 ++ [DFindDivisor (4, 1)]; rising 9 ++ [DInsert (0, 1)]; demo]%Z = [Ok 16; Ok 20; Ok 20; Ok 19] /\
  map (compares true) [rising 9; rising 9 ++ [DFindDivisor (4, 1)]; rising 9 ++ [DInsert (0, 1)]; rising 80; rising 80 ++ [DFindDivisor (-1, 1)]; demo]%Z = [Ok 36; Ok 36; Ok 38; Ok 3160; Ok 3161; Ok 11].
Proof. split; [apply mono_legal|]. split; [apply lex_compatible|]. split; vm_compute; reflexivity. Qed.
