(** How often isLessThan is called; used by OrderedProperties.v. *)
From Coq Require Import List Arith Bool ZArith NArith Lia.
From Verif.Base Require Import Res Arr StdAlg Count FaultFacts.
From Verif.DivMask Require Import Model.
From Verif.Spec Require Import DivFinder.
From Verif.DivList Require Import Model Ordered.
Import ListNotations.

Lemma vget_nth {A} (l : list A) i y : nth_error l i = Some y -> vget l i = Ok y.
Proof. intros H. unfold vget. now rewrite H. Qed.

(** The halving finds the place of std::upper_bound. *)
Lemma bisect_finds {A B} (lt : B -> A -> bool) l x i : i <= length l -> (forall j y, j < i -> nth_error l j = Some y -> lt x y = false) ->
  (forall j y, i <= j -> nth_error l j = Some y -> lt x y = true) ->
  forall fuel first len k, len <= fuel -> first <= i -> i <= first + len -> first + len <= length l -> len < 2 ^ k ->
  exists n, bisect fuel lt l x first len = Ok (i, n) /\ n <= k.
Proof.
  intros Hi Hlo Hhi. induction fuel as [|fuel IH]; intros first len k Hf H1 H2 H3 Hk; cbn [bisect].
  - exists 0. split; [|lia]. do 2 f_equal. lia.
  - destruct (len =? 0) eqn:E0; [apply Nat.eqb_eq in E0; exists 0; split; [do 2 f_equal; lia|lia]|]. apply Nat.eqb_neq in E0.
    destruct k as [|k]; [cbn in Hk; lia|]. rewrite Nat.pow_succ_r' in Hk.
    pose proof (Nat.div_mod_eq len 2) as Ed. pose proof (Nat.mod_upper_bound len 2 ltac:(lia)) as Em. cbv zeta. set (half := len / 2) in *.
    destruct (nth_error l (first + half)) as [y|] eqn:Ey; [|apply nth_error_None in Ey; lia].
    rewrite (vget_nth _ _ _ Ey). unfold free. cbn [bind]. unfold cbind at 1. cbn [bind]. unfold cbind. cbn [bind].
    destruct (lt x y) eqn:El.
    + assert (Hle : i <= first + half). { destruct (le_lt_dec i (first + half)) as [h|h]; [exact h|]. rewrite (Hlo _ _ h Ey) in El. discriminate. }
      destruct (IH first half k) as (n & -> & Hn); try lia. cbn [bind]. exists (S n). split; [reflexivity|lia].
    + assert (Hle : first + half < i). { destruct (le_lt_dec i (first + half)) as [h|h]; [|exact h]. rewrite (Hhi _ _ h Ey) in El. discriminate. }
      destruct (IH (first + half + 1) (len - half - 1) k) as (n & -> & Hn); try lia. cbn [bind]. exists (S n). split; [reflexivity|lia].
Qed.

Lemma nth_error_in_firstn {A} (l : list A) i j y : j < i -> nth_error l j = Some y -> In y (firstn i l).
Proof. revert l j. induction i as [|i IH]; intros [|a l] [|j] Hj H; cbn in *; try lia; try discriminate; [injection H as ->; auto|]. right. apply (IH l j); [lia|exact H]. Qed.
Lemma nth_error_in_skipn {A} (l : list A) i j y : i <= j -> nth_error l j = Some y -> In y (skipn i l).
Proof.
  revert l j. induction i as [|i IH]; intros [|a l] j Hj H; cbn [skipn]; [destruct j; discriminate H|eapply nth_error_In; eauto|destruct j; discriminate H|].
  destruct j as [|j]; [lia|]. cbn in H. apply (IH l j); [lia|exact H].
Qed.

(** The most comparisons of a search by halving *)
Definition halvings (n : nat) : nat := match n with 0 => 0 | _ => S (Nat.log2 n) end.
Lemma halvings_mono a b : a <= b -> halvings a <= halvings b.
Proof. intros H. destruct a as [|a]; [cbn; lia|]. destruct b as [|b]; [lia|]. unfold halvings. apply le_n_S. now apply Nat.log2_le_mono. Qed.

Lemma bisect_upper {A B} (lt : B -> A -> bool) l x i : upper_bound lt l x = Ok i ->
  exists n, bisect (length l) lt l x 0 (length l) = Ok (i, n) /\ n <= halvings (length l).
Proof.
  intros H. apply upper_bound_ok in H. destruct H as (H1 & H2 & H3).
  apply (bisect_finds lt l x i H1); try lia.
  - intros j y Hj Hy. apply H2. eapply nth_error_in_firstn; eauto.
  - intros j y Hj Hy. apply H3. eapply nth_error_in_skipn; eauto.
  - unfold halvings. destruct (length l) as [|n]; [cbn; lia|]. apply Nat.log2_spec. lia.
Qed.

Section Ordered.
  Context {M : Type} (ex : M -> nat -> Z) (nvars : nat) (T : exptype) (sort_data : list var_data -> list var_data) (use : bool) (divides less : M -> M -> bool)
    (linked sorted auto : bool) (ratio : nat -> nat) (rmin : nat) (sort_ext : list (ext M) -> list (ext M)).
  Notation ext := (ext M).
  Notation dlist := (dlist M).
  Notation ediv := (ext_divides M use divides).
  Notation report_changes := (report_changes M ex nvars T sort_data use auto ratio rmin).
  Notation insert := (insert M ex nvars T sort_data use less linked sorted auto ratio rmin).
  Notation insert_o := (insert_o M ex nvars T sort_data use less linked sorted auto ratio rmin).
  Notation insert_each := (insert_each M ex nvars T sort_data use less linked sorted auto ratio rmin).
  Notation insert_each_o := (insert_each_o M ex nvars T sort_data use less linked sorted auto ratio rmin).
  Notation step := (step M ex nvars T sort_data use divides less linked sorted auto ratio rmin sort_ext).
  Notation step_o := (step_o M ex nvars T sort_data use divides less linked sorted auto ratio rmin sort_ext).

  (** Exactly the entries that are not greater, and the first that is greater *)
  Lemma insert_list_count l e : exists n, insert_list_o M less l e = Ok (insert_list M less l e, n) /\
    exists i, i <= length l /\ n = Nat.min (S i) (length l) /\ insert_list M less l e = firstn i l ++ e :: skipn i l.
  Proof.
    induction l as [|x l (n & IH & i & Hi & Hn & E)]; cbn [insert_list_o insert_list]; [exists 0; split; [reflexivity|]; exists 0; auto|].
    unfold cbind. cbn [bind]. destruct (less (x_t e) (x_t x)) eqn:El; cbn [bind].
    - exists 1. split; [reflexivity|]. exists 0. cbn [length firstn skipn app]. repeat split; lia.
    - rewrite IH. cbn [bind]. exists (S n). split; [do 2 f_equal; lia|]. exists (S i). cbn [length firstn skipn app]. rewrite <- E. repeat split; lia.
  Qed.

  (** One comparison for each 35 entries passed *)
  Lemma scan_list_count m l : forall count, count < 35 -> exists n, scan_list_o M use divides less m count l = Ok (scan_list M use divides less m count l, n) /\ 35 * n <= count + length l.
  Proof.
    induction l as [|x l IH]; intros count Hc; cbn [scan_list_o scan_list]; [exists 0; split; [reflexivity|lia]|].
    destruct (S count =? 35) eqn:E; [apply Nat.eqb_eq in E|apply Nat.eqb_neq in E]; cbn [length].
    - unfold cbind at 1. cbn [bind]. destruct (less (x_t m) (x_t x)); [exists 1; split; [reflexivity|lia]|].
      destruct (ediv x m); [exists 1; split; [reflexivity|lia]|].
      destruct (IH 0 ltac:(lia)) as (n & -> & Hn). unfold cbind. cbn [bind]. exists (S n). split; [do 2 f_equal; lia|lia].
    - destruct (ediv x m); [exists 0; split; [reflexivity|lia]|].
      destruct (IH (S count) ltac:(lia)) as (n & -> & Hn). unfold cbind. cbn [bind]. exists n. split; [do 2 f_equal; lia|lia].
  Qed.
  Lemma feed_list_count cb m l : forall count seen, count < 35 -> exists n, feed_list_o M use divides less cb m count l seen = Ok (feed_list M use divides less cb m count l seen, n) /\ 35 * n <= count + length l.
  Proof.
    induction l as [|x l IH]; intros count seen Hc; cbn [feed_list_o feed_list]; [exists 0; split; [reflexivity|lia]|]. cbv zeta.
    destruct (S count =? 35) eqn:E; [apply Nat.eqb_eq in E|apply Nat.eqb_neq in E]; cbn [length]; unfold cbind; cbn [bind].
    - destruct (less (x_t m) (x_t x)); cbn [bind]; [exists 1; split; [reflexivity|lia]|].
      destruct (ediv x m); [destruct (cb (seen ++ [x_t x]))|]; cbn [bind];
        try (match goal with |- context [feed_list_o _ _ _ _ _ _ 0 l ?sn] => destruct (IH 0 sn ltac:(lia)) as (n & -> & Hn) end; cbn [bind]; exists (S n); split; [reflexivity|lia]).
      exists 1. split; [reflexivity|lia].
    - destruct (ediv x m); [destruct (cb (seen ++ [x_t x]))|]; cbn [bind];
        try (match goal with |- context [feed_list_o _ _ _ _ _ _ (S count) l ?sn] => destruct (IH (S count) sn ltac:(lia)) as (n & -> & Hn) end; cbn [bind]; exists n; split; [reflexivity|lia]).
      exists 0. split; [reflexivity|lia].
  Qed.

  (** The most comparisons of an insertion into and of a search of a list with [n] entries *)
  Definition insert_cost (n : nat) : nat := if sorted then (if linked then n else halvings n) else 0.
  Definition search_cost (n : nat) : nat := if sorted then (if linked then n / 35 else halvings n) else 0.
  Lemma insert_cost_mono a b : a <= b -> insert_cost a <= insert_cost b.
  Proof. intros H. unfold insert_cost. destruct sorted, linked; try lia. now apply halvings_mono. Qed.
  Lemma search_cost_mono a b : a <= b -> search_cost a <= search_cost b.
  Proof. intros H. unfold search_cost. destruct sorted, linked; try lia; [apply Nat.div_le_mono; lia|now apply halvings_mono]. Qed.
  Lemma search_insert_cost n : search_cost n <= insert_cost n.
  Proof. unfold search_cost, insert_cost. destruct sorted, linked; try lia. apply Nat.div_le_upper_bound; lia. Qed.

  Lemma report_size s k s' : report_changes s k = Ok s' -> length (l_list s') = length (l_list s).
  Proof.
    unfold Model.report_changes, Model.rebuild_list, Model.reset_left. destruct (negb auto) eqn:Ea; [intros H; injection H as <-; reflexivity|].
    destruct (k <? l_left s); [intros H; injection H as <-; reflexivity|].
    destruct (calc_rebuild _ _ _ _ _ _ _) as [b| | |]; cbn [bind]; try discriminate. intros H. injection H as <-. cbn. now rewrite map_length.
  Qed.

  Lemma insert_count s e s' : insert s e = Ok s' -> exists n, insert_o s e = Ok (s', n) /\ n <= insert_cost (length (l_list s)) /\ length (l_list s') = S (length (l_list s)).
  Proof.
    unfold Model.insert, Ordered.insert_o, insert_cost. cbv zeta. set (x := extend M ex use (l_bits s) e). intros H. apply bind_inv in H. destruct H as (l & Hl & H).
    pose proof (report_size _ _ _ H) as Hsz. cbn [l_list] in Hsz.
    assert (G : exists n, (if negb sorted then Ok (l_list s ++ [x], 0) else insert_sort_o M less linked (l_list s) x) = Ok (l, n) /\ n <= (if sorted then if linked then length (l_list s) else halvings (length (l_list s)) else 0) /\ length l = S (length (l_list s))).
    { destruct sorted; cbn [negb] in *.
      - unfold insert_sort in Hl. unfold insert_sort_o. destruct linked.
        + destruct (insert_list_count (l_list s) x) as (n & -> & i & Hi & Hn & E). injection Hl as <-. exists n. split; [reflexivity|]. split; [lia|]. rewrite E, app_length. cbn [length].
          rewrite firstn_length, skipn_length. lia.
        + apply bind_inv in Hl. destruct Hl as (i & Hi & Hl). injection Hl as <-. destruct (bisect_upper _ _ _ _ Hi) as (n & -> & Hn). unfold cbind. cbn [bind]. exists (n + 0). split; [reflexivity|]. split; [lia|].
          apply upper_bound_ok in Hi. rewrite app_length. cbn [length]. rewrite firstn_length, skipn_length. lia.
      - injection Hl as <-. exists 0. split; [reflexivity|]. split; [lia|]. rewrite app_length. cbn. lia. }
    destruct G as (n & G & Hn & Hlen). match goal with |- context [cbind ?m _] => replace m with (Ok (l, n) : counted (list ext)) by (symmetry; exact G) end. unfold cbind. cbn [bind]. rewrite H. unfold free. cbn [bind]. exists (n + 0). split; [reflexivity|]. split; lia.
  Qed.
  Lemma insert_each_count es : forall s s', insert_each s es = Ok s' -> exists n, insert_each_o s es = Ok (s', n) /\ n <= length es * insert_cost (length (l_list s) + length es) /\ length (l_list s') = length (l_list s) + length es.
  Proof.
    induction es as [|e es IH]; intros s s' H; cbn [Model.insert_each Ordered.insert_each_o] in *.
    - injection H as <-. exists 0. cbn. auto.
    - apply bind_inv in H. destruct H as (s1 & H1 & H2). destruct (insert_count _ _ _ H1) as (n1 & E1 & B1 & L1). destruct (IH _ _ H2) as (n2 & E2 & B2 & L2).
      rewrite E1. unfold cbind. cbn [bind]. rewrite E2. cbn [bind]. exists (n1 + n2). split; [reflexivity|]. rewrite L1 in *. cbn [length]. split; [|lia].
      pose proof (insert_cost_mono (length (l_list s)) (length (l_list s) + S (length es)) ltac:(lia)). replace (S (length (l_list s)) + length es) with (length (l_list s) + S (length es)) in B2 by lia. cbn [Nat.mul]. lia.
  Qed.
  Lemma find_count s m it : find_iterator M ex use divides less linked sorted s m = Ok it ->
    exists n, find_iterator_o M ex use divides less linked sorted s m = Ok (it, n) /\ n <= search_cost (length (l_list s)).
  Proof.
    unfold find_iterator, find_iterator_o, search_cost. cbv zeta. destruct sorted; cbn [negb]; [|intros H; injection H as <-; eauto].
    unfold find_sorted, find_sorted_o. destruct linked.
    - intros H. injection H as <-. destruct (scan_list_count (extend M ex use (l_bits s) m) (l_list s) 0 ltac:(lia)) as (n & -> & Hn). exists n. split; [reflexivity|]. apply Nat.div_le_lower_bound; lia.
    - intros H. apply bind_inv in H. destruct H as (i & Hi & H). injection H as <-. destruct (bisect_upper _ _ _ _ Hi) as (n & -> & Hn). unfold cbind. cbn [bind]. exists (n + 0). split; [reflexivity|lia].
  Qed.

  (** The most comparisons of one call *)
  Definition call_cost (size : nat) (o : dop M) : nat :=
    match o with
    | DInsert _ => insert_cost size
    | DInsertRange es => match size with 0 => 0 | _ => length es * insert_cost (size + length es) end
    | DFindDivisor _ | DAllDivisors _ _ | DToFront _ => search_cost size
    | _ => 0
    end.
  Lemma step_count s o s' r : step s o = Ok (s', r) -> exists n, step_o s o = Ok ((s', r), n) /\ n <= call_cost (length (l_list s)) o.
  Proof.
    intros H. destruct o as [e|es|m|m|m|m cb|m cb|cb|m| |]; cbn [call_cost]; unfold Ordered.step_o;
      try (rewrite H; exists 0; split; [reflexivity|lia]); unfold Model.step in H.
    - apply bind_inv in H. destruct H as (s1 & H1 & H). injection H as <- <-. destruct (insert_count _ _ _ H1) as (n & -> & Hn & _). unfold cbind. cbn [bind]. exists (n + 0). split; [reflexivity|lia].
    - apply bind_inv in H. destruct H as (s1 & H1 & H). injection H as <- <-. unfold Ordered.insert_range_o. destruct (l_list s) as [|a l] eqn:El.
      + rewrite H1. unfold free, cbind. cbn [bind length]. exists 0. auto.
      + unfold Model.insert_range in H1. rewrite El in H1. destruct (insert_each_count _ _ _ H1) as (n & -> & Hn & _). unfold cbind. cbn [bind]. exists (n + 0). split; [reflexivity|]. rewrite El in Hn. cbn [length] in *. lia.
    - apply bind_inv in H. destruct H as (r1 & H1 & H). injection H as <- <-. unfold find_divisor in H1. apply bind_inv in H1. destruct H1 as (it & Hit & H1). unfold find_divisor_o.
      destruct (find_count _ _ _ Hit) as (n & -> & Hn). unfold cbind. cbn [bind]. destruct it as [i|].
      + apply bind_inv in H1. destruct H1 as (x & Hx & H1). injection H1 as <-. rewrite Hx. cbn [free bind]. exists (n + (0 + 0) + 0). split; [reflexivity|lia].
      + injection H1 as <-. cbn [bind]. exists (n + 0 + 0). split; [reflexivity|lia].
    - apply bind_inv in H. destruct H as (xs & H1 & H). injection H as <- <-. unfold all_divisors in H1. unfold all_divisors_o, search_cost. cbv zeta in *. destruct sorted; cbn [negb] in *.
      + destruct linked.
        * injection H1 as <-. destruct (feed_list_count cb (extend M ex use (l_bits s) m) (l_list s) 0 [] ltac:(lia)) as (n & -> & Hn). unfold cbind. cbn [bind]. exists (n + 0). split; [reflexivity|].
          rewrite Nat.add_0_r. apply Nat.div_le_lower_bound; lia.
        * apply bind_inv in H1. destruct H1 as (i & Hi & H1). injection H1 as <-. destruct (bisect_upper _ _ _ _ Hi) as (n & -> & Hn). unfold cbind. cbn [bind]. exists (n + 0 + 0). split; [reflexivity|lia].
      + injection H1 as <-. unfold cbind. cbn [bind]. exists 0. auto.
    - pose proof H as H'. apply bind_inv in H. destruct H as ((s1 & r1) & H1 & H). injection H as <- <-. unfold to_front in H1. apply bind_inv in H1. destruct H1 as (it & Hit & H1).
      destruct (find_count _ _ _ Hit) as (n & -> & Hn). unfold cbind, Model.step. cbn [bind]. rewrite H'. cbn [free bind]. exists (n + 0). split; [reflexivity|lia].
  Qed.
End Ordered.
