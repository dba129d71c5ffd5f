(** Proofs about the counted trees. *)
From Coq Require Import List Arith Bool ZArith NArith Lia Permutation.
From Verif.Base Require Import Res Arr ResList StdAlg Order Sort Count.
From Verif.DivMask Require Import Model.
From Verif.Spec Require Import Reach DivFinder DivFinderFacts.
From Verif.DivList Require Import Counted CountedProofs.
From Verif.KD Require Import EntryArray Tree Model Legal ArrayProofs TreeProofs Proofs Counted.
Import ListNotations.
Local Notation length := List.length.

Section Counted.
  Context {M : Type}.
  Variable C : kconf M.
  Variable packed : bool.
  Variable w : M -> nat.
  Variable we : nat.
  Notation ext := (ext M).
  Notation tree := (tree M).
  Notation kd := (kd M).
  Notation dt := (divisor_test M (c_use C) (c_divides C) w).
  Notation mt := (multiple_test M (c_use C) (c_divides C) w).

  (** ** Forgetting the counter *)
  Lemma forget_arr_remove a m : forget (arr_remove_c C w a m) = arr_remove C a m.
  Proof.
    unfold arr_remove_c, arr_remove. destruct (c_leaf C =? 1).
    - destruct (a_list a) as [|x l]; auto. rewrite forget_bind. cbn [multiple_test forget bind]. fold (kdiv C m x). destruct (kdiv C m x); auto.
      rewrite forget_bind, forget_free. apply bind_ext; auto.
    - rewrite forget_bind, forget_vector. apply bind_ext; auto. now intros [[l out] n].
  Qed.
  Lemma forget_arr_find a m : forget (arr_find_c C w a m) = arr_find C a m.
  Proof.
    unfold arr_find_c, arr_find. destruct (ruled_out C a m); auto. destruct (c_leaf C =? 1).
    - destruct (a_list a) as [|x l]; [destruct (c_removals C); auto|]. rewrite forget_bind. cbn [divisor_test forget bind]. reflexivity.
    - destruct (negb (c_sorted C)); [now apply forget_scan|]. rewrite forget_bind, forget_free. apply bind_ext; auto. intros i. now apply forget_scan.
  Qed.
  Lemma forget_arr_report cb (p : test M) (q : ext -> bool) l seen : (forall x, fst (p x) = q x) -> forget (arr_report_c C cb p l seen) = arr_report C cb q l seen.
  Proof.
    intros Hq. unfold arr_report_c, arr_report. destruct (c_leaf C =? 1); [|now apply forget_feed]. destruct l as [|x l]; [destruct (c_removals C); auto|].
    rewrite forget_bind. specialize (Hq x). destruct (p x) as [b c]. cbn [fst] in Hq. subst b. reflexivity.
  Qed.
  Lemma forget_arr_divisors a m cb seen : forget (arr_divisors_c C w a m cb seen) = arr_divisors C a m cb seen.
  Proof.
    unfold arr_divisors_c, arr_divisors. destruct (ruled_out C a m); auto. destruct ((c_leaf C =? 1) || negb (c_sorted C)); [now apply forget_arr_report|].
    rewrite forget_bind, forget_free. apply bind_ext; auto. intros i. now apply forget_arr_report.
  Qed.
  Lemma forget_find_loop m : forall fuel p t stack, forget (find_loop_c C w we fuel m p t stack) = find_loop C fuel m p t stack.
  Proof.
    induction fuel as [|f IH]; intros p t stack; cbn [find_loop_c find_loop]; auto.
    assert (Hn : forget (match stack with [] => Ok (None, 0) | (p', t') :: stack' => find_loop_c C w we f m p' t' stack' end) =
      match stack with [] => Ok None | (p', t') :: stack' => find_loop C f m p' t' stack' end) by (destruct stack as [|[p' t'] stack]; auto).
    destruct t as [a|v e mask le gt].
    - rewrite forget_bind, forget_arr_find. apply bind_ext; auto. intros [i|]; auto.
    - destruct (c_tree C && negb (can_divide mask (x_mask m))); auto. rewrite forget_bind. cbn [above_c forget bind]. apply IH.
  Qed.
  Lemma forget_divisors_loop m cb : forall fuel t stack seen, forget (divisors_loop_c C w we fuel m cb t stack seen) = divisors_loop C fuel m cb t stack seen.
  Proof.
    induction fuel as [|f IH]; intros t stack seen; cbn [divisors_loop_c divisors_loop]; auto.
    assert (Hn : forall seen, forget (match stack with [] => Ok (seen, 0) | t' :: stack' => divisors_loop_c C w we f m cb t' stack' seen end) =
      match stack with [] => Ok seen | t' :: stack' => divisors_loop C f m cb t' stack' seen end) by (intros sn; destruct stack as [|t' stack]; auto).
    destruct t as [a|v e mask le gt].
    - rewrite forget_bind, forget_arr_divisors. apply bind_ext; auto. intros [sn [|]]; auto.
    - destruct (c_tree C && negb (can_divide mask (x_mask m))); auto. rewrite forget_bind. cbn [above_c forget bind]. apply IH.
  Qed.
  Lemma forget_multiples_loop m cb : forall fuel t stack seen, forget (multiples_loop_c C w we fuel m cb t stack seen) = multiples_loop C fuel m cb t stack seen.
  Proof.
    induction fuel as [|f IH]; intros t stack seen; cbn [multiples_loop_c multiples_loop]; auto. destruct t as [a|v e mask le gt].
    - rewrite forget_bind. unfold arr_multiples_c. rewrite (forget_arr_report cb _ (fun x => kdiv C m x)) by reflexivity. apply bind_ext; auto.
      intros [sn [|]]; auto. destruct stack; auto.
    - rewrite forget_bind. cbn [above_c forget bind]. apply IH.
  Qed.
  Lemma forget_multiples_loop_packed m cb : forall fuel t stack seen,
    forget (multiples_loop_packed_c C w we fuel m cb t stack seen) = multiples_loop_packed C fuel m cb t stack seen.
  Proof.
    induction fuel as [|f IH]; intros t stack seen; cbn [multiples_loop_packed_c multiples_loop_packed]; auto. destruct t as [a|v e mask le gt].
    - rewrite forget_bind. unfold arr_multiples_c. rewrite (forget_arr_report cb _ (fun x => kdiv C m x)) by reflexivity. apply bind_ext; auto.
      intros [sn [|]]; auto. destruct stack; auto.
    - rewrite forget_bind. cbn [above_c forget bind]. destruct (above C v e (x_t m)); apply IH.
  Qed.
  Lemma forget_remove_binary m t : forget (remove_binary_c C w we t m) = remove_binary C t m.
  Proof.
    induction t as [a|v e mask le IHl gt IHg]; cbn [remove_binary_c remove_binary].
    - rewrite forget_bind, forget_arr_remove. apply bind_ext; auto. now intros [[a' out] n].
    - rewrite forget_bind, IHg. apply bind_ext; auto. intros [[gt' out1] n1]. rewrite forget_bind. cbn [above_c forget bind].
      destruct (above C v e (x_t m)); auto. cbn [negb]. rewrite forget_bind, IHl. apply bind_ext; auto. now intros [[le' out2] n2].
  Qed.
  Lemma forget_remove_packed m t : forget (remove_packed_c C w we t m) = remove_packed C t m.
  Proof.
    induction t as [a|v e mask le IHl gt IHg]; cbn [remove_packed_c remove_packed].
    - rewrite forget_bind, forget_arr_remove. apply bind_ext; auto. now intros [[a' out] n].
    - rewrite forget_bind. cbn [above_c forget bind]. destruct (above C v e (x_t m)).
      + rewrite forget_bind, IHg. apply bind_ext; auto. now intros [[gt' out1] n1].
      + rewrite forget_bind, IHl. apply bind_ext; auto. intros [[le' out1] n1]. rewrite forget_bind, IHg. apply bind_ext; auto. now intros [[gt' out2] n2].
  Qed.
  Lemma forget_tree_remove root m : forget (tree_remove_c C packed w we root m) = tree_remove C packed root m.
  Proof.
    unfold tree_remove_c, tree_remove. destruct root as [t|]; auto. rewrite forget_bind.
    replace (forget (if packed then remove_packed_c C w we t m else remove_binary_c C w we t m)) with (if packed then remove_packed C t m else remove_binary C t m)
      by (destruct packed; [now rewrite forget_remove_packed|now rewrite forget_remove_binary]).
    apply bind_ext; auto. now intros [[t' out] n].
  Qed.
  Lemma forget_find_divisor s m : forget (find_divisor_c C w we s m) = find_divisor C s m.
  Proof.
    unfold find_divisor_c, find_divisor.
    assert (Hs : forget (let@ r := tree_find_c C w we (k_tree s) (kext C (k_bits s) m) in
        Ok (match r with Some _ => if c_cache C then mk_kd (k_tree s) (k_bits s) (k_size s) (k_left s) r (k_rebuilds s) else s | None => s end, r, 0)) =
      (let* r := tree_find C (k_tree s) (kext C (k_bits s) m) in
        Ok (match r with Some _ => if c_cache C then mk_kd (k_tree s) (k_bits s) (k_size s) (k_left s) r (k_rebuilds s) else s | None => s end, r))).
    { rewrite forget_bind. apply bind_ext; auto. unfold tree_find_c, tree_find. destruct (k_tree s) as [t|]; auto. apply forget_find_loop. }
    destruct (c_cache C); auto. destruct (k_cache s) as [p|]; auto. rewrite forget_bind, forget_free. apply bind_ext; auto. intros e. rewrite forget_bind.
    cbn [forget bind]. destruct (c_divides C e m); auto.
  Qed.
  Lemma step_forget s o : forget (step_c C packed w we s o) = step C packed s o.
  Proof.
    destruct o as [e|es|m|m|m|m cb|m cb|cb|m| |]; cbn [step_c]; try apply forget_free; rewrite forget_bind; unfold step.
    - unfold remove_multiples_c, remove_multiples. destruct (negb (c_removals C)); auto. rewrite forget_bind, forget_tree_remove.
      destruct (tree_remove C packed (k_tree s) (kext C (k_bits s) m)) as [[[t out] n]| | |]; cbn [bind]; auto. rewrite forget_bind, forget_free.
      destruct (report_changes C packed _ 0 n); auto.
    - rewrite forget_find_divisor. apply bind_ext; auto. intros [s' [p|]]; auto. rewrite forget_bind, forget_free. apply bind_ext; auto.
    - apply bind_ext; auto. unfold tree_divisors_c, tree_divisors. destruct (k_tree s); auto. apply forget_divisors_loop.
    - apply bind_ext; auto. unfold tree_multiples_c, tree_multiples. destruct (k_tree s); auto.
      destruct packed; [apply forget_multiples_loop_packed|apply forget_multiples_loop].
  Qed.

  (** ** The bounds *)
  Lemma arr_find_bound a m r n : arr_find_c C w a m = Ok (r, n) -> n <= asked (dt m) (a_list a).
  Proof.
    unfold arr_find_c. destruct (ruled_out C a m); [intros H; injection H as <- <-; lia|]. destruct (c_leaf C =? 1).
    - destruct (a_list a) as [|x l]; [destruct (c_removals C); [intros H; injection H as <- <-; auto|discriminate]|]. intros H.
      apply cbind_ok in H as (b & c & d & H1 & H2 & ->). injection H1 as H1 H1'. injection H2 as H2 <-. rewrite asked_cons. cbn [divisor_test snd]. lia.
    - destruct (negb (c_sorted C)); intros H; [now apply scan_bound in H|]. apply cbind_ok in H as (i & c & d & H1 & H2 & ->).
      apply free_ok in H1 as [H1 ->]. apply scan_bound in H2 as [H2 _]. pose proof (asked_firstn (dt m) i (a_list a)). lia.
  Qed.
  Lemma arr_report_bound cb (p : test M) l seen r n : arr_report_c C cb p l seen = Ok (r, n) -> n <= asked p l.
  Proof.
    unfold arr_report_c. destruct (c_leaf C =? 1).
    - destruct l as [|x l]; [destruct (c_removals C); [intros H; injection H as <- <-; auto|discriminate]|]. intros H.
      apply cbind_ok in H as (b & c & d & H1 & H2 & ->). injection H1 as H1. injection H2 as H2 <-. rewrite asked_cons, H1. cbn [snd]. lia.
    - destruct r as [xs go]. intros H. now apply feed_bound in H.
  Qed.
  Lemma arr_divisors_bound a m cb seen r n : arr_divisors_c C w a m cb seen = Ok (r, n) -> n <= asked (dt m) (a_list a).
  Proof.
    unfold arr_divisors_c. destruct (ruled_out C a m); [intros H; injection H as <- <-; lia|]. destruct ((c_leaf C =? 1) || negb (c_sorted C)).
    - apply arr_report_bound.
    - intros H. apply cbind_ok in H as (i & c & d & H1 & H2 & ->). apply free_ok in H1 as [H1 ->]. apply arr_report_bound in H2.
      pose proof (asked_firstn (dt m) i (a_list a)). lia.
  Qed.
  Lemma arr_remove_bound a m r n : (c_leaf C = 1 -> length (a_list a) <= 1) -> arr_remove_c C w a m = Ok (r, n) -> n = asked (mt m) (a_list a).
  Proof.
    intros Hl. unfold arr_remove_c. destruct (Nat.eqb_spec (c_leaf C) 1) as [H1|H1].
    - specialize (Hl H1). destruct (a_list a) as [|x [|y l]]; [intros H; now injection H as <- <-| |cbn in Hl; lia]. intros H.
      apply cbind_ok in H as (b & c & d & H2 & H3 & ->). injection H2 as H2 H2'. rewrite asked_cons. cbn [multiple_test snd asked map list_sum]. change (asked (mt m) []) with 0.
      destruct b; [|injection H3 as <- <-; lia]. apply cbind_ok in H3 as (a' & c' & d' & H3 & H4 & ->). apply free_ok in H3 as [_ ->]. injection H4 as <- <-. lia.
    - intros H. apply cbind_ok in H as ([[l out] k] & c & d & H2 & H3 & ->). injection H3 as <- <-. apply vector_bound in H2. lia.
  Qed.
  Lemma arr_remove_le a m r n : arr_remove_c C w a m = Ok (r, n) -> n <= asked (mt m) (a_list a).
  Proof.
    unfold arr_remove_c. destruct (Nat.eqb_spec (c_leaf C) 1) as [H1|H1].
    - destruct (a_list a) as [|x l]; [intros H; now injection H as <- <-|]. intros H.
      apply cbind_ok in H as (b & c & d & H2 & H3 & ->). injection H2 as H2 H2'. rewrite asked_cons. cbn [multiple_test snd].
      destruct b; [|injection H3 as <- <-; lia]. apply cbind_ok in H3 as (a' & c' & d' & H3 & H4 & ->). apply free_ok in H3 as [_ ->]. injection H4 as <- <-. lia.
    - intros H. apply cbind_ok in H as ([[l out] k] & c & d & H2 & H3 & ->). injection H3 as <- <-. apply vector_bound in H2. lia.
  Qed.

  (** What is counted if everything in a tree is looked at *)
  Definition cost (p : test M) (t : tree) : nat := asked p (tree_entries t) + we * splits t.
  Definition costs (p : test M) (ts : list tree) : nat := list_sum (map (cost p) ts).
  Lemma cost_split p v e mask le gt : cost p (Split v e mask le gt) = we + cost p le + cost p gt.
  Proof. unfold cost. cbn [tree_entries splits]. rewrite asked_app. nia. Qed.
  Lemma costs_cons p t ts : costs p (t :: ts) = cost p t + costs p ts.
  Proof. reflexivity. Qed.
  Lemma cost_leaf p a : cost p (Leaf a) = asked p (a_list a).
  Proof. unfold cost. cbn [tree_entries splits]. lia. Qed.

  Lemma find_loop_bound m : forall fuel p t stack r n, find_loop_c C w we fuel m p t stack = Ok (r, n) -> n <= cost (dt m) t + costs (dt m) (map snd stack).
  Proof.
    induction fuel as [|f IH]; intros p t stack r n H; cbn [find_loop_c] in H; [discriminate|].
    assert (Hn : forall r n, match stack with [] => Ok (None, 0) | (p', t') :: stack' => find_loop_c C w we f m p' t' stack' end = Ok (r, n) -> n <= costs (dt m) (map snd stack)).
    { intros r' n' H'. destruct stack as [|[p' t'] stack]; [injection H' as <- <-; lia|]. apply IH in H'. cbn [map snd]. rewrite costs_cons. lia. }
    destruct t as [a|v e mask le gt].
    - apply cbind_ok in H as (o & c & d & H1 & H2 & ->). apply arr_find_bound in H1. rewrite cost_leaf. destruct o as [i|]; [injection H2 as <- <-; lia|].
      apply Hn in H2. lia.
    - rewrite cost_split. destruct (c_tree C && negb (can_divide mask (x_mask m))); [apply Hn in H; lia|].
      apply cbind_ok in H as (b & c & d & H1 & H2 & ->). injection H1 as H1 <-. apply IH in H2. destruct b; cbn [map snd] in H2; rewrite ?costs_cons in H2; lia.
  Qed.
  Lemma divisors_loop_bound m cb : forall fuel t stack seen r n, divisors_loop_c C w we fuel m cb t stack seen = Ok (r, n) -> n <= cost (dt m) t + costs (dt m) stack.
  Proof.
    induction fuel as [|f IH]; intros t stack seen r n H; cbn [divisors_loop_c] in H; [discriminate|].
    assert (Hn : forall seen r n, match stack with [] => Ok (seen, 0) | t' :: stack' => divisors_loop_c C w we f m cb t' stack' seen end = Ok (r, n) -> n <= costs (dt m) stack).
    { intros sn r' n' H'. destruct stack as [|t' stack]; [injection H' as <- <-; lia|]. apply IH in H'. rewrite costs_cons. lia. }
    destruct t as [a|v e mask le gt].
    - apply cbind_ok in H as ([sn go] & c & d & H1 & H2 & ->). apply arr_divisors_bound in H1. rewrite cost_leaf.
      destruct go; [|injection H2 as <- <-; lia]. apply Hn in H2. lia.
    - rewrite cost_split. destruct (c_tree C && negb (can_divide mask (x_mask m))); [apply Hn in H; lia|].
      apply cbind_ok in H as (b & c & d & H1 & H2 & ->). injection H1 as H1 <-. apply IH in H2. destruct b; rewrite ?costs_cons in H2; lia.
  Qed.
  Lemma multiples_loop_bound m cb : forall fuel t stack seen r n, multiples_loop_c C w we fuel m cb t stack seen = Ok (r, n) -> n <= cost (mt m) t + costs (mt m) stack.
  Proof.
    induction fuel as [|f IH]; intros t stack seen r n H; cbn [multiples_loop_c] in H; [discriminate|]. destruct t as [a|v e mask le gt].
    - apply cbind_ok in H as ([sn go] & c & d & H1 & H2 & ->). apply arr_report_bound in H1. rewrite cost_leaf.
      destruct go; [|injection H2 as <- <-; lia]. destruct stack as [|t' stack]; [injection H2 as <- <-; lia|]. apply IH in H2. rewrite costs_cons. lia.
    - rewrite cost_split. apply cbind_ok in H as (b & c & d & H1 & H2 & ->). injection H1 as H1 <-. apply IH in H2. destruct b; cbn [negb] in H2; rewrite ?costs_cons in H2; lia.
  Qed.
  Lemma multiples_loop_packed_bound m cb : forall fuel t stack seen r n, multiples_loop_packed_c C w we fuel m cb t stack seen = Ok (r, n) -> n <= cost (mt m) t + costs (mt m) stack.
  Proof.
    induction fuel as [|f IH]; intros t stack seen r n H; cbn [multiples_loop_packed_c] in H; [discriminate|]. destruct t as [a|v e mask le gt].
    - apply cbind_ok in H as ([sn go] & c & d & H1 & H2 & ->). apply arr_report_bound in H1. rewrite cost_leaf.
      destruct go; [|injection H2 as <- <-; lia]. destruct stack as [|t' stack]; [injection H2 as <- <-; lia|]. apply IH in H2. rewrite costs_cons. lia.
    - rewrite cost_split. apply cbind_ok in H as (b & c & d & H1 & H2 & ->). injection H1 as H1 <-. destruct b; apply IH in H2; rewrite ?costs_cons in H2; lia.
  Qed.
  Lemma remove_binary_bound m t : forall r n, remove_binary_c C w we t m = Ok (r, n) -> n <= cost (mt m) t.
  Proof.
    induction t as [a|v e mask le IHl gt IHg]; intros r n H; cbn [remove_binary_c] in H.
    - apply cbind_ok in H as ([[a' out] k] & c & d & H1 & H2 & ->). injection H2 as <- <-. apply arr_remove_le in H1. rewrite cost_leaf. lia.
    - rewrite cost_split. apply cbind_ok in H as ([[gt' out] k] & c & d & H1 & H2 & ->). apply IHg in H1. apply cbind_ok in H2 as (b & c' & d' & H2 & H3 & ->).
      injection H2 as H2 <-. destruct b; cbn [negb] in H3; [injection H3 as <- <-; lia|].
      apply cbind_ok in H3 as ([[le' out2] k2] & c3 & d3 & H3 & H4 & ->). injection H4 as <- <-. apply IHl in H3. lia.
  Qed.
  Lemma remove_packed_bound m t : forall r n, remove_packed_c C w we t m = Ok (r, n) -> n <= cost (mt m) t.
  Proof.
    induction t as [a|v e mask le IHl gt IHg]; intros r n H; cbn [remove_packed_c] in H.
    - apply cbind_ok in H as ([[a' out] k] & c & d & H1 & H2 & ->). injection H2 as <- <-. apply arr_remove_le in H1. rewrite cost_leaf. lia.
    - rewrite cost_split. apply cbind_ok in H as (b & c' & d' & H2 & H3 & ->). injection H2 as H2 <-. destruct b.
      + apply cbind_ok in H3 as ([[gt' out] k] & c & d & H1 & H4 & ->). apply IHg in H1. injection H4 as <- <-. lia.
      + apply cbind_ok in H3 as ([[le' out] k] & c & d & H1 & H4 & ->). apply IHl in H1. apply cbind_ok in H4 as ([[gt' out2] k2] & c3 & d3 & H3 & H4 & ->).
        injection H4 as <- <-. apply IHg in H3. lia.
  Qed.

  Definition all_cost (p : test M) (s : kd) : nat := asked p (root_entries (k_tree s)) + we * root_splits (k_tree s).
  Lemma all_cost_some p s t : k_tree s = Some t -> all_cost p s = cost p t.
  Proof. unfold all_cost. now intros ->. Qed.
  Lemma tree_find_bound s m r n : tree_find_c C w we (k_tree s) m = Ok (r, n) -> n <= all_cost (dt m) s.
  Proof.
    unfold tree_find_c. destruct (k_tree s) as [t|] eqn:Ht; [|intros H; injection H as <- <-; lia]. intros H. rewrite (all_cost_some _ _ _ Ht). apply find_loop_bound in H.
    change (costs (dt m) (map snd [])) with 0 in H. lia.
  Qed.
  Lemma step_bound s o r n : step_c C packed w we s o = Ok (r, n) ->
    match o with
    | DFindDivisor m =>
        n <= all_cost (dt (kext C (k_bits s) m)) s + match k_cache s with Some p => match entry_at s p with Ok e => if c_cache C then w e else 0 | _ => 0 end | None => 0 end
    | DAllDivisors m _ => n <= all_cost (dt (kext C (k_bits s) m)) s
    | DRemoveMultiples m | DAllMultiples m _ => n <= all_cost (mt (kext C (k_bits s) m)) s
    | _ => n = 0
    end.
  Proof.
    destruct o as [e|es|m|m|m|m cb|m cb|cb|m| |]; cbn [step_c]; intros H; try (apply free_ok in H as [_ H]; exact H).
    - apply cbind_ok in H as ([[s' b] out] & c & d & H1 & H2 & ->). injection H2 as <- <-. unfold remove_multiples_c in H1.
      destruct (negb (c_removals C)); [discriminate|]. apply cbind_ok in H1 as ([[t o] k] & c1 & d1 & H1 & H2 & ->).
      apply cbind_ok in H2 as (s2 & c2 & d2 & H2 & H3 & ->). apply free_ok in H2 as [_ ->]. injection H3 as <- <- <- <-. unfold tree_remove_c in H1.
      destruct (k_tree s) as [t'|] eqn:Ht; [|injection H1 as <- <- <- <-; lia]. rewrite (all_cost_some _ _ _ Ht).
      apply cbind_ok in H1 as ([[t2 o2] k2] & c2 & d2 & H1 & H2 & ->). injection H2 as <- <- <- <-.
      destruct packed; [apply remove_packed_bound in H1|apply remove_binary_bound in H1]; lia.
    - apply cbind_ok in H as ([s' o] & c & d & H1 & H2 & ->).
      assert (d = 0) as ->. { destruct o as [p|]; [|now injection H2 as <- <-]. apply cbind_ok in H2 as (e & c1 & d1 & H2 & H3 & ->). apply free_ok in H2 as [_ ->]. now injection H3 as <- <-. }
      clear H2. unfold find_divisor_c in H1.
      assert (Hs : forall x k, (let@ r := tree_find_c C w we (k_tree s) (kext C (k_bits s) m) in
        Ok (match r with Some _ => if c_cache C then mk_kd (k_tree s) (k_bits s) (k_size s) (k_left s) r (k_rebuilds s) else s | None => s end, r, 0)) = Ok (x, k) ->
        k <= all_cost (dt (kext C (k_bits s) m)) s).
      { intros x k H. apply cbind_ok in H as (r' & c1 & d1 & H & H2 & ->). injection H2 as <- <-. apply tree_find_bound in H. lia. }
      destruct (c_cache C); [|apply Hs in H1; lia]. destruct (k_cache s) as [p|]; [|apply Hs in H1; lia].
      apply cbind_ok in H1 as (e & c1 & d1 & H1 & H2 & ->). apply free_ok in H1 as [H1 ->]. rewrite H1. apply cbind_ok in H2 as (b & c2 & d2 & H2 & H3 & ->).
      injection H2 as H2 <-. destruct b; [injection H3 as <- <-; lia|]. apply Hs in H3. lia.
    - apply cbind_ok in H as (xs & c & d & H1 & H2 & ->). injection H2 as <- <-. unfold tree_divisors_c in H1. destruct (k_tree s) as [t|] eqn:Ht; [|injection H1 as <- <-; lia].
      rewrite (all_cost_some _ _ _ Ht). apply divisors_loop_bound in H1. change (costs (dt (kext C (k_bits s) m)) []) with 0 in H1. lia.
    - apply cbind_ok in H as (xs & c & d & H1 & H2 & ->). injection H2 as <- <-. unfold tree_multiples_c in H1. destruct (k_tree s) as [t|] eqn:Ht; [|injection H1 as <- <-; lia].
      rewrite (all_cost_some _ _ _ Ht). destruct packed; [apply multiples_loop_packed_bound in H1|apply multiples_loop_bound in H1];
        change (costs (mt (kext C (k_bits s) m)) []) with 0 in H1; lia.
  Qed.
End Counted.

(** ** How many nodes there are *)
Section Nodes.
  Context {M : Type}.
  Variable C : kconf M.
  Variable valid : M -> bool.
  Hypothesis HL : klegal C valid.
  Variable packed : bool.
  Notation tree := (tree M).
  Notation kd := (kd M).
  Notation tree_inv := (tree_inv C valid).
  Notation inv := (inv C valid false).
  Notation same := (same_exps (c_ex C) (c_nvars C)).

  (** Without removals no leaf is empty. *)
  Lemma splits_entries bits t : c_removals C = false -> tree_inv bits t -> S (splits t) <= length (tree_entries t).
  Proof.
    intros Hr. induction t as [a|v x mask le IHl gt IHg]; cbn [TreeProofs.tree_inv splits tree_entries].
    - intros [_ Hf]. specialize (Hf Hr). destruct (a_list a); [congruence|cbn; lia].
    - intros (_ & _ & _ & _ & H1 & H2). rewrite app_length. apply IHl in H1. apply IHg in H2. lia.
  Qed.

  Lemma split_node_splits v x mask le gt e t : split_node C v x mask le gt e = Ok t -> splits t = 1.
  Proof.
    unfold split_node. destruct (above C v x (x_t e)).
    - destruct (arr_insert C gt e); cbn [bind]; try discriminate. intros H. now injection H as <-.
    - destruct (arr_insert C le e); cbn [bind]; try discriminate. intros H. now injection H as <-.
  Qed.
  Lemma insert_tree_splits e : forall t var t', insert_tree C packed t e var = Ok t' -> splits t' <= S (splits t).
  Proof.
    induction t as [a|v x mask le IHl gt IHg]; intros var t' H; cbn [insert_tree] in H.
    - destruct (length (a_list a) =? c_leaf C).
      + assert (Hs : splits t' = 1).
        { destruct packed.
          - unfold split_insert_packed in H. destruct (split_for C e (a_list a) var) as [[[[v x] l] g]| | |]; cbn [bind] in H; try discriminate.
            destruct (arr_of C l); cbn [bind] in H; try discriminate. now apply split_node_splits in H.
          - unfold split_insert_binary in H. destruct (split_for C e (a_list a) var) as [[[[v x] l] g]| | |]; cbn [bind] in H; try discriminate.
            destruct (arr_of C g); cbn [bind] in H; try discriminate. now apply split_node_splits in H. }
        cbn [splits]. lia.
      + destruct (arr_insert C a e); cbn [bind] in H; try discriminate. injection H as <-. cbn. lia.
    - destruct (above C v x (x_t e)).
      + destruct (insert_tree C packed gt e (Some v)) as [g| | |] eqn:Hg; cbn [bind] in H; try discriminate. injection H as <-. apply IHg in Hg. cbn [splits]. lia.
      + destruct (insert_tree C packed le e (Some v)) as [l| | |] eqn:Hl; cbn [bind] in H; try discriminate. injection H as <-. apply IHl in Hl. cbn [splits]. lia.
  Qed.
  Lemma insert_empty_splits e a var t' : length (a_list a) = 0 -> insert_tree C packed (Leaf a) e var = Ok t' -> splits t' = 0.
  Proof.
    intros Ha H. cbn [insert_tree] in H. rewrite Ha in H. pose proof (kl_leaf C valid HL) as Hl. destruct (Nat.eqb_spec 0 (c_leaf C)); [lia|].
    destruct (arr_insert C a e); cbn [bind] in H; try discriminate. now injection H as <-.
  Qed.
  Lemma remove_binary_splits m : forall t t' out n, remove_binary C t m = Ok (t', out, n) -> splits t' = splits t.
  Proof.
    induction t as [a|v x mask le IHl gt IHg]; intros t' out n H; cbn [remove_binary] in H.
    - destruct (arr_remove C a m) as [[[a' o] k]| | |]; cbn [bind] in H; try discriminate. now injection H as <- <- <-.
    - destruct (remove_binary C gt m) as [[[g o] k]| | |] eqn:Hg; cbn [bind] in H; try discriminate. specialize (IHg _ _ _ eq_refl).
      destruct (negb (above C v x (x_t m))); [|injection H as <- <- <-; cbn [splits]; lia].
      destruct (remove_binary C le m) as [[[l o2] k2]| | |] eqn:Hl; cbn [bind] in H; try discriminate. specialize (IHl _ _ _ eq_refl). injection H as <- <- <-. cbn [splits]. lia.
  Qed.
  Lemma remove_packed_splits m : forall t t' out n, remove_packed C t m = Ok (t', out, n) -> splits t' = splits t.
  Proof.
    induction t as [a|v x mask le IHl gt IHg]; intros t' out n H; cbn [remove_packed] in H.
    - destruct (arr_remove C a m) as [[[a' o] k]| | |]; cbn [bind] in H; try discriminate. now injection H as <- <- <-.
    - destruct (above C v x (x_t m)).
      + destruct (remove_packed C gt m) as [[[g o] k]| | |] eqn:Hg; cbn [bind] in H; try discriminate. specialize (IHg _ _ _ eq_refl). injection H as <- <- <-. cbn [splits]. lia.
      + destruct (remove_packed C le m) as [[[l o2] k2]| | |] eqn:Hl; cbn [bind] in H; try discriminate. specialize (IHl _ _ _ eq_refl).
        destruct (remove_packed C gt m) as [[[g o] k]| | |] eqn:Hg; cbn [bind] in H; try discriminate. specialize (IHg _ _ _ eq_refl). injection H as <- <- <-. cbn [splits]. lia.
  Qed.
  Lemma tree_remove_splits root m root' out n : tree_remove C packed root m = Ok (root', out, n) -> root_splits root' = root_splits root.
  Proof.
    unfold tree_remove. destruct root as [t|]; [|intros H; now injection H as <- <- <-]. intros H.
    destruct (if packed then remove_packed C t m else remove_binary C t m) as [[[t' o] k]| | |] eqn:Ht; cbn [bind] in H; try discriminate. injection H as <- <- <-.
    cbn [root_splits]. destruct packed; [eapply remove_packed_splits|eapply remove_binary_splits]; eauto.
  Qed.
  Lemma build_splits bits : forall fuel l var t, l <> [] -> (forall a, In a l -> valid a = true) -> (forall e, copies same e l <= c_leaf C) ->
    build C fuel bits l var = Ok t -> S (splits t) <= length l.
  Proof.
    induction fuel as [|f IH]; intros l var t Hn Hv Hc H; cbn [build] in H; [discriminate|]. destruct (Nat.leb_spec (length l) (c_leaf C)) as [Hl|Hl].
    - destruct (arr_of C (map (kext C bits) l)); cbn [bind] in H; try discriminate. injection H as <-. cbn. destruct l; [congruence|cbn; lia].
    - destruct (split_range_ok C valid HL l var Hv Hc Hl) as (v & x & le & gt & E & H1 & H2 & H3 & H4 & H5 & H6). rewrite E in H. cbn [bind] in H.
      assert (Hin : forall y, In y (le ++ gt) -> In y l) by (intros y; apply (Permutation_in _ H2)).
      assert (Hlen := Permutation_length H2). rewrite app_length in Hlen.
      assert (Hcc : forall e, copies same e le + copies same e gt <= c_leaf C).
      { intros e. rewrite <- copies_app, (copies_perm C e _ _ H2). apply Hc. }
      destruct (build C f bits le (Some v)) as [tl| | |] eqn:Bl; cbn [bind] in H; try discriminate.
      destruct (build C f bits gt (Some v)) as [tg| | |] eqn:Bg; cbn [bind] in H; try discriminate. injection H as <-.
      apply IH in Bl; auto; [|intros a Ha; apply Hv, Hin, in_or_app; auto|intros e; specialize (Hcc e); lia].
      apply IH in Bg; auto; [|intros a Ha; apply Hv, Hin, in_or_app; auto|intros e; specialize (Hcc e); lia]. cbn [splits]. lia.
  Qed.
  Lemma rebuild_splits (s s' : kd) : root_inv C valid (k_bits s) (k_tree s) -> rebuild_kd C packed s = Ok s' -> S (root_splits (k_tree s')) <= Nat.max 1 (length (kcontents s)).
  Proof.
    intros Hr H. unfold rebuild_kd in H. destruct (for_all_root C valid packed (k_bits s) (k_tree s) recorder Hr) as (l & E & Hl). rewrite E in H. cbn [bind] in H.
    apply reported_all in Hl; [|reflexivity]. destruct (kcalc C l) as [bits| | |]; cbn [bind] in H; try discriminate.
    destruct (tree_reset C l bits) as [root| | |] eqn:Ht; cbn [bind] in H; try discriminate. injection H as <-.
    assert (Hs : k_tree (reset_changes C (mk_kd root bits (k_size s) (k_left s) (k_cache s) (S (k_rebuilds s)))) = root) by (unfold reset_changes; now destruct (negb (c_auto C))).
    rewrite Hs. unfold tree_reset in Ht. rewrite kcontents_root, <- (Permutation_length Hl). destruct l as [|y l]; [injection Ht as <-; cbn; lia|].
    destruct (build C (length (y :: l)) bits (y :: l) None) as [t| | |] eqn:Hb; cbn [bind] in Ht; try discriminate. injection Ht as <-.
    assert (Hv : forallb valid (y :: l) = true).
    { pose proof (root_valid C valid _ _ Hr) as Hv. rewrite forallb_forall in *. intros x Hx. apply Hv. now apply (Permutation_in _ Hl). }
    apply build_splits in Hb.
    - cbn [root_splits]. lia.
    - discriminate.
    - now rewrite forallb_forall in Hv.
    - intros e. rewrite (copies_perm C e _ _ Hl). now apply (root_copies C valid (k_bits s)).
  Qed.
  Lemma report_splits (s s' : kd) i j : root_inv C valid (k_bits s) (k_tree s) -> report_changes C packed s i j = Ok s' ->
    S (root_splits (k_tree s')) <= Nat.max (S (root_splits (k_tree s))) (length (kcontents s)).
  Proof.
    intros Hr H. unfold report_changes in H. destruct (k_size s + i <? j); [discriminate|].
    destruct (negb (c_auto C)); [injection H as <-; cbn [k_tree]; lia|]. destruct (i + j <? k_left s); [injection H as <-; cbn [k_tree]; lia|].
    apply rebuild_splits in H; auto. unfold kcontents in *. cbn [k_tree] in *. lia.
  Qed.

  Definition inserts (ops : list (dop M)) : nat := length (filter (fun o => match o with DInsert _ => true | _ => false end) ops).
  Definition counted_state (n : nat) (s : kd) : Prop := inv s /\ length (kcontents s) <= n /\ S (root_splits (k_tree s)) <= Nat.max 1 n.

  Lemma inserts_snoc ops o : inserts (ops ++ [o]) = inserts ops + match o with DInsert _ => 1 | _ => 0 end.
  Proof. unfold inserts. rewrite filter_app, app_length. cbn [filter]. now destruct o. Qed.
  Lemma counted_step n s o s' r : counted_state n s -> kpre C valid packed false (kcontents s) o = true -> step C packed s o = Ok (s', r) ->
    counted_state (n + match o with DInsert _ => 1 | _ => 0 end) s'.
  Proof.
    intros (Hi & Hc & Hn) Hp Hs. destruct (step_ok C valid HL packed false (fun E => False_ind _ (diff_false_true E)) s o Hi Hp) as (s1 & r1 & E & Hi' & Hd).
    rewrite E in Hs. injection Hs as -> ->. split; auto. split.
    - destruct Hd; cbn [kpre] in Hp; try discriminate; rewrite ?Nat.add_0_r; try (now rewrite (Permutation_length H)); try (rewrite (Permutation_length H0); auto).
      + rewrite (Permutation_length H). cbn [length]. lia.
      + unfold non_multiples. pose proof (Permutation_length (filter_split (fun e => negb (c_divides C m e)) (kcontents s))) as Hl. rewrite app_length in Hl. lia.
    - pose proof (i_root _ _ _ _ Hi) as Hr. destruct o as [e|es|m|m|m|m cb|m cb|cb|m| |]; cbn [kpre] in Hp; try discriminate; rewrite ?Nat.add_0_r.
      + cbn [step] in E. apply andb_prop in Hp as [Hv Hcp]. unfold insert in E.
        pose proof (tree_insert_ok C valid HL packed (k_bits s) (kext C (k_bits s) e) (k_tree s) (kext_is_ext C (k_bits s) e) Hv Hr) as H.
        rewrite x_t_kext, <- kcontents_root, Hcp in H. destruct H as (root & Et & R1 & R2). rewrite Et in E. cbn [bind] in E.
        destruct (report_changes C packed _ 1 0) as [s2| | |] eqn:Hrep; cbn [bind] in E; try discriminate. injection E as -> <-.
        apply report_splits in Hrep; auto. rewrite kcontents_root in Hrep. cbn [k_tree] in Hrep. rewrite map_length, (Permutation_length R2) in Hrep. cbn [length] in Hrep.
        rewrite kcontents_root, map_length in Hc.
        assert (Hsp : S (root_splits root) <= Nat.max 1 (n + 1)); [|lia].
        unfold tree_insert in Et. destruct (insert_tree C packed _ (kext C (k_bits s) e) None) as [t'| | |] eqn:Hin; cbn [bind] in Et; try discriminate. injection Et as <-.
        cbn [root_splits]. destruct (k_tree s) as [t|]; [|apply insert_empty_splits in Hin; [lia|reflexivity]]. cbn [root_splits root_entries] in *.
        pose proof (insert_tree_splits _ _ _ _ Hin) as Hg. destruct n as [|n]; [|lia]. destruct t as [a|v x mask le gt]; [|cbn [splits] in Hn; lia].
        cbn [tree_entries] in Hc. apply insert_empty_splits in Hin; lia.
      + cbn [step] in E. unfold remove_multiples in E. rewrite Hp in E. cbn [negb] in E.
        destruct (tree_remove C packed (k_tree s) (kext C (k_bits s) m)) as [[[root out] k]| | |] eqn:Ht; cbn [bind] in E; try discriminate.
        destruct (report_changes C packed _ 0 k) as [s2| | |] eqn:Hrep; cbn [bind] in E; try discriminate. injection E as -> <-.
        pose proof (tree_remove_splits _ _ _ _ _ Ht) as Hsp.
        assert (Hroot : root_inv C valid (k_bits s) root /\ length (root_entries root) <= length (root_entries (k_tree s))).
        { destruct (k_tree s) as [t|]; cbn [tree_remove] in Ht; [|injection Ht as <- <- <-; auto].
          destruct (tree_remove_ok C valid HL packed (k_bits s) t (kext C (k_bits s) m) Hp Hr) as (t' & out' & Et & H1 & H2 & H3 & H4).
          unfold tree_remove in Ht. unfold tree_remove in Et.
          destruct (if packed then remove_packed C t (kext C (k_bits s) m) else remove_binary C t (kext C (k_bits s) m)) as [[[t2 o2] k2]| | |]; cbn [bind] in Ht, Et; try discriminate.
          injection Ht as <- <- <-. injection Et as -> -> ->. split; auto. cbn [root_entries]. rewrite H2.
          pose proof (Permutation_length (filter_split (fun x => negb (kdiv C (kext C (k_bits s) m) x)) (tree_entries t))) as Hl. rewrite app_length in Hl. lia. }
        destruct Hroot as [R1 R2]. apply report_splits in Hrep; auto. rewrite kcontents_root in Hrep, Hc. cbn [k_tree] in Hrep. rewrite map_length in Hrep, Hc. lia.
      + cbn [step] in E. destruct (find_divisor C s m) as [[s2 p]| | |] eqn:Hf; cbn [bind] in E; try discriminate.
        assert (Hk : k_tree s2 = k_tree s).
        { unfold find_divisor in Hf.
          assert (Hg : forall x, (let* r := tree_find C (k_tree s) (kext C (k_bits s) m) in
            Ok (match r with Some _ => if c_cache C then mk_kd (k_tree s) (k_bits s) (k_size s) (k_left s) r (k_rebuilds s) else s | None => s end, r)) = Ok x ->
            k_tree (fst x) = k_tree s).
          { intros x Hx. destruct (tree_find C (k_tree s) (kext C (k_bits s) m)) as [[q|]| | |]; cbn [bind] in Hx; try discriminate; injection Hx as <-; cbn [fst]; auto.
            now destruct (c_cache C). }
          destruct (c_cache C); [|apply (Hg _ Hf)]. destruct (k_cache s) as [q|]; [|apply (Hg _ Hf)].
          destruct (entry_at s q); cbn [bind] in Hf; try discriminate. destruct (c_divides C a m); [now injection Hf as <- <-|apply (Hg _ Hf)]. }
        assert (s' = s2) as ->.
        { destruct p as [q|]; [destruct (entry_at s2 q); cbn [bind] in E; try discriminate|]; now injection E as <- <-. }
        now rewrite Hk.
      + cbn [step] in E. destruct (tree_divisors C (k_tree s) (kext C (k_bits s) m) cb); cbn [bind] in E; try discriminate. now injection E as <- <-.
      + cbn [step] in E. destruct (tree_multiples C packed (k_tree s) (kext C (k_bits s) m) cb); cbn [bind] in E; try discriminate. now injection E as <- <-.
      + cbn [step] in E. destruct (tree_for_all C packed (k_tree s) cb); cbn [bind] in E; try discriminate. now injection E as <- <-.
      + cbn [step] in E. destruct (rebuild_kd C packed s) as [s2| | |] eqn:Hb; cbn [bind] in E; try discriminate. injection E as -> <-.
        apply rebuild_splits in Hb; auto. lia.
      + cbn [step] in E. now injection E as <- <-.
  Qed.

  Lemma counted_reached s0 ops s rs : construct C = Ok s0 -> reached (step C packed) (fun s o => kpre C valid packed false (kcontents s) o = true) s0 ops s rs ->
    counted_state (inserts ops) s.
  Proof.
    intros H0 Hr. induction Hr as [|ops s rs o s1 r1 Hr IH Hp Hs].
    - destruct (construct_ok C valid HL false (fun E => False_ind _ (diff_false_true E))) as (s1 & E & H1 & H2). rewrite H0 in E. injection E as <-. split; auto. rewrite H2. split; [cbn; lia|].
      unfold construct in H0. destruct (kcalc C []); cbn [bind] in H0; try discriminate. injection H0 as <-. unfold reset_changes. destruct (negb (c_auto C)); cbn; lia.
    - rewrite inserts_snoc. eapply counted_step; eauto.
  Qed.
End Nodes.
