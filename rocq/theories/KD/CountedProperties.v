(** Property theorems about how often the divisor finders call their configuration (C82). *)
From Coq Require Import List Arith Bool ZArith NArith Lia Permutation.
From Verif.Base Require Import Res Arr ResList StdAlg Order Sort Count.
From Verif.DivMask Require Import Model.
From Verif.Spec Require Import Reach DivFinder.
From Verif.DivList Require Model Counted CountedProofs.
From Verif.DivList Require Import Properties.
From Verif.KD Require Import EntryArray Tree Model Legal ArrayProofs TreeProofs Proofs Properties Counted CountedProofs.
Import ListNotations.
Local Notation length := List.length.

(** The weights of those of the entries [l] whose mask does not rule out that they divide [m], and of those that [m] may divide *)
Definition may_divide {M} (use : bool) (w : M -> nat) (m : ext M) (l : list (ext M)) : nat :=
  list_sum (map (fun x => w (x_t x)) (filter (fun x => has_can_divide use (x_mask x) (x_mask m)) l)).
Definition may_be_divided {M} (use : bool) (w : M -> nat) (m : ext M) (l : list (ext M)) : nat :=
  list_sum (map (fun x => w (x_t x)) (filter (fun x => has_can_divide use (x_mask m) (x_mask x)) l)).
Lemma may_divide_asked {M} use divides (w : M -> nat) m l : DivList.CountedProofs.asked (DivList.Counted.divisor_test M use divides w m) l = may_divide use w m l.
Proof.
  unfold may_divide. induction l as [|x l IH]; auto. rewrite DivList.CountedProofs.asked_cons, IH. cbn [DivList.Counted.divisor_test snd filter].
  destruct (has_can_divide use (x_mask x) (x_mask m)); reflexivity.
Qed.
Lemma may_be_divided_asked {M} use divides (w : M -> nat) m l : DivList.CountedProofs.asked (DivList.Counted.multiple_test M use divides w m) l = may_be_divided use w m l.
Proof.
  unfold may_be_divided. induction l as [|x l IH]; auto. rewrite DivList.CountedProofs.asked_cons, IH. cbn [DivList.Counted.multiple_test snd filter].
  destruct (has_can_divide use (x_mask m) (x_mask x)); reflexivity.
Qed.

(** Forgetting the counter gives the finders of C20-C35. *)
Theorem C82_counted_list_is_list : forall (M : Type) ex nvars T sort_data use (divides less : M -> M -> bool) linked sorted auto ratio rmin sort_ext w s o,
  (let* (x, _) := DivList.Counted.step_c M ex nvars T sort_data use divides less linked sorted auto ratio rmin sort_ext w s o in Ok x) =
  DivList.Model.step M ex nvars T sort_data use divides less linked sorted auto ratio rmin sort_ext s o.
Proof. exact DivList.CountedProofs.step_forget. Qed.
Print Assumptions C82_counted_list_is_list.
Theorem C82_counted_tree_is_tree : forall (M : Type) (C : kconf M) packed w we s o,
  (let* (x, _) := step_c C packed w we s o in Ok x) = step C packed s o.
Proof. exact (fun M C packed w we s o => step_forget C packed w we s o). Qed.
Print Assumptions C82_counted_tree_is_tree.

(** C82.  DivList calls divides at most once per entry in each call of a search, never for an entry that is ruled out by its mask, and in a sorted
    vector never for an entry that is greater than the monomial; a search without result and removeMultiples ask about all others exactly once.  As
    the weights are arbitrary this holds for every entry separately. *)
Theorem C82_list_calls : forall (M : Type) ex nvars T sort_data use (divides less : M -> M -> bool) linked sorted auto ratio rmin sort_ext w (s : DivList.Model.dlist M),
  let run := DivList.Counted.step_c M ex nvars T sort_data use divides less linked sorted auto ratio rmin sort_ext w s in
  forall m, let x := extend M ex use (DivList.Model.l_bits s) m in
  let near := if sorted && negb linked then filter (fun y => negb (less m (x_t y))) (DivList.Model.l_list s) else DivList.Model.l_list s in
  (forall s' r n, run (DFindDivisor m) = Ok (s', r, n) ->
     n <= may_divide use w x near /\ (r = DOFound None -> sorted && linked = false -> n = may_divide use w x near)) /\
  (forall s' r n, run (DToFront m) = Ok (s', r, n) -> n <= may_divide use w x near) /\
  (forall cb s' r n, run (DAllDivisors m cb) = Ok (s', r, n) -> n <= may_divide use w x near) /\
  (forall cb s' r n, run (DAllMultiples m cb) = Ok (s', r, n) -> n <= may_be_divided use w x (DivList.Model.l_list s)) /\
  (forall s' r n, run (DRemoveMultiples m) = Ok (s', r, n) -> n = may_be_divided use w x (DivList.Model.l_list s)).
Proof.
  intros M ex nvars T sort_data use divides less linked sorted auto ratio rmin sort_ext w s run m x near. subst run.
  repeat apply conj; cbn [DivList.Counted.step_c]; [intros s' r n H|intros s' r n H|intros cb s' r n H|intros cb s' r n H|intros s' r n H];
    rewrite <- ?(may_divide_asked use divides), <- ?(may_be_divided_asked use divides).
  - apply cbind_ok in H as (o & c & d & H1 & H2 & ->). injection H2 as <- <- <-. apply DivList.CountedProofs.find_divisor_bound in H1 as [G1 G2]. rewrite Nat.add_0_r.
    split; [exact G1|]. intros E. injection E as ->. exact (G2 eq_refl).
  - apply cbind_ok in H as ([s1 o] & c & d & H1 & H2 & ->). injection H2 as <- <- <-. apply DivList.CountedProofs.to_front_bound in H1. rewrite Nat.add_0_r. exact H1.
  - apply cbind_ok in H as (o & c & d & H1 & H2 & ->). injection H2 as <- <- <-. apply DivList.CountedProofs.all_divisors_bound in H1. rewrite Nat.add_0_r. exact H1.
  - apply cbind_ok in H as (o & c & d & H1 & H2 & ->). injection H2 as <- <- <-. apply DivList.CountedProofs.all_multiples_bound in H1. rewrite Nat.add_0_r. exact H1.
  - apply cbind_ok in H as ([[s1 b] o] & c & d & H1 & H2 & ->). injection H2 as <- <- <-. apply DivList.CountedProofs.remove_multiples_bound in H1. rewrite Nat.add_0_r. exact H1.
Qed.
Print Assumptions C82_list_calls.

(** C82.  KDTree calls divides at most once per entry in each call, never for an entry that is ruled out by its mask, except that findDivisor asks
    once about the cached divisor in addition. *)
Theorem C82_tree_divides_calls : forall (M : Type) (C : kconf M) packed w s m,
  let x := kext C (k_bits s) m in let all := match k_tree s with None => [] | Some t => tree_entries t end in
  (forall r n, step_c C packed w 0 s (DFindDivisor m) = Ok (r, n) ->
     n <= may_divide (c_use C) w x all \/
     (exists p e, c_cache C = true /\ k_cache s = Some p /\ entry_at s p = Ok e /\ n <= w e + may_divide (c_use C) w x all)) /\
  (forall cb r n, step_c C packed w 0 s (DAllDivisors m cb) = Ok (r, n) -> n <= may_divide (c_use C) w x all) /\
  (forall cb r n, step_c C packed w 0 s (DAllMultiples m cb) = Ok (r, n) -> n <= may_be_divided (c_use C) w x all) /\
  (forall r n, step_c C packed w 0 s (DRemoveMultiples m) = Ok (r, n) -> n <= may_be_divided (c_use C) w x all).
Proof.
  intros M C packed w s m x all. rewrite <- (may_divide_asked (c_use C) (c_divides C)), <- (may_be_divided_asked (c_use C) (c_divides C)).
  repeat apply conj; [intros r n H|intros cb r n H|intros cb r n H|intros r n H]; apply step_bound in H; unfold all_cost in H; change (root_entries (k_tree s)) with all in H; fold x in H; try lia.
  destruct (k_cache s) as [p|] eqn:Hp; [|left; lia]. destruct (entry_at s p) as [e| | |] eqn:He; try (left; lia).
  destruct (c_cache C) eqn:Hc; [right; exists p, e; repeat split; auto|left]; lia.
Qed.
Print Assumptions C82_tree_divides_calls.

(** C82.  On its way through the tree a call looks at one exponent of the monomial per interior node at most.  There are fewer interior nodes
    than entries if removals are disabled, and fewer than there were insertions otherwise. *)
Theorem C82_tree_exponents : forall (M : Type) (C : kconf M) packed valid, klegal C valid -> forall ops s rs, kreached C packed valid ops s rs ->
  forall o r n, step_c C packed (fun _ => 0) 1 s o = Ok (r, n) ->
  n <= length (filter (fun o => match o with DInsert _ => true | _ => false end) ops) - 1 /\
  (c_removals C = false -> n <= length (kcontents s) - 1).
Proof.
  intros M C packed valid HL ops s rs (s0 & H0 & Hr) o r n H.
  assert (Hn : n <= root_splits (k_tree s)).
  { apply step_bound in H. assert (Hz : forall p l, (forall x, snd (p x) = 0) -> DivList.CountedProofs.asked (M := M) p l = 0).
    { intros p l Hx. induction l as [|y l IH]; auto. now rewrite DivList.CountedProofs.asked_cons, Hx, IH. }
    assert (Z1 : forall y l, DivList.CountedProofs.asked (DivList.Counted.divisor_test M (c_use C) (c_divides C) (fun _ => 0) y) l = 0).
    { intros y l. apply Hz. intros z. cbn. now destruct (has_can_divide _ _ _). }
    assert (Z2 : forall y l, DivList.CountedProofs.asked (DivList.Counted.multiple_test M (c_use C) (c_divides C) (fun _ => 0) y) l = 0).
    { intros y l. apply Hz. intros z. cbn. now destruct (has_can_divide _ _ _). }
    unfold all_cost in H. rewrite ?Z1, ?Z2 in H.
    destruct o; rewrite ?Z1, ?Z2 in H; try lia; destruct (k_cache s) as [p|]; try lia; destruct (entry_at s p); try lia; destruct (c_cache C); lia. }
  assert (Hc : counted_state C valid (inserts ops) s).
  { eapply counted_reached; eauto. }
  destruct Hc as (Hi & Hc & Hs). fold (inserts ops). split; [lia|]. intros Hrem. rewrite kcontents_root, map_length.
  pose proof (i_root _ _ _ _ Hi) as Ht. destruct (k_tree s) as [t|]; cbn [root_splits root_entries root_inv] in *; [|lia].
  apply (splits_entries C valid) in Ht; auto. lia.
Qed.
Print Assumptions C82_tree_exponents.

(** C82, "at most once per entry" for findDivisor: false of a tree with a divisor cache, which may ask about the cached entry twice in one call. *)
Definition is_20 (e : mono) : nat := if (Z.eqb (fst e) 2 && Z.eqb (snd e) 0)%bool then 1 else 0.
Definition cached_tree : kconf mono := mono_tree false false 2 true false true false.
Theorem C82_once_per_entry_refuted : exists s rs,
  kreached cached_tree false int_mono [DInsert (2, 0); DInsert (0, 2); DFindDivisor (3, 0)]%Z s rs /\
  list_sum (map is_20 (kcontents s)) = 1 /\
  step_c cached_tree false is_20 0 s (DFindDivisor (1, 1)%Z) = Ok (s, DOFound None, 2).
Proof.
  do 2 eexists. split; [eapply kreached_run; [vm_compute; reflexivity|vm_compute; reflexivity|vm_compute; auto]|]. split; vm_compute; reflexivity.
Qed.
Print Assumptions C82_once_per_entry_refuted.

(** C82, "fewer exponents than entries" with removals allowed: false.  Removal leaves the nodes behind, so that a search in a tree without entries
    may go through all of them. *)
Definition removing_tree : kconf mono := mono_tree false false 1 true false false false.
Theorem C82_removals_leave_nodes_refuted : forall packed, exists s rs,
  kreached removing_tree packed int_mono [DInsert (0, 9); DInsert (2, 2); DInsert (5, 1); DInsert (9, 0); DRemoveMultiples (0, 0)]%Z s rs /\
  kcontents s = [] /\ step_c removing_tree packed (fun _ => 0) 1 s (DFindDivisor (9, 9)%Z) = Ok (s, DOFound None, 3).
Proof.
  intros packed. destruct packed; do 2 eexists; (split; [eapply kreached_run; [vm_compute; reflexivity|vm_compute; reflexivity|vm_compute; auto 10]|]); split; vm_compute; reflexivity.
Qed.
Print Assumptions C82_removals_leave_nodes_refuted.

(** A tree of four entries in which findDivisor asks about two of them and looks at three exponents, and a list in which it asks about two of three. *)
Definition small_tree : kconf mono := mono_tree false false 1 false false false false.
Definition small_list : res (DivList.Model.dlist mono * list (dout mono)) :=
  let step := DivList.Model.step mono mono_ex 2 (Signed 32) data_sort false mono_divides lex false true false (fun n => n / 2) 3 (isort (DivList.Model.comp mono lex)) in
  let* s := DivList.Model.construct mono mono_ex 2 (Signed 32) data_sort false false (fun n => n / 2) 3 in
  run step s [DInsert (0, 9); DInsert (2, 2); DInsert (9, 0)]%Z.
Example C82_nonvacuous :
  klegal small_tree int_mono /\
  (exists s rs, kreached small_tree true int_mono [DInsert (0, 9); DInsert (2, 2); DInsert (5, 1); DInsert (9, 0)]%Z s rs /\
    step_c small_tree true (fun _ => 1) 0 s (DFindDivisor (6, 1)%Z) = Ok (s, DOFound (Some (5, 1)%Z), 2) /\
    step_c small_tree true (fun _ => 0) 1 s (DFindDivisor (6, 1)%Z) = Ok (s, DOFound (Some (5, 1)%Z), 3)) /\
  (exists s rs, small_list = Ok (s, rs) /\
    DivList.Counted.step_c mono mono_ex 2 (Signed 32) data_sort false mono_divides lex false true false (fun n => n / 2) 3 (isort (DivList.Model.comp mono lex)) (fun _ => 1) s
      (DFindDivisor (3, 1)%Z) = Ok (s, DOFound None, 2)).
Proof.
  split; [apply mono_tree_legal; auto; discriminate|]. split.
  - do 2 eexists. split; [eapply kreached_run; [vm_compute; reflexivity|vm_compute; reflexivity|vm_compute; auto 10]|]. vm_compute. auto.
  - do 2 eexists. split; vm_compute; reflexivity.
Qed.
