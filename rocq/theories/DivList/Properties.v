(** Property theorems about DivList (C23-C27, C48). *)
From Coq Require Import List Arith Bool ZArith NArith Lia Permutation.
From Verif.Base Require Import Res Arr ResList StdAlg Order Sort.
From Verif.DivMask Require Import Model Proofs Defined.
From Verif.Spec Require Import Reach DivFinder DivFinderFacts DivAgree DivAgreeFacts Schedule.
From Verif.DivList Require Import Model Proofs ScheduleProofs.
Import ListNotations.

(** A configuration of DivList with the choices that C++ leaves to the standard library. *)
Record config (M : Type) := mk_config {
  f_ex : M -> nat -> Z;             (* getExponent *)
  f_nvars : nat;                    (* getVarCount *)
  f_type : exptype;                 (* Exponent *)
  f_divides : M -> M -> bool;       (* divides *)
  f_less : M -> M -> bool;          (* isLessThan *)
  f_use : bool;                     (* UseDivMask *)
  f_linked : bool;                  (* UseLinkedList *)
  f_sorted : bool;                  (* getSortOnInsert *)
  f_auto : bool;                    (* getDoAutomaticRebuilds *)
  f_ratio : nat -> nat;             (* size_t(size * getRebuildRatio()) *)
  f_min : nat;                      (* getRebuildMin *)
  f_sort_data : list var_data -> list var_data;
  f_sort_ext : list (ext M) -> list (ext M);
  f_valid : M -> bool }.            (* entries whose exponents do not overflow the divmask calculator *)
Arguments f_ex {M}. Arguments f_nvars {M}. Arguments f_type {M}. Arguments f_divides {M}. Arguments f_less {M}. Arguments f_use {M}. Arguments f_linked {M}.
Arguments f_sorted {M}. Arguments f_auto {M}. Arguments f_ratio {M}. Arguments f_min {M}. Arguments f_sort_data {M}. Arguments f_sort_ext {M}. Arguments f_valid {M}.

Definition lstep {M} (c : config M) : dlist M -> dop M -> res (dlist M * dout M) :=
  step M (f_ex c) (f_nvars c) (f_type c) (f_sort_data c) (f_use c) (f_divides c) (f_less c) (f_linked c) (f_sorted c) (f_auto c) (f_ratio c) (f_min c) (f_sort_ext c).
Definition linit {M} (c : config M) : res (dlist M) :=
  construct M (f_ex c) (f_nvars c) (f_type c) (f_sort_data c) (f_use c) (f_auto c) (f_ratio c) (f_min c).
Definition lsame {M} (c : config M) : M -> M -> bool := same_exps (f_ex c) (f_nvars c).

(** What is asked of every configuration: divisibility implies that no exponent decreases, std::sort sorts, and the calculator is
    defined for valid entries. *)
Record legal {M} (c : config M) : Prop := {
  k_divides : forall a b, f_divides c a b = true -> forall var, var < f_nvars c -> (f_ex c a var <= f_ex c b var)%Z;
  k_sort : sorts (fun a b => d_split b <? d_split a) (f_sort_data c);
  k_sort_ext : strict_weak (f_less c) -> sorts (comp M (f_less c)) (f_sort_ext c);
  k_defined : f_use c = true -> calc_defined (f_ex c) (f_nvars c) (f_type c) (f_sort_data c) (f_valid c) }.
(** With sortOnInsert the order must be strict weak and no entry may precede its divisors. *)
Definition compatible_order {M} (c : config M) : Prop :=
  strict_weak (f_less c) /\ forall a b, f_divides c a b = true -> f_less c b a = false.
(** Only valid entries are inserted and, with sortOnInsert, nothing is moved to the front. *)
Definition lpre {M} (c : config M) (l : list M) (o : dop M) : bool :=
  match o with
  | DInsert e => f_valid c e
  | DInsertRange es => forallb (f_valid c) es
  | DToFront _ => negb (f_sorted c)
  | _ => true
  end.

Lemma list_steps {M} (c : config M) : legal c -> (f_sorted c = true -> compatible_order c) ->
  df_steps (f_divides c) (lsame c) (lstep c) (linit c) contents (lpre c).
Proof.
  intros H Ho. apply (divlist_steps (f_ex c) (f_nvars c) (f_type c) (f_sort_data c) (fun l => proj1 (k_sort c H l)) (f_use c) (f_divides c) (f_less c)
    (k_divides c H) (f_linked c) (f_sorted c) (f_auto c) Ho (f_ratio c) (f_min c) (f_sort_ext c) (fun Hs => k_sort_ext c H (proj1 (Ho Hs))) (f_valid c) (k_defined c H)).
Qed.
Lemma list_correct {M} (c : config M) : legal c -> (f_sorted c = true -> compatible_order c) ->
  df_correct (f_divides c) (lsame c) (lstep c) (linit c) contents (lpre c).
Proof. intros H Ho. apply df_steps_correct, list_steps; auto. Qed.

(** C23, C25, C26.  An unsorted DivList answers every history correctly: findDivisor finds a divisor if there is one, the enumerations
    report exactly the right entries, the removals remove exactly the right entries. *)
Theorem C23_unsorted_divlist_correct : forall (M : Type) (c : config M), legal c -> f_sorted c = false ->
  df_correct (f_divides c) (lsame c) (lstep c) (linit c) contents (lpre c).
Proof. exact (fun M c H Hs => list_correct c H (fun Ht => False_ind _ (eq_true_false_abs _ Ht Hs))). Qed.
Print Assumptions C23_unsorted_divlist_correct.

(** C24.  So does a sorted one, for an order compatible with divisibility. *)
Theorem C24_sorted_divlist_correct : forall (M : Type) (c : config M), legal c -> compatible_order c ->
  df_correct (f_divides c) (lsame c) (lstep c) (linit c) contents (lpre c).
Proof. exact (fun M c H Ho => list_correct c H (fun _ => Ho)). Qed.
Print Assumptions C24_sorted_divlist_correct.

(** Monomials in two variables; the lexicographic order is compatible with divisibility, its reverse is a total order that is not. *)
Definition mono := (Z * Z)%type.
Definition mono_ex (m : mono) (var : nat) : Z := match var with 0 => fst m | _ => snd m end.
Definition mono_divides (a b : mono) : bool := ((fst a <=? fst b) && (snd a <=? snd b))%Z.
Definition lex (a b : mono) : bool := ((fst a <? fst b) || ((fst a =? fst b) && (snd a <? snd b)))%Z.
Definition rlex (a b : mono) : bool := lex b a.
Definition data_sort := isort (fun a b => d_split b <? d_split a).
Definition mono_config (less : mono -> mono -> bool) (use linked sorted auto : bool) : config mono :=
  mk_config mono mono_ex 2 (Signed 32) mono_divides less use linked sorted auto (fun n => n / 2) 3 data_sort (isort (comp mono less)) (int_exponents mono_ex 2).

Lemma data_sorts : sorts (fun a b => d_split b <? d_split a) data_sort.
Proof.
  apply isort_sorts. split.
  - intros a. apply Nat.ltb_irrefl.
  - intros a b c H1 H2. apply Nat.ltb_lt in H1, H2. apply Nat.ltb_lt. lia.
  - intros a b c H1 H2. apply Nat.ltb_ge in H1, H2. apply Nat.ltb_ge. lia.
Qed.
Lemma mono_legal less use linked sorted auto : legal (mono_config less use linked sorted auto).
Proof.
  split; cbn [mono_config f_divides f_ex f_nvars f_sort_data f_less f_sort_ext f_use f_type f_valid].
  - intros [a1 a2] [b1 b2] H var Hv. unfold mono_divides in H. cbn [fst snd] in H. apply andb_true_iff in H as [H1 H2]. apply Z.leb_le in H1, H2.
    destruct var as [|[|var]]; cbn; lia.
  - apply data_sorts.
  - intros Hsw. apply isort_sorts, comp_sw, Hsw.
  - intros _. apply int_calc_defined; [lia|]. intros l. apply data_sorts.
Qed.
Lemma lex_sw : strict_weak lex.
Proof.
  split; unfold lex.
  - intros [a1 a2]. cbn [fst snd]. rewrite !Z.ltb_irrefl. now rewrite andb_false_r.
  - intros [a1 a2] [b1 b2] [c1 c2]. cbn [fst snd]. rewrite !orb_true_iff, !andb_true_iff, !Z.ltb_lt, !Z.eqb_eq. lia.
  - intros [a1 a2] [b1 b2] [c1 c2]. cbn [fst snd]. rewrite !orb_false_iff, !andb_false_iff, !Z.ltb_ge, !Z.eqb_neq. lia.
Qed.
Lemma lex_compatible use linked sorted auto : compatible_order (mono_config lex use linked sorted auto).
Proof.
  split; [exact lex_sw|]. cbn [mono_config f_divides f_less]. intros [a1 a2] [b1 b2]. unfold mono_divides, lex. cbn [fst snd].
  rewrite andb_true_iff, !Z.leb_le, orb_false_iff, andb_false_iff, !Z.ltb_ge, Z.eqb_neq. lia.
Qed.

Definition answers {M} (c : config M) (ops : list (dop M)) : res (list (dout M)) :=
  let* s := linit c in let* (_, rs) := run (lstep c) s ops in Ok rs.
Definition go_on : callback mono := fun _ => true.
Definition stop_after (n : nat) : callback mono := fun l => length l <? n.

Definition demo : list (dop mono) :=
  [DInsert (3, 1); DInsert (2, 2); DInsertRange [(1, 4); (0, 9); (4, 4); (2, 2)]; DFindDivisor (2, 5); DAllDivisors (4, 4) go_on;
   DAllDivisors (4, 4) (stop_after 2); DAllMultiples (2, 2) go_on; DRemoveElement (2, 2); DSize; DRemoveMultiples (3, 0); DForAll go_on;
   DRebuild; DFindDivisor (2, 1)]%Z.
Example C23_nonvacuous :
  legal (mono_config lex true false false true) /\
  answers (mono_config lex true false false true) demo =
    Ok [DONone; DONone; DONone; DOFound (Some (2, 2)); DOList [(3, 1); (2, 2); (1, 4); (4, 4); (2, 2)]; DOList [(3, 1); (2, 2)];
        DOList [(2, 2); (4, 4); (2, 2)]; DOBool true; DOSize 5; DORemoved true [(3, 1); (4, 4)]; DOList [(1, 4); (0, 9); (2, 2)];
        DONone; DOFound None]%Z.
Proof. split; [apply mono_legal|vm_compute; reflexivity]. Qed.
Example C24_nonvacuous :
  legal (mono_config lex true true true true) /\ compatible_order (mono_config lex true true true true) /\
  answers (mono_config lex true true true true) demo =
    Ok [DONone; DONone; DONone; DOFound (Some (1, 4)); DOList [(1, 4); (2, 2); (2, 2); (3, 1); (4, 4)]; DOList [(1, 4); (2, 2)];
        DOList [(2, 2); (2, 2); (4, 4)]; DOBool true; DOSize 5; DORemoved true [(3, 1); (4, 4)]; DOList [(0, 9); (1, 4); (2, 2)];
        DONone; DOFound None]%Z.
Proof. split; [apply mono_legal|]. split; [apply lex_compatible|vm_compute; reflexivity]. Qed.

(** C24.  The documentation (DivFinder.h:55-60) asks of isLessThan only that it is a total order.  The reverse lexicographic order is one,
    but a sorted vector then misses divisors it holds, and so does a sorted linked list of 35 or more entries. *)
Lemma rlex_total : strict_total rlex.
Proof.
  split.
  - split; unfold rlex.
    + intros a. apply (sw_irrefl _ lex_sw).
    + intros a b c H1 H2. eapply (sw_trans _ lex_sw); eauto.
    + intros a b c H1 H2. eapply (sw_neg_trans _ lex_sw); eauto.
  - intros [a1 a2] [b1 b2] [H1 H2]. revert H1 H2. unfold rlex, lex. cbn [fst snd].
    rewrite !orb_false_iff, !andb_false_iff, !Z.ltb_ge, !Z.eqb_neq. intros H1 H2. f_equal; lia.
Qed.
Theorem C24_any_total_order_refuted :
  strict_total rlex /\
  legal (mono_config rlex true false true true) /\ legal (mono_config rlex true true true true) /\
  answers (mono_config rlex true false true true) [DInsert (2, 0); DFindDivisor (3, 0)]%Z = Ok [DONone; DOFound None]%Z /\
  mono_divides (2, 0)%Z (3, 0)%Z = true /\
  exists es, length es = 35 /\ In (2, 0)%Z es /\
    answers (mono_config rlex true true true true) [DInsertRange es; DFindDivisor (3, 0)%Z] = Ok [DONone; DOFound None].
Proof.
  split; [exact rlex_total|]. split; [apply mono_legal|]. split; [apply mono_legal|]. split; [vm_compute; reflexivity|]. split; [reflexivity|].
  exists (map (fun i => (2, Z.of_nat i)) (seq 0 35))%Z. split; [reflexivity|]. split; [left; reflexivity|vm_compute; reflexivity].
Qed.
Print Assumptions C24_any_total_order_refuted.

(** [lreached c ops s rs]: the calls [ops], respecting the preconditions, lead a new DivList to [s] with answers [rs]. *)
Definition lreached {M} (c : config M) (ops : list (dop M)) (s : dlist M) (rs : list (dout M)) : Prop :=
  exists s0, linit c = Ok s0 /\ reached (lstep c) (fun s o => lpre c (contents s) o = true) s0 ops s rs.

Lemma lreached_step {M} (c : config M) ops s rs o : legal c -> (f_sorted c = true -> compatible_order c) -> lreached c ops s rs ->
  lpre c (contents s) o = true -> exists s' r, lstep c s o = Ok (s', r) /\ dstep (f_divides c) (lsame c) (contents s) o r (contents s').
Proof.
  intros H Ho (s0 & Hi & Hr) Hp. destruct (list_steps c H Ho) as (s1 & Hi1 & _ & Hs). rewrite Hi in Hi1. injection Hi1 as <-. eauto.
Qed.

(** C25.  In every reachable state the enumerations report exactly the right entries, each as often as it is held, until the callback
    declines, and they change nothing. *)
Lemma list_pure {M} (c : config M) s o s' r : match o with DFindDivisor _ | DAllDivisors _ _ | DAllMultiples _ _ | DForAll _ | DSize => True | _ => False end ->
  lstep c s o = Ok (s', r) -> s' = s.
Proof.
  unfold lstep. destruct o as [e|es|m|m|m|m cb|m cb|cb|m| |]; cbn [step]; intros Ho H; try destruct Ho; try congruence.
  - destruct (find_divisor _ _ _ _ _ _ _ s m); cbn [bind] in H; congruence.
  - destruct (all_divisors _ _ _ _ _ _ _ s m cb); cbn [bind] in H; congruence.
Qed.
Lemma list_enumerations {M} (c : config M) ops s rs : legal c -> (f_sorted c = true -> compatible_order c) -> lreached c ops s rs ->
  (forall m cb, exists xs, lstep c s (DAllDivisors m cb) = Ok (s, DOList xs) /\ reported cb (divisors (f_divides c) m (contents s)) xs) /\
  (forall m cb, exists xs, lstep c s (DAllMultiples m cb) = Ok (s, DOList xs) /\ reported cb (multiples (f_divides c) m (contents s)) xs) /\
  (forall cb, exists xs, lstep c s (DForAll cb) = Ok (s, DOList xs) /\ reported cb (contents s) xs).
Proof.
  intros H Ho Hr.
  assert (G : forall o, match o with DAllDivisors _ _ | DAllMultiples _ _ | DForAll _ => True | _ => False end ->
    exists r, lstep c s o = Ok (s, r) /\ exists l', dstep (f_divides c) (lsame c) (contents s) o r l').
  { intros o Hq. destruct (lreached_step c ops s rs o H Ho Hr) as (s' & r & H1 & H2); [destruct o; auto; destruct Hq|].
    exists r. split; [|eauto]. rewrite <- (list_pure c s o s' r) at 2; auto. destruct o; auto. }
  split; [|split].
  - intros m cb. destruct (G (DAllDivisors m cb) I) as (r & H1 & l' & H2). inversion H2; subst. eauto.
  - intros m cb. destruct (G (DAllMultiples m cb) I) as (r & H1 & l' & H2). inversion H2; subst. eauto.
  - intros cb. destruct (G (DForAll cb) I) as (r & H1 & l' & H2). inversion H2; subst. eauto.
Qed.
Theorem C25_divlist_enumerations : forall (M : Type) (c : config M) ops s rs, legal c -> (f_sorted c = true -> compatible_order c) ->
  lreached c ops s rs ->
  (forall m cb, exists xs, lstep c s (DAllDivisors m cb) = Ok (s, DOList xs) /\ reported cb (divisors (f_divides c) m (contents s)) xs) /\
  (forall m cb, exists xs, lstep c s (DAllMultiples m cb) = Ok (s, DOList xs) /\ reported cb (multiples (f_divides c) m (contents s)) xs) /\
  (forall cb, exists xs, lstep c s (DForAll cb) = Ok (s, DOList xs) /\ reported cb (contents s) xs).
Proof. exact (@list_enumerations). Qed.
Print Assumptions C25_divlist_enumerations.

Lemma lreached_run {M} (c : config M) s0 ops s rs : linit c = Ok s0 -> run (lstep c) s0 ops = Ok (s, rs) ->
  keeps (lstep c) (fun s o => lpre c (contents s) o = true) s0 ops -> lreached c ops s rs.
Proof. intros H1 H2 H3. exists s0. split; auto. now apply keeps_reached. Qed.
Example C25_nonvacuous : exists s rs, lreached (mono_config lex true false false true) demo s rs /\ length (contents s) = 3.
Proof.
  eexists. eexists. split; [|shelve]. eapply lreached_run; [vm_compute; reflexivity|vm_compute; reflexivity|vm_compute; tauto].
  Unshelve. reflexivity.
Qed.

(** C26.  In every reachable state removeMultiples leaves exactly the other entries, in their order unless a rebuild sorts anew, outputs
    exactly the multiples, and says whether there was one. *)
Lemma list_remove {M} (c : config M) ops s rs m : legal c -> (f_sorted c = true -> compatible_order c) -> lreached c ops s rs ->
  exists s' b xs, lstep c s (DRemoveMultiples m) = Ok (s', DORemoved b xs) /\
    Permutation xs (multiples (f_divides c) m (contents s)) /\ Permutation (contents s') (non_multiples (f_divides c) m (contents s)) /\
    (b = true <-> exists e, In e (contents s) /\ f_divides c m e = true) /\
    lstep c s' DSize = Ok (s', DOSize (length (contents s) - length xs)).
Proof.
  intros H Ho Hr. destruct (lreached_step c ops s rs (DRemoveMultiples m) H Ho Hr eq_refl) as (s' & r & H1 & H2). inversion H2; subst.
  match goal with Hp : Permutation xs _ |- _ => rename Hp into Hx end. match goal with Hp : Permutation (contents s') _ |- _ => rename Hp into Hl end.
  exists s', (match xs with [] => false | _ => true end), xs. repeat split; auto.
  - destruct xs as [|x xs]; [discriminate|]. intros _. exists x. apply (filter_In (fun e => f_divides c m e)). eapply Permutation_in; [eassumption|now left].
  - intros (e & He1 & He2). destruct xs as [|x xs]; auto. apply Permutation_nil in Hx. assert (He : In e (multiples (f_divides c) m (contents s))) by (now apply filter_In).
    rewrite Hx in He. destruct He.
  - unfold lstep. cbn [step]. do 3 f_equal. apply Permutation_length in Hx, Hl. rewrite Hx. unfold contents in Hl at 1. rewrite map_length in Hl. rewrite Hl.
    unfold non_multiples, multiples. pose proof (filter_split (fun e => f_divides c m e) (contents s)) as H6. apply Permutation_length in H6. rewrite app_length in H6. lia.
Qed.
Theorem C26_divlist_remove_multiples : forall (M : Type) (c : config M) ops s rs m, legal c -> (f_sorted c = true -> compatible_order c) ->
  lreached c ops s rs ->
  exists s' b xs, lstep c s (DRemoveMultiples m) = Ok (s', DORemoved b xs) /\
    Permutation xs (multiples (f_divides c) m (contents s)) /\ Permutation (contents s') (non_multiples (f_divides c) m (contents s)) /\
    (b = true <-> exists e, In e (contents s) /\ f_divides c m e = true) /\
    lstep c s' DSize = Ok (s', DOSize (length (contents s) - length xs)).
Proof. exact (@list_remove). Qed.
Print Assumptions C26_divlist_remove_multiples.
Example C26_nonvacuous : exists s rs, lreached (mono_config lex true false false true) (firstn 9 demo) s rs /\ multiples mono_divides (3, 0)%Z (contents s) <> [].
Proof.
  eexists. eexists. split; [|shelve]. eapply lreached_run; [vm_compute; reflexivity|vm_compute; reflexivity|vm_compute; tauto].
  Unshelve. vm_compute. discriminate.
Qed.

(** C27.  Replacing every move-to-front by the plain search changes no answer: the two histories run to their ends, answer alike and end
    with the same entries. *)
Definition no_front {M} (o : dop M) : dop M := match o with DToFront m => DFindDivisor m | _ => o end.
Lemma no_front_trace {M} divides same (l : list M) ops rs l' : dtrace divides same l ops rs l' -> dtrace divides same l (map no_front ops) rs l'.
Proof. induction 1 as [l|l o r l1 ops rs l2 Hs Ht IH]; [constructor|]. cbn [map]. econstructor; [|exact IH]. inversion Hs; subst; cbn [no_front]; try exact Hs. now apply d_find. Qed.
Lemma same_exps_equiv {M} (ex : M -> nat -> Z) n : (forall a, same_exps ex n a a = true) /\ (forall a b, same_exps ex n a b = true -> same_exps ex n b a = true) /\
  (forall a b c, same_exps ex n a b = true -> same_exps ex n b c = true -> same_exps ex n a c = true).
Proof.
  unfold same_exps. split; [|split].
  - intros a. apply forallb_forall. intros v _. apply Z.eqb_refl.
  - intros a b H. rewrite forallb_forall in *. intros v Hv. apply H in Hv. rewrite Z.eqb_eq in *. congruence.
  - intros a b c H H'. rewrite forallb_forall in *. intros v Hv. pose proof (H v Hv) as H1. apply H' in Hv. rewrite Z.eqb_eq in *. congruence.
Qed.
(** Divisibility depends on the exponents only. *)
Definition by_exponents {M} (c : config M) : Prop :=
  forall a b m, lsame c a b = true -> f_divides c a m = f_divides c b m /\ f_divides c m a = f_divides c m b.
Lemma list_front {M} (c : config M) ops : legal c -> by_exponents c -> f_sorted c = false -> forallb (lpre c []) ops = true -> Forall full ops ->
  exists s0 s rs s' rs', linit c = Ok s0 /\ run (lstep c) s0 ops = Ok (s, rs) /\ run (lstep c) s0 (map no_front ops) = Ok (s', rs') /\
    Forall2 (answers_alike (lsame c)) rs rs' /\ alike (lsame c) (contents s) (contents s').
Proof.
  intros H Hb Hs Hp Hf. assert (Hc := C23_unsorted_divlist_correct M c H Hs). rewrite forallb_forall in Hp.
  destruct (df_correct_total _ _ _ _ _ _ ops Hc) as (s0 & s & rs & H1 & H2 & H3). { intros o l Ho. apply Hp in Ho. destruct o; auto. }
  destruct (df_correct_total _ _ _ _ _ _ (map no_front ops) Hc) as (s1 & s' & rs' & H4 & H5 & H6).
  { intros o l Ho. apply in_map_iff in Ho as (o' & <- & Ho). apply Hp in Ho. destruct o'; auto. }
  rewrite H1 in H4. injection H4 as <-. exists s0, s, rs, s', rs'. split; auto. split; auto. split; auto.
  destruct (same_exps_equiv (f_ex c) (f_nvars c)) as (E1 & E2 & E3).
  assert (Hf' : Forall full (map no_front ops)).
  { clear - Hf. induction Hf as [|o ops Ho Hf IH]; cbn [map]; constructor; auto. destruct o; auto. }
  exact (dtrace_agree (f_divides c) (lsame c) E1 E2 E3 (fun a b m Hab => proj1 (Hb a b m Hab)) (fun a b m Hab => proj2 (Hb a b m Hab))
    _ _ _ _ (no_front_trace _ _ _ _ _ _ H3) _ _ _ (alike_refl _ _) Hf' H6).
Qed.
Theorem C27_move_to_front_invisible : forall (M : Type) (c : config M) ops, legal c -> by_exponents c -> f_sorted c = false ->
  forallb (lpre c []) ops = true -> Forall full ops ->
  exists s0 s rs s' rs', linit c = Ok s0 /\ run (lstep c) s0 ops = Ok (s, rs) /\ run (lstep c) s0 (map no_front ops) = Ok (s', rs') /\
    Forall2 (answers_alike (lsame c)) rs rs' /\ alike (lsame c) (contents s) (contents s').
Proof. exact (@list_front). Qed.
Print Assumptions C27_move_to_front_invisible.

Definition front_demo : list (dop mono) :=
  [DInsert (3, 1); DInsert (2, 2); DInsert (1, 4); DToFront (1, 5); DInsert (0, 9); DToFront (2, 3); DAllDivisors (4, 4) go_on; DFindDivisor (4, 4)]%Z.
Example C27_nonvacuous :
  let c := mono_config lex true false false true in
  legal c /\ by_exponents c /\ forallb (lpre c []) front_demo = true /\ Forall full front_demo /\
  answers c front_demo <> answers c (map no_front front_demo).
Proof.
  cbn zeta. split; [apply mono_legal|]. split; [|split; [reflexivity|split; [repeat constructor|vm_compute; discriminate]]].
  intros [a1 a2] [b1 b2] m H. unfold lsame, same_exps in H. cbn in H. apply andb_true_iff in H as [H1 H2]. rewrite andb_true_r in H2. apply Z.eqb_eq in H1, H2. now subst.
Qed.

(** C27.  Together with sortOnInsert, which nothing in DivList forbids, move-to-front breaks the order the searches rely on.  In a vector the
    next search calls std::upper_bound on a range that is not partitioned, which is undefined; in a linked list a search misses a divisor
    that is held. *)
Definition mixed : list (dop mono) :=
  (DInsert (0, 200) :: map (fun k => DInsert (k + 1, 100 - k)) (map Z.of_nat (seq 0 35))
     ++ map (fun k => DToFront (k + 1, 100 - k)) (map Z.of_nat (seq 0 35)))%Z.
Theorem C27_with_sort_on_insert_refuted :
  legal (mono_config lex true true true true) /\ compatible_order (mono_config lex true true true true) /\
  (exists rs, answers (mono_config lex true true true true) (mixed ++ [DFindDivisor (0, 200)%Z]) = Ok (rs ++ [DOFound None])) /\
  (exists rs, answers (mono_config lex true true true true) (map no_front mixed ++ [DFindDivisor (0, 200)%Z]) = Ok (rs ++ [DOFound (Some (0, 200)%Z)])) /\
  answers (mono_config lex true false true true) [DInsert (0, 1); DInsert (1, 0); DToFront (1, 0); DFindDivisor (0, 1)]%Z = UB.
Proof.
  split; [apply mono_legal|]. split; [apply lex_compatible|]. split; [|split; [|vm_compute; reflexivity]].
  - exists (repeat DONone 36 ++ map (fun k => DOFound (Some (k + 1, 100 - k)%Z)) (map Z.of_nat (seq 0 35))). vm_compute. reflexivity.
  - eexists (repeat DONone 36 ++ map (fun k => DOFound (Some (k + 1, 100 - k)%Z)) (map Z.of_nat (seq 0 35))). vm_compute. reflexivity.
Qed.
Print Assumptions C27_with_sort_on_insert_refuted.

(** C48.  The rebuilds of a DivList follow the schedule of Spec/Schedule.v. *)
Lemma list_schedule {M} (c : config M) s0 ops s rs : legal c -> (f_sorted c = true -> strict_weak (f_less c)) -> linit c = Ok s0 ->
  run (lstep c) s0 ops = Ok (s, rs) ->
  l_rebuilds s = c_rebuilds (accounts (f_auto c) (f_ratio c) (f_min c) fresh ops rs) /\
  length (contents s) = c_size (accounts (f_auto c) (f_ratio c) (f_min c) fresh ops rs).
Proof.
  intros Hl Hs H0 H. unfold contents. rewrite map_length. eapply divlist_schedule; [|exact H0|exact H].
  intros Ht l. apply Permutation_length. apply (k_sort_ext c Hl (Hs Ht)).
Qed.
Theorem C48_divlist_schedule : forall (M : Type) (c : config M) s0 ops s rs, legal c -> (f_sorted c = true -> strict_weak (f_less c)) ->
  linit c = Ok s0 -> run (lstep c) s0 ops = Ok (s, rs) ->
  l_rebuilds s = c_rebuilds (accounts (f_auto c) (f_ratio c) (f_min c) fresh ops rs) /\
  length (contents s) = c_size (accounts (f_auto c) (f_ratio c) (f_min c) fresh ops rs).
Proof. exact (@list_schedule). Qed.
Print Assumptions C48_divlist_schedule.

(** C48.  Starting empty, [n] insertions trigger exactly as many automatic rebuilds as there are sizes max(1, size*ratio, min) apart up to
    [n]; with a ratio of p/q that is at most logarithmically many. *)
Lemma list_insertions {M} (c : config M) s0 es s rs : legal c -> (f_sorted c = true -> strict_weak (f_less c)) -> f_auto c = true -> linit c = Ok s0 -> run (lstep c) s0 (map DInsert es) = Ok (s, rs) ->
  let n := length es in
  Nat.iter (l_rebuilds s) (next (f_ratio c) (f_min c)) 0 <= n < Nat.iter (S (l_rebuilds s)) (next (f_ratio c) (f_min c)) 0 /\
  forall p q, 0 < p -> 0 < q -> (forall k, f_ratio c k = k * p / q) -> l_rebuilds s <= doubling p q * (Nat.log2 n + 1).
Proof.
  intros Hl Hs Ha H0 H n. assert (Hr : l_rebuilds s = c_rebuilds (insertions (f_auto c) (f_ratio c) (f_min c) n)).
  { destruct (list_schedule c s0 _ s rs Hl Hs H0 H) as [-> _]. apply run_length in H. rewrite map_length in H. now rewrite accounts_insertions. }
  destruct (insertions_ok (f_auto c) (f_ratio c) (f_min c) Ha n) as (H1 & H2 & H3 & H4). rewrite Hr. split.
  - change (Nat.iter (S ?k) ?f 0) with (f (Nat.iter k f 0)). rewrite <- H2. lia.
  - intros p q Hp Hq Hpq. now apply rebuilds_logarithmic.
Qed.
Theorem C48_divlist_insertions : forall (M : Type) (c : config M) s0 es s rs, legal c ->
  (f_sorted c = true -> strict_weak (f_less c)) -> f_auto c = true -> linit c = Ok s0 ->
  run (lstep c) s0 (map DInsert es) = Ok (s, rs) ->
  let n := length es in
  Nat.iter (l_rebuilds s) (next (f_ratio c) (f_min c)) 0 <= n < Nat.iter (S (l_rebuilds s)) (next (f_ratio c) (f_min c)) 0 /\
  forall p q, 0 < p -> 0 < q -> (forall k, f_ratio c k = k * p / q) -> l_rebuilds s <= doubling p q * (Nat.log2 n + 1).
Proof. exact (@list_insertions). Qed.
Print Assumptions C48_divlist_insertions.

(** C48.  With automatic rebuilds off there are exactly the requested ones. *)
Lemma manual_accounts {M} ratio rmin (ops : list (dop M)) : forall c rs, length rs = length ops ->
  c_rebuilds (accounts false ratio rmin c ops rs) = c_rebuilds c + length (filter is_rebuild ops).
Proof.
  induction ops as [|o ops IH]; intros c [|r rs] H; cbn [length] in H; try discriminate; [cbn; lia|]. cbn [accounts]. rewrite IH by lia.
  assert (G : c_rebuilds (account false ratio rmin c o r) = c_rebuilds c + if is_rebuild o then 1 else 0).
  { destruct o as [e|es|m|m|m|m cb|m cb|cb|m| |]; cbn [account is_rebuild]; try (cbn; lia).
    - destruct (c_size c =? 0); [destruct es; cbn; lia|]. cbn zeta. induction (length es) as [|k IHk]; [cbn; lia|].
      change (Nat.iter (S k) ?f c) with (f (Nat.iter k f c)). cbn [change andb c_rebuilds]. exact IHk.
    - destruct r; cbn; lia.
    - destruct r as [|[|]| | | |]; cbn; lia. }
  rewrite G. cbn [filter]. destruct (is_rebuild o); cbn [length]; lia.
Qed.
Lemma list_manual {M} (c : config M) s0 ops s rs : legal c ->
  (f_sorted c = true -> strict_weak (f_less c)) -> f_auto c = false -> linit c = Ok s0 ->
  run (lstep c) s0 ops = Ok (s, rs) -> l_rebuilds s = length (filter is_rebuild ops).
Proof.
  intros Hl Hs Ha H0 H. destruct (list_schedule c s0 ops s rs Hl Hs H0 H) as [-> _]. rewrite Ha. rewrite manual_accounts; [reflexivity|].
  now apply run_length in H.
Qed.
Theorem C48_divlist_manual : forall (M : Type) (c : config M) s0 ops s rs, legal c ->
  (f_sorted c = true -> strict_weak (f_less c)) -> f_auto c = false -> linit c = Ok s0 ->
  run (lstep c) s0 ops = Ok (s, rs) -> l_rebuilds s = length (filter is_rebuild ops).
Proof. exact (@list_manual). Qed.
Print Assumptions C48_divlist_manual.
Example C48_nonvacuous : exists s0 s rs, linit (mono_config lex true false false true) = Ok s0 /\
  run (lstep (mono_config lex true false false true)) s0 (map (fun k => DInsert (Z.of_nat k, 0%Z)) (seq 0 40)) = Ok (s, rs) /\ l_rebuilds s = 6.
Proof. eexists. eexists. eexists. split; [vm_compute; reflexivity|]. split; vm_compute; reflexivity. Qed.
