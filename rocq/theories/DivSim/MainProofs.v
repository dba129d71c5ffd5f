(** Proofs about the events and the runs of divMain.cpp. *)
From Coq Require Import List Arith Bool ZArith Lia Permutation.
From Verif.Base Require Import Res Order Sort StdAlg.
From Verif.Spec Require Import DivFinder DivClient.
From Verif.DivMask Require Import Model Defined.
From Verif.Finders Require Import Model.
From Verif.DivSim Require Import Model ClientProofs Proofs.
Import ListNotations.
Local Notation length := List.length.

(** The requests behind the events of makeStandard. *)
Definition standard (inserts queries : nat) (ms : list monomial) : list (request monomial) :=
  map (fun p => if fst p <=? inserts then Put (snd p) else Seek (snd p)) (combine (seq 0 (inserts + queries)) ms).

Lemma make_standard_fresh inserts queries ms : make_standard inserts queries ms = map fresh (standard inserts queries ms).
Proof. unfold make_standard, standard. rewrite map_map. apply map_ext. intros [i m]. cbn [fst snd]. destruct (i <=? inserts); reflexivity. Qed.

Lemma put_in_standard inserts : forall (ms : list monomial) n, put_in (map (fun p => if fst p <=? inserts then Put (snd p) else Seek (snd p)) (combine (seq n (length ms)) ms)) = firstn (S inserts - n) ms.
Proof.
  induction ms as [|m ms IH]; intros n; cbn [length seq combine map]; [now rewrite firstn_nil|]. cbn [fst snd put_in flat_map]. change (flat_map _ ?x) with (put_in x). rewrite IH.
  destruct (Nat.leb_spec n inserts).
  - replace (S inserts - n) with (S (S inserts - S n)) by lia. reflexivity.
  - replace (S inserts - n) with 0 by lia. replace (S inserts - S n) with 0 by lia. reflexivity.
Qed.
Lemma standard_puts inserts queries ms : length ms = inserts + queries -> put_in (standard inserts queries ms) = firstn (S inserts) ms.
Proof. intros H. unfold standard. rewrite <- H, put_in_standard. reflexivity. Qed.
Lemma standard_from inserts : forall (ms : list monomial) n, map (fun p => if fst p <=? inserts then Put (snd p) else Seek (snd p)) (combine (seq n (length ms)) ms) =
  map Put (firstn (S inserts - n) ms) ++ map Seek (skipn (S inserts - n) ms).
Proof.
  induction ms as [|m ms IH]; intros n; cbn [length seq combine map]; [now rewrite firstn_nil, skipn_nil|]. rewrite IH. cbn [fst snd]. destruct (Nat.leb_spec n inserts).
  - replace (S inserts - n) with (S (S inserts - S n)) by lia. reflexivity.
  - replace (S inserts - n) with 0 by lia. replace (S inserts - S n) with 0 by lia. reflexivity.
Qed.
Lemma standard_split inserts queries ms : length ms = inserts + queries -> 0 < queries ->
  make_standard inserts queries ms = map fresh (map Put (firstn (inserts + 1) ms) ++ map Seek (skipn (inserts + 1) ms)).
Proof. intros H _. rewrite make_standard_fresh. unfold standard. rewrite <- H, standard_from. rewrite Nat.add_1_r, Nat.sub_0_r. reflexivity. Qed.
Lemma standard_inserts_only inserts ms : length ms = inserts -> make_standard inserts 0 ms = map fresh (map Put ms).
Proof.
  intros H. rewrite make_standard_fresh. unfold standard. rewrite Nat.add_0_r, <- H, standard_from. rewrite firstn_all2, skipn_all2 by lia. cbn [map]. now rewrite app_nil_r.
Qed.
Lemma filter_all {A B} (p : A -> bool) (f : B -> A) (b : bool) l : (forall x, p (f x) = b) -> filter p (map f l) = if b then map f l else [].
Proof. intros H. induction l as [|x l IH]; cbn [map filter]; [now destruct b|]. rewrite H, IH. now destruct b. Qed.
Lemma standard_counts_wrong inserts queries ms : length ms = inserts + queries -> 0 < queries ->
  length (filter (fun e => match e_type e with InsertUnknown => true | _ => false end) (make_standard inserts queries ms)) <> inserts /\
  length (filter (fun e => match e_type e with QueryUnknown => true | _ => false end) (make_standard inserts queries ms)) <> queries.
Proof.
  intros H Hq. rewrite (standard_split _ _ _ H Hq). rewrite map_app, !map_map, !filter_app.
  rewrite (filter_all _ _ true), (filter_all _ (fun x => fresh (Seek x)) false), (filter_all _ (fun x => fresh (Put x)) false), (filter_all _ (fun x => fresh (Seek x)) true) by reflexivity.
  cbn [app]. rewrite app_nil_r, !map_length, firstn_length, skipn_length. lia.
Qed.
Lemma standard_monomials inserts queries ms : length ms = inserts + queries -> map subject_of (standard inserts queries ms) = ms.
Proof.
  intros H. unfold standard. rewrite <- H. clear H. generalize 0. induction ms as [|m ms IH]; intros n; cbn [length seq combine map]; auto.
  rewrite IH. cbn [fst snd]. f_equal. destruct (n <=? inserts); reflexivity.
Qed.

Lemma held_plain divides (qs : list (request monomial)) : forall l, length (fold_left (held_after divides false) qs l) = length (put_in qs) + length l.
Proof.
  induction qs as [|q qs IH]; intros l; auto. cbn [fold_left put_in flat_map]. change (flat_map _ qs) with (put_in qs). rewrite IH, app_length. destruct q; cbn [held_after put length]; lia.
Qed.

Lemma nth_same nvars a b : length (m_exps a) = nvars -> length (m_exps b) = nvars -> (forall var, var < nvars -> m_ex a var = m_ex b var) -> m_exps a = m_exps b.
Proof. intros Ha Hb H. apply (nth_ext _ _ 0%Z 0%Z); [congruence|]. intros n Hn. apply H. lia. Qed.
Lemma different_copies nvars l : Forall (fun m => length (m_exps m) = nvars) l -> NoDup (map m_exps l) -> forall m, copies (same_exps m_ex nvars) m l <= 1.
Proof.
  intros Hl Hn m. induction l as [|x l IH]; cbn [map] in Hn; [cbn; lia|]. inversion Hl; subst. inversion Hn; subst. rewrite copies_cons. specialize (IH ltac:(auto) ltac:(auto)).
  destruct (same_exps m_ex (length (m_exps x)) m x) eqn:Hs; [|lia]. replace (copies _ m l) with 0; [lia|]. symmetry. unfold copies. apply length_zero_iff_nil.
  destruct (filter _ l) as [|y k] eqn:Hf; auto. exfalso. assert (Hy : In y (y :: k)) by now left. rewrite <- Hf in Hy. apply filter_In in Hy as [Hy Hs'].
  apply H1. apply in_map_iff. exists y. split; auto. rewrite Forall_forall in H2. rewrite same_spec in Hs, Hs'.
  apply (nth_same (length (m_exps x))); auto. intros var Hv. now rewrite <- Hs, <- Hs'.
Qed.

Lemma drawn_good nvars m : drawn nvars m -> good_monomial nvars m.
Proof.
  intros [Hl Hf]. split; auto. unfold int_exponents. apply forallb_forall. intros v Hv. apply in_seq in Hv. rewrite Forall_forall in Hf.
  assert (Hx : (0 <= m_ex m v < 1000)%Z) by (apply Hf; apply nth_In; lia). apply andb_true_iff. split; apply Z.leb_le; lia.
Qed.

Lemma debug_behave std room : std_ok 10 std -> (forall e, room e <= 1) -> Forall (behaves 10 false room) (debug_subjects std).
Proof.
  intros Hs Hr. assert (H10 : forall b : bool, b = true -> 10 <> 1) by (intros; discriminate).
  assert (Ht : forall UDM UTDM PT LS AR sorted cache r min, (UTDM = true -> UDM = true) -> 0 < LS -> behaves 10 false room (tree_model std 10 UDM UTDM PT LS AR false sorted cache r min)).
  { intros. apply tree_behaves; auto; [discriminate|]. intros _ e. specialize (Hr e). lia. }
  unfold debug_subjects. cbn [flat_map app].
  constructor; [apply Ht; auto; lia|]. constructor; [apply list_behaves; auto|].
  repeat (constructor; [apply Ht; auto; lia|]). constructor.
Qed.
Lemma main_behave std room : std_ok 10 std -> (forall e, room e <= 1) -> Forall (behaves 10 false room) (main_subjects std).
Proof.
  intros Hs Hr. assert (H10 : forall b : bool, b = true -> 10 <> 1) by (intros; discriminate).
  assert (Ht : forall UDM UTDM PT LS AR sorted cache r min, (UTDM = true -> UDM = true) -> 0 < LS -> behaves 10 false room (tree_model std 10 UDM UTDM PT LS AR false sorted cache r min)).
  { intros. apply tree_behaves; auto; [discriminate|]. intros _ e. specialize (Hr e). lia. }
  unfold main_subjects. repeat (constructor; [apply Ht; auto; lia|]). constructor.
Qed.

Lemma div_main_ok debug sort std inserts queries ms : sorts_pointers sort -> std_ok 10 std -> length ms = inserts + queries -> 0 < queries -> Forall (drawn 10) ms ->
  NoDup (map m_exps (firstn (S inserts) ms)) ->
  exists evs, div_main debug sort std inserts queries ms = Ok (Goes (map (fun _ => S inserts) (if debug then debug_subjects std else main_subjects std), evs)).
Proof.
  intros Hsort Hstd Hl Hq Hd Hn. unfold div_main. rewrite make_standard_fresh. set (qs := standard inserts queries ms).
  assert (Hg : Forall (fun q => good_monomial 10 (subject_of q)) qs).
  { apply Forall_forall. intros q Hin. apply drawn_good. rewrite Forall_forall in Hd. apply Hd. rewrite <- (standard_monomials inserts queries ms Hl). now apply in_map. }
  assert (Hr : roomy 10 false (fun _ => 1) [] qs).
  { intros _ m. rewrite app_nil_r. unfold qs. rewrite standard_puts by auto. apply different_copies; auto. rewrite <- (firstn_skipn (S inserts) ms) in Hd. apply Forall_app in Hd as [Hd _].
    eapply Forall_impl; [|exact Hd]. intros a [H _]. exact H. }
  assert (Hh : length (held (m_divides 10) false qs) = S inserts).
  { unfold held. rewrite held_plain. cbn [length]. unfold qs. rewrite standard_puts by auto. rewrite firstn_length. lia. }
  destruct (simulate_ok 10 false debug sort Hsort true (fun _ => 1) qs Hg Hr (if debug then debug_subjects std else main_subjects std) (map fresh qs)) as (evs & H & _).
  { destruct debug; [apply debug_behave|apply main_behave]; auto. }
  { apply fresh_right. }
  exists evs. rewrite H, Hh. reflexivity.
Qed.
