From Coq Require Import List Arith Bool ZArith NArith Lia Permutation.
From Verif.Base Require Import Res Arr ResList StdAlg Order Sort Count.
From Verif.DivMask Require Import Model Proofs.
From Verif.Spec Require Import DivFinder.
From Verif.DivList Require Import Model Proofs Debug.
From Verif.TourTree Require Import Debug DebugProofs.
Import ListNotations.

Section Proofs.
  Context {M : Type}.
  Variable ex : M -> nat -> Z.
  Variable nvars : nat.
  Variable T : exptype.
  Variable sort_data : list var_data -> list var_data.
  Hypothesis Hsort : forall l, Permutation (sort_data l) l.
  Variable use : bool.
  Variable divides less : M -> M -> bool.
  Variable linked sorted auto positive : bool.
  Hypothesis Hpos : auto = true -> positive = true.
  Variable ratio : nat -> nat.
  Variable rmin : nat.
  Variable sort_ext : list (ext M) -> list (ext M).
  Notation ext := (ext M).
  Notation dlist := (dlist M).

  Lemma calc_same l : calc_rebuild_d M ex nvars T sort_data use l = calc_rebuild M ex nvars T sort_data use l.
  Proof.
    unfold calc_rebuild_d, calc_rebuild. destruct use; auto. destruct l as [|x l]; auto. cbn [rebuild_d rebuild].
    destruct (mapM (make_data M ex T (x :: l) (ex x 0)) (seq 0 nvars)) as [d| | |] eqn:Hd; auto. cbn [bind].
    rewrite check_ok; auto. apply Nat.eqb_eq. rewrite (Permutation_length (Hsort d)), (mapM_length _ _ _ Hd). apply seq_length.
  Qed.
  Lemma reset_same s : reset_left_d M auto positive ratio rmin s = Ok (reset_left M auto ratio rmin s).
  Proof. unfold reset_left_d. rewrite check_ok; auto. case_eq auto; auto. Qed.
  Lemma rebuild_same (s : dlist) :
    rebuild_list_d M ex nvars T sort_data use auto positive ratio rmin s = rebuild_list M ex nvars T sort_data use auto ratio rmin s.
  Proof.
    unfold rebuild_list_d, rebuild_list. rewrite calc_same. destruct (calc_rebuild M ex nvars T sort_data use (map x_t (l_list s))); auto.
    cbn [bind]. apply reset_same.
  Qed.
  Lemma report_same (s : dlist) n :
    report_changes_d M ex nvars T sort_data use auto positive ratio rmin s n = report_changes M ex nvars T sort_data use auto ratio rmin s n.
  Proof. unfold report_changes_d, report_changes. now rewrite rebuild_same. Qed.
  Lemma construct_same : construct_d M ex nvars T sort_data use auto positive ratio rmin = construct M ex nvars T sort_data use auto ratio rmin.
  Proof.
    unfold construct_d, construct. rewrite calc_same. destruct (calc_rebuild M ex nvars T sort_data use []); auto. cbn [bind]. apply reset_same.
  Qed.
  Lemma insert_same (s : dlist) e :
    insert_d M ex nvars T sort_data use less linked sorted auto positive ratio rmin s e = insert M ex nvars T sort_data use less linked sorted auto ratio rmin s e.
  Proof. unfold insert_d, insert. apply bind_ext; auto. intros l. apply report_same. Qed.
  Lemma insert_each_same es : forall s : dlist,
    insert_each_d M ex nvars T sort_data use less linked sorted auto positive ratio rmin s es =
    insert_each M ex nvars T sort_data use less linked sorted auto ratio rmin s es.
  Proof. induction es as [|e es IH]; intros s; auto. cbn [insert_each_d insert_each]. rewrite insert_same. now apply bind_ext. Qed.
  Lemma insert_range_same (s : dlist) es :
    insert_range_d M ex nvars T sort_data use less linked sorted auto positive ratio rmin sort_ext s es =
    insert_range M ex nvars T sort_data use less linked sorted auto ratio rmin sort_ext s es.
  Proof.
    unfold insert_range_d, insert_range. destruct (l_list s); [|apply insert_each_same]. destruct es as [|e es]; auto. rewrite calc_same.
    apply bind_ext; auto. intros bits. apply reset_same.
  Qed.
  Lemma remove_vector_same m a : remove_multiples_vector_d M use divides m a = remove_multiples_vector M use divides m a.
  Proof.
    pose proof (remove_vector_ok use divides m a) as H. unfold remove_multiples_vector_d. unfold remove_multiples_vector in *.
    destruct (first_multiple_ok use divides m a (length a)) as (it & H1 & H2 & H3 & H4); [lia|]. rewrite H1 in *. cbn [bind] in *.
    destruct (Nat.eqb_spec it (length a)) as [He|Hne]; auto. destruct H4 as (x & Hx & Hm); [lia|].
    pose proof Hx as Hg. apply vget_ok in Hg. rewrite Hg in *. cbn [bind] in *.
    destruct (compact M use divides m a (length a - S it) it [x_t x]) as [[[a' newEnd] out]| | |]; try discriminate. cbn [bind] in *.
    rewrite check_ok; auto. apply Nat.ltb_lt. injection H as _ _ H.
    assert (Hin : In x (filter (ext_divides M use divides m) a)) by (apply filter_In; split; auto; eapply nth_error_In; eauto).
    destruct (filter (ext_divides M use divides m) a); [destruct Hin|]. cbn [length] in H. lia.
  Qed.
  Lemma remove_same (s : dlist) m :
    remove_multiples_d M ex nvars T sort_data use divides linked auto positive ratio rmin s m =
    remove_multiples M ex nvars T sort_data use divides linked auto ratio rmin s m.
  Proof.
    unfold remove_multiples_d, remove_multiples. set (em := extend M ex use (l_bits s) m).
    assert (Hf : forall count kept, kept = filter (fun x => negb (ext_divides M use divides em x)) (l_list s) ->
      count = length (filter (ext_divides M use divides em) (l_list s)) -> length kept + count = length (l_list s)).
    { intros count kept -> ->. rewrite Nat.add_comm. apply filter_lengths. }
    destruct linked.
    - unfold remove_multiples_list_d. rewrite (remove_list_ok use divides em). cbn [bind]. rewrite check_ok by (apply Nat.eqb_eq; now apply Hf). cbn [bind].
      rewrite check_ok by (apply Nat.eqb_eq; now apply Hf). cbn [bind]. now rewrite report_same.
    - rewrite remove_vector_same, remove_vector_ok. cbn [bind]. rewrite check_ok by (apply Nat.eqb_eq; now apply Hf). cbn [bind]. now rewrite report_same.
  Qed.

  Lemma step_same (s : dlist) o :
    step_d M ex nvars T sort_data use divides less linked sorted auto positive ratio rmin sort_ext s o =
    step M ex nvars T sort_data use divides less linked sorted auto ratio rmin sort_ext s o.
  Proof.
    destruct o; auto; cbn [step_d step].
    - now rewrite insert_same.
    - now rewrite insert_range_same.
    - now rewrite remove_same.
    - now rewrite rebuild_same.
  Qed.
End Proofs.
