(** Proofs about DivList when client functions throw: an exception is the only other thing that can happen. *)
From Coq Require Import List Arith Bool ZArith NArith Lia.
From Verif.Base Require Import Res Arr ResList StdAlg Fault FaultFacts.
From Verif.DivMask Require Import Model.
From Verif.Spec Require Import DivFinder DivCaught.
From Verif.DivList Require Import Model Throws.
Import ListNotations.

Section Total.
  Context {M : Type}.
  Variable ex : M -> nat -> Z.
  Variable nvars : nat.
  Variable T : exptype.
  Variable sort_data : list var_data -> list var_data.
  Variable use : bool.
  Variable divides less : M -> M -> bool.
  Variables linked sorted auto : bool.
  Variable ratio : nat -> nat.
  Variable rmin : nat.
  Variable sort_ext : list (ext M) -> list (ext M).
  Variable ub_calls : list (ext M) -> ext M -> nat.
  Variable sort_x : nat -> list (ext M) -> fout (list (ext M)) (list (ext M)).
  Hypothesis Hsort_x : forall b l b' l', sort_x b l = Fine b' l' -> l' = sort_ext l.
  Notation ext := (ext M).
  Notation ediv := (ext_divides M use divides).

  Lemma tot_ediv {St} b (st : St) x y : tot (ediv_x M use divides b st x y) (Ok (ediv x y)).
  Proof. unfold ediv_x, ext_divides. destruct (has_can_divide use (x_mask x) (x_mask y)); tots. Qed.

  (** A test of the model with exceptions answers as the one without. *)
  Lemma tot_test {S A B} (m : res (fout S A)) c (f : nat -> A -> res (fout S B)) n : tot m (Ok c) -> (forall b, tot (f b c) n) -> tot (fbind m f) n.
  Proof.
    intros Hm Hf. change n with (let* _ := Ok c in n). apply tot_fbind; auto. intros b a Ha. injection Ha as <-. apply Hf.
  Qed.
  Ltac etest := eapply tot_test; [apply tot_ediv|intros].

  Lemma tot_datas l first : forall vars b, tot (datas_x M ex T b l first vars) (mapM (make_data M ex T l first) vars).
  Proof. induction vars as [|v vars IH]; intros b; cbn [datas_x mapM]; tots. apply IH. Qed.
  Lemma tot_bits l first : forall ps bits b, tot (bits_x M ex T b l first ps bits)
    (let* bs := mapM (fun p => var_bits M ex T l first (fst p) (snd p)) ps in Ok (bits ++ concat bs)).
  Proof.
    induction ps as [|[v k] ps IH]; intros bits b; cbn [bits_x mapM].
    - cbn [bind concat]. rewrite app_nil_r. tots.
    - apply tot_clients. intros b'. cbn [fst snd]. intros r Hr. apply bind_inv in Hr as (a & Ha & Hr). apply bind_inv in Ha as (bs & Hb & Ha). apply bind_inv in Ha as (a' & Ha' & Ha).
      rewrite Hb. cbn [bind]. apply (IH (bits ++ bs) b'). rewrite Ha'. cbn [bind]. injection Ha as <-. cbn [concat] in Hr. now rewrite <- app_assoc.
  Qed.
  Lemma tot_calc l b : tot (calc_rebuild_x M ex nvars T sort_data use b l) (calc_rebuild M ex nvars T sort_data use l).
  Proof.
    unfold calc_rebuild_x, calc_rebuild, rebuild. destruct use; [|tots]. destruct l as [|x l].
    - intros r Hr. rewrite Hr. cbn [bind]. eexists. split; [reflexivity|]. reflexivity.
    - apply tot_fbind; [apply tot_datas|]. intros b' datas _. apply tot_bind. intros bv _. apply (tot_bits _ _ _ []).
  Qed.

  Lemma tot_first s m : forall k b, tot (first_multiple_x M use divides b s m k) (first_multiple M use divides m (l_list s) k).
  Proof. induction k as [|k IH]; intros b; cbn [first_multiple_x first_multiple]; tots. etest. tots. apply IH. Qed.
  Lemma tot_compact s m : forall k b a n out, tot (compact_x M use divides b s m a k n out) (compact M use divides m a k n out).
  Proof. induction k as [|k IH]; intros b a n out; cbn [compact_x compact]; tots. etest. tots; apply IH. Qed.
  Lemma tot_vector s m b : tot (remove_multiples_vector_x M use divides b s m) (remove_multiples_vector M use divides m (l_list s)).
  Proof.
    unfold remove_multiples_vector_x, remove_multiples_vector. apply tot_fbind; [apply tot_first|]. intros b' it _. cbv beta. tots.
    - apply tot_compact.
    - match goal with a : _ * _ * _ |- _ => destruct a as [[? ?] ?] end. tots.
  Qed.
  Lemma tot_list s m : forall l b kept out n, tot (remove_multiples_list_x M use divides b s m kept l out n)
    (Ok (let '(k, o, c) := remove_multiples_list M use divides m l in (kept ++ k, out ++ o, n + c))).
  Proof.
    induction l as [|x l IH]; intros b kept out n; cbn [remove_multiples_list_x remove_multiples_list].
    - rewrite !app_nil_r, Nat.add_0_r. tots.
    - etest. destruct (remove_multiples_list M use divides m l) as [[k o] c]. destruct (ediv m x).
      + tots. intros r Hr. apply (IH _ kept (out ++ [x_t x]) (S n)). rewrite <- app_assoc. cbn [app]. now rewrite Nat.add_succ_comm.
      + intros r Hr. apply (IH _ (kept ++ [x]) out n). rewrite <- app_assoc. cbn [app]. exact Hr.
  Qed.

  Lemma tot_insert_list s e : forall l b, tot (insert_list_x M less b s l e) (Ok (insert_list M less l e)).
  Proof.
    induction l as [|x l IH]; intros b; cbn [insert_list_x insert_list]; tots.
    destruct (less (x_t e) (x_t x)); tots. eapply tot_test; [apply IH|]. intros. tots.
  Qed.
  Lemma tot_insert_sort s e b : tot (insert_sort_x M less linked ub_calls b s e) (insert_sort M less linked (l_list s) e).
  Proof. unfold insert_sort_x, insert_sort. destruct linked; [apply tot_insert_list|]. tots. Qed.

  Lemma tot_scan p q : (forall b x, tot (p b x) (Ok (q x))) -> forall l b, tot (scan_x M p b l) (Ok (scan M q l)).
  Proof.
    intros Hp. induction l as [|x l IH]; intros b; cbn [scan_x scan]; tots.
    eapply tot_test; [apply Hp|]. intros b'. destruct (q x); tots. eapply tot_test; [apply IH|]. intros. tots.
  Qed.
  Lemma tot_scan_list s m : forall l b count, tot (scan_list_x M use divides less b s m count l) (Ok (scan_list M use divides less m count l)).
  Proof.
    induction l as [|x l IH]; intros b count; cbn [scan_list_x scan_list]; tots. cbv zeta. destruct (S count =? 35).
    - tots. destruct (less (x_t m) (x_t x)); tots. etest. destruct (ediv x m); tots. eapply tot_test; [apply IH|]. intros. tots.
    - etest. destruct (ediv x m); tots. eapply tot_test; [apply IH|]. intros. tots.
  Qed.
  Lemma tot_find_iterator s m b : tot (find_iterator_x M ex use divides less linked sorted ub_calls b s m) (find_iterator M ex use divides less linked sorted s m).
  Proof.
    unfold find_iterator_x, find_iterator, find_sorted_x, find_sorted. tots.
    - apply tot_scan. intros. apply tot_ediv.
    - apply tot_scan_list.
    - apply tot_scan. intros. apply tot_ediv.
  Qed.

  Lemma tot_feed s cb p q : (forall b seen x, tot (p b seen x) (Ok (q x))) -> forall l b seen, tot (feed_x M s cb p b l seen) (Ok (fst (feed M cb q l seen))).
  Proof.
    intros Hp. induction l as [|x l IH]; intros b seen; cbn [feed_x feed]; tots.
    - cbn [fst]. tots.
    - eapply tot_test; [apply Hp|]. intros b'. destruct (q x); [|apply IH]. tots. destruct (cb (seen ++ [x_t x])); [apply IH|]. cbn [fst]. tots.
  Qed.
  Lemma tot_feed_list s cb m : forall l b count seen, tot (feed_list_x M use divides less b s cb m count l seen) (Ok (feed_list M use divides less cb m count l seen)).
  Proof.
    induction l as [|x l IH]; intros b count seen; cbn [feed_list_x feed_list]; tots. cbv zeta. destruct (S count =? 35).
    - tots. destruct (less (x_t m) (x_t x)); tots. etest. destruct (ediv x m); [|apply IH]. tots. destruct (cb (seen ++ [x_t x])); [apply IH|]. tots.
    - etest. destruct (ediv x m); [|apply IH]. tots. destruct (cb (seen ++ [x_t x])); [apply IH|]. tots.
  Qed.
  Lemma tot_all_divisors s m cb b : tot (all_divisors_x M ex use divides less linked sorted ub_calls b s m cb) (all_divisors M ex use divides less linked sorted s m cb).
  Proof.
    unfold all_divisors_x, all_divisors. tots.
    - apply tot_feed. intros. apply tot_ediv.
    - apply tot_feed_list.
    - apply tot_feed. intros. apply tot_ediv.
  Qed.
  Lemma tot_all_multiples s m cb b : tot (all_multiples_x M ex use divides b s m cb) (Ok (all_multiples M ex use divides s m cb)).
  Proof. unfold all_multiples_x, all_multiples. tots. apply tot_feed. intros. apply tot_ediv. Qed.
  Lemma tot_for_all s cb b : tot (for_all_x M b s cb) (Ok (for_all M s cb)).
  Proof. apply tot_feed. intros. tots. Qed.

  Lemma tot_recalculate bits : forall l b done, tot (recalculate_x M ex use b bits done l) (Ok (done ++ map (recalculate M ex use bits) l)).
  Proof.
    induction l as [|x l IH]; intros b done; cbn [recalculate_x map].
    - rewrite app_nil_r. tots.
    - tots. intros r Hr. apply IH. rewrite <- app_assoc. exact Hr.
  Qed.
  Lemma tot_rebuild s b : tot (rebuild_list_x M ex nvars T sort_data use auto ratio rmin b s) (rebuild_list M ex nvars T sort_data use auto ratio rmin s).
  Proof.
    unfold rebuild_list_x, rebuild_list. apply tot_fbind; [apply tot_fleft, tot_calc|]. intros b' bits _. cbv beta.
    eapply tot_test; [apply tot_fleft, (tot_recalculate bits (l_list s) b' [])|]. intros. cbn [app]. tots.
  Qed.
  Lemma tot_report s n b : tot (report_changes_x M ex nvars T sort_data use auto ratio rmin b s n) (report_changes M ex nvars T sort_data use auto ratio rmin s n).
  Proof. unfold report_changes_x, report_changes. tots. apply tot_rebuild. Qed.

  Lemma tot_insert s e b : tot (insert_x M ex nvars T sort_data use less linked sorted auto ratio rmin ub_calls b s e)
    (insert M ex nvars T sort_data use less linked sorted auto ratio rmin s e).
  Proof.
    unfold insert_x, insert. apply tot_clients. intros b'. apply tot_fbind.
    - tots. apply tot_insert_sort.
    - intros. apply tot_fleft, tot_report.
  Qed.
  Lemma tot_insert_each : forall es b s, tot (insert_each_x M ex nvars T sort_data use less linked sorted auto ratio rmin ub_calls b s es)
    (insert_each M ex nvars T sort_data use less linked sorted auto ratio rmin s es).
  Proof. induction es as [|e es IH]; intros b s; cbn [insert_each_x insert_each]; tots; [apply tot_insert|apply IH]. Qed.
  Lemma tot_append s bits : forall es b l, tot (append_x M ex use b s bits l es) (Ok (l ++ map (extend M ex use bits) es)).
  Proof.
    induction es as [|e es IH]; intros b l; cbn [append_x map].
    - rewrite app_nil_r. tots.
    - tots. intros r Hr. apply IH. rewrite <- app_assoc. exact Hr.
  Qed.
  Lemma tot_insert_range s es b : tot (insert_range_x M ex nvars T sort_data use less linked sorted auto ratio rmin ub_calls sort_x b s es)
    (insert_range M ex nvars T sort_data use less linked sorted auto ratio rmin sort_ext s es).
  Proof.
    unfold insert_range_x, insert_range. destruct (l_list s); [|apply tot_insert_each]. destruct es as [|e es]; [tots|].
    apply tot_fbind; [apply tot_fleft, tot_calc|]. intros b1 bits _. cbv beta zeta.
    eapply tot_test; [apply (tot_append s bits (e :: es) b1 [])|]. intros b2. cbn [app].
    eapply tot_test with (c := if sorted then sort_ext (map (extend M ex use bits) (e :: es)) else map (extend M ex use bits) (e :: es)); [|intros; tots].
    destruct sorted; [|tots]. apply tot_fleft. intros r Hr. injection Hr as <-. destruct (sort_x b2 (map (extend M ex use bits) (e :: es))) as [b3 l'|l'] eqn:Hs; eexists; (split; [reflexivity|]); auto.
    - now apply Hsort_x in Hs.
    - exact I.
  Qed.

  Lemma tot_remove_multiples s m b : tot (remove_multiples_x M ex nvars T sort_data use divides linked auto ratio rmin b s m)
    (remove_multiples M ex nvars T sort_data use divides linked auto ratio rmin s m).
  Proof.
    unfold remove_multiples_x, remove_multiples. apply tot_clients. intros b'. apply tot_fbind.
    - destruct linked; [|apply tot_vector]. intros r Hr. apply (tot_list s _ (l_list s) b' [] [] 0).
      rewrite <- Hr. destruct (remove_multiples_list M use divides (extend M ex use (l_bits s) m) (l_list s)) as [[? ?] ?]. reflexivity.
    - intros b1 [[l out] n] _. cbv beta iota. apply tot_fbind; [apply tot_fleft, tot_report|]. intros. tots.
  Qed.
  Lemma tot_equal s a x : forall vars b, tot (equal_exps_x M ex b s a x vars) (Ok (forallb (fun var => Z.eqb (ex a var) (ex x var)) vars)).
  Proof. induction vars as [|v vars IH]; intros b; cbn [equal_exps_x forallb]; tots. destruct (ex a v =? ex x v)%Z; cbn [andb]; [apply IH|tots]. Qed.
  Lemma tot_remove_element s m b : tot (remove_element_x M ex nvars b s m) (Ok (remove_element M ex nvars s m)).
  Proof.
    unfold remove_element_x, remove_element, with_list. eapply tot_test.
    - apply tot_scan with (q := fun x => equal_exps M ex nvars m (x_t x)). intros. apply tot_equal.
    - intros b'. destruct (scan M _ (l_list s)); tots.
  Qed.
  Lemma tot_find_divisor s m b : tot (find_divisor_x M ex use divides less linked sorted ub_calls b s m) (find_divisor M ex use divides less linked sorted s m).
  Proof.
    unfold find_divisor_x, find_divisor. apply tot_fbind; [apply tot_find_iterator|]. intros b' it _. cbv beta. destruct it; tots.
  Qed.
  Lemma tot_to_front s m b : tot (to_front_x M ex use divides less linked sorted ub_calls b s m) (to_front M ex use divides less linked sorted s m).
  Proof.
    unfold to_front_x, to_front, with_list. apply tot_fbind; [apply tot_find_iterator|]. intros b' it _. cbv beta. destruct it; tots.
  Qed.

  Lemma tot_step b s o : tot (step_x M ex nvars T sort_data use divides less linked sorted auto ratio rmin ub_calls sort_x b s o)
    (step M ex nvars T sort_data use divides less linked sorted auto ratio rmin sort_ext s o).
  Proof.
    destruct o; cbn [step_x step].
    - tots. apply tot_insert.
    - tots. apply tot_insert_range.
    - apply tot_fbind; [apply tot_remove_multiples|]. intros b' [[s' c] out] _. cbv beta iota. tots.
    - eapply tot_test; [apply tot_remove_element|]. intros b'. destruct (remove_element M ex nvars s m). tots.
    - tots. apply tot_find_divisor.
    - tots. apply tot_all_divisors.
    - eapply tot_test; [apply tot_all_multiples|]. intros. tots.
    - eapply tot_test; [apply tot_for_all|]. intros. tots.
    - apply tot_fbind; [apply tot_to_front|]. intros b' [s' r] _. cbv beta iota. tots.
    - apply tot_fbind; [apply tot_fleft, tot_rebuild|]. intros. tots.
    - tots.
  Qed.
End Total.
