(** Proofs about DivList when client functions throw: a call of rebuild that returns repairs an unsorted list. *)
From Coq Require Import List Arith Bool ZArith NArith Lia Permutation.
From Verif.Base Require Import Res Arr ResList StdAlg Order Sort Fault FaultFacts.
From Verif.DivMask Require Import Model Proofs.
From Verif.Spec Require Import DivFinder DivFinderFacts DivCaught.
From Verif.DivList Require Import Model Proofs Throws ThrowsProofs LeftProofs.
Import ListNotations.

Section Recover.
  Context {M : Type}.
  Variable ex : M -> nat -> Z.
  Variable nvars : nat.
  Variable T : exptype.
  Variable sort_data : list var_data -> list var_data.
  Hypothesis sort_perm : forall l, Permutation (sort_data l) l.
  Variable use : bool.
  Variable divides less : M -> M -> bool.
  Variables linked auto : bool.
  Variable ratio : nat -> nat.
  Variable rmin : nat.
  Variable sort_ext : list (ext M) -> list (ext M).
  Variable valid : M -> bool.
  Hypothesis Hcalc : use = true -> forall l, forallb valid l = true -> exists bits, rebuild M ex nvars T sort_data l = Ok bits.
  Variable ub_calls : list (ext M) -> ext M -> nat.
  Variable sort_x : nat -> list (ext M) -> fout (list (ext M)) (list (ext M)).
  Hypothesis Hsort_x : forall b l b' l', sort_x b l = Fine b' l' -> l' = sort_ext l.

  Notation ext := (ext M).
  Notation dlist := (dlist M).
  Notation ediv := (ext_divides M use divides).
  Notation inv := (inv ex nvars use less false valid).
  Notation calls := (calls false valid).
  Notation ext_of := (extend M ex use).
  Notation step := (step M ex nvars T sort_data use divides less linked false auto ratio rmin sort_ext).
  Notation step_x := (step_x M ex nvars T sort_data use divides less linked false auto ratio rmin ub_calls sort_x).
  Notation catch_x := (catch_x M ex nvars T sort_data use divides less linked false auto ratio rmin ub_calls sort_x).
  Notation insert := (insert M ex nvars T sort_data use less linked false auto ratio rmin).
  Notation insert_each := (insert_each M ex nvars T sort_data use less linked false auto ratio rmin).
  Notation rebuild_list := (rebuild_list M ex nvars T sort_data use auto ratio rmin).
  Notation report_changes := (report_changes M ex nvars T sort_data use auto ratio rmin).

  (** All that is left to rely on after exceptions. *)
  Definition good (s : dlist) : Prop := forall x, In x (contents s) -> valid x = true.
  Definition within (l : list ext) (s : dlist) (xs : list M) : Prop := forall x, In x (map x_t l) -> In x (contents s) \/ In x xs.
  Lemma good_forallb s : good s -> forallb valid (map x_t (l_list s)) = true.
  Proof. intros H. apply forallb_forall. exact H. Qed.
  Lemma good_within s s' xs : good s -> within (l_list s') s xs -> forallb valid xs = true -> good s'.
  Proof. intros Hg Hw Hv x Hx. rewrite forallb_forall in Hv. destruct (Hw x Hx); auto. Qed.
  Lemma good_same s s' : good s -> contents s' = contents s -> good s'.
  Proof. unfold good. intros H ->. exact H. Qed.

  Lemma rebuild_repairs s : use = true -> good s -> exists s', rebuild_list s = Ok s' /\ inv s' /\ contents s' = contents s.
  Proof.
    intros Hu Hg. unfold Model.rebuild_list. destruct (calc_rebuild_ok ex nvars T sort_data use valid Hcalc _ (good_forallb s Hg)) as [bits Hb]. rewrite Hb. cbn [bind].
    eexists. split; [reflexivity|]. rewrite contents_reset.
    assert (Hc : contents (mk_dlist (map (recalculate M ex use bits) (l_list s)) bits (l_left s) (S (l_rebuilds s))) = contents s).
    { unfold contents. cbn [l_list]. rewrite map_map. apply map_ext. reflexivity. }
    split; auto. apply inv_reset. split; rewrite ?Hc; cbn [l_list l_bits].
    - unfold contents. rewrite map_map. apply map_ext. intros x. unfold recalculate, extend. now rewrite Hu.
    - apply (calc_rebuild_vars ex nvars T sort_data sort_perm use ratio valid Hcalc _ _ Hb).
    - discriminate.
    - apply good_forallb, Hg.
  Qed.
  Lemma rebuild_good s : good s -> exists s', rebuild_list s = Ok s' /\ contents s' = contents s.
  Proof.
    intros Hg. unfold Model.rebuild_list. destruct (calc_rebuild_ok ex nvars T sort_data use valid Hcalc _ (good_forallb s Hg)) as [bits Hb]. rewrite Hb. cbn [bind].
    eexists. split; [reflexivity|]. rewrite contents_reset. unfold contents. cbn [l_list]. rewrite map_map. apply map_ext. reflexivity.
  Qed.
  Lemma report_good s n : good s -> exists s', report_changes s n = Ok s' /\ contents s' = contents s.
  Proof.
    intros Hg. unfold Model.report_changes. destruct (negb auto); [eauto|]. destruct (n <? l_left s); [eexists; split; reflexivity|]. now apply rebuild_good.
  Qed.
  Lemma insert_good s e : good s -> valid e = true -> exists s', insert s e = Ok s' /\ good s'.
  Proof.
    intros Hg Hv. unfold Model.insert. cbn [negb bind]. edestruct (report_good (mk_dlist (l_list s ++ [ext_of (l_bits s) e]) (l_bits s) (l_left s) (l_rebuilds s)) 1) as (s' & H1 & H2).
    - intros x Hx. unfold contents in Hx. cbn [l_list] in Hx. rewrite map_app in Hx. apply in_app_or in Hx as [Hx|[<-|[]]]; auto.
    - exists s'. split; auto. intros x Hx. rewrite H2 in Hx. unfold contents in Hx. cbn [l_list] in Hx. rewrite map_app in Hx. apply in_app_or in Hx as [Hx|[<-|[]]]; auto.
  Qed.
  Lemma insert_each_good : forall es s, good s -> forallb valid es = true -> exists s', insert_each s es = Ok s' /\ good s'.
  Proof.
    induction es as [|e es IH]; intros s Hg Hv; cbn [Model.insert_each]; [eauto|]. cbn [forallb] in Hv. apply andb_true_iff in Hv as [H1 H2].
    destruct (insert_good s e Hg H1) as (s1 & -> & Hg1). cbn [bind]. now apply IH.
  Qed.
  Lemma scan_split p s i : scan M p (l_list s) = Some i -> exists l1 x l2, l_list s = l1 ++ x :: l2 /\ length l1 = i.
  Proof. intros H. apply scan_some in H as (l1 & x & l2 & H1 & H2 & _). eauto. Qed.

  Lemma step_good s o : good s -> calls o = true -> exists s' r, step s o = Ok (s', r) /\ good s'.
  Proof.
    intros Hg Hc. destruct o as [e|es|m|m|m|m cb|m cb|cb|m| |]; cbn [Model.step Proofs.calls] in *; try (eexists; eexists; split; [reflexivity|]; auto; fail).
    - destruct (insert_good s e Hg Hc) as (s' & -> & H). cbn [bind]. eauto.
    - assert (H : exists s', insert_range M ex nvars T sort_data use less linked false auto ratio rmin sort_ext s es = Ok s' /\ good s').
      { unfold insert_range. destruct (l_list s) as [|x l]; [|now apply insert_each_good]. destruct es as [|e es]; [eauto|].
        destruct (calc_rebuild_ok ex nvars T sort_data use valid Hcalc (e :: es) Hc) as [bits ->]. cbn [bind]. eexists. split; [reflexivity|].
        intros y Hy. rewrite contents_reset in Hy. unfold contents in Hy. cbn [l_list] in Hy. rewrite map_ext_t in Hy. rewrite forallb_forall in Hc. auto. }
      destruct H as (s' & -> & H). cbn [bind]. eauto.
    - unfold remove_multiples. set (em := ext_of (l_bits s) m).
      replace (if linked then Ok (remove_multiples_list M use divides em (l_list s)) else remove_multiples_vector M use divides em (l_list s))
        with (Ok (filter (fun x => negb (ediv em x)) (l_list s), map x_t (filter (ediv em) (l_list s)), length (filter (ediv em) (l_list s)))).
      2: { destruct linked; [now rewrite remove_list_ok|now rewrite remove_vector_ok]. }
      cbn [bind]. edestruct (report_good (mk_dlist (filter (fun x => negb (ediv em x)) (l_list s)) (l_bits s) (l_left s) (l_rebuilds s)) (length (filter (ediv em) (l_list s)))) as (s' & -> & H).
      + intros x Hx. apply in_map_iff in Hx as (y & <- & Hy). apply filter_In in Hy as [Hy _]. apply Hg. unfold contents. now apply in_map.
      + cbn [bind]. eexists. eexists. split; [reflexivity|]. intros x Hx. rewrite H in Hx. apply in_map_iff in Hx as (y & <- & Hy). apply filter_In in Hy as [Hy _]. apply Hg. unfold contents. now apply in_map.
    - unfold remove_element. destruct (scan M _ (l_list s)) as [i|] eqn:Hs; [|eauto]. eexists. eexists. split; [reflexivity|].
      intros x Hx. apply in_map_iff in Hx as (y & <- & Hy). cbn [l_list] in Hy. apply Hg. unfold contents. apply in_map. apply in_app_or in Hy as [Hy|Hy].
      + rewrite <- (firstn_skipn i). apply in_or_app. auto.
      + rewrite <- (firstn_skipn (S i)). apply in_or_app. auto.
    - unfold find_divisor, find_iterator. cbn [negb bind]. destruct (scan M _ (l_list s)) as [i|] eqn:Hs; [|cbn [bind]; eauto].
      apply scan_split in Hs as (l1 & x & l2 & Hl & <-). replace (vget (l_list s) (length l1)) with (Ok x); [cbn [bind]; eauto|].
      symmetry. apply vget_ok. rewrite Hl, nth_error_app2, Nat.sub_diag by lia. reflexivity.
    - unfold to_front, find_iterator. cbn [negb bind]. destruct (scan M _ (l_list s)) as [i|] eqn:Hs; [|cbn [bind]; eauto].
      apply scan_split in Hs as (l1 & x & l2 & Hl & <-). rewrite Hl, move_to_front_ok. cbn [bind]. unfold vget. cbn [nth_error of_option bind].
      eexists. eexists. split; [reflexivity|]. intros y Hy. unfold contents in Hy. cbn [l_list] in Hy. apply Hg. unfold contents. rewrite Hl.
      eapply Permutation_in; [|exact Hy]. apply Permutation_map, Permutation_middle.
    - destruct (rebuild_good s Hg) as (s' & -> & H). cbn [bind]. eexists. eexists. split; [reflexivity|]. eapply good_same; eauto.
  Qed.

  Lemma good_list s l bits n k : good s -> (forall x, In x l -> In x (l_list s)) -> good (mk_dlist l bits n k).
  Proof. intros Hg Hl x Hx. apply in_map_iff in Hx as (y & <- & Hy). cbn [l_list] in Hy. apply Hg. unfold contents. apply in_map. auto. Qed.
  Lemma insert_left_good s e b s' xs : good s -> valid e = true ->
    insert_x M ex nvars T sort_data use less linked false auto ratio rmin ub_calls b s e = Ok (Left (s', xs)) -> good s'.
  Proof.
    intros Hg Hv H. unfold insert_x in H. apply clients_left in H as [H|[_ H]]; [injection H as -> _; auto|]. cbn [negb] in H.
    apply fbind_left in H as [H|(b1 & l & Hl & H)]; [discriminate|]. injection Hl as _ <-. apply fleft_left in H as (s1 & H & Hs). injection Hs as -> _.
    apply report_left in H as (_ & _ & H). intros x Hx. rewrite H in Hx. unfold contents, with_list in Hx. cbn [l_list] in Hx. rewrite map_app in Hx. apply in_app_or in Hx as [Hx|[<-|[]]]; auto.
  Qed.
  Lemma insert_each_left_good : forall es b s s' xs, good s -> forallb valid es = true ->
    insert_each_x M ex nvars T sort_data use less linked false auto ratio rmin ub_calls b s es = Ok (Left (s', xs)) -> good s'.
  Proof.
    induction es as [|e es IH]; intros b s s' xs Hg Hv H; cbn [insert_each_x] in H; [discriminate|]. cbn [forallb] in Hv. apply andb_true_iff in Hv as [H1 H2].
    apply fbind_left in H as [H|(b1 & s1 & Hs & H)]; [eapply insert_left_good; eauto|]. destruct (insert_good s e Hg H1) as (s2 & I1 & I2).
    destruct (tot_insert ex nvars T sort_data use less linked false auto ratio rmin ub_calls s e b s2 I1) as (f & F1 & F2). rewrite Hs in F1. injection F1 as <-. subst s2. eauto.
  Qed.
  Lemma step_left_good s o b s' xs : good s -> calls o = true -> step_x b s o = Ok (Left (s', xs)) -> good s'.
  Proof.
    intros Hg Hc H. destruct o as [e|es|m|m|m|m cb|m cb|cb|m| |]; cbn [Throws.step_x Proofs.calls] in *.
    - apply fbind_left in H as [H|(b1 & r & _ & H)]; [|discriminate]. eapply insert_left_good; eauto.
    - apply fbind_left in H as [H|(b1 & r & _ & H)]; [|discriminate]. unfold insert_range_x in H. destruct (l_list s) as [|x l]; [|eapply insert_each_left_good; eauto].
      destruct es as [|e es]; [discriminate|]. set (all := e :: es) in *. apply fbind_left in H as [H|(b1 & bits & _ & H)].
      + apply fleft_left in H as (bits & _ & He). injection He as -> _. intros y [].
      + apply fbind_left in H as [H|(b2 & l & Hl & H)].
        * apply append_left in H as (_ & es1 & es2 & He & ->). intros y Hy. unfold contents in Hy. cbn [l_list app] in Hy. rewrite map_ext_t in Hy.
          rewrite forallb_forall in Hc. apply Hc. rewrite He. apply in_or_app. auto.
        * apply fbind_left in H as [H|(b3 & r & _ & H)]; discriminate.
    - apply fbind_left in H as [H|(b1 & [[? ?] ?] & _ & H)]; [|discriminate]. unfold remove_multiples_x in H. set (em := ext_of (l_bits s) m) in *.
      apply clients_left in H as [H|[_ H]]; [injection H as -> _; auto|]. apply fbind_left in H as [H|(b1 & [[l out] n] & Hr & H)].
      + destruct linked.
        * apply list_left in H as (done & rest & Hl & -> & _). apply (good_list s); auto. intros x Hx. rewrite Hl. cbn [app] in Hx. apply in_app_or in Hx as [Hx|Hx]; apply in_or_app; auto.
          apply filter_In in Hx as [Hx _]. auto.
        * apply vector_left in H as (done & rest & extra & Hl & -> & _ & He & _). apply (good_list s); auto. intros x Hx.
          apply in_app_or in Hx as [Hx|Hx]; [rewrite Hl; apply filter_In in Hx as [Hx _]; apply in_or_app; auto|].
          apply in_app_or in Hx as [Hx|Hx]; [auto|rewrite Hl; apply in_or_app; auto].
      + apply fbind_left in H as [H|(b2 & s2 & _ & H)]; [|discriminate]. apply fleft_left in H as (s2 & H & He). injection He as -> _. apply report_left in H as (_ & _ & H).
        eapply good_same; [|exact H]. apply (good_list s); auto. intros x Hx. assert (Hlo : l = filter (fun x => negb (ediv em x)) (l_list s)).
        { destruct linked.
          - destruct (tot_list use divides s em (l_list s) (b - mask_calls use (l_bits s)) [] [] 0 _ eq_refl) as (f & T1 & T2). rewrite Hr in T1. injection T1 as <-.
            rewrite remove_list_ok in T2. cbn [app Nat.add] in T2. injection T2 as -> _ _. auto.
          - destruct (tot_vector use divides s em (b - mask_calls use (l_bits s)) _ (remove_vector_ok use divides em (l_list s))) as (f & T1 & T2). rewrite Hr in T1. injection T1 as <-.
            injection T2 as -> _ _. auto. }
        rewrite Hlo in Hx. now apply filter_In in Hx.
    - apply fbind_left in H as [H|(b1 & [? ?] & _ & H)]; [|discriminate]. apply remove_element_left in H. now injection H as -> _.
    - apply fbind_left in H as [H|(b1 & r & _ & H)]; [|discriminate]. unfold find_divisor_x in H. apply fbind_left in H as [H|(b1 & r & _ & H)].
      + apply find_iterator_left in H. now injection H as -> _.
      + destruct r; [|discriminate]. apply bind_inv in H as (x & _ & H). discriminate.
    - apply fbind_left in H as [H|(b1 & r & _ & H)]; [|discriminate]. apply all_divisors_left in H as [-> H]. auto.
    - apply fbind_left in H as [H|(b1 & r & _ & H)]; [|discriminate]. apply all_multiples_left in H as [-> H]. auto.
    - apply fbind_left in H as [H|(b1 & r & _ & H)]; [|discriminate]. apply for_all_left in H as [-> H]. auto.
    - apply fbind_left in H as [H|(b1 & [? ?] & _ & H)]; [|discriminate]. unfold to_front_x in H. apply fbind_left in H as [H|(b1 & r & _ & H)].
      + apply find_iterator_left in H. now injection H as -> _.
      + destruct r; [|discriminate]. apply bind_inv in H as (x & _ & H). apply bind_inv in H as (y & _ & H). discriminate.
    - apply fbind_left in H as [H|(b1 & r & _ & H)]; [|discriminate]. apply fleft_left in H as (s1 & H & He). injection He as -> _. apply rebuild_left in H as [_ H]. eapply good_same; eauto.
    - discriminate.
  Qed.

  Lemma catch_good s o b : good s -> calls o = true -> exists s' r, catch_x s (o, b) = Ok (s', r) /\ good s'.
  Proof.
    intros Hg Hc. destruct (step_good s o Hg Hc) as (s1 & r & H1 & H2).
    destruct (tot_step ex nvars T sort_data use divides less linked false auto ratio rmin sort_ext ub_calls sort_x Hsort_x b s o _ H1) as (f & F1 & F2).
    unfold Throws.catch_x. cbn [fst snd]. rewrite F1. cbn [bind]. destruct f as [b' [s' r']|[s' xs]].
    - injection F2 as -> ->. eauto.
    - exists s', (Threw xs). split; auto. exact (step_left_good s o b s' xs Hg Hc F1).
  Qed.
  Lemma run_good : forall h s, good s -> forallb (fun c => calls (fst c)) h = true -> exists s' rs, run catch_x s h = Ok (s', rs) /\ good s'.
  Proof.
    induction h as [|[o b] h IH]; intros s Hg Hh; cbn [run]; [eauto|]. cbn [forallb fst] in Hh. apply andb_true_iff in Hh as [H1 H2].
    destruct (catch_good s o b Hg H1) as (s1 & r & -> & Hg1). cbn [bind]. destruct (IH s1 Hg1 H2) as (s2 & rs & -> & Hg2). cbn [bind]. eauto.
  Qed.
  Lemma rebuild_answers s b s' r : use = true -> good s -> catch_x s (DRebuild, b) = Ok (s', Answered r) -> inv s' /\ contents s' = contents s.
  Proof.
    intros Hu Hg H. destruct (rebuild_repairs s Hu Hg) as (s1 & H1 & H2 & H3).
    assert (Hs : step s DRebuild = Ok (s1, DONone)) by (cbn [Model.step]; now rewrite H1).
    destruct (tot_step ex nvars T sort_data use divides less linked false auto ratio rmin sort_ext ub_calls sort_x Hsort_x b s DRebuild _ Hs) as (f & F1 & F2).
    unfold Throws.catch_x in H. cbn [fst snd] in H. rewrite F1 in H. cbn [bind] in H. destruct f as [b' [s2 r']|[s2 xs]].
    - injection F2 as -> ->. injection H as <- <-. auto.
    - discriminate.
  Qed.
End Recover.
