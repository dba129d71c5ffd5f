(** Proofs about callbacks that change the DivList that is being searched. *)
From Coq Require Import List Arith Bool ZArith NArith Lia Permutation.
From Verif.Base Require Import Res FaultFacts.
From Verif.DivMask Require Import Model.
From Verif.Spec Require Import Reach DivFinder DivStale PQFacts.
From Verif.DivList Require Import Model Proofs Nested Rebuilding Properties.
Import ListNotations.

Section Rebuilding.
  Context {M : Type}.
  Variable c : config M.
  Hypothesis unsorted : f_sorted c = false.
  Variable cb : callback M.
  Variable inner : list M -> list (dop M).
  Notation linked := (f_linked c).
  Notation call := (lstep c).
  Notation feed_r := (feed_r linked call cb inner).

  Lemma report_contents (s s' : dlist M) n : report_changes M (f_ex c) (f_nvars c) (f_type c) (f_sort_data c) (f_use c) (f_auto c) (f_ratio c) (f_min c) s n = Ok s' -> contents s' = contents s.
  Proof.
    unfold report_changes. intros H. destruct (negb (f_auto c)); [now injection H as <-|]. destruct (n <? l_left s); [now injection H as <-|].
    unfold rebuild_list in H. apply bind_inv in H as (bits & _ & H). injection H as <-. unfold reset_left, contents, Model.contents. destruct (negb (f_auto c)); cbn [l_list]; rewrite map_map; reflexivity.
  Qed.
  Lemma insert_contents (s s' : dlist M) e : insert M (f_ex c) (f_nvars c) (f_type c) (f_sort_data c) (f_use c) (f_less c) linked (f_sorted c) (f_auto c) (f_ratio c) (f_min c) s e = Ok s' ->
    contents s' = contents s ++ [e].
  Proof.
    unfold insert. rewrite unsorted. cbn [negb bind]. intros H. apply report_contents in H. rewrite H. unfold contents, Model.contents. cbn [l_list]. now rewrite map_app.
  Qed.
  Lemma harmless_contents (s s' : dlist M) o r : harmless linked o = true -> call s o = Ok (s', r) -> exists added, contents s' = contents s ++ added.
  Proof.
    intros Hh H. assert (Hsame : exists added, contents s = contents s ++ added) by (exists []; now rewrite app_nil_r). unfold lstep in H. destruct o; cbn [harmless] in Hh; try discriminate Hh; cbn [step] in H.
    - apply bind_inv in H as (s1 & H & E). injection E as <- _. exists [e]. now apply insert_contents.
    - apply bind_inv in H as (s1 & H & E). injection E as <- _. exists es. unfold insert_range in H. destruct (l_list s) as [|x l] eqn:El.
      + rewrite unsorted in H. destruct es as [|e es]; [injection H as <-; now rewrite app_nil_r|]. apply bind_inv in H as (bits & _ & H). injection H as <-.
        unfold contents, Model.contents, reset_left. rewrite El. destruct (negb (f_auto c)); cbn [l_list map app]; f_equal; rewrite map_map; cbn [extend x_t]; apply map_id.
      + clear El. revert s s1 Hsame H. induction es as [|e es IH]; intros s s1 _ H; cbn [insert_each] in H; [injection H as <-; now rewrite app_nil_r|].
        apply bind_inv in H as (s2 & H1 & H). apply insert_contents in H1. rewrite (IH _ _ ltac:(exists []; now rewrite app_nil_r) H), H1, <- app_assoc. reflexivity.
    - apply bind_inv in H as (x & _ & E). injection E as <- _. exact Hsame.
    - apply bind_inv in H as (x & _ & E). injection E as <- _. exact Hsame.
    - injection H as <- _. exact Hsame.
    - injection H as <- _. exact Hsame.
    - apply bind_inv in H as (s1 & H & E). injection E as <- _. unfold rebuild_list in H. apply bind_inv in H as (bits & _ & H). injection H as <-. exists []. rewrite app_nil_r.
      unfold reset_left, contents, Model.contents. destruct (negb (f_auto c)); cbn [l_list]; rewrite map_map; reflexivity.
    - injection H as <- _. exact Hsame.
  Qed.

  Definition made (w w' : lworld) : Prop := exists ops rs added, run call (fst w) ops = Ok (fst w', rs) /\ snd w' = snd w ++ combine ops rs /\ length rs = length ops /\
    forallb (harmless linked) ops = true /\ contents (fst w') = contents (fst w) ++ added.
  Lemma made_refl w : made w w.
  Proof. exists [], [], []. cbn. rewrite !app_nil_r. repeat split; auto. Qed.
  Lemma made_trans a b d : made a b -> made b d -> made a d.
  Proof.
    intros (o1 & r1 & x1 & A1 & A2 & A3 & A4 & A5) (o2 & r2 & x2 & B1 & B2 & B3 & B4 & B5). exists (o1 ++ o2), (r1 ++ r2), (x1 ++ x2).
    rewrite run_app, A1. cbn [bind]. rewrite B1. cbn [bind]. rewrite B2, A2, B5, A5, forallb_app, A4, B4, !app_length, A3, B3, <- !app_assoc. repeat split; auto.
    f_equal. clear - A3. revert r1 A3. induction o1 as [|o o1 IH]; intros [|r r1] H; try discriminate; [reflexivity|]. cbn [app combine]. f_equal. apply IH. now injection H.
  Qed.
  Lemma calls_made : forall ops w w', calls_r linked call w ops = Ok w' -> made w w'.
  Proof.
    induction ops as [|o ops IH]; intros w w' H; cbn [calls_r] in H; [injection H as <-; apply made_refl|]. destruct (harmless linked o) eqn:Hh; [|discriminate].
    apply bind_inv in H as ([s1 r] & H1 & H). eapply made_trans; [|exact (IH _ _ H)]. destruct (harmless_contents _ _ _ _ Hh H1) as [added Ha]. exists [o], [r], added. cbn [run]. rewrite H1. cbn [bind fst snd combine length forallb]. rewrite Hh. repeat split; auto.
  Qed.
  Lemma skipn_one {A} (l : list A) k x : nth_error l k = Some x -> skipn k l = x :: skipn (S k) l.
  Proof. revert l. induction k as [|k IH]; intros [|a l] H; try discriminate; [now injection H as ->|]. cbn [nth_error] in H. exact (IH l H). Qed.
  Lemma grown (w w' : lworld) k x : made w w' -> nth_error (contents (fst w)) k = Some x -> skipn k (contents (fst w')) = x :: skipn (S k) (contents (fst w')).
  Proof. intros (o1 & r1 & x1 & _ & _ & _ & _ & ->) H. apply skipn_one. rewrite nth_error_app1; [exact H|]. apply nth_error_Some. congruence. Qed.
  Lemma nth_contents (s : dlist M) k x : nth_error (l_list s) k = Some x -> nth_error (contents s) k = Some (x_t x).
  Proof. intros H. unfold contents, Model.contents. now rewrite nth_error_map, H. Qed.

  Lemma feed_sound p q : (forall x, p x = true -> q (x_t x) = true) -> forall fuel k w seen w' seen', feed_r fuel p k w seen = Ok (w', seen') ->
    made w w' /\ exists xs rest, seen' = seen ++ xs /\ Permutation (filter q (skipn k (contents (fst w')))) (xs ++ rest).
  Proof.
    intros Hp. induction fuel as [|fuel IH]; intros k w seen w' seen' H; cbn [Rebuilding.feed_r] in H; [discriminate|]. destruct (nth_error (l_list (fst w)) k) as [x|] eqn:Hx.
    - destruct (p x) eqn:Hpx.
      + cbv zeta in H. apply bind_inv in H as (w1 & H1 & H). apply calls_made in H1. destruct (cb (seen ++ [x_t x])).
        * destruct (IH _ _ _ _ _ H) as (Hm & xs & rest & E & P). assert (Hm' : made w w') by (eapply made_trans; eauto). split; [exact Hm'|]. exists (x_t x :: xs), rest. split; [now rewrite E, <- app_assoc|].
          rewrite (grown w w' k (x_t x) Hm' (nth_contents _ _ _ Hx)). cbn [filter]. rewrite (Hp x Hpx). cbn [app]. now constructor.
        * injection H as <- <-. split; [exact H1|]. exists [x_t x], (filter q (skipn (S k) (contents (fst w1)))). split; [reflexivity|].
          rewrite (grown w w1 k (x_t x) H1 (nth_contents _ _ _ Hx)). cbn [filter]. rewrite (Hp x Hpx). reflexivity.
      + destruct (IH _ _ _ _ _ H) as (Hm & xs & rest & E & P). split; [exact Hm|]. rewrite (grown w w' k (x_t x) Hm (nth_contents _ _ _ Hx)). cbn [filter]. destruct (q (x_t x)).
        * exists xs, (x_t x :: rest). split; [exact E|]. rewrite P. apply Permutation_middle.
        * exists xs, rest. auto.
    - injection H as <- <-. split; [apply made_refl|]. exists [], (filter q (skipn k (contents (fst w)))). split; [now rewrite app_nil_r|reflexivity].
  Qed.
  Lemma feed_exact p q : (forall x, p x = q (x_t x)) -> forall fuel k w seen w' seen', feed_r fuel p k w seen = Ok (w', seen') ->
    seen' = fst (feed M cb p (skipn k (l_list (fst w'))) seen).
  Proof.
    intros Hp. assert (Hq : forall p' l l' seen, (forall x, p' x = q (x_t x)) -> map x_t l = map x_t l' -> fst (feed M cb p' l seen) = fst (feed M cb p l' seen)).
    { intros p' l l' seen Hp'. revert l' seen. induction l as [|x l IH]; intros [|y l'] seen E; try discriminate; [reflexivity|]. cbn [map] in E. injection E as E1 E2. cbn [feed]. rewrite Hp, Hp', E1.
      destruct (q (x_t y)); [|now apply IH]. destruct (cb (seen ++ [x_t y])); [now apply IH|reflexivity]. }
    induction fuel as [|fuel IH]; intros k w seen w' seen' H; cbn [Rebuilding.feed_r] in H; [discriminate|]. destruct (nth_error (l_list (fst w)) k) as [x|] eqn:Hx.
    - assert (Hlast : forall w2, made w w2 -> exists y, x_t y = x_t x /\ skipn k (l_list (fst w2)) = y :: skipn (S k) (l_list (fst w2))).
      { intros w2 Hm. pose proof (grown w w2 k (x_t x) Hm (nth_contents _ _ _ Hx)) as G. unfold contents, Model.contents in G. rewrite !skipn_map in G. destruct (skipn k (l_list (fst w2))) as [|y l2] eqn:Ey; [discriminate|].
        injection G as G _. exists y. split; [exact G|]. assert (Hk : nth_error (l_list (fst w2)) k = Some y).
        { rewrite <- (firstn_skipn k (l_list (fst w2))), Ey. assert (k < length (l_list (fst w2))). { pose proof (skipn_length k (l_list (fst w2))) as L. rewrite Ey in L. cbn [length] in L. lia. }
          rewrite nth_error_app2; rewrite firstn_length_le; try lia. now rewrite Nat.sub_diag. }
        rewrite <- Ey. now apply skipn_one. }
      destruct (p x) eqn:Hpx.
      + cbv zeta in H. apply bind_inv in H as (w1 & H1 & H). apply calls_made in H1. destruct (cb (seen ++ [x_t x])) eqn:Hcb.
        * assert (Hm : made w w'). { eapply made_trans; [exact H1|]. eapply (feed_sound p q); [|exact H]. intros z Hz. now rewrite <- Hp. }
          destruct (Hlast w' Hm) as (y & E1 & E2). rewrite E2. cbn [feed]. rewrite Hp, E1, <- Hp, Hpx, Hcb. eapply IH; eauto.
        * injection H as <- <-. destruct (Hlast w1 H1) as (y & E1 & E2). rewrite E2. cbn [feed]. rewrite Hp, E1, <- Hp, Hpx, Hcb. reflexivity.
      + assert (Hm : made w w'). { eapply (feed_sound p q); [|exact H]. intros z Hz. now rewrite <- Hp. }
        destruct (Hlast w' Hm) as (y & E1 & E2). rewrite E2. cbn [feed]. rewrite Hp, E1, <- Hp, Hpx. eapply IH; eauto.
    - injection H as <- <-. apply nth_error_None in Hx. now rewrite skipn_all2.
  Qed.

  (** Callbacks that search and rebuild come to an end *)
  Definition quiet (o : dop M) : bool := match o with DRebuild => true | _ => is_search o end.
  Lemma quiet_contents (s s' : dlist M) o r : quiet o = true -> call s o = Ok (s', r) -> contents s' = contents s.
  Proof.
    intros Hq H. unfold lstep in H. destruct o; try discriminate Hq; cbn [step] in H.
    - apply bind_inv in H as (x & _ & E). now injection E as <- _.
    - apply bind_inv in H as (x & _ & E). now injection E as <- _.
    - now injection H as <- _.
    - now injection H as <- _.
    - apply bind_inv in H as (s1 & H & E). injection E as <- _. unfold rebuild_list in H. apply bind_inv in H as (bits & _ & H). injection H as <-.
      unfold reset_left, contents, Model.contents. destruct (negb (f_auto c)); cbn [l_list]; rewrite map_map; reflexivity.
    - now injection H as <- _.
  Qed.
  Hypothesis legal_c : legal c.
  Hypothesis quiet_inner : forall xs, forallb quiet (inner xs) = true.
  Definition there (w : lworld) : Prop := exists ops rs, lreached c ops (fst w) rs.
  Lemma quiet_calls : forall ops w, forallb quiet ops = true -> there w -> exists w', calls_r linked call w ops = Ok w' /\ there w' /\ contents (fst w') = contents (fst w).
  Proof.
    induction ops as [|o ops IH]; intros w Hq Hw; cbn [calls_r]; [eauto|]. cbn [forallb] in Hq. apply andb_prop in Hq as [Ho Hq].
    assert (Hh : harmless linked o = true) by (destruct o; auto; discriminate Ho). rewrite Hh. destruct Hw as (ops0 & rs0 & Hr).
    assert (Hp : lpre c (contents (fst w)) o = true) by (destruct o; auto; discriminate Ho).
    destruct (lreached_step c ops0 (fst w) rs0 o legal_c ltac:(congruence) Hr Hp) as (s' & r & H1 & _). rewrite H1. cbn [bind].
    destruct (IH (s', snd w ++ [(o, r)]) Hq) as (w' & H2 & H3 & H4).
    - destruct Hr as (s0 & Hi & Hr). exists (ops0 ++ [o]), (rs0 ++ [r]). exists s0. split; [exact Hi|]. econstructor; eauto.
    - exists w'. split; [exact H2|]. split; [exact H3|]. rewrite H4. cbn [fst]. exact (quiet_contents _ _ _ _ Ho H1).
  Qed.
  Lemma quiet_feed p : forall fuel k w seen, there w -> length (contents (fst w)) - k < fuel -> exists w' seen', feed_r fuel p k w seen = Ok (w', seen') /\ contents (fst w') = contents (fst w).
  Proof.
    induction fuel as [|fuel IH]; intros k w seen Hw Hf; [lia|]. cbn [Rebuilding.feed_r]. destruct (nth_error (l_list (fst w)) k) as [x|] eqn:Hx; [|eauto].
    assert (Hk : k < length (contents (fst w))) by (unfold contents, Model.contents; rewrite map_length; apply nth_error_Some; congruence). destruct (p x).
    - cbv zeta. destruct (quiet_calls (inner (seen ++ [x_t x])) w (quiet_inner _) Hw) as (w1 & -> & H1 & H2). cbn [bind]. destruct (cb _); [|eauto]. rewrite <- H2. apply IH; [exact H1|]. rewrite H2. lia.
    - apply IH; [exact Hw|lia].
  Qed.
End Rebuilding.
