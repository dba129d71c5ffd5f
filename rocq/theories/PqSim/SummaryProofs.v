(** Proofs about the summary of the pq simulation. *)
From Coq Require Import List Arith NArith Bool Lia Permutation Ascii String.
From Verif.Base Require Import Res Text.
From Verif.Spec Require Import PQ Lines.
From Verif.Report Require Import NamesProofs PrintProofs.
From Verif.PqSim Require Import Model Calls BuilderProofs Summary.
Import ListNotations.
Local Notation length := List.length.
Local Open Scope N_scope.

(** * Lists *)
Lemma largest_perm l l' : Permutation l l' -> largest l = largest l'.
Proof. unfold largest. induction 1; cbn [fold_right]; try lia; congruence. Qed.
Lemma largest_last l x : ascends (l ++ [x]) -> largest (l ++ [x]) = x.
Proof.
  intros H. apply ascends_app_last in H as [_ H]. induction l as [|y l IH]; cbn [app largest fold_right] in *; [lia|].
  fold (largest (l ++ [x])). rewrite IH by auto with datatypes. specialize (H y (or_introl eq_refl)). lia.
Qed.
Lemma take_out_perm v l : In v l -> Permutation l (v :: take_out v l).
Proof.
  induction l as [|x l IH]; intros H; [easy|]. cbn [take_out]. destruct (N.eqb_spec x v) as [->|Hx]; auto. destruct H as [|H]; [congruence|].
  rewrite (IH H) at 1. apply perm_swap.
Qed.
Lemma take_out_same v l l' : Permutation l l' -> In v l -> Permutation (take_out v l) (take_out v l').
Proof.
  intros H Hv. apply Permutation_cons_inv with v. rewrite <- !take_out_perm; auto. now rewrite <- H.
Qed.
Lemma filter_perm {A} (f : A -> bool) l l' : Permutation l l' -> Permutation (filter f l) (filter f l').
Proof.
  induction 1; cbn [filter]; auto.
  - destruct (f x); auto.
  - destruct (f x), (f y); auto. apply perm_swap.
  - now transitivity (filter f l').
Qed.
Lemma existsb_perm {A} (f : A -> bool) l l' : Permutation l l' -> existsb f l = existsb f l'.
Proof. intros H. apply eq_true_iff_eq. rewrite !existsb_exists. split; intros (x & Hx & Hf); exists x; split; auto; [now rewrite <- H|now rewrite H]. Qed.
Lemma again_perm l : forall live live', Permutation live live' -> again live l = again live' l.
Proof. induction l as [|v l IH]; intros live live' H; auto. cbn [again]. rewrite (existsb_perm _ _ _ H). f_equal. apply IH. now constructor. Qed.
Lemma live_after_perm all live live' c : Permutation live live' -> (c = CPop -> live <> []) -> Permutation (live_after all live c) (live_after all live' c).
Proof.
  intros H Hc. destruct c as [l|]; cbn [live_after]; [now apply Permutation_app_head|]. rewrite (largest_perm _ _ H). destruct all; [now apply filter_perm|].
  apply take_out_same; auto. rewrite <- (largest_perm _ _ H). apply maximum. auto.
Qed.

(** * One call *)
Lemma added_count l : forall b, let b' := fold_left b_addToPush l b in
  b_dupCount b' = b_dupCount b + N.of_nat (again (b_queue b) l) /\ b_liveSum b' = b_liveSum b.
Proof.
  induction l as [|v l IH]; intros b; cbv zeta; cbn [fold_left again]; [split; [lia|reflexivity]|].
  destruct (IH (b_addToPush b v)) as [H1 H2]. rewrite H1, H2. cbn [b_addToPush b_dupCount b_liveSum b_queue]. split; auto.
  rewrite (again_perm l _ _ (insert_up_perm v (b_queue b))). unfold b_isLive, mem_of. destruct (existsb _ _); lia.
Qed.

Definition count_of (c : call) : N := match c with CPush l => N.of_nat (length l) | CPop => 0 end.
Definition is_push (c : call) : N := match c with CPush _ => 1 | CPop => 0 end.
Definition is_pop (c : call) : N := match c with CPush _ => 0 | CPop => 1 end.
Definition again_of (live : list N) (c : call) : N := match c with CPush l => N.of_nat (again live l) | CPop => 0 end.

Lemma b_call_counts b c b' : ascends (b_queue b) -> b_call b c = Ok b' ->
  ascends (b_queue b') /\ Permutation (b_queue b') (live_after (b_popDuplicates b) (b_queue b) c) /\ b_popDuplicates b' = b_popDuplicates b /\
  b_pushCount b' = b_pushCount b + is_push c /\ b_popCount b' = b_popCount b + is_pop c /\ b_pushSum b' = b_pushSum b + count_of c /\
  b_liveSum b' = b_liveSum b + b_live b /\ b_dupCount b' = b_dupCount b + again_of (b_queue b) c /\
  length (b_events b') = S (length (b_events b)) /\ (c = CPop -> b_queue b <> []).
Proof.
  intros Ha H. destruct c as [l|]; cbn [b_call] in H.
  - unfold b_pushRange, b_endPush in H. destruct (added l (b_beginPush b)) as (H1 & H2 & H3 & H4 & H5 & H6 & H7 & H8).
    destruct (added_count l (b_beginPush b)) as [H9 H10]. set (b1 := fold_left b_addToPush l (b_beginPush b)) in *.
    rewrite H3 in H. cbn [b_beginPush b_events] in H. rewrite rev_app_distr in H. cbn [rev app] in H. injection H as <-.
    cbn [b_queue b_popDuplicates b_pushCount b_popCount b_pushSum b_liveSum b_dupCount b_events live_after is_push is_pop count_of again_of e_begin].
    rewrite H1, H2, H6, H7, H8, H9, H10. cbn [b_beginPush b_queue b_popDuplicates b_pushCount b_popCount b_pushSum b_liveSum b_dupCount b_mem].
    repeat split; auto; try lia.
    + rewrite app_length. lia.
    + rewrite app_length, rev_length. cbn [length]. rewrite rev_length. lia.
    + discriminate.
  - unfold b_pop in H. destruct (rev (b_queue b)) as [|top r] eqn:Hr; [discriminate|]. injection H as <-.
    assert (Hq : b_queue b = rev r ++ [top]) by (rewrite <- (rev_involutive (b_queue b)), Hr; reflexivity).
    cbn [b_queue b_popDuplicates b_pushCount b_popCount b_pushSum b_liveSum b_dupCount b_events live_after is_push is_pop count_of again_of].
    assert (Hl : largest (b_queue b) = top) by (rewrite Hq; apply largest_last; now rewrite <- Hq).
    assert (Hd : b_queue b <> []) by (rewrite Hq; now destruct (rev r)).
    assert (Hdesc : forall z, In z r -> z <= top).
    { intros z Hz. rewrite Hq in Ha. apply ascends_app_last in Ha as [_ Ha]. apply Ha. now apply -> in_rev. }
    assert (Hasc : ascends (rev r)) by (rewrite Hq in Ha; now apply ascends_app_last in Ha as [Ha _]).
    assert (Hq' : Permutation (rev (drop_top (b_popDuplicates b) top (top :: r))) (live_after (b_popDuplicates b) (b_queue b) CPop) /\
      ascends (rev (drop_top (b_popDuplicates b) top (top :: r)))).
    { cbn [live_after]. rewrite Hl. destruct (b_popDuplicates b).
      - rewrite drop_top_filter; auto; [|rewrite <- (rev_involutive r); now apply rev_desc]. unfold without. split.
        + rewrite <- filter_rev, Hq, filter_app. cbn [filter]. rewrite N.eqb_refl. cbn [negb]. now rewrite app_nil_r.
        + rewrite <- filter_rev. now apply filter_ascends.
      - replace (drop_top false top (top :: r)) with r by (cbn [drop_top]; destruct r; reflexivity). split; auto.
        apply Permutation_cons_inv with top. rewrite <- take_out_perm by (rewrite Hq; auto with datatypes). rewrite Hq. apply Permutation_cons_append. }
    destruct Hq' as [Hp Hs]. repeat split; auto; try lia. rewrite app_length. cbn [length]. lia.
Qed.

(** * Many calls *)
Lemma builds_counts cs : forall b b' live, ascends (b_queue b) -> Permutation (b_queue b) live -> builds b cs = Ok b' ->
  let all := b_popDuplicates b in
  b_popDuplicates b' = all /\ ascends (b_queue b') /\ Permutation (b_queue b') (fold_left (live_after all) cs live) /\
  b_pushCount b' = b_pushCount b + N.of_nat (push_calls cs) /\ b_popCount b' = b_popCount b + N.of_nat (pop_calls cs) /\
  b_pushSum b' = b_pushSum b + N.of_nat (pushes cs) /\
  b_liveSum b' = b_liveSum b + N.of_nat (list_sum (map (@length N) (history all live cs))) /\
  b_dupCount b' = b_dupCount b + N.of_nat (duplicates all live cs) /\ length (b_events b') = (length (b_events b) + length cs)%nat.
Proof.
  induction cs as [|c cs IH]; intros b b' live Ha Hp H; cbv zeta; cbn [builds] in H.
  - injection H as <-. cbn [fold_left history map duplicates push_calls pop_calls pushes filter length fold_right]. unfold push_calls, pop_calls. cbn. repeat split; auto; lia.
  - destruct (b_call b c) as [b1| | |] eqn:H1; try discriminate. cbn [bind] in H.
    destruct (b_call_counts _ _ _ Ha H1) as (A & P & D & N1 & N2 & N3 & N4 & N5 & N6 & N7).
    assert (P1 : Permutation (b_queue b1) (live_after (b_popDuplicates b) live c)) by (rewrite P; now apply live_after_perm).
    destruct (IH _ _ _ A P1 H) as (D' & A' & P' & M1 & M2 & M3 & M4 & M5 & M6). rewrite D in *.
    cbn [fold_left history map duplicates list_sum fold_right pushes length]. fold (pushes cs) (list_sum (map (@length N) (history (b_popDuplicates b) (live_after (b_popDuplicates b) live c) cs))).
    assert (Hpc : N.of_nat (push_calls (c :: cs)) = is_push c + N.of_nat (push_calls cs)) by (unfold push_calls; cbn [filter]; destruct c; cbn [length is_push]; lia).
    assert (Hqc : N.of_nat (pop_calls (c :: cs)) = is_pop c + N.of_nat (pop_calls cs)) by (unfold pop_calls; cbn [filter]; destruct c; cbn [length is_pop]; lia).
    rewrite Hpc, Hqc, M1, M2, M3, M4, M5, M6, N1, N2, N3, N4, N5, N6. unfold b_live. rewrite (Permutation_length Hp).
    repeat split; auto; try lia.
    + destruct c; cbn [count_of]; lia.
    + destruct c; cbn [again_of]; [rewrite (again_perm _ _ _ Hp)|]; lia.
Qed.

Lemma builds_app cs ds : forall b, builds b (cs ++ ds) = let* b1 := builds b cs in builds b1 ds.
Proof. induction cs as [|c cs IH]; intros b; auto. cbn [app builds]. destruct (b_call b c); auto. cbn [bind]. apply IH. Qed.

(** * Pops and duplicates *)
Definition kinds (l : list N) : N := N.of_nat (length (nodup N.eq_dec l)).
Lemma kinds_same l l' : (forall z, In z l <-> In z l') -> kinds l = kinds l'.
Proof.
  intros H. unfold kinds. f_equal. apply Permutation_length, NoDup_Permutation; try apply NoDup_nodup. intros z. rewrite !nodup_In. apply H.
Qed.
Lemma kinds_cons v l : kinds (v :: l) = kinds l + if existsb (N.eqb v) l then 0 else 1.
Proof.
  unfold kinds. cbn [nodup]. destruct (in_dec N.eq_dec v l) as [Hi|Hi].
  - replace (existsb (N.eqb v) l) with true; [lia|]. symmetry. apply existsb_exists. exists v. split; auto. apply N.eqb_refl.
  - replace (existsb (N.eqb v) l) with false; [cbn [length]; lia|]. symmetry. apply not_true_is_false. intros H. apply existsb_exists in H as (x & Hx & E).
    apply N.eqb_eq in E. congruence.
Qed.
Lemma kinds_push l : forall live, kinds (l ++ live) + N.of_nat (again live l) = kinds live + N.of_nat (length l).
Proof.
  induction l as [|v l IH]; intros live; cbn [app again length]; [lia|]. specialize (IH (v :: live)). rewrite (kinds_cons v live) in IH.
  rewrite (kinds_same (v :: l ++ live) (l ++ v :: live)) by (intros z; rewrite !in_app_iff; cbn [In]; rewrite in_app_iff; tauto). destruct (existsb (N.eqb v) live); lia.
Qed.
Lemma kinds_pop v l : In v l -> kinds (filter (fun z => negb (z =? v)) l) + 1 = kinds l.
Proof.
  intros H. rewrite (kinds_same l (v :: filter (fun z => negb (z =? v)) l)).
  - rewrite kinds_cons. replace (existsb _ _) with false; [lia|]. symmetry. apply not_true_is_false. intros E. apply existsb_exists in E as (x & Hx & E).
    apply N.eqb_eq in E. subst x. apply filter_In in Hx as [_ Hx]. rewrite N.eqb_refl in Hx. discriminate.
  - intros z. cbn [In]. rewrite filter_In. destruct (N.eqb_spec z v) as [->|Hz]; cbn [negb]; [tauto|]. split; [auto|]. intros [E|[E _]]; [congruence|exact E].
Qed.

Lemma account cs : forall b b', ascends (b_queue b) -> builds b cs = Ok b' ->
  (if b_popDuplicates b then b_popCount b + b_dupCount b + kinds (b_queue b) = b_pushSum b else b_popCount b + b_live b = b_pushSum b) ->
  if b_popDuplicates b then b_popCount b' + b_dupCount b' + kinds (b_queue b') = b_pushSum b' else b_popCount b' + b_live b' = b_pushSum b'.
Proof.
  induction cs as [|c cs IH]; intros b b' Ha H Hi; cbn [builds] in H; [now injection H as <-|].
  destruct (b_call b c) as [b1| | |] eqn:H1; try discriminate. cbn [bind] in H.
  destruct (b_call_counts _ _ _ Ha H1) as (A & P & D & N1 & N2 & N3 & N4 & N5 & N6 & N7).
  rewrite <- D. apply (IH _ _ A H). rewrite D. destruct (b_popDuplicates b) eqn:Hd.
  - rewrite N2, N3, N5. rewrite (kinds_same _ _ (fun z => conj (Permutation_in z P) (Permutation_in z (Permutation_sym P)))).
    destruct c as [l|]; cbn [live_after is_pop count_of again_of].
    + pose proof (kinds_push l (b_queue b)). lia.
    + assert (Hm : In (largest (b_queue b)) (b_queue b)) by (apply maximum; auto). pose proof (kinds_pop _ _ Hm). lia.
  - unfold b_live in *. rewrite N2, N3, (Permutation_length P). destruct c as [l|]; cbn [live_after is_pop count_of].
    + rewrite app_length. lia.
    + assert (Hm : In (largest (b_queue b)) (b_queue b)) by (apply maximum; auto). pose proof (Permutation_length (take_out_perm _ _ Hm)) as L. cbn [length] in L. lia.
Qed.

Lemma again_le l : forall live, (again live l <= length l)%nat.
Proof. induction l as [|v l IH]; intros live; auto. cbn [again length]. specialize (IH (v :: live)). destruct (existsb _ _); lia. Qed.
Lemma duplicates_le all cs : forall live, (duplicates all live cs <= pushes cs)%nat.
Proof.
  induction cs as [|c cs IH]; intros live; auto. cbn [duplicates pushes fold_right]. fold (pushes cs). specialize (IH (live_after all live c)).
  destruct c as [l|]; [pose proof (again_le l live)|]; lia.
Qed.
Lemma duplicates_lt all cs : pushes cs <> O -> (duplicates all [] cs < pushes cs)%nat.
Proof.
  induction cs as [|c cs IH]; [easy|]. cbn [duplicates pushes fold_right live_after]. fold (pushes cs). intros H.
  destruct c as [[|v l]|].
  - cbn [length again app live_after Nat.add] in *. now apply IH.
  - cbn [again length existsb]. pose proof (again_le l [v]). pose proof (duplicates_le all cs ((v :: l) ++ [])). cbn [live_after app] in *. lia.
  - cbn [live_after filter take_out Nat.add] in *. replace (if all then [] else []) with (@nil N) by now destruct all. now apply IH.
Qed.

(** * The simulations *)
Section Generate.
  Variable rnd : nat -> N.

  Lemma draw_good bad pick fuel : forall tries k v k', draw rnd fuel bad pick tries k = Ok (v, k') -> bad v = false.
  Proof.
    induction fuel as [|fuel IH]; intros tries k v k' H; cbn [draw] in H; [discriminate|]. destruct (bad (pick tries (rnd k))) eqn:Hb; [eauto|]. now injection H as <- <-.
  Qed.
  Lemma not_in_push b v : b_isInPush b v = false -> ~ In v (b_push b).
  Proof. unfold b_isInPush, mem_of. intros H Hi. assert (existsb (N.eqb v) (b_push b) = true) by (apply existsb_exists; exists v; split; auto; apply N.eqb_refl). congruence. Qed.

  (** Adding values that are not in the push keeps it free of duplicates. *)
  Definition fresh_for (b : builder) (l : list N) : Prop := NoDup (rev l ++ b_push b).
  Lemma fresh_cons b v l : NoDup (b_push b) -> b_isInPush b v = false -> (NoDup (b_push (b_addToPush b v)) -> fresh_for (b_addToPush b v) l) -> fresh_for b (v :: l).
  Proof.
    intros Hn Hv H. unfold fresh_for in *. cbn [b_addToPush b_push rev] in *. rewrite <- app_assoc. apply H. constructor; auto. now apply not_in_push.
  Qed.

  Lemma fill_dup_fresh fuel dup : forall n b k b' k', NoDup (b_push b) -> fill_dup rnd fuel dup n b k = Ok (b', k') ->
    exists l, length l = n /\ b' = fold_left b_addToPush l b /\ fresh_for b l.
  Proof.
    induction n as [|n IH]; intros b k b' k' Hn H; cbn [fill_dup] in H.
    - injection H as <- <-. exists []. auto.
    - destruct (if b_noLive b then (false, k) else (rnd k mod 100 <=? dup, S k)) as [d k1].
      destruct (if d then _ else _) as [[v k2]| | |] eqn:Hv; try discriminate. cbn [bind] in H.
      assert (Hp : b_isInPush b v = false).
      { destruct d; apply draw_good in Hv; auto. now apply orb_false_iff in Hv as [Hv _]. }
      assert (Hn' : NoDup (b_push (b_addToPush b v))) by (constructor; auto; now apply not_in_push).
      apply IH in H as (l & Hl & -> & Hf); auto. exists (v :: l). split; [simpl; auto|]. split; auto. apply fresh_cons; auto.
  Qed.
  Lemma fill_order_fresh fuel avg : forall n ins b k b' ins' k', NoDup (b_push b) -> fill_order rnd fuel avg n ins b k = Ok (b', ins', k') ->
    exists l, length l = n /\ b' = fold_left b_addToPush l b /\ fresh_for b l.
  Proof.
    induction n as [|n IH]; intros ins b k b' ins' k' Hn H; cbn [fill_order] in H.
    - injection H as <- <- <-. exists []. auto.
    - destruct (2 * avg =? 0); [discriminate|]. destruct (draw _ _ _ _ _ _) as [[v k1]| | |] eqn:Hv; try discriminate. cbn [bind] in H. apply draw_good in Hv.
      assert (Hn' : NoDup (b_push (b_addToPush b v))) by (constructor; auto; now apply not_in_push).
      apply IH in H as (l & Hl & -> & Hf); auto. exists (v :: l). split; [simpl; auto|]. split; auto. apply fresh_cons; auto.
  Qed.
  Lemma fill_random_fresh fuel : forall n b k b' k', NoDup (b_push b) -> fill_random rnd fuel n b k = Ok (b', k') ->
    exists l, length l = n /\ b' = fold_left b_addToPush l b /\ fresh_for b l.
  Proof.
    induction n as [|n IH]; intros b k b' k' Hn H; cbn [fill_random] in H.
    - injection H as <- <-. exists []. auto.
    - destruct (draw _ _ _ _ _ _) as [[v k1]| | |] eqn:Hv; try discriminate. cbn [bind] in H. apply draw_good in Hv.
      assert (Hn' : NoDup (b_push (b_addToPush b v))) by (constructor; auto; now apply not_in_push).
      apply IH in H as (l & Hl & -> & Hf); auto. exists (v :: l). split; [simpl; auto|]. split; auto. apply fresh_cons; auto.
  Qed.

  Lemma fresh_begin b l : b_push b = [] -> fresh_for (b_beginPush b) l -> NoDup l.
  Proof. unfold fresh_for. intros H F. cbn [b_beginPush b_push] in F. rewrite H, app_nil_r in F. rewrite <- (rev_involutive l). now apply NoDup_rev. Qed.
  Lemma end_push_empty b b' : b_endPush b = Ok b' -> b_push b' = [].
  Proof. unfold b_endPush. destruct (rev (b_events b)); [discriminate|]. now intros [= <-]. Qed.
  Lemma pop_push b b' : b_pop b = Ok b' -> b_push b' = b_push b.
  Proof. unfold b_pop. destruct (rev (b_queue b)); [discriminate|]. now intros [= <-]. Qed.

  (** Calls that lead from [b] to [b'] *)
  Definition via (b b' : builder) : Prop := exists cs, builds b cs = Ok b' /\ Forall distinct_push cs.
  Lemma via_refl b : via b b. Proof. exists []. auto. Qed.
  Lemma via_push b l b1 b' : b_push b = [] -> fresh_for (b_beginPush b) l -> b_endPush (fold_left b_addToPush l (b_beginPush b)) = Ok b1 -> via b1 b' -> via b b'.
  Proof.
    intros Hp Hf H (cs & Hb & Hc). exists (CPush l :: cs). split; [|constructor; auto; now apply (fresh_begin b)]. cbn [builds b_call]. unfold b_pushRange. rewrite H. exact Hb.
  Qed.
  Lemma via_pop b b1 b' : b_pop b = Ok b1 -> via b1 b' -> via b b'.
  Proof. intros H (cs & Hb & Hc). exists (CPop :: cs). split; [|constructor; cbn; auto]. cbn [builds b_call]. rewrite H. exact Hb. Qed.

  Lemma dup_loop_via goal avgSpan dev live dup fuel : forall f b k b', b_push b = [] ->
    dup_loop rnd f fuel goal avgSpan dev live dup b k = Ok b' -> via b b' /\ b_noLive b' = true.
  Proof.
    induction f as [|f IH]; intros b k b' Hp H; cbn [dup_loop] in H.
    - destruct ((b_pushSum b <? goal) || negb (b_noLive b)) eqn:Hc; [discriminate|]. injection H as <-. split; [apply via_refl|].
      apply orb_false_iff in Hc as [_ Hc]. now apply negb_false_iff in Hc.
    - destruct ((b_pushSum b <? goal) || negb (b_noLive b)) eqn:Hc.
      2:{ injection H as <-. split; [apply via_refl|]. apply orb_false_iff in Hc as [_ Hc]. now apply negb_false_iff in Hc. }
      destruct (if b_pushSum b =? goal then _ else _).
      + destruct (dev =? 0); [discriminate|].
        destruct (fill_dup rnd fuel dup (N.to_nat (avgSpan - dev + rnd k mod (2 * dev))) (b_beginPush b) (S k)) as [[b1 k1]| | |] eqn:Hf; try discriminate.
        cbn [bind] in H. apply fill_dup_fresh in Hf as (l & Hl & -> & Hf); [|cbn; rewrite Hp; constructor].
        destruct (b_endPush _) as [b2| | |] eqn:H2; try discriminate. cbn [bind] in H. apply IH in H as [H Hn]; [|now apply end_push_empty in H2].
        split; auto. now apply (via_push b l b2).
      + destruct (b_pop b) as [b1| | |] eqn:H1; try discriminate. cbn [bind] in H. apply IH in H as [H Hn]; [|apply pop_push in H1; congruence].
        split; auto. now apply (via_pop b b1).
  Qed.
  Lemma order_loop_via spanCount spanSize avgSize dev fuel : forall f ins b k b', b_push b = [] ->
    order_loop rnd f fuel spanCount spanSize avgSize dev ins b k = Ok b' -> via b b' /\ b_noLive b' = true.
  Proof.
    assert (Hex : forall b, (0 <? b_live b) || (b_pushCount b <? spanCount) = false -> b_noLive b = true).
    { intros b Hc. apply orb_false_iff in Hc as [Hc1 _]. apply N.ltb_ge in Hc1. assert (H0 : b_live b = 0) by lia. apply live_zero in H0. unfold b_noLive. now rewrite H0. }
    induction f as [|f IH]; intros ins b k b' Hp H; cbn [order_loop] in H.
    - destruct (_ || _) eqn:Hc in H; [discriminate|]. injection H as <-. split; [apply via_refl|auto].
    - destruct ((0 <? b_live b) || (b_pushCount b <? spanCount)) eqn:Hc; [|injection H as <-; split; [apply via_refl|auto]].
      destruct ((b_live b =? 0) || _).
      + destruct (fill_order _ _ _ _ _ _ _) as [[[b1 i1] k1]| | |] eqn:Hf; try discriminate. cbn [bind] in H.
        apply fill_order_fresh in Hf as (l & Hl & -> & Hf); [|cbn; rewrite Hp; constructor].
        destruct (b_endPush _) as [b2| | |] eqn:H2; try discriminate. cbn [bind] in H. apply IH in H as [H Hn]; [|now apply end_push_empty in H2].
        split; auto. now apply (via_push b l b2).
      + destruct (b_pop b) as [b1| | |] eqn:H1; try discriminate. cbn [bind] in H. apply IH in H as [H Hn]; [|apply pop_push in H1; congruence].
        split; auto. now apply (via_pop b b1).
  Qed.
  Lemma random_loop_via spanCount spanSize initialSize fuel : forall f b k b', b_push b = [] ->
    random_loop rnd f fuel spanCount spanSize initialSize b k = Ok b' -> via b b' /\ b_noLive b' = true.
  Proof.
    assert (Hex : forall b, negb (b_live b =? 0) || (b_pushCount b <? spanCount) = false -> b_noLive b = true).
    { intros b Hc. apply orb_false_iff in Hc as [Hc1 _]. apply negb_false_iff, N.eqb_eq in Hc1. apply live_zero in Hc1. unfold b_noLive. now rewrite Hc1. }
    induction f as [|f IH]; intros b k b' Hp H; cbn [random_loop] in H.
    - destruct (_ || _) eqn:Hc in H; [discriminate|]. injection H as <-. split; [apply via_refl|auto].
    - destruct (negb (b_live b =? 0) || (b_pushCount b <? spanCount)) eqn:Hc; [|injection H as <-; split; [apply via_refl|auto]].
      destruct (if b_pushCount b =? spanCount then _ else _).
      + destruct (b_pop b) as [b1| | |] eqn:H1; try discriminate. cbn [bind] in H. apply IH in H as [H Hn]; [|apply pop_push in H1; congruence].
        split; auto. now apply (via_pop b b1).
      + destruct (fill_random _ _ _ _ _) as [[b1 k1]| | |] eqn:Hf; try discriminate. cbn [bind] in H.
        apply fill_random_fresh in Hf as (l & Hl & -> & Hf); [|cbn; rewrite Hp; constructor].
        destruct (b_endPush _) as [b2| | |] eqn:H2; try discriminate. cbn [bind] in H. apply IH in H as [H Hn]; [|now apply end_push_empty in H2].
        split; auto. now apply (via_push b l b2).
  Qed.
End Generate.

(** * The list of events *)
Definition event_tells (mem : list N) (e : event) (t : told) : Prop :=
  match t with
  | TPush l => e_size e <> 0 /\ span mem (e_begin e) (e_size e) = Ok l
  | TPop v => e_size e = 0 /\ e_pop e = Some v
  end.
Lemma event_tells_more mem more e t : event_tells mem e t -> event_tells (mem ++ more) e t.
Proof. destruct t as [l|v]; cbn; auto. intros [H1 H2]. split; auto. now apply span_app. Qed.

Lemma b_call_tells b c b' : legal c = true -> ascends (b_queue b) -> b_call b c = Ok b' -> exists more e t,
  b_mem b' = b_mem b ++ more /\ b_events b' = b_events b ++ [e] /\ event_tells (b_mem b') e t /\
  match c, t with CPush l, TPush l' => Permutation l l' /\ non_increasing N.ltb l' = true | CPop, TPop v => v = largest (b_queue b) | _, _ => False end.
Proof.
  intros Hc Ha H. destruct c as [l|]; cbn [b_call] in H.
  - unfold b_pushRange, b_endPush in H. destruct (added l (b_beginPush b)) as (H1 & H2 & H3 & _). set (b1 := fold_left b_addToPush l (b_beginPush b)) in *.
    rewrite H3 in H. cbn [b_beginPush b_events] in H. rewrite rev_app_distr in H. cbn [rev app] in H. injection H as <-.
    cbn [b_mem b_events e_begin e_pop rev]. rewrite H2. cbn [b_beginPush b_mem]. rewrite Nat2N.id.
    assert (F : firstn (length (b_mem b)) (b_mem b ++ l) = b_mem b) by (rewrite firstn_app, Nat.sub_diag, firstn_all, firstn_O; apply app_nil_r).
    assert (K : skipn (length (b_mem b)) (b_mem b ++ l) = l) by (rewrite skipn_app, Nat.sub_diag, skipn_all; reflexivity).
    assert (K' : skipn (length (b_mem b)) (b_mem b ++ sort_down l) = sort_down l) by (rewrite skipn_app, Nat.sub_diag, skipn_all; reflexivity).
    rewrite F, K, rev_involutive. exists (sort_down l). eexists. exists (TPush (sort_down l)). split; [reflexivity|]. split; [reflexivity|].
    pose proof (Permutation_length (sort_down_perm l)) as L. split.
    + cbn [event_tells e_size e_begin]. rewrite app_length. split; [destruct l; [discriminate|cbn [length]; lia]|]. unfold span. rewrite Nat2N.id, K', app_length, L.
      destruct (N.leb_spec (N.of_nat (length (b_mem b)) + (N.of_nat (length (b_mem b) + length l) - N.of_nat (length (b_mem b)))) (N.of_nat (length (b_mem b) + length l))); [|lia].
      f_equal. apply firstn_all2. lia.
    + split; [symmetry; apply sort_down_perm|apply sort_down_desc].
  - unfold b_pop in H. destruct (rev (b_queue b)) as [|top r] eqn:Hr; [discriminate|]. injection H as <-.
    assert (Hq : b_queue b = rev r ++ [top]) by (rewrite <- (rev_involutive (b_queue b)), Hr; reflexivity).
    assert (Hl : largest (b_queue b) = top) by (rewrite Hq; apply largest_last; now rewrite <- Hq).
    cbn [b_mem b_events]. exists []. eexists. exists (TPop top). rewrite app_nil_r. repeat split; auto.
Qed.

Lemma builds_tells cs : forall b b' live done, forallb legal cs = true -> ascends (b_queue b) -> Permutation (b_queue b) live -> builds b cs = Ok b' ->
  Forall2 (event_tells (b_mem b)) (b_events b) done ->
  exists ts, tells (b_popDuplicates b) live cs ts /\ Forall2 (event_tells (b_mem b')) (b_events b') (done ++ ts).
Proof.
  induction cs as [|c cs IH]; intros b b' live done Hc Ha Hp H Hd; cbn [builds forallb] in *.
  - injection H as <-. exists []. split; [constructor|]. now rewrite app_nil_r.
  - apply andb_true_iff in Hc as [Hc Hcs]. destruct (b_call b c) as [b1| | |] eqn:H1; try discriminate. cbn [bind] in H.
    destruct (b_call_counts _ _ _ Ha H1) as (A & P & D & _ & _ & _ & _ & _ & _ & N7).
    destruct (b_call_tells _ _ _ Hc Ha H1) as (more & e & t & M & E & T & C).
    assert (P1 : Permutation (b_queue b1) (live_after (b_popDuplicates b) live c)) by (rewrite P; now apply live_after_perm).
    destruct (IH b1 b' _ (done ++ [t]) Hcs A P1 H) as (ts & Ht & Hf).
    { rewrite E. apply Forall2_app; [|now constructor]. rewrite M. clear -Hd. induction Hd; constructor; auto. now apply event_tells_more. }
    exists (t :: ts). split; [|now rewrite <- app_assoc in Hf]. rewrite D in Ht. destruct c as [l|], t as [l'|v]; try easy.
    + destruct C as [C1 C2]. constructor; auto.
    + rewrite C. rewrite (largest_perm _ _ Hp). constructor; auto. intros ->. apply N7; auto. now apply Permutation_sym, Permutation_nil in Hp.
Qed.

Lemma line_no_newline t : ~ In newline (line_of t).
Proof.
  destruct t as [l|v]; unfold line_of; apply no_nl_app; try (now apply no_nl_txt); [|apply no_nl_decimal].
  induction l as [|v l IH]; cbn [flat_map]; auto. apply no_nl_app; auto. apply no_nl_app; [now apply no_nl_txt|apply no_nl_decimal].
Qed.
Lemma print_event_line mem e t : event_tells mem e t -> print_event mem e = Ok (line_of t ++ [newline]).
Proof.
  unfold print_event. destruct t as [l|v]; cbn [event_tells line_of].
  - intros [H1 H2]. apply N.eqb_neq in H1. rewrite H1, H2. cbn [bind]. now rewrite <- app_assoc.
  - intros [-> ->]. cbn. now rewrite <- ?app_assoc.
Qed.
Lemma print_loop_lines mem evs ts : Forall2 (event_tells mem) evs ts -> exists out, print_events_loop mem evs = Ok out /\ lines out = map line_of ts.
Proof.
  induction 1 as [|e t evs ts He _ (out & Ho & Hl)]; [exists []; auto|]. cbn [print_events_loop map]. rewrite (print_event_line _ _ _ He), Ho. cbn [bind].
  eexists. split; [reflexivity|]. rewrite <- app_assoc. cbn [app]. rewrite lines_line by apply line_no_newline. now rewrite Hl.
Qed.

Lemma words_stop l : stops (flat_map (fun v => txt " " ++ decimal v) l).
Proof. destruct l; cbn; auto. Qed.
Lemma words_inj l : forall l', flat_map (fun v => txt " " ++ decimal v) l = flat_map (fun v => txt " " ++ decimal v) l' -> l = l'.
Proof.
  induction l as [|v l IH]; intros [|v' l'] H; auto; try (cbn in H; discriminate). cbn [flat_map] in H. rewrite <- !app_assoc in H. apply app_inv_head in H.
  apply solid_split in H as [H1 H2]; auto using words_stop; [|split; [now apply digit_not|apply no_nl_decimal]|split; [now apply digit_not|apply no_nl_decimal]].
  apply decimal_inj in H1. apply IH in H2. congruence.
Qed.
Lemma line_of_inj t t' : line_of t = line_of t' -> t = t'.
Proof.
  destruct t as [l|v], t' as [l'|v']; unfold line_of; intros H; try discriminate.
  - apply app_inv_head, words_inj in H. congruence.
  - apply app_inv_head, decimal_inj in H. congruence.
Qed.
