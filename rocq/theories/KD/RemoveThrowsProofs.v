(** Proofs about removeMultiples in KD trees when client functions throw. *)
From Coq Require Import List Arith Bool ZArith NArith Lia Permutation.
From Verif.Base Require Import Res Arr ResList StdAlg Order Fault FaultFacts.
From Verif.DivMask Require Import Model.
From Verif.Spec Require Import DivFinder DivFinderFacts DivCaught DivStale DivHurt.
From Verif.DivList Require Model Throws ThrowsProofs LeftProofs Proofs.
From Verif.KD Require Import EntryArray Tree Model Legal ArrayProofs TreeProofs Proofs Throws ThrowsProofs ThrowsLeft ThrowsSearch InsertThrows InsertThrowsProofs RemoveThrows.
Import ListNotations.

Section Hurt.
  Context {A : Type}.
  Variable strict : bool.
  Variable f : A -> bool.
  Notation no := (filter (fun x => negb (f x))).
  Notation yes := (filter f).
  (** Of the entries [l] that satisfy [f], [out] have been given away; [l'] is what is there now. *)
  Definition hurt (l out l' : list A) : Prop :=
    exists rest extra, Permutation (out ++ rest) (yes l) /\ Permutation l' (no l ++ rest ++ extra) /\ incl extra l /\ length extra <= length out /\ (strict = true -> extra = []).
  Lemma yes_no l : Permutation l (no l ++ yes l).
  Proof.
    induction l as [|x l IH]; cbn [filter]; auto. destruct (f x); cbn [negb app]; [|now constructor]. rewrite <- Permutation_middle. now constructor.
  Qed.
  Lemma hurt_perm l out l' l2 l2' : Permutation l l2 -> Permutation l' l2' -> hurt l out l' -> hurt l2 out l2'.
  Proof.
    intros Hl Hl' (rest & extra & H1 & H2 & H3 & H4 & Hst). exists rest, extra. split; [|split; [|split; [|split]]]; auto.
    - rewrite H1. now apply filter_perm.
    - rewrite <- Hl', H2. apply Permutation_app_tail. now apply filter_perm.
    - intros x Hx. apply (Permutation_in _ Hl). auto.
  Qed.
  Lemma hurt_none l : hurt l [] l.
  Proof.
    exists (yes l), []. split; auto. split; [rewrite app_nil_r; apply yes_no|]. split; [intros x []|auto].
  Qed.
  (** The second part has not been looked at. *)
  Lemma hurt_before l1 out l1' l2 : hurt l1 out l1' -> hurt (l1 ++ l2) out (l1' ++ l2).
  Proof.
    intros (rest & extra & H1 & H2 & H3 & H4 & Hst). exists (rest ++ yes l2), extra. rewrite !filter_app. split; [|split; [|split; [|split]]]; auto.
    - now rewrite app_assoc, H1.
    - rewrite H2. rewrite (yes_no l2) at 1. rewrite <- !app_assoc. apply Permutation_app_head. rewrite !app_assoc. apply Permutation_app_tail || idtac.
      rewrite (Permutation_app_comm (rest ++ extra) (no l2)), <- !app_assoc. do 2 apply Permutation_app_head. apply Permutation_app_comm.
    - intros x Hx. apply in_or_app. auto.
  Qed.
  (** The second part is done. *)
  Lemma hurt_after l1 out1 l1' l2 out2 : hurt l1 out1 l1' -> Permutation out2 (yes l2) -> hurt (l1 ++ l2) (out2 ++ out1) (l1' ++ no l2).
  Proof.
    intros (rest & extra & H1 & H2 & H3 & H4 & Hst) H5. exists rest, extra. rewrite !filter_app. split; [|split; [|split; [|split]]]; auto.
    - rewrite <- app_assoc, H1, H5. apply Permutation_app_comm.
    - rewrite H2, <- !app_assoc. apply Permutation_app_head. rewrite app_assoc. apply Permutation_app_comm.
    - intros x Hx. apply in_or_app. auto.
    - rewrite app_length. lia.
  Qed.
  Lemma hurt_done l out l' : Permutation out (yes l) -> Permutation l' (no l) -> hurt l out l'.
  Proof.
    intros H1 H2. exists [], []. rewrite !app_nil_r. split; auto. split; auto. split; [intros x []|split; [cbn; lia|auto]].
  Qed.
  Lemma hurt_length l out l' : hurt l out l' -> length l' <= length l.
  Proof.
    intros (rest & extra & H1 & H2 & H3 & H4 & Hst). apply Permutation_length in H1, H2. pose proof (Permutation_length (yes_no l)) as H5. rewrite !app_length in *. lia.
  Qed.
  Lemma hurt_incl l out l' : hurt l out l' -> incl l' l.
  Proof.
    intros (rest & extra & H1 & H2 & H3 & H4 & Hst) x Hx. apply (Permutation_in _ H2) in Hx. apply in_app_or in Hx as [Hx|Hx]; [now apply filter_In in Hx|].
    apply in_app_or in Hx as [Hx|Hx]; auto. assert (G : In x (yes l)) by (apply (Permutation_in _ H1), in_or_app; auto). now apply filter_In in G.
  Qed.
  Lemma hurt_nothing l out l' : yes l = [] -> hurt l out l' -> out = [] /\ Permutation l' l.
  Proof.
    intros Hn (rest & extra & H1 & H2 & H3 & H4 & Hst). rewrite Hn in H1. apply Permutation_sym, Permutation_nil, app_eq_nil in H1 as [-> ->]. split; auto.
    destruct extra; [|cbn in H4; lia]. rewrite app_nil_r in H2. rewrite H2. symmetry. rewrite (yes_no l) at 1. now rewrite Hn, app_nil_r.
  Qed.
End Hurt.

Section RemoveThrows.
  Context {M : Type}.
  Variable C : kconf M.
  Variable valid : M -> bool.
  Hypothesis HL : klegal C valid.
  Variable packed : bool.
  Notation ext := (ext M).
  Notation tree := (tree M).
  Notation todo := (@todo M).
  Notation kd := (kd M).
  Notation kdiv := (kdiv C).
  Notation tree_inv := (tree_inv C valid).
  Notation arr_inv := (arr_inv C valid).

  (** ** removeMultiples throws or does what it does without exceptions *)
  Lemma tot_map {S A B} (m : res (fout S A)) n (g : A -> B) (k : nat -> A -> res (fout S B)) : tot m n -> (forall b a, k b a = Ok (Fine b (g a))) ->
    tot (fbind m k) (let* a := n in Ok (g a)).
  Proof.
    intros H Hk r G. apply bind_inv in G as (a & G & E). injection E as <-. destruct (H _ G) as ([b' a'|l] & -> & E); unfold fbind; cbn [bind].
    - subst a'. rewrite Hk. eexists. split; reflexivity.
    - eexists. split; [reflexivity|exact I].
  Qed.
  Lemma tot_arr_remove b a m seen : tot (arr_remove_x C b a m seen) (let* (a', out, n) := arr_remove C a m in Ok (a', seen ++ out, n)).
  Proof.
    unfold arr_remove_x, arr_remove. destruct (c_leaf C =? 1).
    - destruct (a_list a) as [|x l]; [cbn [bind]; rewrite app_nil_r; apply tot_ok|]. apply (tot_fbind_ok _ _ _ _ (tot_kdiv C b (a, seen) m x)). intros b'.
      destruct (kdiv m x); [|cbn [bind]; rewrite app_nil_r; apply tot_ok]. apply tot_client. intros b2. destruct (pop_back a); cbn [bind];
        [apply tot_ok|apply tot_ub|apply tot_throw|apply tot_nofuel].
    - intros r H. apply bind_inv in H as ([[a' out] n] & H & E). injection E as <-. apply bind_inv in H as ([[l out'] n'] & H & E). injection E as <- <- <-.
      destruct (DivList.ThrowsProofs.tot_vector (c_use C) (c_divides C) (Model.mk_dlist (a_list a) [] 0 0) m b _ H) as ([b' r|st] & -> & E); unfold fleft, fbind; cbn [bind].
      + subst r. eexists. split; [reflexivity|]. reflexivity.
      + eexists. split; [reflexivity|]. exact I.
  Qed.

  Lemma tot_remove_leaf b a m seen : tot (fbind (fleft (fun st => (Leaf (fst st), @nil (list bool), snd st)) (arr_remove_x C b a m seen)) (fun b r => let '(a', out, n) := r in Ok (Fine b (Leaf a', out, n))))
    (let* (a', out, n) := (let* (a0, out, n) := arr_remove C a m in Ok (Leaf a0, out, n)) in Ok (a', seen ++ out, n)).
  Proof.
    intros r H. apply bind_inv in H as ([[t out] n] & H & E). injection E as <-. apply bind_inv in H as ([[a0 out0] n0] & H & E). injection E as <- <- <-.
    assert (Ht := tot_arr_remove b a m seen). rewrite H in Ht. cbn [bind] in Ht. destruct (Ht _ eq_refl) as ([b' r|[a' xs]] & -> & E); unfold fleft, fbind; cbn [bind].
    - subst r. eexists. split; reflexivity.
    - eexists. split; [reflexivity|exact I].
  Qed.
  Ltac goon IH b p seen H := let Ht := fresh "Ht" in let b' := fresh "b" in let t' := fresh "t" in let ps := fresh "ps" in let xs := fresh "xs" in let E := fresh "E" in
    assert (Ht := IH b p seen); rewrite H in Ht; cbn [bind] in Ht; destruct (Ht _ eq_refl) as ([b' ?|[[t' ps] xs]] & -> & E); clear Ht; unfold fleft, fbind; cbn [bind];
      [subst|eexists; split; [reflexivity|exact I]].
  Lemma tot_binary m : forall t b p seen, tot (remove_binary_x C b p t m seen) (let* (t', out, n) := remove_binary C t m in Ok (t', seen ++ out, n)).
  Proof.
    induction t as [a|v x k le IHl gt IHg]; intros b p seen; cbn [remove_binary_x remove_binary]; [apply tot_remove_leaf|]. apply tot_client. intros b1 r H.
    apply bind_inv in H as ([[t out] n] & H & E). injection E as <-. apply bind_inv in H as ([[gt' out1] n1] & H1 & H). destruct (above C v x (x_t m)); cbn [negb] in *.
    - injection H as <- <- <-. goon IHg b1 (p ++ [true]) seen H1. eexists. split; reflexivity.
    - apply bind_inv in H as ([[le' out2] n2] & H2 & H). injection H as <- <- <-. destruct b1 as [|b1]; cbn [client]; [eexists; split; [reflexivity|exact I]|].
      goon IHg b1 (p ++ [true]) seen H1. goon IHl b0 (p ++ [false]) (seen ++ out1) H2. eexists. split; [reflexivity|]. cbn. now rewrite app_assoc.
  Qed.
  Lemma tot_packed m : forall t b p seen, tot (remove_packed_x C b p t m seen) (let* (t', out, n) := remove_packed C t m in Ok (t', seen ++ out, n)).
  Proof.
    induction t as [a|v x k le IHl gt IHg]; intros b p seen; cbn [remove_packed_x remove_packed]; [apply tot_remove_leaf|]. apply tot_client. intros b1. apply tot_client. intros b2 r H.
    apply bind_inv in H as ([[t out] n] & H & E). injection E as <-. destruct (above C v x (x_t m)).
    - apply bind_inv in H as ([[gt' out1] n1] & H1 & H). injection H as <- <- <-. goon IHg b2 (p ++ [true]) seen H1. eexists. split; reflexivity.
    - apply bind_inv in H as ([[le' out1] n1] & H1 & H). apply bind_inv in H as ([[gt' out2] n2] & H2 & H). injection H as <- <- <-.
      goon IHl b2 (p ++ [false]) seen H1. goon IHg b0 (p ++ [true]) (seen ++ out1) H2. eexists. split; [reflexivity|]. cbn. now rewrite app_assoc.
  Qed.
  Lemma tot_tree_remove b root m : tot (tree_remove_x C packed b root m []) (let* (t', out, n) := tree_remove C packed root m in Ok (t', out, n, [])).
  Proof.
    destruct root as [t|]; cbn [tree_remove_x tree_remove bind]; [|apply tot_ok]. intros r H. apply bind_inv in H as ([[t' out] n] & H & E). injection E as <-.
    apply bind_inv in H as ([[t0 out0] n0] & H & E). injection E as <- <- <-. cbn [map remove_nodes_x remove_at_x].
    assert (Ht : tot (remove_x C packed b [] t m []) (Ok (t0, [] ++ out0, n0))).
    { unfold remove_x. destruct packed; [assert (G := tot_packed m t b [] [])|assert (G := tot_binary m t b [] [])]; rewrite H in G; exact G. }
    destruct (Ht _ eq_refl) as ([b' r|[[t' ps] xs]] & -> & E); unfold fleft, fbind; cbn [bind].
    - subst r. eexists. split; reflexivity.
    - eexists. split; [reflexivity|exact I].
  Qed.
  Lemma tot_remove_multiples b s m : tot (remove_multiples_x C packed b s m []) (let* (s', c, out) := remove_multiples C packed s m in Ok (s', c, out, [])).
  Proof.
    unfold remove_multiples_x, remove_multiples. destruct (negb (c_removals C)); [apply tot_throw|]. apply tot_clients. intros b1 r H.
    apply bind_inv in H as ([[s' c] out] & H & E). injection E as <-. apply bind_inv in H as ([[t' out0] n0] & H & E). apply bind_inv in E as (s1 & Hs & E). injection E as <- <- <-.
    assert (Ht := tot_tree_remove b1 (k_tree s) (kext C (k_bits s) m)). rewrite H in Ht. cbn [bind] in Ht. destruct (Ht _ eq_refl) as ([b' r|[[t0 ps] xs]] & -> & E); unfold fleft, fbind; cbn [bind].
    - subst r. rewrite Hs. cbn [bind]. eexists. split; reflexivity.
    - eexists. split; [reflexivity|exact I].
  Qed.
  Lemma tot_all alloc ub_calls sort_x part_x b s o : sort_legal C sort_x -> part_legal C part_x ->
    tot (all_x C packed alloc ub_calls sort_x part_x b s [] o) (let* (s', r) := step C packed s o in Ok (s', [], r)).
  Proof.
    intros Hsort Hpart. assert (Hc : tot (fbind (fleft (fun s' : kd => (s', [] : todo, [] : list M)) (change_x C packed alloc ub_calls sort_x part_x b s o)) (fun b r => Ok (Fine b (fst r, [] : todo, snd r))))
      (let* (s', r) := step C packed s o in Ok (s', [], r))).
    { intros r H. apply bind_inv in H as ([s1 r1] & H & E). injection E as <-. destruct (tot_change C packed alloc ub_calls sort_x part_x Hsort Hpart b s o _ H) as ([b' a|s'] & -> & E);
        unfold fleft, fbind; cbn [bind]; [subst a; eexists; split; reflexivity|eexists; split; [reflexivity|exact I]]. }
    destruct o as [e|es|m|m|m|m cb|m cb|cb|m| |]; cbn [all_x]; try exact Hc; try (apply tot_fleft, tot_search; reflexivity).
    cbn [step]. intros r H. apply bind_inv in H as ([s1 r1] & H & E). injection E as <-. apply bind_inv in H as ([[s2 c] out] & H & E). injection E as <- <-.
    assert (Ht := tot_remove_multiples b s m). rewrite H in Ht. cbn [bind] in Ht. destruct (Ht _ eq_refl) as ([b' r|[[t0 ps] xs]] & -> & E); unfold fleft, fbind; cbn [bind].
    - subst r. eexists. split; reflexivity.
    - eexists. split; [reflexivity|exact I].
  Qed.

  (** ** What an exception leaves *)
  Hypothesis Hrem : c_removals C = true.
  (** What an exception leaves is a tree as it should be, except that a leaf with several entries may not be sorted. *)
  Definition one_or_unsorted : Prop := c_sorted C = true -> c_leaf C = 1.
  Lemma arr_left b a m seen a' xs : arr_remove_x C b a m seen = Ok (Left (a', xs)) ->
    exists out, xs = seen ++ map x_t out /\ hurt (c_leaf C =? 1) (kdiv m) (a_list a) out (a_list a') /\ a_mask a' = a_mask a /\ (c_leaf C = 1 -> a' = a).
  Proof.
    unfold arr_remove_x. destruct (Nat.eqb_spec (c_leaf C) 1) as [E1|E1].
    - assert (Hsame : (a', xs) = (a, seen) -> exists out, xs = seen ++ map x_t out /\ hurt true (kdiv m) (a_list a) out (a_list a') /\ a_mask a' = a_mask a /\ (c_leaf C = 1 -> a' = a)).
      { intros E. injection E as -> ->. exists []. rewrite app_nil_r. split; auto. split; [apply hurt_none|]. auto. }
      destruct (a_list a) as [|x l] eqn:El; [discriminate|]. intros H. apply fbind_left in H as [H|(b1 & c & _ & H)].
      + apply kdiv_left in H. rewrite <- El in *. auto.
      + destruct c; [|discriminate H]. apply client_left in H as [H|(b2 & _ & H)]; [rewrite <- El in *; auto|]. apply bind_inv in H as (a0 & _ & H). discriminate H.
    - intros H. apply fbind_left in H as [H|(b1 & [[l out] n] & _ & H)]; [|discriminate H]. apply fleft_left in H as ([s' out] & H & E). cbn [fst snd] in E. injection E as -> ->.
      apply DivList.LeftProofs.vector_left in H as (done & rest & extra & H1 & -> & -> & H3 & H4). cbn [Model.l_list] in *. unfold Throws.with_list. cbn [Model.l_list a_list a_mask].
      exists (filter (kdiv m) done). split; auto. split; [|split; [auto|lia]]. rewrite H1. exists (filter (kdiv m) rest), extra. rewrite !filter_app. split; auto. split; [|split; [|split]].
      + rewrite <- app_assoc. apply Permutation_app_head. rewrite (yes_no (kdiv m) rest) at 1. rewrite Permutation_app_comm, <- app_assoc. reflexivity.
      + now rewrite <- H1.
      + rewrite H4. apply le_n.
      + discriminate.
  Qed.
  Definition left_ok m (l : list ext) (seen : list M) (l' : list ext) (xs : list M) : Prop := exists out, xs = seen ++ map x_t out /\ hurt (c_leaf C =? 1) (kdiv m) l out l'.
  Definition fine_ok m (l : list ext) (seen : list M) (l' : list ext) (xs : list M) (n : nat) : Prop :=
    exists out, xs = seen ++ map x_t out /\ n = length out /\ Permutation out (filter (kdiv m) l) /\ l' = filter (fun x => negb (kdiv m x)) l.
  Lemma arr_cases bits b a m seen : arr_inv bits a -> exists o, arr_remove_x C b a m seen = Ok o /\
    match o with
    | Fine _ (a', xs, n) => arr_inv bits a' /\ fine_ok m (a_list a) seen (a_list a') xs n
    | Left (a', xs) => (one_or_unsorted -> arr_inv bits a') /\ left_ok m (a_list a) seen (a_list a') xs
    end.
  Proof.
    intros Ha. destruct (arr_remove_ok C valid bits a m Ha) as (a0 & H1 & H2 & H3). assert (Ht := tot_arr_remove b a m seen). rewrite H1 in Ht. cbn [bind] in Ht.
    destruct (Ht _ eq_refl) as ([b' r|[a' xs]] & E & G); rewrite E; (eexists; split; [reflexivity|]).
    - subst r. split; auto. exists (filter (kdiv m) (a_list a)). rewrite map_length || idtac. repeat split; auto.
    - apply arr_left in E as (out & -> & H & Hm & Hl). split; [intros Hone|exists out; auto]. destruct a' as [l mk]. cbn [a_list a_mask] in *.
      apply (arr_inv_sub C valid bits a); auto.
      + apply (hurt_incl _ _ _ _ _ H).
      + apply (hurt_length _ _ _ _ _ H).
      + intros Hs. specialize (Hl (Hone Hs)). rewrite <- Hl in Ha. apply (r_sorted _ _ _ _ Ha Hs).
  Qed.

  Definition same_shape (t t' : tree) : Prop := forall q, subtree t' q = None <-> subtree t q = None.
  Lemma shape_refl t : same_shape t t. Proof. intros q. reflexivity. Qed.
  Lemma shape_leaf a a' : same_shape (Leaf a) (Leaf a'). Proof. intros [|c q]; cbn [subtree]; split; auto; discriminate. Qed.
  Lemma shape_split v x k v' x' k' le gt le' gt' : same_shape le le' -> same_shape gt gt' -> same_shape (Split v x k le gt) (Split v' x' k' le' gt').
  Proof. intros H1 H2 [|[|] q]; cbn [subtree]; auto. split; discriminate. Qed.
  Lemma shape_trans t1 t2 t3 : same_shape t1 t2 -> same_shape t2 t3 -> same_shape t1 t3.
  Proof. intros H1 H2 q. rewrite (H2 q). apply H1. Qed.
  Lemma inv_split bits v x k le gt le' gt' : tree_inv bits (Split v x k le gt) -> tree_inv bits le' -> tree_inv bits gt' ->
    incl (tree_entries le') (tree_entries le) -> incl (tree_entries gt') (tree_entries gt) -> tree_inv bits (Split v x k le' gt').
  Proof.
    intros (H1 & H2 & H3 & H4 & _) Hl Hg Il Ig. cbn [TreeProofs.tree_inv]. split; auto. split; [|split; [|split; [|split]]]; auto.
    intros Ht. eapply below_incl; [|apply (H2 Ht)]. apply incl_app; [now apply incl_appl|now apply incl_appr].
  Qed.
  (** Ways below [p] to nodes of [t] *)
  Definition ways_ok (p : list bool) (t : tree) (ps : list (list bool)) : Prop := Forall (fun q => exists q', q = p ++ q' /\ subtree t q' <> None) ps.
  Lemma ways_le p v x k le gt ps : ways_ok (p ++ [false]) le ps -> ways_ok p (Split v x k le gt) ps.
  Proof. apply Forall_impl. intros q (q' & -> & H). exists (false :: q'). rewrite <- app_assoc. auto. Qed.
  Lemma ways_gt p v x k le gt ps : ways_ok (p ++ [true]) gt ps -> ways_ok p (Split v x k le gt) ps.
  Proof. apply Forall_impl. intros q (q' & -> & H). exists (true :: q'). rewrite <- app_assoc. auto. Qed.
  Lemma ways_child p v x k le gt c : ways_ok p (Split v x k le gt) [p ++ [c]].
  Proof. constructor; auto. exists [c]. split; auto. cbn [subtree]. intros E. destruct c; discriminate E. Qed.

  Definition cases (bits : list (nat * Z)) m (p : list bool) (t : tree) (seen : list M) (r : res (fout (tree * list (list bool) * list M) (tree * list M * nat))) : Prop :=
    exists o, r = Ok o /\
    match o with
    | Fine _ (t', xs, n) => tree_inv bits t' /\ fine_ok m (tree_entries t) seen (tree_entries t') xs n /\ same_shape t t'
    | Left (t', ps, xs) => (one_or_unsorted -> tree_inv bits t') /\ left_ok m (tree_entries t) seen (tree_entries t') xs /\ same_shape t t' /\ ways_ok p t' ps
    end.
  Lemma left_incl m l seen l' xs : left_ok m l seen l' xs -> incl l' l.
  Proof. intros (out & _ & H). now apply hurt_incl in H. Qed.
  Lemma fine_incl m l seen l' xs n : fine_ok m l seen l' xs n -> incl l' l.
  Proof. intros (out & _ & _ & _ & ->) x Hx. now apply filter_In in Hx. Qed.
  Lemma left_none m l seen : left_ok m l seen l seen.
  Proof. exists []. rewrite app_nil_r. split; auto. apply hurt_none. Qed.
  (** Two parts, of which the one that comes first here is the second one visited. *)
  Lemma fine_both m l1 l2 seen l1' l2' x2 x1 n2 n1 : fine_ok m l2 seen l2' x2 n2 -> fine_ok m l1 x2 l1' x1 n1 -> fine_ok m (l1 ++ l2) seen (l1' ++ l2') x1 (n2 + n1).
  Proof.
    intros (o2 & -> & -> & H2 & ->) (o1 & -> & -> & H1 & ->). exists (o2 ++ o1). rewrite map_app, app_assoc, app_length, !filter_app. split; auto. split; auto. split; auto.
    rewrite H2, H1. apply Permutation_app_comm.
  Qed.
  Lemma left_after m l1 l2 seen l1' l2' x2 x1 n2 : fine_ok m l2 seen l2' x2 n2 -> left_ok m l1 x2 l1' x1 -> left_ok m (l1 ++ l2) seen (l1' ++ l2') x1.
  Proof.
    intros (o2 & -> & -> & H2 & ->) (o1 & -> & H1). exists (o2 ++ o1). rewrite map_app, app_assoc. split; auto. now apply hurt_after.
  Qed.
  Lemma left_before m l1 l2 seen l1' x1 : left_ok m l1 seen l1' x1 -> left_ok m (l1 ++ l2) seen (l1' ++ l2) x1.
  Proof. intros (o1 & -> & H1). exists o1. split; auto. now apply hurt_before. Qed.
  Lemma left_swap m l1 l2 seen l1' l2' xs : left_ok m (l1 ++ l2) seen (l1' ++ l2') xs -> left_ok m (l2 ++ l1) seen (l2' ++ l1') xs.
  Proof. intros (o & -> & H). exists o. split; auto. eapply hurt_perm; [apply Permutation_app_comm|apply Permutation_app_comm|exact H]. Qed.
  (** The part [l1] has no entry to be removed. *)
  Lemma fine_skip m l1 l2 seen l2' xs n : filter (kdiv m) l1 = [] -> fine_ok m l2 seen l2' xs n -> fine_ok m (l1 ++ l2) seen (l1 ++ l2') xs n.
  Proof.
    intros Hn (o & -> & -> & H & ->). exists o. rewrite !filter_app, Hn. cbn [app]. repeat split; auto. f_equal. symmetry. apply filter_all. intros x Hx.
    destruct (kdiv m x) eqn:E; auto. exfalso. assert (G : In x (filter (kdiv m) l1)) by (apply filter_In; auto). rewrite Hn in G. destruct G.
  Qed.
  Lemma fine_swapped m l1 l2 seen l1' l2' x2 x1 n2 n1 : fine_ok m l1 seen l1' x1 n1 -> fine_ok m l2 x1 l2' x2 n2 -> fine_ok m (l1 ++ l2) seen (l1' ++ l2') x2 (n1 + n2).
  Proof.
    intros (o1 & -> & -> & H1 & ->) (o2 & -> & -> & H2 & ->). exists (o1 ++ o2). rewrite map_app, app_assoc, app_length, !filter_app. repeat split; auto.
    now rewrite H2, H1.
  Qed.
  Lemma left_second m l1 l2 seen l2' xs : left_ok m l2 seen l2' xs -> left_ok m (l1 ++ l2) seen (l1 ++ l2') xs.
  Proof. intros H. apply left_swap, left_before, H. Qed.
  Lemma left_second_after m l1 l2 seen l1' l2' x1 n1 x2 : fine_ok m l1 seen l1' x1 n1 -> left_ok m l2 x1 l2' x2 -> left_ok m (l1 ++ l2) seen (l1' ++ l2') x2.
  Proof. intros H1 H2. apply left_swap. eapply left_after; eauto. Qed.
  Lemma cases_none bits m p t seen ps : tree_inv bits t -> ways_ok p t ps -> cases bits m p t seen (Ok (Left (t, ps, seen))).
  Proof. intros Hi Hp. eexists. split; [reflexivity|]. cbn. split; auto. split; [apply left_none|]. split; [apply shape_refl|auto]. Qed.
  Lemma cases_leaf bits b m p a seen : tree_inv bits (Leaf a) ->
    cases bits m p (Leaf a) seen (fbind (fleft (fun st => (Leaf (fst st), [], snd st)) (arr_remove_x C b a m seen)) (fun b r => let '(a', out, n) := r in Ok (Fine b (Leaf a', out, n)))).
  Proof.
    intros [Ha Hf]. destruct (arr_cases bits b a m seen Ha) as ([b' [[a' xs] n]|[a' xs]] & -> & H1 & H2); unfold fleft, fbind; cbn [bind]; (eexists; split; [reflexivity|]); cbn [tree_entries].
    - split; [split; auto; intros E; congruence|]. split; auto. apply shape_leaf.
    - split; [split; auto; intros E; congruence|]. split; auto. split; [apply shape_leaf|constructor].
  Qed.
  Lemma le_none bits v x k le gt m : tree_inv bits (Split v x k le gt) -> above C v x (x_t m) = true -> filter (kdiv m) (tree_entries le) = [].
  Proof.
    intros (Hv & _ & Hle & _) Ha. apply filter_none. intros y Hy. apply (no_divisor_above C valid HL v x); auto.
  Qed.
  Ltac sub H := let b2 := fresh "b" in let t2 := fresh "t" in let x2 := fresh "xs" in let n2 := fresh "n" in let p2 := fresh "ps" in let E := fresh "E" in
    let I1 := fresh "I" in let F1 := fresh "F" in let S1 := fresh "S" in let W1 := fresh "W" in
    destruct H as ([b2 [[t2 x2] n2]|[[t2 p2] x2]] & E & H); rewrite E; clear E; unfold fleft, fbind; cbn [bind]; [destruct H as (I1 & F1 & S1)|destruct H as (I1 & F1 & S1 & W1)].
  Ltac keep Hi := intros; eapply inv_split; [exact Hi|..]; try (apply Hi); eauto using incl_refl, left_incl, fine_incl.
  Ltac out := eexists; split; [reflexivity|]; cbn [tree_entries].
  Lemma binary_cases bits m : forall t b p seen, tree_inv bits t -> cases bits m p t seen (remove_binary_x C b p t m seen).
  Proof.
    induction t as [a|v x k le IHl gt IHg]; intros b p seen Hi; cbn [remove_binary_x]; [now apply cases_leaf|].
    assert (Hil : tree_inv bits le) by apply Hi. assert (Hig : tree_inv bits gt) by apply Hi. assert (Hn := le_none bits v x k le gt m Hi).
    destruct b as [|b]; cbn [client]; [apply cases_none; auto; constructor|]. destruct (above C v x (x_t m)); cbn [negb].
    - specialize (Hn eq_refl). specialize (IHg b (p ++ [true]) seen Hig). sub IHg; out.
      + split; [|split; [now apply fine_skip|apply shape_split; auto using shape_refl]]. keep Hi.
      + split; [|split; [now apply left_second|split; [apply shape_split; auto using shape_refl|now apply ways_gt]]]. keep Hi.
    - destruct b as [|b]; cbn [client]; [apply cases_none; auto; constructor|]. specialize (IHg b (p ++ [true]) seen Hig). sub IHg.
      + specialize (IHl b0 (p ++ [false]) xs Hil). sub IHl; out.
        * split; [|split; [eapply fine_both; eauto|now apply shape_split]]. keep Hi.
        * split; [|split; [eapply left_after; eauto|split; [now apply shape_split|now apply ways_le]]]. keep Hi.
      + out. split; [|split; [now apply left_second|split; [apply shape_split; auto using shape_refl|]]]; [keep Hi|].
        apply Forall_app. split; [now apply ways_gt|apply ways_child].
  Qed.
  Lemma packed_cases bits m : forall t b p seen, tree_inv bits t -> cases bits m p t seen (remove_packed_x C b p t m seen).
  Proof.
    induction t as [a|v x k le IHl gt IHg]; intros b p seen Hi; cbn [remove_packed_x]; [now apply cases_leaf|].
    assert (Hil : tree_inv bits le) by apply Hi. assert (Hig : tree_inv bits gt) by apply Hi. assert (Hn := le_none bits v x k le gt m Hi).
    destruct b as [|b]; cbn [client]; [apply cases_none; auto; constructor|]. destruct b as [|b]; cbn [client]; [apply cases_none; auto; apply ways_child|].
    destruct (above C v x (x_t m)).
    - specialize (Hn eq_refl). specialize (IHg b (p ++ [true]) seen Hig). sub IHg; out.
      + split; [|split; [now apply fine_skip|apply shape_split; auto using shape_refl]]. keep Hi.
      + split; [|split; [now apply left_second|split; [apply shape_split; auto using shape_refl|now apply ways_gt]]]. keep Hi.
    - specialize (IHl b (p ++ [false]) seen Hil). sub IHl.
      + specialize (IHg b0 (p ++ [true]) xs Hig). sub IHg; out.
        * split; [|split; [eapply fine_swapped; eauto|now apply shape_split]]. keep Hi.
        * split; [|split; [eapply left_second_after; eauto|split; [now apply shape_split|now apply ways_gt]]]. keep Hi.
      + out. split; [|split; [now apply left_before|split; [apply shape_split; auto using shape_refl|]]]; [keep Hi|].
        apply Forall_app. split; [now apply ways_le|apply ways_child].
  Qed.
  Lemma remove_cases bits m t b p seen : tree_inv bits t -> cases bits m p t seen (remove_x C packed b p t m seen).
  Proof. unfold remove_x. destruct packed; [apply packed_cases|apply binary_cases]. Qed.

  (** ** Nodes left in _tmp: they have nothing left to remove *)
  Lemma at_none bits m : forall q t b p seen, tree_inv bits t -> subtree t q <> None -> filter (kdiv m) (tree_entries t) = [] -> cases bits m p t seen (remove_at_x C packed b p q t m seen).
  Proof.
    induction q as [|c q IH]; intros t b p seen Hi Hq Hn; cbn [remove_at_x]; [now apply remove_cases|]. destruct t as [a|v x k le gt]; [now destruct Hq|].
    cbn [subtree tree_entries] in *. rewrite filter_app in Hn. apply app_eq_nil in Hn as [Hn1 Hn2]. destruct c.
    - assert (Hig : tree_inv bits gt) by apply Hi. specialize (IH gt b (p ++ [true]) seen Hig Hq Hn2). sub IH; out.
      + split; [|split; [now apply fine_skip|apply shape_split; auto using shape_refl]]. keep Hi.
      + split; [|split; [now apply left_second|split; [apply shape_split; auto using shape_refl|now apply ways_gt]]]. keep Hi.
    - assert (Hil : tree_inv bits le) by apply Hi. specialize (IH le b (p ++ [false]) seen Hil Hq Hn1). sub IH; out.
      + split; [|split; [|apply shape_split; auto using shape_refl]]; [keep Hi|].
        destruct F as (o & -> & -> & H & ->). exists o. rewrite !filter_app, Hn2, app_nil_r. repeat split; auto. f_equal. symmetry. apply filter_all. intros y Hy.
        destruct (kdiv m y) eqn:E; auto. exfalso. assert (G : In y (filter (kdiv m) (tree_entries gt))) by (apply filter_In; auto). rewrite Hn2 in G. destruct G.
      + split; [|split; [now apply left_before|split; [apply shape_split; auto using shape_refl|now apply ways_le]]]. keep Hi.
  Qed.
  Lemma nodes_none bits m : forall qs t b seen n, tree_inv bits t -> Forall (fun q => subtree t q <> None) qs -> filter (kdiv m) (tree_entries t) = [] ->
    exists o, remove_nodes_x C packed b qs t m seen n = Ok o /\
    match o with
    | Fine _ (t', xs, n') => tree_inv bits t' /\ tree_entries t' = tree_entries t /\ xs = seen /\ n' = n
    | Left (t', ps, xs) => (one_or_unsorted -> tree_inv bits t') /\ Permutation (tree_entries t') (tree_entries t) /\ xs = seen /\ Forall (fun q => subtree t' q <> None) ps
    end.
  Proof.
    induction qs as [|q qs IH]; intros t b seen n Hi Hq Hn; cbn [remove_nodes_x]; [eexists; split; [reflexivity|]; cbn; auto|].
    inversion Hq; subst. assert (H := at_none bits m q t b [] seen Hi H1 Hn). sub H.
    - destruct F as (out & -> & -> & Hp & He). rewrite Hn in Hp. apply Permutation_sym, Permutation_nil in Hp as ->. cbn [map length]. rewrite app_nil_r, Nat.add_0_r.
      assert (He' : tree_entries t0 = tree_entries t).
      { rewrite He. apply filter_all. intros y Hy. destruct (kdiv m y) eqn:E; auto. exfalso. assert (G : In y (filter (kdiv m) (tree_entries t))) by (apply filter_In; auto).
        rewrite Hn in G. destruct G. }
      rewrite <- He' in Hn. destruct (IH t0 b0 seen n) as (o & -> & H); auto.
      + eapply Forall_impl; [|exact H2]. intros q' Hq' E. apply Hq', S, E.
      + exists o. split; auto. rewrite <- He'. exact H.
    - eexists. split; [reflexivity|]. cbn. destruct F as (out & -> & Hh). apply hurt_nothing in Hh as [-> Hh]; auto. cbn [map]. rewrite app_nil_r. repeat split; auto.
      apply Forall_app. split.
      + eapply Forall_impl; [|exact W]. intros q' (q2 & -> & H). exact H.
      + eapply Forall_impl; [|exact H2]. intros q' Hq' E. apply Hq', S, E.
  Qed.
  Lemma nodes_cases bits m qs t b : tree_inv bits t -> Forall (fun q => subtree t q <> None) qs ->
    exists o, remove_nodes_x C packed b ([] :: qs) t m [] 0 = Ok o /\
    match o with
    | Fine _ (t', xs, n) => tree_inv bits t' /\ fine_ok m (tree_entries t) [] (tree_entries t') xs n
    | Left (t', ps, xs) => (one_or_unsorted -> tree_inv bits t') /\ left_ok m (tree_entries t) [] (tree_entries t') xs /\ Forall (fun q => subtree t' q <> None) ps
    end.
  Proof.
    intros Hi Hq. cbn [remove_nodes_x remove_at_x]. assert (H := remove_cases bits m t b [] [] Hi). sub H.
    - assert (F0 := F). destruct F as (out & -> & -> & Hp & He). destruct (nodes_none bits m qs t0 b0 ([] ++ map x_t out) (0 + length out)) as (o & -> & H); auto.
      + eapply Forall_impl; [|exact Hq]. intros q' Hq' E. apply Hq', S, E.
      + rewrite He. apply filter_none. intros y Hy. apply filter_In in Hy as [_ Hy]. now apply negb_true_iff in Hy.
      + exists o. split; auto. destruct o as [b2 [[t' xs] n]|[[t' ps] xs]].
        * destruct H as (H1 & -> & -> & ->). auto.
        * destruct H as (H1 & H2 & -> & H3). split; auto. split; auto. exists out. split; auto. apply hurt_done; auto. now rewrite H2, He.
    - eexists. split; [reflexivity|]. cbn. split; auto. split; auto. apply Forall_app. split.
      + eapply Forall_impl; [|exact W]. intros q' (q2 & -> & H). exact H.
      + eapply Forall_impl; [|exact Hq]. intros q' Hq' E. apply Hq', S, E.
  Qed.

  (** ** Pointers and ways *)
  Lemma subtree_node bits : forall q t t', tree_inv bits t -> subtree t q = Some t' -> node_of C valid bits t (q, t').
  Proof.
    induction q as [|c q IH]; intros t t' Hi H; cbn [subtree] in H.
    - injection H as <-. now apply node_root.
    - destruct t as [a|v x k le gt]; [discriminate|]. destruct c.
      + destruct (IH gt t' ltac:(apply Hi) H) as (H1 & H2 & H3). cbn [fst snd] in *. split; [exact H1|]. cbn [fst snd tree_entries leaf_at app]. split; [exact H2|]. now apply incl_appr.
      + destruct (IH le t' ltac:(apply Hi) H) as (H1 & H2 & H3). cbn [fst snd] in *. split; [exact H1|]. cbn [fst snd tree_entries leaf_at app]. split; [exact H2|]. now apply incl_appl.
  Qed.
  Lemma pointers_ok bits t qs : tree_inv bits t -> Forall (node_of C valid bits t) (pointers t qs).
  Proof.
    intros Hi. apply Forall_forall. intros [q t'] H. unfold pointers in H. apply in_flat_map in H as (q0 & _ & H). destruct (subtree t q0) as [t0|] eqn:E; [|destruct H].
    destruct H as [H|[]]. injection H as <- <-. now apply subtree_node.
  Qed.
  Lemma some_leaf (t : tree) : exists q a, leaf_at t q = Some a.
  Proof. induction t as [a|v x k le IHl gt IHg]; [exists [], a; reflexivity|]. destruct IHl as (q & a & H). exists (false :: q), a. exact H. Qed.
  Lemma leaf_subtree : forall q (t : tree) q' a, leaf_at t (q ++ q') = Some a -> subtree t q <> None.
  Proof.
    induction q as [|c q IH]; intros t q' a H; cbn [subtree app] in *; [discriminate|]. destruct t as [a0|v x k le gt]; [destruct c; discriminate H|].
    destruct c; cbn [leaf_at] in H; eapply IH; eauto.
  Qed.
  Lemma tmp_ways bits t tmp : Forall (node_of C valid bits t) tmp -> Forall (fun q => subtree t q <> None) (map fst tmp).
  Proof.
    intros H. apply Forall_forall. intros q Hq. apply in_map_iff in Hq as ([q0 t'] & <- & Hin). rewrite Forall_forall in H. destruct (H _ Hin) as (_ & H2 & _). cbn [fst snd] in *.
    destruct (some_leaf t') as (q' & a & Ha). rewrite <- H2 in Ha. now apply leaf_subtree in Ha.
  Qed.

  (** ** Whole calls *)
  Notation divides := (c_divides C).
  Notation same := (same_exps (c_ex C) (c_nvars C)).
  Notation tmp_ok := (tmp_ok C valid).
  Lemma perm_map_incl (l l' : list ext) : incl l l' -> incl (map x_t l) (map x_t l').
  Proof. intros H x Hx. apply in_map_iff in Hx as (y & <- & Hy). apply in_map. auto. Qed.
  Lemma multiples_left b s m tmp s' tmp' xs : root_inv C valid (k_bits s) (k_tree s) -> good_bits C (k_bits s) -> tmp_ok s tmp ->
    remove_multiples_x C packed b s m tmp = Ok (Left (s', tmp', xs)) ->
    dcaught divides (c_leaf C =? 1) (kcontents s) (DRemoveMultiples m) xs (kcontents s') /\ k_size s' = k_size s /\ length (kcontents s') <= length (kcontents s).
  Proof.
    intros Hroot Hbits Ht. unfold remove_multiples_x. rewrite Hrem. cbn [negb].
    assert (Hm := root_multiples C valid HL (k_bits s) (k_tree s) m Hbits Hroot). assert (Hn := root_non_multiples C valid HL (k_bits s) (k_tree s) m Hbits Hroot).
    rewrite <- (kcontents_root s) in Hm, Hn. set (e := kext C (k_bits s) m) in *. unfold clients. destruct (mask_calls C s <=? b).
    - destruct (k_tree s) as [t|] eqn:Et; cbn [tree_remove_x root_entries] in *; intros H.
      + assert (Htm : Forall (node_of C valid (k_bits s) t) tmp) by (unfold ThrowsSearch.tmp_ok in Ht; now rewrite Et in Ht).
        destruct (nodes_cases (k_bits s) e (map fst tmp) t (b - mask_calls C s) Hroot (tmp_ways _ _ _ Htm)) as ([b' [[t' ys] n]|[[t' ps] ys]] & E & G); rewrite E in H; unfold fleft, fbind in H; cbn [bind] in H.
        * apply bind_inv in H as (s1 & _ & H). discriminate H.
        * injection H as <- <- <-. destruct G as (_ & (out & -> & Hh) & _). assert (Hk : kcontents s = map x_t (tree_entries t)) by (rewrite kcontents_root, Et; reflexivity).
          split; [|split; [reflexivity|rewrite Hk; cbn [kcontents k_tree]; rewrite !map_length; now apply hurt_length in Hh]].
          destruct Hh as (rest & extra & P1 & P2 & P3 & P4 & P5). apply c_multiples with (rest := map x_t rest) (extra := map x_t extra).
          -- cbn [app]. rewrite <- map_app, <- Hm. now apply Permutation_map.
          -- rewrite <- Hn, <- !map_app. now apply Permutation_map.
          -- rewrite Hk. now apply perm_map_incl.
          -- cbn [app]. now rewrite !map_length.
          -- intros Ec. now rewrite (P5 Ec).
      + unfold fleft, fbind in H. cbn [bind] in H. apply bind_inv in H as (s1 & _ & H). discriminate H.
    - intros H. injection H as <- <- <-. split; auto.
      apply c_multiples with (rest := multiples divides m (kcontents s)) (extra := []); auto; [rewrite app_nil_r; apply (yes_no (fun e => divides m e))|intros x []].
  Qed.

  Hypothesis Hone : one_or_unsorted.
  Variable alloc : bool.
  Variable ub_calls : list ext -> ext -> nat.
  Variable sort_x : nat -> list ext -> fout (list ext) (list ext).
  Variable part_x : nat -> (ext -> bool) -> list ext -> fout (list ext) (list ext * list ext).
  Hypothesis Hsort : sort_legal C sort_x.
  Hypothesis Hpart : part_legal C part_x.
  Hypothesis Hub : forall e, ub_calls [] e = 0.
  Hypothesis Hcache : c_cache C = false.
  Notation inv := (inv C valid true).
  Let Helem : true = true -> c_cache C = false := fun _ => Hcache.
  Lemma multiples_cases b s m tmp : inv s -> tmp_ok s tmp -> exists o, remove_multiples_x C packed b s m tmp = Ok o /\
    match o with
    | Fine _ (s', c, out, tmp') => inv s' /\ tmp' = [] /\ dstep divides same (kcontents s) (DRemoveMultiples m) (DORemoved c out) (kcontents s')
    | Left (s', tmp', xs) => inv s' /\ tmp_ok s' tmp' /\ dcaught divides (c_leaf C =? 1) (kcontents s) (DRemoveMultiples m) xs (kcontents s')
    end.
  Proof.
    intros Hi Ht. assert (Hleft := fun s' tmp' xs => multiples_left b s m tmp s' tmp' xs (i_root _ _ _ _ Hi) (i_bits _ _ _ _ Hi) Ht). unfold remove_multiples_x in *. rewrite Hrem in *. cbn [negb] in *.
    unfold clients in *. destruct (mask_calls C s <=? b); [|eexists; split; [reflexivity|]; cbn; split; [auto|split; [auto|now apply (Hleft s tmp [])]]]. set (b0 := b - mask_calls C s) in *. clearbody b0.
    assert (Hroot := i_root _ _ _ _ Hi). assert (Hbits := i_bits _ _ _ _ Hi). assert (Hsize := i_size _ _ _ _ Hi). cbn in Hsize.
    assert (Hm := root_multiples C valid HL (k_bits s) (k_tree s) m Hbits Hroot). assert (Hn := root_non_multiples C valid HL (k_bits s) (k_tree s) m Hbits Hroot).
    rewrite <- (kcontents_root s) in Hm, Hn. set (e := kext C (k_bits s) m) in *.
    assert (Hfine : forall t' xs n, root_inv C valid (k_bits s) t' -> fine_ok e (root_entries (k_tree s)) [] (root_entries t') xs n ->
      exists s', report_changes C packed (mk_kd t' (k_bits s) (k_size s) (k_left s) (k_cache s) (k_rebuilds s)) 0 n = Ok s' /\ inv s' /\
        dstep divides same (kcontents s) (DRemoveMultiples m) (DORemoved (0 <? n) xs) (kcontents s')).
    { intros t' xs n Hr' (out & -> & -> & Hp & He). cbn [app]. set (s0 := mk_kd t' (k_bits s) (k_size s) (k_left s) (k_cache s) (k_rebuilds s)).
      assert (Hk0 : kcontents s0 = non_multiples divides m (kcontents s)) by (rewrite kcontents_root; cbn [k_tree s0]; now rewrite He, Hn).
      assert (Hpo : Permutation (map x_t out) (multiples divides m (kcontents s))) by (rewrite <- Hm; now apply Permutation_map).
      assert (Hlen : length (non_multiples divides m (kcontents s)) + length out = length (kcontents s)).
      { rewrite <- (map_length x_t out), (Permutation_length Hpo). pose proof (Permutation_length (yes_no (fun x => divides m x) (kcontents s))) as E. rewrite app_length in E.
        unfold multiples, non_multiples. lia. }
      destruct (report_ok C valid HL packed true Helem s0 0 (length out)) as (s' & G1 & G2 & G3); auto.
      - rewrite Hk0. cbn [k_size s0]. lia.
      - rewrite Hcache. discriminate.
      - exists s'. split; auto. split; auto. replace (0 <? length out) with (match map x_t out with [] => false | _ => true end) by now destruct out. constructor; [auto|now rewrite G3, Hk0]. }
    destruct (k_tree s) as [t|] eqn:Et; cbn [tree_remove_x root_entries] in *.
    - assert (Htm : Forall (node_of C valid (k_bits s) t) tmp) by (unfold ThrowsSearch.tmp_ok in Ht; now rewrite Et in Ht).
      destruct (nodes_cases (k_bits s) e (map fst tmp) t b0 Hroot (tmp_ways _ _ _ Htm)) as ([b' [[t' xs] n]|[[t' ps] xs]] & E & H); rewrite E; unfold fleft, fbind; cbn [bind].
      + destruct H as [H1 H2]. destruct (Hfine (Some t') xs n H1 H2) as (s' & -> & G1 & G2). cbn [bind]. eexists. split; [reflexivity|]. cbn beta iota. auto.
      + rewrite E in Hleft. unfold fleft, fbind in Hleft. cbn [bind] in Hleft. destruct (Hleft _ _ _ eq_refl) as (D1 & D2 & D3). destruct H as (H1 & _ & _). specialize (H1 Hone).
        eexists. split; [reflexivity|]. split; [|split; [unfold ThrowsSearch.tmp_ok; cbn [k_tree k_bits]; now apply pointers_ok|exact D1]].
        split; auto; [lia|rewrite Hcache; discriminate].
    - destruct (Hfine None [] 0) as (s' & G0 & G1 & G2); auto; [exists []; auto|]. unfold fleft, fbind. cbn [bind]. rewrite G0. cbn [bind].
      eexists. split; [reflexivity|]. cbn beta iota. unfold ThrowsSearch.tmp_ok in Ht. rewrite Et in Ht. auto.
  Qed.

  (** What the client must not do: insert an entry once too often, or change the tree in another way than by removeMultiples while _tmp is not empty *)
  Definition hpre (l : list M) (d : bool) (o : dop M) : bool :=
    match o with
    | DInsert e => valid e && (copies same e l <? c_leaf C) && negb d
    | DRemoveElement _ => packed && negb d
    | DRebuild => negb d
    | DInsertRange _ | DToFront _ => false
    | _ => true
    end.
  Notation catch := (catch_all C packed alloc ub_calls sort_x part_x).
  Lemma all_ok s tmp o b : inv s -> tmp_ok s tmp -> hpre (kcontents s) (dirty tmp) o = true ->
    (exists s' tmp' r, catch (s, tmp) (o, b) = Ok (s', tmp', r) /\ inv s' /\ tmp_ok s' tmp' /\ hstep divides same (c_leaf C =? 1) (kcontents s) (dirty tmp) o r (kcontents s') (dirty tmp')) \/
    (at_risk C packed alloc s o = true /\ exists s', catch (s, tmp) (o, b) = Ok (s', [], Threw [])).
  Proof.
    intros Hi Ht Hp. destruct (is_search o) eqn:Hs.
    - left. assert (Hz : o = DSize \/ o <> DSize) by (destruct o; auto; right; discriminate). destruct Hz as [->|Hz].
      + exists s, tmp, (Answered (DOSize (k_size s))). split; [reflexivity|]. split; auto. split; auto. apply h_size. apply (i_size _ _ _ _ Hi).
      + destruct (search_ok C valid HL packed ub_calls true Helem s tmp o b Hi Ht Hs (fun _ => Hz)) as (s' & tmp' & r & H1 & H2 & H3 & H4 & H5).
        exists s', tmp', r. split; [|split; [|split; auto]].
        * unfold catch_all, catch_x in *. cbn [fst snd] in *. destruct o; try discriminate Hs; cbn [all_x];
            (destruct (step_x C packed ub_calls b s tmp _) as [[b' [[s1 tmp1] r1]|[tmp1 xs]]| | |]; cbn [fleft bind fst snd] in *; try discriminate H1; auto).
        * destruct r as [a|xs]; [|now subst s']. destruct H5 as (a0 & H5). assert (Hk : kpre C valid packed true (kcontents s) o = true) by (destruct o; auto; try discriminate Hs; now destruct Hz).
          destruct (step_ok C valid HL packed true Helem s o Hi Hk) as (s2 & r2 & G1 & G2 & _). rewrite H5 in G1. now injection G1 as <- _.
        * rewrite H3. now apply h_search.
    - assert (Hm : (exists m, o = DRemoveMultiples m) \/ forall m, o <> DRemoveMultiples m) by (destruct o; eauto; right; discriminate). destruct Hm as [[m ->]|Hm].
      + left. destruct (multiples_cases b s m tmp Hi Ht) as ([b' [[[s' c] out] tmp']|[[s' tmp'] xs]] & E & H); unfold catch_all; cbn [fst snd all_x]; rewrite E; unfold fbind; cbn [bind].
        * destruct H as (H1 & -> & H2). exists s', [], (Answered (DORemoved c out)). split; auto. split; auto. split; [unfold ThrowsSearch.tmp_ok; destruct (k_tree s'); auto|]. now apply h_removed.
        * destruct H as (H1 & H2 & H3). exists s', tmp', (Threw xs). split; auto. split; auto. split; auto. now apply h_remove_threw.
      + assert (Hd : tmp = []).
        { destruct tmp; auto. exfalso. destruct o; try discriminate Hs; try discriminate Hp; cbn [hpre dirty negb] in Hp; try (now destruct (Hm m)); rewrite ?andb_false_r in Hp; discriminate Hp. }
        subst tmp. assert (Hk : kpre C valid packed true (kcontents s) o = true).
        { destruct o; auto; try discriminate Hs; try discriminate Hp; try (now destruct (Hm m)); cbn [hpre kpre dirty negb] in *; rewrite ?andb_true_r in *; auto. now rewrite Hp, Hrem. }
        assert (Ec : catch (s, []) (o, b) = let* (s', r) := catch_change C packed alloc ub_calls sort_x part_x s (o, b) in Ok (s', [], match r with Answered a => Answered a | Threw _ => Threw [] end)).
        { unfold catch_all, catch_change. cbn [fst snd]. destruct o; try discriminate Hs; try (now destruct (Hm m)); cbn [all_x];
            (destruct (change_x C packed alloc ub_calls sort_x part_x b s _) as [[b' [s1 r1]|s1]| | |]; reflexivity). }
        destruct (catch_ok C packed alloc ub_calls sort_x part_x Hsort Hpart valid HL true Helem Hub s o b Hi Hk) as [(s' & r & G1 & G2 & G3)|[G1 (s' & G2)]].
        * left. rewrite G1 in Ec. cbn [bind] in Ec. exists s', [], r. split; [|split; auto; split; [unfold ThrowsSearch.tmp_ok; destruct (k_tree s'); auto|now apply h_change]].
          etransitivity; [exact Ec|]. destruct r as [a|xs]; auto. inversion G3; subst; auto; try discriminate Hs. now destruct (Hm m).
        * right. split; auto. exists s'. etransitivity; [exact Ec|]. rewrite G2. reflexivity.
  Qed.
  Lemma alls_ok : forall h s tmp, inv s -> tmp_ok s tmp ->
    (exists s' tmp' rs, run catch (s, tmp) h = Ok (s', tmp', rs) /\ htrace divides same (c_leaf C =? 1) (kcontents s) (dirty tmp) (map fst h) rs (kcontents s') (dirty tmp')) \/
    (exists h1 o b h2 s' tmp' rs, h = h1 ++ (o, b) :: h2 /\ run catch (s, tmp) h1 = Ok (s', tmp', rs) /\ htrace divides same (c_leaf C =? 1) (kcontents s) (dirty tmp) (map fst h1) rs (kcontents s') (dirty tmp') /\
      (hpre (kcontents s') (dirty tmp') o = false \/ at_risk C packed alloc s' o = true /\ exists s'', catch (s', tmp') (o, b) = Ok (s'', [], Threw []))).
  Proof.
    induction h as [|[o b] h IH]; intros s tmp Hi Ht.
    - left. exists s, tmp, []. split; [reflexivity|]. constructor.
    - destruct (hpre (kcontents s) (dirty tmp) o) eqn:Hp; [|right; exists [], o, b, h, s, tmp, []; repeat split; auto; constructor].
      destruct (all_ok s tmp o b Hi Ht Hp) as [(s1 & tmp1 & r & H1 & H2 & H3 & H4)|[Hk Hx]]; [|right; exists [], o, b, h, s, tmp, []; repeat split; auto; constructor].
      destruct (IH s1 tmp1 H2 H3) as [(s2 & tmp2 & rs & G1 & G3)|(h1 & o2 & b2 & h2 & s2 & tmp2 & rs & -> & G1 & G2 & G3)].
      + left. exists s2, tmp2, (r :: rs). cbn [run]. rewrite H1. cbn [bind]. rewrite G1. split; [reflexivity|]. cbn [map fst]. econstructor; eauto.
      + right. exists ((o, b) :: h1), o2, b2, h2, s2, tmp2, (r :: rs). cbn [run]. rewrite H1. cbn [bind]. rewrite G1. split; [reflexivity|]. split; [reflexivity|]. split; auto.
        cbn [map fst]. econstructor; eauto.
  Qed.
End RemoveThrows.
