(** Proofs about searches in which client functions throw: a search throws or does what it does without exceptions. *)
From Coq Require Import List Arith Bool ZArith NArith Lia.
From Verif.Base Require Import Res Arr ResList StdAlg Fault FaultFacts.
From Verif.DivMask Require Import Model.
From Verif.Spec Require Import DivFinder DivCaught DivStale.
From Verif.DivList Require Model Throws.
From Verif.KD Require Import EntryArray Tree Model Throws.
Import ListNotations.

Section Throws.
  Context {M : Type}.
  Variable C : kconf M.
  Variable packed : bool.
  Variable ub_calls : list (ext M) -> ext M -> nat.
  Notation ext := (ext M).
  Notation todo := (@todo M).

  Lemma tot_fbind_ok {S A B} (m : res (fout S A)) c (f : nat -> A -> res (fout S B)) n : tot m (Ok c) -> (forall b, tot (f b c) n) -> tot (fbind m f) n.
  Proof.
    intros Hm Hf r H. destruct (Hm c eq_refl) as ([b a|s] & -> & He); unfold fbind; cbn [bind].
    - subst a. now apply Hf.
    - eexists. split; [reflexivity|]. exact I.
  Qed.
  Lemma tot_kdiv {St} b (st : St) x y : tot (kdiv_x C b st x y) (Ok (kdiv C x y)).
  Proof.
    unfold kdiv_x, Throws.ediv_x, kdiv, ext_divides. destruct (has_can_divide (c_use C) (x_mask x) (x_mask y)); cbn [andb]; [|apply tot_ok].
    apply tot_client. intros b'. apply tot_ok.
  Qed.
  Lemma tot_scan m : forall l b, tot (scan_x C b m l) (Ok (Model.scan M (fun x => kdiv C x m) l)).
  Proof.
    induction l as [|x l IH]; intros b; cbn [scan_x Model.scan]; [apply tot_ok|].
    apply (tot_fbind_ok _ _ _ _ (tot_kdiv b tt x m)). intros b'. destruct (kdiv C x m); [apply tot_ok|].
    apply (tot_fbind_ok _ _ _ _ (IH b')). intros b''. apply tot_ok.
  Qed.
  Lemma tot_arr_find b a m : tot (arr_find_x C ub_calls b a m) (arr_find C a m).
  Proof.
    unfold arr_find_x, arr_find. destruct (ruled_out C a m); [apply tot_ok|]. destruct (c_leaf C =? 1).
    - destruct (a_list a) as [|x l]; [destruct (c_removals C); [apply tot_ok|apply tot_ub]|].
      apply (tot_fbind_ok _ _ _ _ (tot_kdiv b tt x m)). intros b'. apply tot_ok.
    - destruct (negb (c_sorted C)); [apply tot_scan|]. apply tot_bind. intros i _. apply tot_clients. intros b'. apply tot_scan.
  Qed.
  Lemma tot_feed cb p q : (forall b seen x, tot (p b seen x) (Ok (q x))) -> forall l b seen, tot (feed_x cb p b l seen) (Ok (Model.feed M cb q l seen)).
  Proof.
    intros Hp. induction l as [|x l IH]; intros b seen; cbn [feed_x Model.feed]; [apply tot_ok|].
    apply (tot_fbind_ok _ _ _ _ (Hp b seen x)). intros b'. destruct (q x); [|apply IH]. apply tot_client. intros b''. cbv zeta.
    destruct (cb (seen ++ [x_t x])); [apply IH|apply tot_ok].
  Qed.
  Lemma tot_report cb p q : (forall b seen x, tot (p b seen x) (Ok (q x))) -> forall l b seen, tot (arr_report_x C cb p b l seen) (arr_report C cb q l seen).
  Proof.
    intros Hp l b seen. unfold arr_report_x, arr_report. destruct (c_leaf C =? 1); [|now apply tot_feed].
    destruct l as [|x l]; [destruct (c_removals C); [apply tot_ok|apply tot_ub]|].
    apply (tot_fbind_ok _ _ _ _ (Hp b seen x)). intros b'. destruct (q x); [|apply tot_ok]. apply tot_client. intros b''. apply tot_ok.
  Qed.
  Lemma tot_arr_divisors b a m cb seen : tot (arr_divisors_x C ub_calls b a m cb seen) (arr_divisors C a m cb seen).
  Proof.
    unfold arr_divisors_x, arr_divisors. assert (Hp : forall b (seen : list M) x, tot (kdiv_x C b seen x m) (Ok (kdiv C x m))) by (intros; apply tot_kdiv).
    destruct (ruled_out C a m); [apply tot_ok|]. destruct ((c_leaf C =? 1) || negb (c_sorted C)); [now apply (tot_report cb (fun b seen x => kdiv_x C b seen x m))|].
    apply tot_bind. intros i _. apply tot_clients. intros b'. now apply (tot_report cb (fun b seen x => kdiv_x C b seen x m)).
  Qed.
  Lemma tot_arr_multiples b a m cb seen : tot (arr_multiples_x C b a m cb seen) (arr_multiples C a m cb seen).
  Proof. apply tot_report. intros. apply tot_kdiv. Qed.
  Lemma tot_arr_for_all b a cb seen : tot (arr_for_all_x C b a cb seen) (arr_for_all C a cb seen).
  Proof. apply tot_report. intros. apply tot_ok. Qed.

  Lemma tot_find_loop m : forall f b p t stack, tot (find_loop_x C ub_calls b f m p t stack) (find_loop C f m p t stack).
  Proof.
    induction f as [|f IH]; intros b p t stack; cbn [find_loop_x find_loop]; [apply tot_nofuel|].
    assert (Hn : forall b, tot (match stack with [] => Ok (Fine b None) | (p', t') :: stack' => find_loop_x C ub_calls b f m p' t' stack' end)
      (match stack with [] => Ok None | (p', t') :: stack' => find_loop C f m p' t' stack' end)) by (intros b'; destruct stack as [|[p' t'] stack']; [apply tot_ok|apply IH]).
    destruct t as [a|v e mask le gt].
    - apply tot_fbind; [apply tot_fleft, tot_arr_find|]. intros b' r _. destruct r; [apply tot_ok|apply Hn].
    - destruct (c_tree C && negb (can_divide mask (x_mask m))); [apply Hn|]. apply tot_client. intros b'.
      destruct (above C v e (x_t m)); [apply tot_client; intros b''; apply IH|apply IH].
  Qed.
  Lemma tot_divisors_loop m cb : forall f b p t stack seen, tot (divisors_loop_x C ub_calls b f m cb p t stack seen) (divisors_loop C f m cb t (map snd stack) seen).
  Proof.
    induction f as [|f IH]; intros b p t stack seen; cbn [divisors_loop_x divisors_loop]; [apply tot_nofuel|].
    assert (Hn : forall b seen, tot (match stack with [] => Ok (Fine b seen) | (p', t') :: stack' => divisors_loop_x C ub_calls b f m cb p' t' stack' seen end)
      (match map snd stack with [] => Ok seen | t' :: stack' => divisors_loop C f m cb t' stack' seen end)) by (intros b' seen'; destruct stack as [|[p' t'] stack']; [apply tot_ok|apply IH]).
    destruct t as [a|v e mask le gt].
    - apply tot_fbind; [apply tot_fleft, tot_arr_divisors|]. intros b' [seen' go] _. destruct go; [apply Hn|apply tot_ok].
    - destruct (c_tree C && negb (can_divide mask (x_mask m))); [apply Hn|]. apply tot_client. intros b'.
      destruct (above C v e (x_t m)); [apply tot_client; intros b''; apply (IH b'' _ le ((p ++ [true], gt) :: stack))|apply IH].
  Qed.
  Lemma tot_multiples_loop m cb : forall f b p t stack seen, tot (multiples_loop_x C b f m cb p t stack seen) (multiples_loop C f m cb t (map snd stack) seen).
  Proof.
    induction f as [|f IH]; intros b p t stack seen; cbn [multiples_loop_x multiples_loop]; [apply tot_nofuel|]. destruct t as [a|v e mask le gt].
    - apply tot_fbind; [apply tot_fleft, tot_arr_multiples|]. intros b' [seen' go] _. destruct go; [|apply tot_ok].
      destruct stack as [|[p' t'] stack']; [apply tot_ok|apply IH].
    - apply tot_client. intros b'. destruct (negb (above C v e (x_t m))); [apply tot_client; intros b''; apply (IH b'' _ gt ((p ++ [false], le) :: stack))|apply IH].
  Qed.
  Lemma tot_multiples_loop_packed m cb : forall f b p t stack seen,
    tot (multiples_loop_packed_x C b f m cb p t stack seen) (multiples_loop_packed C f m cb t (map snd stack) seen).
  Proof.
    induction f as [|f IH]; intros b p t stack seen; cbn [multiples_loop_packed_x multiples_loop_packed]; [apply tot_nofuel|]. destruct t as [a|v e mask le gt].
    - apply tot_fbind; [apply tot_fleft, tot_arr_multiples|]. intros b' [seen' go] _. destruct go; [|apply tot_ok].
      destruct stack as [|[p' t'] stack']; [apply tot_ok|apply IH].
    - apply tot_client. intros b'. apply tot_client. intros b''. destruct (above C v e (x_t m)); [apply IH|apply (IH b'' _ le ((p ++ [true], gt) :: stack))].
  Qed.
  Lemma tot_for_all_loop cb : forall f b p t stack seen, tot (for_all_loop_x C b f cb p t stack seen) (for_all_loop C f cb t (map snd stack) seen).
  Proof.
    induction f as [|f IH]; intros b p t stack seen; cbn [for_all_loop_x for_all_loop]; [apply tot_nofuel|]. destruct t as [a|v e mask le gt].
    - apply tot_fbind; [apply tot_fleft, tot_arr_for_all|]. intros b' [seen' go] _. destruct go; [|apply tot_ok].
      destruct stack as [|[p' t'] stack']; [apply tot_ok|apply IH].
    - apply tot_client. intros b'. apply (IH b' _ le ((p ++ [true], gt) :: stack)).
  Qed.
  Lemma push_children_fine : forall t b p (stack : todo) (seen : list M),
    exists o, push_children_x b p t stack seen = Ok o /\ match o with Fine _ st => map snd st = push_children t (map snd stack) | Left _ => True end.
  Proof.
    induction t as [a|v e mask le IHl gt IHg]; intros b p stack seen; cbn [push_children_x push_children]; [eexists; split; reflexivity|].
    destruct b as [|b]; cbn [client]; [eexists; split; [reflexivity|exact I]|]. exact (IHl b (p ++ [false]) ((p ++ [true], gt) :: stack) seen).
  Qed.
  Lemma tot_for_all_loop_packed cb : forall f b p t stack seen,
    tot (for_all_loop_packed_x C b f cb p t stack seen) (for_all_loop_packed C f cb t (map snd stack) seen).
  Proof.
    induction f as [|f IH]; intros b p t stack seen; cbn [for_all_loop_packed_x for_all_loop_packed]; [apply tot_nofuel|].
    apply tot_fbind; [apply tot_fleft, tot_arr_for_all|]. intros b' [seen' go] _. destruct go; [|apply tot_ok].
    destruct (push_children_fine t b' p stack seen') as ([b'' st|l] & -> & H); unfold fbind; cbn [bind].
    - rewrite <- H. destruct st as [|[p' t'] st]; [apply tot_ok|apply IH].
    - intros r _. eexists. split; [reflexivity|]. exact I.
  Qed.

  Lemma steps_nil (t : tree M) : steps_for t [] = nodes t.
  Proof. unfold steps_for. cbn [fold_right]. apply Nat.add_0_r. Qed.
  Lemma tot_reports (loop_x : nat -> list bool -> tree M -> todo -> list M -> res (fout (todo * list M) (list M)))
    (loop : nat -> tree M -> list (tree M) -> list M -> res (list M)) b root :
    (forall f t, tot (loop_x f [] t [] []) (loop f t [] [])) ->
    tot (tree_reports loop_x b root []) (let* xs := match root with None => Ok [] | Some t => loop (nodes t) t [] [] end in Ok (xs, [])).
  Proof.
    intros H. destruct root as [t|]; cbn [tree_reports]; [|apply tot_ok]. rewrite steps_nil. apply tot_fbind; [apply H|]. intros. apply tot_ok.
  Qed.
  Lemma tot_find_divisor b s m : tot (find_divisor_x C ub_calls b s m []) (let* (s', r) := find_divisor C s m in Ok (s', r, [])).
  Proof.
    unfold find_divisor_x, find_divisor. cbv zeta.
    assert (Hs : forall b, tot (clients (mask_calls C s) b [] (fun b => fbind (tree_find_x C ub_calls b (k_tree s) (kext C (k_bits s) m) []) (fun b r =>
        let (r, tmp') := r in Ok (Fine b (match r with Some _ => if c_cache C then mk_kd (k_tree s) (k_bits s) (k_size s) (k_left s) r (k_rebuilds s) else s | None => s end, r, tmp')))))
      (let* (s', r) := (let* r := tree_find C (k_tree s) (kext C (k_bits s) m) in
        Ok (match r with Some _ => if c_cache C then mk_kd (k_tree s) (k_bits s) (k_size s) (k_left s) r (k_rebuilds s) else s | None => s end, r)) in Ok (s', r, []))).
    { intros b0. apply tot_clients. intros b1. destruct (k_tree s) as [t|]; cbn [tree_find_x tree_find]; [|apply tot_ok]. rewrite steps_nil.
      intros r H. apply bind_inv in H as ([s1 r1] & H & H'). injection H' as <-. apply bind_inv in H as (r2 & H & H'). injection H' as <- <-.
      destruct (tot_find_loop (kext C (k_bits s) m) (nodes t) b1 [] t [] r2 H) as ([b2 a|l] & -> & E); unfold fbind; cbn [bind]; (eexists; split; [reflexivity|]); [now subst a|exact I]. }
    destruct (c_cache C); [|apply Hs]. destruct (k_cache s) as [p|]; [|apply Hs]. destruct (entry_at s p) as [e| | |]; cbn [bind]; try (intros r H; discriminate H).
    apply tot_client. intros b'. destruct (c_divides C e m); [apply tot_ok|apply Hs].
  Qed.
  (** A search in a tree whose stack is empty *)
  Lemma tot_search b s o : is_search o = true -> tot (step_x C packed ub_calls b s [] o) (let* (s', r) := step C packed s o in Ok (s', [], r)).
  Proof.
    intros Ho. destruct o as [e|es|m|m|m|m cb|m cb|cb|m| |]; try discriminate Ho; cbn [step_x step].
    - intros r H. apply bind_inv in H as ([s1 r1] & H & H'). injection H' as <-. apply bind_inv in H as ([s2 r2] & H & H').
      destruct (tot_find_divisor b s m (s2, r2, [])) as ([b2 a|l] & -> & E); [now rewrite H| |]; unfold fbind, fleft; cbn [bind].
      + subst a. destruct r2 as [p|]; [apply bind_inv in H' as (e & -> & H'); cbn [bind]|]; injection H' as <- <-; (eexists; split; [reflexivity|]); reflexivity.
      + eexists. split; [reflexivity|]. exact I.
    - apply tot_clients. intros b'. intros r H. apply bind_inv in H as ([s1 r1] & H & H'). injection H' as <-. apply bind_inv in H as (xs & H & H'). injection H' as <- <-.
      destruct (tot_reports (fun fuel => divisors_loop_x C ub_calls b' fuel (kext C (k_bits s) m) cb) (fun f => divisors_loop C f (kext C (k_bits s) m) cb) b' (k_tree s)
        (fun f t => tot_divisors_loop _ cb f b' [] t [] []) (xs, [])) as ([b2 a|l] & E & E'); [unfold tree_divisors in H; now rewrite H| |];
        unfold tree_divisors_x; rewrite E; unfold fbind; cbn [bind]; (eexists; split; [reflexivity|]); [now subst a|exact I].
    - apply tot_clients. intros b'. intros r H. apply bind_inv in H as ([s1 r1] & H & H'). injection H' as <-. apply bind_inv in H as (xs & H & H'). injection H' as <- <-.
      destruct (tot_reports (fun fuel => if packed then multiples_loop_packed_x C b' fuel (kext C (k_bits s) m) cb else multiples_loop_x C b' fuel (kext C (k_bits s) m) cb)
        (fun f => if packed then multiples_loop_packed C f (kext C (k_bits s) m) cb else multiples_loop C f (kext C (k_bits s) m) cb) b' (k_tree s)) with (r := (xs, @nil (list bool * tree M))) as ([b2 a|l] & E & E').
      + intros f t. destruct packed; [apply (tot_multiples_loop_packed _ cb f b' [] t [] [])|apply (tot_multiples_loop _ cb f b' [] t [] [])].
      + unfold tree_multiples in H. destruct (k_tree s); [|now injection H as <-]. destruct packed; now rewrite H.
      + unfold tree_multiples_x; rewrite E; unfold fbind; cbn [bind]; (eexists; split; [reflexivity|]). now subst a.
      + unfold tree_multiples_x; rewrite E; unfold fbind; cbn [bind]; (eexists; split; [reflexivity|]). exact I.
    - intros r H. apply bind_inv in H as ([s1 r1] & H & H'). injection H' as <-. apply bind_inv in H as (xs & H & H'). injection H' as <- <-.
      destruct (tot_reports (fun fuel => if packed then for_all_loop_packed_x C b fuel cb else for_all_loop_x C b fuel cb)
        (fun f => if packed then for_all_loop_packed C f cb else for_all_loop C f cb) b (k_tree s)) with (r := (xs, @nil (list bool * tree M))) as ([b2 a|l] & E & E').
      + intros f t. destruct packed; [apply (tot_for_all_loop_packed cb f b [] t [] [])|apply (tot_for_all_loop cb f b [] t [] [])].
      + unfold tree_for_all in H. destruct (k_tree s); [|now injection H as <-]. destruct packed; now rewrite H.
      + unfold tree_for_all_x; rewrite E; unfold fbind; cbn [bind]; (eexists; split; [reflexivity|]). now subst a.
      + unfold tree_for_all_x; rewrite E; unfold fbind; cbn [bind]; (eexists; split; [reflexivity|]). exact I.
    - apply tot_ok.
  Qed.
End Throws.
