(** Proofs about Geobucket/Counted.v: counting changes nothing. *)
From Coq Require Import List Arith Bool Lia.
From Verif.Base Require Import Res Arr Count.
From Verif.Spec Require Import PQ.
From Verif.Geobucket Require Import Model Counted ListProofs.
Import ListNotations.

Section Forget.
  Context {E : Type}.
  Variable lt eqv : E -> E -> bool.
  Variable dedup : E -> E -> E.
  Variable C : config.
  Notation geobucket := (geobucket E).

  Ltac pairs := repeat match goal with x : (_ * _)%type |- _ => destruct x end; cbv beta iota.
  Ltac fgs := rewrite ?forget_bind; repeat (first [rewrite forget_free | rewrite forget_bind]); cbn [bind].
  (** Goes through a function and its counted copy side by side *)
  Ltac side := repeat first
    [ reflexivity
    | match goal with
      | |- forget (free _) = _ => rewrite forget_free
      | |- forget (cbind (compare _ _ _ _ _) _) = _ => rewrite forget_bind; cbn [compare forget bind]
      | |- forget (cbind (free (Ok _)) _) = _ => rewrite forget_bind, forget_free; cbn [bind]
      | |- forget (cbind (free ?m) _) = _ => rewrite forget_bind, forget_free; apply bind_ext; [reflexivity|intros ?; pairs]
      | |- forget (if ?b then _ else _) = _ => destruct b
      end ].
  Ltac into L := rewrite forget_bind; apply bind_ext; [first [apply L|reflexivity]|intros ?; pairs].

  Lemma ki_forget bs a b : forall pos slots toks, forget (ki_loop_c E lt eqv C bs a slots toks b pos) = ki_loop E lt C bs a slots toks b pos.
  Proof. induction pos as [|p IH]; intros slots toks; cbn [ki_loop_c ki_loop]; side. apply IH. Qed.
  Lemma kd_forget a n b : forall k bs cnt slots toks pos,
    forget (kd_loop_c E lt eqv dedup C k bs cnt a slots n toks b pos) = kd_loop E lt eqv dedup C k bs cnt a slots n toks b pos.
  Proof. induction k as [|k IH]; intros bs cnt slots toks pos; cbn [kd_loop_c kd_loop]; side; apply IH. Qed.
  Lemma keyIncreased_forget bs f b : forget (f_keyIncreased_c E lt eqv C bs f b) = f_keyIncreased E lt C bs f b.
  Proof. destruct f as [c|a slots n toks]; cbn [f_keyIncreased_c f_keyIncreased]; side. into ki_forget. side. Qed.
  Lemma f_insert_forget bs f b : forget (f_insert_c E lt eqv C bs f b) = f_insert E lt C bs f b.
  Proof. destruct f as [c|a slots n toks]; cbn [f_insert_c f_insert]; side. apply keyIncreased_forget. Qed.
  Lemma keyDecreased_forget bs cnt f b : forget (f_keyDecreased_c E lt eqv dedup C bs cnt f b) = f_keyDecreased E lt eqv dedup C bs cnt f b.
  Proof. destruct f as [c|a slots n toks]; cbn [f_keyDecreased_c f_keyDecreased]; side. apply kd_forget. Qed.
  Lemma cm_forget : forall k bs cnt mx it, forget (cm_loop_c E lt eqv dedup C k bs cnt mx it) = cm_loop E lt eqv dedup C k bs cnt mx it.
  Proof. induction k as [|k IH]; intros bs cnt mx it; cbn [cm_loop_c cm_loop]; side; apply IH. Qed.
  Lemma getMax_forget g : forget (gb_getMax_c E lt eqv dedup C g) = gb_getMax E lt eqv dedup C g.
  Proof. unfold gb_getMax_c, gb_getMax. destruct (g_front g) as [[c|]|a slots n toks]; side. into cm_forget. side. Qed.

  Lemma merge_c_nil_r l1 : gb_merge_c E lt eqv dedup C l1 [] = (l1, 0, 0).
  Proof. now destruct l1. Qed.
  Lemma merge_c_cons a l1 b l2 : gb_merge_c E lt eqv dedup C (a :: l1) (b :: l2) =
    if lt a b then let '(r, k, c) := gb_merge_c E lt eqv dedup C l1 (b :: l2) in (a :: r, k, S c)
    else if negb (supportDeduplication C) || negb (eqv a b) then let '(r, k, c) := gb_merge_c E lt eqv dedup C (a :: l1) l2 in (b :: r, k, S c)
    else let '(r, k, c) := gb_merge_c E lt eqv dedup C l1 l2 in (dedup a b :: r, S k, S c).
  Proof. reflexivity. Qed.
  Lemma merge_forget : forall l1 l2, fst (gb_merge_c E lt eqv dedup C l1 l2) = gb_merge E lt eqv dedup C l1 l2.
  Proof.
    induction l1 as [|a l1 IH1]; [reflexivity|]. induction l2 as [|b l2 IH2]; [reflexivity|].
    rewrite merge_c_cons, gb_merge_cons. destruct (lt a b).
    - rewrite <- IH1. now destruct (gb_merge_c E lt eqv dedup C l1 (b :: l2)) as [[r k] c].
    - destruct (_ || _).
      + rewrite <- IH2. now destruct (gb_merge_c E lt eqv dedup C (a :: l1) l2) as [[r k] c].
      + rewrite <- IH1. now destruct (gb_merge_c E lt eqv dedup C l1 l2) as [[r k] c].
  Qed.
  (** One comparison for each entry passed: what is merged and what is removed *)
  Lemma merge_count : forall l1 l2 r k c, gb_merge_c E lt eqv dedup C l1 l2 = (r, k, c) ->
    c <= length l1 + length l2 /\ length r + k = length l1 + length l2.
  Proof.
    induction l1 as [|a l1 IH1]. { intros l2 r k c H. injection H as <- <- <-. simpl. lia. }
    induction l2 as [|b l2 IH2]; intros r k c. { intros H. injection H as <- <- <-. simpl. lia. }
    rewrite merge_c_cons. destruct (lt a b); [|destruct (_ || _)].
    - destruct (gb_merge_c E lt eqv dedup C l1 (b :: l2)) as [[r' k'] c'] eqn:H. intros H'. injection H' as <- <- <-. apply IH1 in H. simpl in *. lia.
    - destruct (gb_merge_c E lt eqv dedup C (a :: l1) l2) as [[r' k'] c'] eqn:H. intros H'. injection H' as <- <- <-. specialize (IH2 _ _ _ eq_refl). simpl in *. lia.
    - destruct (gb_merge_c E lt eqv dedup C l1 l2) as [[r' k'] c'] eqn:H. intros H'. injection H' as <- <- <-. apply IH1 in H. simpl in *. lia.
  Qed.
  Lemma merging_forget {B} l1 l2 (kc : list E * nat -> counted B) (k : list E -> nat -> res B) : (forall r n, forget (kc (r, n)) = k r n) ->
    forget (cbind (merging E lt eqv dedup C l1 l2) kc) = let (r, n) := gb_merge E lt eqv dedup C l1 l2 in k r n.
  Proof.
    intros H. rewrite forget_bind. unfold merging. rewrite <- merge_forget. destruct (gb_merge_c E lt eqv dedup C l1 l2) as [[r n] c]. cbn. apply H.
  Qed.

  Lemma mergeRange_forget g i l : forget (gb_mergeRange_c E lt eqv dedup C g i l) = gb_mergeRange E lt eqv dedup C g i l.
  Proof.
    unfold gb_mergeRange_c, gb_mergeRange. side. destruct (bucketStorage C); apply merging_forget; intros r n; side; into keyIncreased_forget; side.
  Qed.
  Lemma mergeToNonEmpty_forget g i j : forget (gb_mergeToNonEmpty_c E lt eqv dedup C g i j) = gb_mergeToNonEmpty E lt eqv dedup C g i j.
  Proof. unfold gb_mergeToNonEmpty_c, gb_mergeToNonEmpty. side. into mergeRange_forget. side. Qed.
  Lemma mergeToEmpty_forget g i j l : forget (gb_mergeToEmpty_c E lt eqv dedup C g i j l) = gb_mergeToEmpty E lt eqv dedup C g i j l.
  Proof. unfold gb_mergeToEmpty_c, gb_mergeToEmpty. side. apply merging_forget; intros r n; side. into keyIncreased_forget. side. Qed.
  Lemma assign_forget g i l : forget (gb_assign_c E lt eqv C g i l) = gb_assign E lt C g i l.
  Proof. unfold gb_assign_c, gb_assign. side. into f_insert_forget. side. Qed.
  Lemma carry_forget go_c go g b l : (forall g b l, forget (go_c g b l) = go g b l) ->
    forget (carry_c E lt eqv dedup C go_c g b l) = carry E lt eqv dedup C go g b l.
  Proof.
    intros H. unfold carry_c, carry. side. { apply mergeToEmpty_forget. } apply merging_forget; intros r n; side. apply H.
  Qed.
  Lemma carry_loop_forget : forall fuel g b l, forget (carry_loop_c E lt eqv dedup C fuel g b l) = carry_loop E lt eqv dedup C fuel g b l.
  Proof.
    induction fuel as [|fuel IH]; intros g b l; cbn [carry_loop_c carry_loop]; side. { apply mergeRange_forget. } apply carry_forget, IH.
  Qed.
  Lemma insert_forget g b l : forget (gb_insert_c E lt eqv dedup C g b l) = gb_insert E lt eqv dedup C g b l.
  Proof.
    unfold gb_insert_c, gb_insert. destruct (premerge C).
    - unfold gb_insert_premerge_c, gb_insert_premerge. side. rewrite forget_bind. apply bind_ext.
      { side. into mergeToNonEmpty_forget. side. }
      intros g2. side; [apply assign_forget|apply mergeRange_forget].
    - unfold gb_insert_nopremerge_c, gb_insert_nopremerge. side; [apply assign_forget|apply mergeRange_forget|apply carry_forget, carry_loop_forget].
  Qed.
  Lemma bin_forget l x : forall fuel b r, forget (bin_search_c E lt eqv C fuel l x b r) = bin_search E lt eqv C fuel l x b r.
  Proof. induction fuel as [|fuel IH]; intros b r; cbn [bin_search_c bin_search]; side; apply IH. Qed.
  Lemma lin_forget x : forall l pos, forget (lin_search_c E lt eqv C l x pos) = Ok (lin_search E lt eqv C l x pos).
  Proof. induction l as [|y l IH]; intros pos; cbn [lin_search_c lin_search]; side; apply IH. Qed.
  Lemma push_forget g x : forget (gb_push_c E lt eqv dedup C g x) = gb_push E lt eqv dedup C g x.
  Proof.
    unfold gb_push_c, gb_push. side. { apply insert_forget. } { into f_insert_forget. side. }
    rewrite forget_bind. apply bind_ext. { destruct (minBucketBinarySearch C); [apply bin_forget|apply lin_forget]. }
    intros [i| |i]; side. into keyIncreased_forget. side.
  Qed.
  Lemma pushRange_forget g xs : forget (gb_pushRange_c E lt eqv dedup C g xs) = gb_pushRange E lt eqv dedup C g xs.
  Proof. unfold gb_pushRange_c, gb_pushRange. side. apply insert_forget. Qed.
  Lemma pop_forget g : forget (gb_pop_c E lt eqv dedup C g) = gb_pop E lt eqv dedup C g.
  Proof. unfold gb_pop_c, gb_pop. into getMax_forget. side. into keyDecreased_forget. side. Qed.
  Lemma top_forget g : forget (gb_top_c E lt eqv dedup C g) = gb_top E lt eqv dedup C g.
  Proof. unfold gb_top_c, gb_top. into getMax_forget. side. Qed.
  Lemma decreaseTop_forget g x : forget (gb_decreaseTop_c E lt eqv dedup C g x) = gb_decreaseTop E lt eqv dedup C g x.
  Proof. unfold gb_decreaseTop_c, gb_decreaseTop. into pop_forget. apply push_forget. Qed.
  Lemma call_forget g o : forget (gb_call_c E lt eqv dedup C g o) = gb_step E lt eqv dedup C g o.
  Proof.
    destruct o; cbn [gb_call_c gb_step]; side.
    - into push_forget. side.
    - into pushRange_forget. side.
    - into pop_forget. side.
    - into top_forget. side.
    - into decreaseTop_forget. side.
  Qed.

  Lemma step_forget g n o : (let* (s, r) := gb_step_c E lt eqv dedup C (g, n) o in Ok (fst s, r)) = gb_step E lt eqv dedup C g o.
  Proof. rewrite <- call_forget. unfold gb_step_c, forget. cbn [fst snd]. now destruct (gb_call_c E lt eqv dedup C g o) as [[[g' r] c]| | |]. Qed.
  Lemma run_forget : forall ops g n, (let* (s, rs) := run (gb_step_c E lt eqv dedup C) (g, n) ops in Ok (fst s, rs)) = run (gb_step E lt eqv dedup C) g ops.
  Proof.
    induction ops as [|o ops IH]; intros g n; cbn [run]; [reflexivity|]. rewrite <- (step_forget g n o).
    destruct (gb_step_c E lt eqv dedup C (g, n) o) as [[[g' n'] r]| | |]; cbn [bind fst]; auto.
    rewrite <- (IH g' n'). now destruct (run _ (g', n') ops) as [[[g2 n2] rs]| | |].
  Qed.
End Forget.
