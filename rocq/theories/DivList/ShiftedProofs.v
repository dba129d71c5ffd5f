(** Lemmas on the assignments to entries of a DivList (DivList/Shifted.v). *)
From Coq Require Import List Arith Bool ZArith NArith Lia.
From Verif.Base Require Import Res Arr StdAlg Count FaultFacts.
From Verif.DivMask Require Import Model.
From Verif.Spec Require Import DivFinder.
From Verif.DivList Require Import Model Shifted.
Import ListNotations.

Section Shifted.
  Context {M : Type} (ex : M -> nat -> Z) (nvars : nat) (T : exptype) (sort_data : list var_data -> list var_data) (use : bool)
    (divides less : M -> M -> bool) (linked sorted auto : bool) (ratio : nat -> nat) (rmin : nat) (sort_ext : list (ext M) -> list (ext M)).
  Notation ext := (ext M).
  Notation dlist := (dlist M).
  Notation report := (report_changes M ex nvars T sort_data use auto ratio rmin).
  Notation step := (step M ex nvars T sort_data use divides less linked sorted auto ratio rmin sort_ext).
  Notation step_m := (step_m M ex nvars T sort_data use divides less linked sorted auto ratio rmin sort_ext).
  Notation run_m := (run_m M ex nvars T sort_data use divides less linked sorted auto ratio rmin sort_ext).

  (** * Counting changes nothing *)
  Lemma vset_m_forget (a : list ext) i x : forget (vset_m M a i x) = vset a i x.
  Proof. unfold vset_m. rewrite forget_bind, forget_free. now destruct (vset a i x). Qed.
  Lemma compact_m_forget m k : forall a newEnd out, forget (compact_m M use divides m a k newEnd out) = compact M use divides m a k newEnd out.
  Proof.
    induction k as [|k IH]; intros; cbn [compact_m compact]; [reflexivity|]. rewrite forget_bind. apply bind_ext; [apply forget_free|]. intros x. destruct (negb _); [|apply IH].
    rewrite forget_bind. apply bind_ext; [apply vset_m_forget|intros; apply IH].
  Qed.
  Lemma rmv_m_forget m a : forget (remove_multiples_vector_m M use divides m a) = remove_multiples_vector M use divides m a.
  Proof.
    unfold remove_multiples_vector_m, remove_multiples_vector. rewrite forget_bind. apply bind_ext; [apply forget_free|]. intros it. destruct (_ =? _); [reflexivity|].
    rewrite forget_bind. apply bind_ext; [apply forget_free|]. intros x. rewrite forget_bind. apply bind_ext; [apply compact_m_forget|]. now intros [[? ?] ?].
  Qed.
  Lemma shift_up_m_forget pos : forall (a : list ext), forget (shift_up_m M a pos) = shift_up M a pos.
  Proof.
    induction pos as [|p IH]; intros a; cbn [shift_up_m shift_up]; [reflexivity|]. rewrite forget_bind. apply bind_ext; [apply forget_free|]. intros x.
    rewrite forget_bind. apply bind_ext; [apply vset_m_forget|intros; apply IH].
  Qed.
  Lemma move_to_front_m_forget (a : list ext) pos : forget (move_to_front_m M linked a pos) = move_to_front M linked a pos.
  Proof.
    unfold move_to_front_m. destruct linked; [apply forget_free|]. unfold move_to_front. rewrite forget_bind. apply bind_ext; [apply forget_free|]. intros x.
    rewrite forget_bind. apply bind_ext; [apply shift_up_m_forget|intros; apply vset_m_forget].
  Qed.
  Lemma insert_m_forget s e : forget (insert_m M ex nvars T sort_data use less linked sorted auto ratio rmin s e) = insert M ex nvars T sort_data use less linked sorted auto ratio rmin s e.
  Proof.
    unfold insert_m, insert. cbv zeta. rewrite forget_bind. apply bind_ext; [|intros; apply forget_free]. destruct (negb sorted); [reflexivity|]. unfold insert_sort_m, insert_sort. destruct linked; [reflexivity|].
    rewrite forget_bind. apply bind_ext; [apply forget_free|reflexivity].
  Qed.
  Lemma insert_each_m_forget es : forall s,
    forget (insert_each_m M ex nvars T sort_data use less linked sorted auto ratio rmin s es) = insert_each M ex nvars T sort_data use less linked sorted auto ratio rmin s es.
  Proof. induction es as [|e es IH]; intros s; cbn [insert_each_m insert_each]; [reflexivity|]. rewrite forget_bind. apply bind_ext; [apply insert_m_forget|intros; apply IH]. Qed.
  Lemma step_m_forget s o : forget (step_m s o) = step s o.
  Proof.
    destruct o as [e|es|m|m|m|m cb|m cb|cb|m| |]; unfold step_m; try apply forget_free; unfold step.
    - rewrite forget_bind. apply bind_ext; [apply insert_m_forget|reflexivity].
    - rewrite forget_bind. apply bind_ext; [|reflexivity]. unfold insert_range_m. destruct (l_list s) eqn:E; unfold insert_range at 1.
      + rewrite forget_bind, forget_free. unfold insert_range. rewrite E. match goal with |- bind ?m _ = _ => now destruct m end.
      + rewrite E. apply insert_each_m_forget.
    - rewrite forget_bind. apply bind_ext; [|now intros [[? ?] ?]]. unfold remove_multiples_m, remove_multiples. cbv zeta. rewrite forget_bind. apply bind_ext; [destruct linked; [reflexivity|apply rmv_m_forget]|].
      intros [[l out] n]. rewrite forget_bind. apply bind_ext; [apply forget_free|reflexivity].
    - unfold remove_element_m. rewrite forget_bind. cbn [forget bind]. now destruct (remove_element M ex nvars s m).
    - rewrite forget_bind. apply bind_ext; [|now intros [? ?]]. unfold to_front_m, to_front. rewrite forget_bind. apply bind_ext; [apply forget_free|]. intros [i|]; [|reflexivity].
      rewrite forget_bind. apply bind_ext; [apply move_to_front_m_forget|]. intros l. rewrite forget_bind. apply bind_ext; [apply forget_free|reflexivity].
  Qed.
  Lemma run_m_forget ops : forall s, forget (run_m s ops) = run step s ops.
  Proof.
    induction ops as [|o ops IH]; intros s; cbn [Shifted.run_m run]; [reflexivity|]. rewrite forget_bind. apply bind_ext; [apply step_m_forget|].
    intros [s1 r]. rewrite forget_bind. apply bind_ext; [apply IH|]. now intros [s2 rs].
  Qed.

  (** * Numbers *)
  Ltac cb H x := let c := fresh "c" in let d := fresh "d" in let Hx := fresh "Hx" in let Hd := fresh "Hd" in apply cbind_ok in H; destruct H as (x & c & d & Hx & H & Hd).
  Ltac cf H x := cb H x; match goal with Hx : free _ = Ok (x, _) |- _ => apply free_ok in Hx; destruct Hx as [Hx ?] end.
  Lemma vset_m_inv (a : list ext) i x a' n : vset_m M a i x = Ok (a', n) -> n = 1 /\ length a' = length a.
  Proof. unfold vset_m, vset. destruct (_ <? _); [|discriminate]. cbn. intros H. injection H as <- <-. now rewrite upd_length. Qed.
  Lemma report_contents s n s' : report s n = Ok s' -> map x_t (l_list s') = map x_t (l_list s).
  Proof.
    unfold report_changes, rebuild_list, reset_left. destruct (negb auto); [intros H; injection H as <-; reflexivity|]. destruct (n <? l_left s); [intros H; injection H as <-; reflexivity|].
    intros H. apply bind_inv in H. destruct H as (bits & _ & H). injection H as <-. cbn [l_list]. rewrite map_map. apply map_ext. now intros [].
  Qed.
  Lemma report_length s n s' : report s n = Ok s' -> length (l_list s') = length (l_list s).
  Proof. intros H. apply report_contents in H. apply (f_equal (@length _)) in H. now rewrite !map_length in H. Qed.
  Lemma compact_moves m k : forall a newEnd out a' newEnd' out' n, compact_m M use divides m a k newEnd out = Ok ((a', newEnd', out'), n) ->
    n + length out' = k + length out /\ length a' = length a /\ newEnd' = newEnd + n /\ length out <= length out'.
  Proof.
    induction k as [|k IH]; intros a newEnd out a' newEnd' out' n H; cbn [compact_m] in H; cbv zeta in H.
    - injection H as <- <- <- <-. lia.
    - cf H x. destruct (negb _).
      + cb H a1. apply vset_m_inv in Hx0. destruct Hx0 as [-> E]. apply IH in H. lia.
      + apply IH in H. rewrite app_length in H. cbn [length] in H. lia.
  Qed.
  Lemma first_multiple_le m a k it : first_multiple M use divides m a k = Ok it -> k <= length a -> length a - k <= it <= length a.
  Proof.
    induction k as [|k IH]; cbn [first_multiple]; cbv zeta; intros H L; [injection H as <-; lia|]. apply bind_inv in H. destruct H as (x & _ & H). destruct (ext_divides _ _ _ _ _).
    - injection H as <-. lia.
    - apply IH in H; lia.
  Qed.
  (** The entries that are kept behind the first one that is removed are moved, each of them once *)
  Lemma rmv_moves m a l out n c : remove_multiples_vector_m M use divides m a = Ok ((l, out, n), c) ->
    length l + length out = length a /\ (out = [] -> c = 0 /\ l = a) /\ (out <> [] -> exists it, first_multiple M use divides m a (length a) = Ok it /\ it < length a /\ it + c = length l).
  Proof.
    unfold remove_multiples_vector_m. intros H. cf H it. pose proof (first_multiple_le _ _ _ _ Hx ltac:(lia)) as L. destruct (Nat.eqb_spec it (length a)) as [e|e].
    - injection H as <- <- <- <-. cbn. split; [lia|]. split; [intros; split; [lia|reflexivity]|congruence].
    - cf H x. cb H y. destruct y as [[a' newEnd] out']. apply compact_moves in Hx1. cbn [length] in Hx1. injection H as <- <- <- <-. destruct Hx1 as (A & B & D & F). rewrite firstn_length.
      split; [lia|]. split; [intros ->; cbn [length] in F; lia|]. intros _. exists it. split; [exact Hx|]. lia.
  Qed.
  Lemma shift_moves pos : forall (a a' : list ext) n, shift_up_m M a pos = Ok (a', n) -> n = pos /\ length a' = length a.
  Proof.
    induction pos as [|p IH]; intros a a' n H; cbn [shift_up_m] in H; [injection H as <- <-; auto|]. cf H x. cb H a1. apply vset_m_inv in Hx0. destruct Hx0 as [-> E]. apply IH in H. lia.
  Qed.
  Lemma scan_lt (p : ext -> bool) l : forall i, scan M p l = Some i -> i < length l.
  Proof.
    induction l as [|x l IH]; intros i; cbn [scan length]; [discriminate|]. destruct (p x); [intros H; injection H as <-; lia|]. destruct (scan M p l); cbn; [|discriminate]. intros H. injection H as <-. specialize (IH _ eq_refl). lia.
  Qed.
  Lemma insert_moves s e s' n : insert_m M ex nvars T sort_data use less linked sorted auto ratio rmin s e = Ok (s', n) ->
    length (l_list s') = S (length (l_list s)) /\
    exists before after, map x_t (l_list s) = before ++ after /\ map x_t (l_list s') = before ++ e :: after /\ n = S (if sorted then if linked then 0 else length after else 0).
  Proof.
    unfold insert_m. cbv zeta. intros H. cb H l. apply free_ok in H. destruct H as [H ->]. pose proof (report_length _ _ _ H) as L. apply report_contents in H. cbn [l_list] in *. rewrite H. clear H.
    set (x := extend M ex use (l_bits s) e) in *. assert (Hxe : x_t x = e) by reflexivity. clearbody x. destruct sorted; cbn [negb] in Hx.
    - unfold insert_sort_m in Hx. destruct linked.
      + injection Hx as <- <-. cut (exists before after, map x_t (l_list s) = before ++ after /\ map x_t (insert_list M less (l_list s) x) = before ++ e :: after).
        { intros (b & f & E1 & E2). split; [|exists b, f; repeat split; auto; lia]. rewrite L. apply (f_equal (@length _)) in E1, E2. rewrite map_length, app_length in E1, E2. cbn [length] in E2. lia. }
        generalize (l_list s). intros l0. induction l0 as [|y l0 (b & f & E1 & E2)]; cbn [insert_list map]; [exists [], []; rewrite Hxe; auto|]. destruct (less _ _).
        * exists [], (x_t y :: map x_t l0). cbn. rewrite Hxe. auto.
        * exists (x_t y :: b), f. cbn. rewrite E1, E2. auto.
      + cf Hx i. injection Hx as <- <-. split.
        { rewrite L, app_length. cbn [length]. pose proof (f_equal (@length _) (firstn_skipn i (l_list s))) as F. rewrite app_length in F. lia. }
        exists (map x_t (firstn i (l_list s))), (map x_t (skipn i (l_list s))). rewrite map_app, <- map_app, firstn_skipn. cbn [map]. rewrite Hxe, map_length, skipn_length. repeat split; auto. lia.
    - injection Hx as <- <-. split; [rewrite L, app_length; cbn; lia|]. exists (map x_t (l_list s)), []. rewrite app_nil_r, map_app. cbn. rewrite Hxe. auto.
  Qed.
  Lemma insert_each_moves es : forall s s' n, insert_each_m M ex nvars T sort_data use less linked sorted auto ratio rmin s es = Ok (s', n) ->
    length (l_list s') = length (l_list s) + length es /\ n <= length es * (if sorted && negb linked then length (l_list s) + length es else 1).
  Proof.
    induction es as [|e es IH]; intros s s' n H; cbn [insert_each_m length] in *; [injection H as <- <-; lia|]. cb H s1. apply insert_moves in Hx. destruct Hx as (L & b & f & E1 & E2 & ->). apply IH in H. destruct H as [L2 B].
    assert (F : length f <= length (l_list s)) by (rewrite <- (map_length x_t), E1, app_length; lia). split; [lia|]. subst n. destruct sorted, linked; cbn [andb negb] in *; nia.
  Qed.
End Shifted.
