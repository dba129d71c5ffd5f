(** When KDTree rebuilds. *)
From Coq Require Import List Arith Bool ZArith NArith Lia Permutation.
From Verif.Base Require Import Res Arr ResList.
From Verif.DivMask Require Import Model.
From Verif.Spec Require Import DivFinder Schedule.
From Verif.DivList Require Proofs ScheduleProofs.
From Verif.KD Require Import EntryArray Tree Model.
Import ListNotations.
Local Notation length := List.length.

Section Sched.
  Context {M : Type}.
  Variable C : kconf M.
  Variable packed : bool.
  Notation kd := (kd M).
  Notation change := (change (c_auto C) (c_ratio C) (c_min C)).
  Notation account := (account (c_auto C) (c_ratio C) (c_min C)).

  Definition sync (s : kd) (c : count) : Prop :=
    k_size s = c_size c /\ k_rebuilds s = c_rebuilds c /\ (c_auto C = true -> k_left s = allowance (c_ratio C) (c_min C) (c_base c) - c_since c).

  Lemma sync_reset t bits size left cache n : sync (reset_changes C (mk_kd t bits size left cache n)) (mk_count size size 0 n).
  Proof.
    unfold sync, reset_changes, allowance. destruct (c_auto C); cbn [negb k_size k_rebuilds k_left c_size c_base c_since c_rebuilds];
      (split; [auto|split; [auto|]]); [lia|congruence].
  Qed.
  Lemma sync_rebuild s c s' : sync s c -> rebuild_kd C packed s = Ok s' -> sync s' (rebuilt c).
  Proof.
    intros (H1 & H2 & _). unfold rebuild_kd. destruct (tree_for_all _ _ _ _) as [l| | |]; cbn [bind]; try discriminate.
    destruct (kcalc C l) as [bits| | |]; cbn [bind]; try discriminate. destruct (tree_reset C l bits) as [t| | |]; cbn [bind]; try discriminate.
    intros H. injection H as <-. unfold rebuilt. rewrite <- H1, <- H2. apply sync_reset.
  Qed.
  Lemma sync_change s c t a r s' : sync s c ->
    report_changes C packed (mk_kd t (k_bits s) (k_size s) (k_left s) (k_cache s) (k_rebuilds s)) a r = Ok s' -> sync s' (change (a + r) (c_size c + a - r) c).
  Proof.
    intros (H1 & H2 & H3) H. unfold report_changes in H. unfold Schedule.change. cbn [k_tree k_bits k_size k_left k_cache k_rebuilds] in H.
    destruct (k_size s + a <? r); [discriminate|]. set (cache := if c_cache C && _ then None else k_cache s) in *.
    assert (Hr := sync_rebuild (mk_kd t (k_bits s) (k_size s + a - r) (k_left s) cache (k_rebuilds s)) (mk_count (c_size c + a - r) (c_base c) (c_since c) (c_rebuilds c)) s').
    unfold sync in Hr at 1. cbn [k_size k_left k_rebuilds c_size c_base c_since c_rebuilds] in Hr. rewrite H1 in *.
    destruct (c_auto C) eqn:Ha; cbn [negb andb] in *.
    - specialize (H3 eq_refl). destruct (Nat.ltb_spec (a + r) (k_left s)).
      + injection H as <-. destruct (Nat.leb_spec (allowance (c_ratio C) (c_min C) (c_base c)) (c_since c + (a + r))); [lia|].
        unfold sync. cbn [k_size k_left k_rebuilds c_size c_base c_since c_rebuilds]. split; auto. split; auto. intros _. lia.
      + destruct (Nat.leb_spec (allowance (c_ratio C) (c_min C) (c_base c)) (c_since c + (a + r))); [|lia]. apply Hr; auto.
    - injection H as <-. unfold sync. cbn [k_size k_left k_rebuilds c_size c_base c_since c_rebuilds]. split; auto. split; auto. congruence.
  Qed.

  Lemma arr_remove_count a m a' out n : arr_remove C a m = Ok (a', out, n) -> n = length out.
  Proof.
    unfold arr_remove. destruct (c_leaf C =? 1).
    - destruct (a_list a) as [|x l]; [intros H; now injection H as _ <- <-|]. destruct (kdiv C m x); [|intros H; now injection H as _ <- <-].
      unfold pop_back. destruct (a_list a); cbn [bind]; [discriminate|]. intros H. now injection H as _ <- <-.
    - rewrite Proofs.remove_vector_ok. cbn [bind]. intros H. injection H as _ <- <-. now rewrite map_length.
  Qed.
  Lemma remove_binary_count t m : forall t' out n, remove_binary C t m = Ok (t', out, n) -> n = length out.
  Proof.
    induction t as [a|v x mask le IHl gt IHg]; intros t' out n; cbn [remove_binary].
    - destruct (arr_remove C a m) as [[[a' o] k]| | |] eqn:H; cbn [bind]; try discriminate. intros E. injection E as _ <- <-. now apply arr_remove_count in H.
    - destruct (remove_binary C gt m) as [[[gt' o1] n1]| | |]; cbn [bind]; try discriminate. specialize (IHg _ _ _ eq_refl).
      destruct (above C v x (x_t m)); cbn [negb]; [intros E; now injection E as _ <- <-|].
      destruct (remove_binary C le m) as [[[le' o2] n2]| | |]; cbn [bind]; try discriminate. specialize (IHl _ _ _ eq_refl).
      intros E. injection E as _ <- <-. rewrite app_length. lia.
  Qed.
  Lemma remove_packed_count t m : forall t' out n, remove_packed C t m = Ok (t', out, n) -> n = length out.
  Proof.
    induction t as [a|v x mask le IHl gt IHg]; intros t' out n; cbn [remove_packed].
    - destruct (arr_remove C a m) as [[[a' o] k]| | |] eqn:H; cbn [bind]; try discriminate. intros E. injection E as _ <- <-. now apply arr_remove_count in H.
    - destruct (above C v x (x_t m)).
      + destruct (remove_packed C gt m) as [[[gt' o1] n1]| | |]; cbn [bind]; try discriminate. specialize (IHg _ _ _ eq_refl). intros E. now injection E as _ <- <-.
      + destruct (remove_packed C le m) as [[[le' o2] n2]| | |]; cbn [bind]; try discriminate. specialize (IHl _ _ _ eq_refl).
        destruct (remove_packed C gt m) as [[[gt' o1] n1]| | |]; cbn [bind]; try discriminate. specialize (IHg _ _ _ eq_refl).
        intros E. injection E as _ <- <-. rewrite app_length. lia.
  Qed.

  (** removeElement does not keep the size up to date, see C33. *)
  Definition is_element (o : dop M) : bool := match o with DRemoveElement _ => true | _ => false end.
  Lemma sync_step s c o s' r : sync s c -> is_element o = false -> step C packed s o = Ok (s', r) -> sync s' (account c o r).
  Proof.
    intros Hs He H. destruct o as [e|es|m|m|m|m cb|m cb|cb|m| |]; cbn [step] in H; try discriminate.
    - unfold insert in H. destruct (tree_insert _ _ _ _) as [t| | |]; cbn [bind] in H; try discriminate.
      destruct (report_changes _ _ _ _ _) as [s1| | |] eqn:H1; cbn [bind] in H; try discriminate. injection H as <- <-.
      apply sync_change with (c := c) in H1; auto. cbn [Schedule.account]. replace (S (c_size c)) with (c_size c + 1 - 0) by lia. exact H1.
    - unfold remove_multiples in H. destruct (negb (c_removals C)); [discriminate|].
      destruct (tree_remove _ _ _ _) as [[[t out] n]| | |] eqn:Ht; cbn [bind] in H; try discriminate.
      destruct (report_changes _ _ _ _ _) as [s1| | |] eqn:H1; cbn [bind] in H; try discriminate. injection H as <- <-.
      assert (Hn : n = length out).
      { unfold tree_remove in Ht. destruct (k_tree s) as [t0|]; [|now injection Ht as _ <- <-].
        destruct (if packed then _ else _) as [[[t1 o1] n1]| | |] eqn:Hr; cbn [bind] in Ht; try discriminate. injection Ht as _ <- <-.
        destruct packed; [eapply remove_packed_count|eapply remove_binary_count]; eauto. }
      subst n. apply sync_change with (c := c) in H1; auto. cbn [Schedule.account]. cbn [Nat.add] in H1. now rewrite Nat.add_0_r in H1.
    - unfold find_divisor in H.
      assert (Hf : forall s2 r2, (let* r := tree_find C (k_tree s) (kext C (k_bits s) m) in
        Ok (match r with Some _ => if c_cache C then mk_kd (k_tree s) (k_bits s) (k_size s) (k_left s) r (k_rebuilds s) else s | None => s end, r)) = Ok (s2, r2) -> sync s2 c).
      { intros s2 r2. destruct (tree_find _ _ _) as [[p|]| | |]; cbn [bind]; try discriminate; intros E; injection E as <- _; [destruct (c_cache C)|]; exact Hs. }
      assert (Hd : forall s2 r2, sync s2 c -> match r2 with None => Ok (s2, DOFound None) | Some p => let* e := entry_at s2 p in Ok (s2, DOFound (Some e)) end = Ok (s', r) -> sync s' c).
      { intros s2 [p|] H2 E; [destruct (entry_at s2 p) as [e| | |]; cbn [bind] in E; try discriminate|]; injection E as <- _; exact H2. }
      assert (Hfd : forall s2 r2, (if c_cache C then match k_cache s with
          | Some p => let* e := entry_at s p in if c_divides C e m then Ok (s, Some p) else
              (let* r := tree_find C (k_tree s) (kext C (k_bits s) m) in
               Ok (match r with Some _ => if c_cache C then mk_kd (k_tree s) (k_bits s) (k_size s) (k_left s) r (k_rebuilds s) else s | None => s end, r))
          | None => (let* r := tree_find C (k_tree s) (kext C (k_bits s) m) in
               Ok (match r with Some _ => if c_cache C then mk_kd (k_tree s) (k_bits s) (k_size s) (k_left s) r (k_rebuilds s) else s | None => s end, r))
          end else (let* r := tree_find C (k_tree s) (kext C (k_bits s) m) in
               Ok (match r with Some _ => if c_cache C then mk_kd (k_tree s) (k_bits s) (k_size s) (k_left s) r (k_rebuilds s) else s | None => s end, r))) = Ok (s2, r2) -> sync s2 c).
      { intros s2 r2. destruct (c_cache C) eqn:Hcc; [|exact (Hf s2 r2)]. destruct (k_cache s) as [p|]; [|exact (Hf s2 r2)].
        destruct (entry_at s p) as [e| | |]; cbn [bind]; try discriminate. destruct (c_divides C e m); [|exact (Hf s2 r2)]. intros E. injection E as <- _. exact Hs. }
      match type of H with context [bind ?x _] => destruct x as [[s2 r2]| | |] eqn:E end; cbn [bind] in H; try discriminate.
      cbn [Schedule.account]. eapply Hd; [|exact H]. eapply Hfd. reflexivity.
    - destruct (tree_divisors _ _ _ _); cbn [bind] in H; try discriminate. injection H as <- <-. exact Hs.
    - destruct (tree_multiples _ _ _ _ _); cbn [bind] in H; try discriminate. injection H as <- <-. exact Hs.
    - destruct (tree_for_all _ _ _ _); cbn [bind] in H; try discriminate. injection H as <- <-. exact Hs.
    - destruct (rebuild_kd C packed s) as [s1| | |] eqn:H1; cbn [bind] in H; try discriminate. injection H as <- <-. now apply (sync_rebuild s c).
    - injection H as <- <-. exact Hs.
  Qed.
  Lemma sync_run ops : forall s c s' rs, sync s c -> existsb is_element ops = false -> run (step C packed) s ops = Ok (s', rs) ->
    sync s' (accounts (c_auto C) (c_ratio C) (c_min C) c ops rs).
  Proof.
    induction ops as [|o ops IH]; intros s c s' rs Hs He H; cbn [run] in H; [injection H as <- <-; exact Hs|].
    cbn [existsb] in He. apply orb_false_iff in He as [He1 He2].
    destruct (step C packed s o) as [[s1 r]| | |] eqn:H1; cbn [bind] in H; try discriminate.
    destruct (run _ s1 ops) as [[s2 rs1]| | |] eqn:H2; cbn [bind] in H; try discriminate. injection H as <- <-.
    cbn [accounts]. eapply IH; [|exact He2|exact H2]. eapply sync_step; eauto.
  Qed.
  Theorem kd_schedule s0 ops s rs : construct C = Ok s0 -> existsb is_element ops = false -> run (step C packed) s0 ops = Ok (s, rs) ->
    k_rebuilds s = c_rebuilds (accounts (c_auto C) (c_ratio C) (c_min C) fresh ops rs) /\ k_size s = c_size (accounts (c_auto C) (c_ratio C) (c_min C) fresh ops rs).
  Proof.
    intros H0 He H. assert (Hs : sync s0 fresh).
    { unfold construct in H0. destruct (kcalc C []) as [bits| | |]; cbn [bind] in H0; try discriminate. injection H0 as <-. apply sync_reset. }
    destruct (sync_run ops s0 fresh s rs Hs He H) as (H1 & H2 & _). auto.
  Qed.
End Sched.
