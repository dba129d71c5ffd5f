(** The memory of DivList on a vector over its histories. *)
From Coq Require Import List Arith Bool ZArith NArith Lia Permutation.
From Verif.Base Require Import Res Arr ResList StdAlg FaultFacts.
From Verif.DivMask Require Import Model.
From Verif.Spec Require Import DivFinder PQFacts.
From Verif.DivList Require Import Model Bytes.
Import ListNotations.

Section Bytes.
  Context {M : Type}.
  Variable ex : M -> nat -> Z.
  Variable nvars : nat.
  Variable T : exptype.
  Variable sort_data : list var_data -> list var_data.
  Variable use : bool.
  Variable divides : M -> M -> bool.
  Variable less : M -> M -> bool.
  Variable sorted auto : bool.
  Variable ratio : nat -> nat.
  Variable rmin : nat.
  Variable sort_ext : list (ext M) -> list (ext M).
  Hypothesis sort_ext_perm : forall l, Permutation (sort_ext l) l.
  Variable grow : nat -> nat.
  Hypothesis grow_ok : forall c, c < grow c <= 2 * c + 1.
  Notation dlist := (dlist M).
  Notation dstep := (step M ex nvars T sort_data use divides less false sorted auto ratio rmin sort_ext).
  Notation mstep := (dm_step M dstep grow).
  Notation size s := (length (l_list s)).

  Lemma rebuild_size (s s' : dlist) : rebuild_list M ex nvars T sort_data use auto ratio rmin s = Ok s' -> size s' = size s.
  Proof. unfold rebuild_list. intros H. apply bind_inv in H as (bits & _ & H). injection H as <-. unfold reset_left. destruct (negb auto); cbn [l_list]; apply map_length. Qed.
  Lemma report_size (s s' : dlist) n : report_changes M ex nvars T sort_data use auto ratio rmin s n = Ok s' -> size s' = size s.
  Proof. unfold report_changes. intros H. destruct (negb auto); [now injection H as <-|]. destruct (n <? l_left s); [now injection H as <-|]. now apply rebuild_size. Qed.
  Lemma insert_size (s s' : dlist) e : insert M ex nvars T sort_data use less false sorted auto ratio rmin s e = Ok s' -> size s' = S (size s).
  Proof.
    unfold insert. intros H. apply bind_inv in H as (l & H1 & H). apply report_size in H. cbn [l_list] in H. rewrite H. destruct (negb sorted).
    - injection H1 as <-. rewrite app_length. cbn [length]. lia.
    - unfold insert_sort in H1. apply bind_inv in H1 as (i & _ & H1). injection H1 as <-. rewrite app_length. cbn [length]. pose proof (firstn_skipn i (l_list s)) as E. apply (f_equal (@length _)) in E. rewrite app_length in E. lia.
  Qed.
  Lemma insert_each_size es : forall s s' : dlist, insert_each M ex nvars T sort_data use less false sorted auto ratio rmin s es = Ok s' -> size s' = size s + length es.
  Proof.
    induction es as [|e es IH]; intros s s' H; cbn [insert_each] in H; [injection H as <-; cbn [length]; lia|]. apply bind_inv in H as (s1 & H1 & H). apply insert_size in H1. rewrite (IH _ _ H), H1. cbn [length]. lia.
  Qed.
  Lemma insert_range_size es (s s' : dlist) : insert_range M ex nvars T sort_data use less false sorted auto ratio rmin sort_ext s es = Ok s' -> size s' = size s + length es.
  Proof.
    unfold insert_range. intros H. destruct (l_list s) as [|x l] eqn:E.
    - destruct es as [|e es]; [injection H as <-; rewrite E; reflexivity|]. apply bind_inv in H as (bits & _ & H). injection H as <-.
      assert (Hl : forall s1 : dlist, size (reset_left M auto ratio rmin s1) = size s1) by (intros s1; unfold reset_left; now destruct (negb auto)). rewrite Hl. cbn [l_list].
      destruct sorted; [rewrite (Permutation_length (sort_ext_perm _))|]; cbn [length map plus]; now rewrite map_length.
    - rewrite (insert_each_size _ _ _ H), E. reflexivity.
  Qed.
  Lemma compact_size m : forall k (a a' : list (ext M)) e e' out out', compact M use divides m a k e out = Ok (a', e', out') -> length a' = length a.
  Proof.
    induction k as [|k IH]; intros a a' e e' out out' H; cbn [compact] in H; [now injection H as <- _ _|]. apply bind_inv in H as (x & _ & H). destruct (negb _).
    - apply bind_inv in H as (a1 & H1 & H). rewrite (IH _ _ _ _ _ _ H). unfold vset in H1. destruct (_ <? _); [|discriminate]. injection H1 as <-. apply upd_length.
    - eapply IH; eauto.
  Qed.
  Lemma remove_multiples_size (s s' : dlist) m b out : remove_multiples M ex nvars T sort_data use divides false auto ratio rmin s m = Ok (s', b, out) -> size s' <= size s.
  Proof.
    unfold remove_multiples. intros H. apply bind_inv in H as ([[l o] c] & H1 & H). apply bind_inv in H as (s1 & H & E). injection E as <- _ _. apply report_size in H. rewrite H. cbn [l_list]. clear H.
    unfold remove_multiples_vector in H1. apply bind_inv in H1 as (it & _ & H1). destruct (it =? _); [injection H1 as <- _ _; lia|]. apply bind_inv in H1 as (x & _ & H1). apply bind_inv in H1 as ([[a e] o'] & H1 & E).
    injection E as <- _ _. apply compact_size in H1. rewrite firstn_length. lia.
  Qed.
  Lemma shift_up_size : forall pos (a a' : list (ext M)), shift_up M a pos = Ok a' -> length a' = length a.
  Proof.
    induction pos as [|pos IH]; intros a a' H; cbn [shift_up] in H; [now injection H as <-|]. apply bind_inv in H as (x & _ & H). apply bind_inv in H as (a1 & H1 & H). rewrite (IH _ _ H).
    unfold vset in H1. destruct (_ <? _); [|discriminate]. injection H1 as <-. apply upd_length.
  Qed.
  Lemma to_front_size (s s' : dlist) m r : to_front M ex use divides less false sorted s m = Ok (s', r) -> size s' = size s.
  Proof.
    unfold to_front. intros H. apply bind_inv in H as (it & _ & H). destruct it as [i|]; [|now injection H as <- _]. apply bind_inv in H as (l & H1 & H). apply bind_inv in H as (x & _ & H). injection H as <- _. cbn [l_list].
    unfold move_to_front in H1. apply bind_inv in H1 as (y & _ & H1). apply bind_inv in H1 as (a & H1 & H). apply shift_up_size in H1. unfold vset in H. destruct (_ <? _); [|discriminate]. injection H as <-. now rewrite upd_length.
  Qed.
  Lemma remove_element_size (s : dlist) m : size (fst (remove_element M ex nvars s m)) <= size s.
  Proof.
    unfold remove_element. destruct (scan _ _ _) as [i|]; [|reflexivity]. cbn [fst l_list]. rewrite app_length, firstn_length, skipn_length. lia.
  Qed.

  Lemma pushes_ok : forall k c n, n <= c -> n + k <= pushes_cap grow c n k /\ c <= pushes_cap grow c n k <= Nat.max c (2 * (n + k)).
  Proof.
    induction k as [|k IH]; intros c n Hn; cbn [pushes_cap]; [lia|]. pose proof (grow_ok c) as Hg. unfold push_cap. destruct (Nat.ltb_spec n c).
    - destruct (IH c (S n) ltac:(lia)). lia.
    - destruct (IH (grow c) (S n) ltac:(lia)). lia.
  Qed.
  Lemma push_ok c n : n <= c -> S n <= push_cap grow c n /\ c <= push_cap grow c n <= Nat.max c (2 * S n).
  Proof. intros Hn. pose proof (pushes_ok 1 c n Hn) as H. cbn [pushes_cap] in H. lia. Qed.

  Lemma step_cap s c o s' c' r : size s <= c -> mstep (s, c) o = Ok ((s', c'), r) -> dstep s o = Ok (s', r) /\ size s' <= c' /\ c <= c' <= Nat.max c (2 * size s').
  Proof.
    intros Hc H. unfold dm_step in H. apply bind_inv in H as ([s1 r1] & H & E). injection E as <- <- <-. split; [exact H|].
    destruct o; cbn [step] in H.
    - apply bind_inv in H as (s2 & H & E). injection E as <- _. apply insert_size in H. rewrite H. pose proof (push_ok c _ Hc). lia.
    - apply bind_inv in H as (s2 & H & E). injection E as <- _. apply insert_range_size in H. rewrite H. pose proof (pushes_ok (length es) c _ Hc). lia.
    - apply bind_inv in H as ([[s2 b] out] & H & E). injection E as <- _. apply remove_multiples_size in H. lia.
    - pose proof (remove_element_size s m) as Hr. destruct (remove_element M ex nvars s m) as [s2 b]. injection H as <- _. cbn [fst] in Hr. lia.
    - apply bind_inv in H as (x & _ & E). injection E as <- _. lia.
    - apply bind_inv in H as (x & _ & E). injection E as <- _. lia.
    - injection H as <- _. lia.
    - injection H as <- _. lia.
    - apply bind_inv in H as ([s2 x] & H & E). injection E as <- _. apply to_front_size in H. lia.
    - apply bind_inv in H as (s2 & H & E). injection E as <- _. apply rebuild_size in H. lia.
    - injection H as <- _. lia.
  Qed.
  Lemma run_cap ops : forall s c s' rs, size s <= c -> run dstep s ops = Ok (s', rs) -> exists c', run mstep (s, c) ops = Ok ((s', c'), rs) /\ size s' <= c' /\ c <= c' /\
    forall n, c <= 2 * n -> (forall pre post s1 rs1, ops = pre ++ post -> run dstep s pre = Ok (s1, rs1) -> size s1 <= n) -> c' <= 2 * n.
  Proof.
    induction ops as [|o ops IH]; intros s c s' rs Hc H; cbn [run] in H.
    - injection H as <- <-. exists c. repeat split; auto.
    - apply bind_inv in H as ([s1 r1] & H1 & H). apply bind_inv in H as ([s2 rs2] & H & E). injection E as <- <-.
      assert (Hm : exists c1, mstep (s, c) o = Ok ((s1, c1), r1)) by (unfold dm_step; rewrite H1; cbn [bind]; eauto). destruct Hm as (c1 & Hm).
      destruct (step_cap _ _ _ _ _ _ Hc Hm) as (_ & Hc1 & Hle). destruct (IH s1 c1 _ _ Hc1 H) as (c' & Hr & A & B & C).
      exists c'. split; [cbn [run]; rewrite Hm; cbn [bind]; now rewrite Hr|]. split; [exact A|]. split; [lia|]. intros n Hn Hp. apply C.
      + assert (size s1 <= n) by (eapply (Hp [o] ops); [reflexivity|cbn [run]; rewrite H1; reflexivity]). lia.
      + intros pre post s3 rs3 E H3. eapply (Hp (o :: pre) post); [now rewrite E|]. cbn [run]. rewrite H1. cbn [bind]. rewrite H3. reflexivity.
  Qed.
  Lemma mrun_fst ops : forall s c m rs, run mstep (s, c) ops = Ok (m, rs) -> run dstep s ops = Ok (fst m, rs).
  Proof.
    induction ops as [|o ops IH]; intros s c m rs H; cbn [run] in *; [now injection H as <- <-|].
    apply bind_inv in H as ([m1 r] & H & H2). apply bind_inv in H2 as ([m2 rs2] & H2 & E). injection E as <- <-.
    unfold dm_step in H. apply bind_inv in H as ([s1 r1] & H & E). injection E as <- <-. rewrite H. cbn [bind]. now rewrite (IH _ _ _ _ H2).
  Qed.
  Lemma cap_grows ops : forall s c m rs, size s <= c -> run mstep (s, c) ops = Ok (m, rs) -> c <= snd m.
  Proof.
    intros s c m rs Hc H. destruct (run_cap ops s c _ _ Hc (mrun_fst _ _ _ _ _ H)) as (c' & Hr & _ & A & _). rewrite H in Hr. injection Hr as E. rewrite E. exact A.
  Qed.
End Bytes.
