(** Consequences of the PairQueue specification for whole histories. *)
From Coq Require Import List NArith Bool Permutation Lia.
From Verif.Spec Require Import PQ Pairs.
From Verif.PairQueue Require Import Model.
Import ListNotations.
Local Open Scope N_scope.

(** The pairs handed in by a history that starts with [n] columns. *)
Fixpoint handed (n : N) (ops : list pq_op) : list (N * N) :=
  match ops with
  | [] => []
  | PAdd rows :: ops => map (pair n) rows ++ handed (n + 1) ops
  | _ :: ops => handed n ops
  end.
Fixpoint columns (n : N) (ops : list pq_op) : N :=
  match ops with
  | [] => n
  | PAdd _ :: ops => columns (n + 1) ops
  | _ :: ops => columns n ops
  end.
(** The pairs delivered. *)
Definition delivered {P} (rs : list (pq_out P)) : list (N * N) := flat_map (fun r => match r with PPair p => [p] | _ => [] end) rs.
(** The pairs that involve no index of [d]. *)
Definition untouched (d : N -> bool) (l : list (N * N)) : list (N * N) := filter (fun p => negb (d (fst p) || d (snd p))) l.

Lemma handed_app ops2 : forall ops1 n, handed n (ops1 ++ ops2) = handed n ops1 ++ handed (columns n ops1) ops2.
Proof.
  induction ops1 as [|o ops1 IH]; intros n; cbn [app handed columns]; auto.
  destruct o; auto. now rewrite IH, app_assoc.
Qed.
Lemma columns_app ops2 : forall ops1 n, columns n (ops1 ++ ops2) = columns (columns n ops1) ops2.
Proof. induction ops1 as [|o ops1 IH]; intros n; cbn [app columns]; auto. destruct o; auto. Qed.

Lemma untouched_app d a b : untouched d (a ++ b) = untouched d a ++ untouched d b.
Proof. apply filter_app. Qed.
Lemma untouched_perm d a b : Permutation a b -> Permutation (untouched d a) (untouched d b).
Proof.
  unfold untouched. induction 1; simpl; auto.
  - destruct (negb _); auto.
  - destruct (negb (d (fst x) || d (snd x))), (negb (d (fst y) || d (snd y))); auto. apply perm_swap.
  - etransitivity; eauto.
Qed.
Lemma untouched_ext d d' l : (forall i, d i = d' i) -> untouched d l = untouched d' l.
Proof. intros H. unfold untouched. apply filter_ext. intros p. now rewrite !H. Qed.
Lemma untouched_idem d d' l : (forall i, d i = true -> d' i = true) -> untouched d' (untouched d l) = untouched d' l.
Proof.
  intros H. unfold untouched. induction l as [|p l IH]; simpl; auto.
  destruct (negb (d (fst p) || d (snd p))) eqn:E; simpl; [now rewrite IH|].
  apply negb_false_iff, orb_true_iff in E.
  assert (E' : d' (fst p) || d' (snd p) = true) by (apply orb_true_iff; destruct E as [E|E]; auto).
  now rewrite E'.
Qed.
Lemma untouched_all d l : (forall p, In p l -> d (fst p) = false /\ d (snd p) = false) -> untouched d l = l.
Proof.
  intros H. induction l as [|p l IH]; simpl; auto. destruct (H p (or_introl eq_refl)) as [-> ->]. simpl. f_equal. apply IH.
  intros q Hq. apply H. now right.
Qed.

Section Facts.
  Context {P : Type}.
  Variable pdata : N -> N -> P.
  Variable lt : N * N * P -> N * N * P -> bool.

  Notation pstep := (pstep pdata lt).
  Notation ptrace := (ptrace pdata lt).

  Lemma pstep_dead st o r st' : pstep st o r st' -> forall i, dead st i = true -> dead st' i = true.
  Proof. destruct 1 as [? ? ? ? Hd|? ? ? ? ? Hd| |? ? ? ? Hd| | | |]; intros j Hj; auto; rewrite Hd; auto. rewrite Hj. apply orb_true_r. Qed.

  Lemma perm_in {A} (a b : list A) x : Permutation a b -> In x a -> In x b.
  Proof. intros H. now apply Permutation_in. Qed.

  (** The conservation law of a trace from the empty state. *)
  Record law (st : pstate) (ops : list pq_op) (rs : list (pq_out P)) : Prop := {
    l_cols : cols st = columns 0 ops;
    l_live : Permutation (untouched (dead st) (handed 0 ops)) (untouched (dead st) (delivered rs) ++ untouched (dead st) (live st));
    l_sub : exists rest, Permutation (handed 0 ops) (delivered rs ++ live st ++ rest)
  }.

  Lemma filter_split {A} (f : A -> bool) l : exists rest, Permutation l (filter f l ++ rest).
  Proof.
    induction l as [|a l [rest IH]]; simpl; [exists []; auto|]. destruct (f a).
    - exists rest. simpl. now constructor.
    - exists (a :: rest). rewrite <- Permutation_middle. now constructor.
  Qed.

  Lemma law_trace st0 ops rs st : ptrace st0 ops rs st -> live st0 = [] -> cols st0 = 0 -> law st ops rs.
  Proof.
    intros H Hl0 Hc0. induction H as [st|st ops rs st1 o r st2 Ht IH Hs].
    - split; simpl; auto; [now rewrite Hl0|exists []; now rewrite Hl0].
    - specialize (IH Hl0 Hc0) as [Hc Hl Hsub]. split.
      + rewrite columns_app, <- Hc. destruct Hs; simpl; auto.
      + pose proof (pstep_dead _ _ _ _ Hs) as Hmono.
        assert (Hl2 : Permutation (untouched (dead st2) (handed 0 ops)) (untouched (dead st2) (delivered rs) ++ untouched (dead st2) (live st1))).
        { apply (untouched_perm (dead st2)) in Hl. rewrite untouched_app in Hl. rewrite !untouched_idem in Hl; auto. }
        unfold delivered. rewrite handed_app, <- Hc, flat_map_app, !untouched_app.
        fold (delivered rs). rewrite Hl2.
        destruct Hs as [rows st' Hp _ Hd|p st' _ Hp _ Hd|p _|i st' Hp _ Hd|i| |n _ _|]; cbn [handed flat_map untouched filter app]; rewrite ?app_nil_r; auto.
        * rewrite (untouched_perm _ _ _ Hp), untouched_app. rewrite <- app_assoc. apply Permutation_app_head. apply Permutation_app_comm.
        * rewrite (untouched_perm _ _ _ Hp). unfold untouched. cbn [filter]. rewrite <- app_assoc. apply Permutation_app_head.
          destruct (negb (dead st' (fst p) || dead st' (snd p))); reflexivity.
        * apply Permutation_app_head. rewrite (untouched_perm (dead st') _ _ Hp).
          assert (He : filter (fun p => negb (involves i p)) (live st1) = untouched (fun j => j =? i) (live st1)) by reflexivity.
          rewrite He, untouched_idem; auto. intros j Hj. rewrite Hd, Hj. reflexivity.
      + destruct Hsub as [rest Hsub]. rewrite handed_app, <- Hc. unfold delivered. rewrite flat_map_app. fold (delivered rs).
        destruct Hs as [rows st' Hp _ Hd|p st' _ Hp _ Hd|p _|i st' Hp _ Hd|i| |n _ _|]; cbn [handed flat_map app]; rewrite ?app_nil_r; eauto.
        * exists rest. rewrite Hsub, Hp. rewrite <- !app_assoc. apply Permutation_app_head.
          rewrite (app_assoc (live st1)). rewrite Permutation_app_comm. reflexivity.
        * exists rest. rewrite Hsub, Hp, <- !app_assoc. reflexivity.
        * destruct (filter_split (fun p => negb (involves i p)) (live st1)) as [rest' Hr]. exists (rest' ++ rest).
          rewrite Hsub, Hr at 1. rewrite Hp, <- app_assoc. reflexivity.
  Qed.
End Facts.
