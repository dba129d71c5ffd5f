(** Proofs about HeapMem/Alloc.v. *)
From Coq Require Import List Arith Bool Lia Permutation.
From Verif.Base Require Import Res Arr Order Fault FaultFacts.
From Verif.Spec Require Import PQ PQFacts Refused.
From Verif.ComTree Require Import Model Proofs.
From Verif.Heap Require Import Model Proofs.
From Verif.HeapMem Require Import Model Proofs Memory Alloc.
Import ListNotations.

Section HeapAlloc.
  Context {E : Type}.
  Variable lt eqv : E -> E -> bool.
  Variable sd : bool.
  Variable dedup : E -> E -> E.
  Hypothesis Hsw : strict_weak lt.
  Hypothesis Hd : sd = true -> forall a b, lt a b = false -> eqv a b = true -> equivalent lt (dedup a b) a.
  Notation dd := (dedup_dd sd eqv dedup).
  Notation fstep := (hm_catch E lt eqv sd dedup).

  (** The tree holds a heap. *)
  Definition heaped (t : comtree E) : Prop := exists l, holds t l /\ valid lt l.
  Lemma step_ok t o : heaped t ->
    needs_nonempty o = true /\ stored t = [] \/
    exists t' r, hm_step E lt eqv sd dedup t o = Ok (t', r) /\ heaped t' /\ sstep lt dd (stored t) o r (stored t').
  Proof.
    intros (l & Hh & Hv). rewrite (stored_holds t l Hh). pose proof (heap_step_correct lt eqv sd dedup Hsw Hd l o Hv) as Hc.
    pose proof (sim_step lt eqv sd dedup (ct_cap t) l t o (conj Hh eq_refl)) as Hm. destruct (heap_step E lt eqv sd dedup l o) as [[l' r]| | |]; try contradiction.
    - right. destruct (Hm _ eq_refl) as ([t' r'] & Ht & [Hh' _] & He). cbn [fst snd] in *. subst r'. exists t', r. destruct Hc as [Hv' Hst].
      rewrite (stored_holds t' l' Hh'). split; auto. split; auto. exists l'; auto.
    - left. destruct Hc; auto.
  Qed.
  Lemma push_ok t x : heaped t -> exists t', hm_push E lt eqv sd dedup t x = Ok t' /\ heaped t' /\ merges dd (x :: stored t) (stored t').
  Proof.
    intros Hh. destruct (step_ok t (Push x) Hh) as [[H _]|(t' & r & He & Hh' & Hs)]; [discriminate|]. cbn [hm_step] in He. apply bind_inv in He as (t1 & He & H1). injection H1 as <- <-.
    exists t1. split; auto. split; auto. inversion Hs; subst; auto.
  Qed.
  Lemma push_a_ok b t x : heaped t -> exists q, hm_push_a E lt eqv sd dedup b t x = Ok q /\
    match q with Fine _ t' => heaped t' /\ merges dd (x :: stored t) (stored t') | Left t' => t' = t end.
  Proof.
    intros Hh. destruct (push_ok t x Hh) as (t' & He & Hh' & Hm). unfold hm_push_a. rewrite He. cbn [bind].
    destruct (_ =? _); [|exists (Fine b t'); auto]. destruct b as [|b]; cbn [client]; [exists (Left t)|exists (Fine b t')]; auto.
  Qed.
  Lemma push_range_a_ok xs : forall b t, heaped t -> exists q, hm_push_range_a E lt eqv sd dedup b t xs = Ok q /\
    match q with
    | Fine _ t' => heaped t' /\ merges dd (xs ++ stored t) (stored t')
    | Left t' => heaped t' /\ exists ys y zs, xs = ys ++ y :: zs /\ merges dd (ys ++ stored t) (stored t')
    end.
  Proof.
    induction xs as [|x xs IH]; intros b t Hh; cbn [hm_push_range_a].
    - exists (Fine b t). split; auto. split; auto. apply merges_refl.
    - destruct (push_a_ok b t x Hh) as (q & Hq & H1). rewrite Hq. cbn [fbind bind]. destruct q as [b1 t1|t1].
      + destruct H1 as [Hh1 Hm1]. destruct (IH b1 t1 Hh1) as (q & Hq2 & H2). exists q. split; auto.
        assert (G : forall us, merges dd ((x :: us) ++ stored t) (us ++ stored t1)).
        { intros us. apply (merges_perm_l dd _ (us ++ x :: stored t)). { cbn [app]. apply Permutation_middle. } apply merges_app_both; auto. apply merges_refl. }
        destruct q as [b2 t2|t2].
        * destruct H2 as [Hh2 Hm2]. split; auto. eapply merges_trans; [apply G|exact Hm2].
        * destruct H2 as (Hh2 & ys & y & zs & -> & Hm2). split; auto. exists (x :: ys), y, zs. split; auto. eapply merges_trans; [apply G|exact Hm2].
      + subst t1. exists (Left t). split; auto. split; auto. exists [], x, xs. split; auto. apply merges_refl.
  Qed.
  Lemma catch_step t o b : heaped t -> needs_nonempty o = true /\ stored t = [] \/
    exists t' r, fstep t (o, b) = Ok (t', r) /\ heaped t' /\ mstep lt dd (stored t) o r (stored t').
  Proof.
    intros Hh.
    assert (Hdone : needs_nonempty o = true /\ stored t = [] \/ exists t' r, (let* (t', r) := hm_step E lt eqv sd dedup t o in Ok (t', Some r)) = Ok (t', r) /\ heaped t' /\ mstep lt dd (stored t) o r (stored t')).
    { destruct (step_ok t o Hh) as [?|(t' & r & -> & Hh' & Hs)]; auto. right. cbn [bind]. exists t', (Some r). split; auto. split; auto. constructor; auto. }
    destruct o as [x|xs| | |x| | | |]; cbn [hm_catch fst snd]; auto.
    - right. destruct (push_a_ok b t x Hh) as (q & -> & H1). cbn [bind]. destruct q as [b1 t1|t1].
      + exists t1, (Some ONone). split; auto. split; [tauto|]. do 2 constructor. tauto.
      + subst t1. exists t, None. split; auto. split; auto. constructor.
    - right. destruct (push_range_a_ok xs b t Hh) as (q & -> & H1). cbn [bind]. destruct q as [b1 t1|t1].
      + exists t1, (Some ONone). split; auto. split; [tauto|]. do 2 constructor. tauto.
      + destruct H1 as (Hh1 & ys & y & zs & -> & Hm). exists t1, None. split; auto. split; auto. now constructor.
  Qed.
  Lemma catch_run ops : forall t, heaped t ->
    (exists t' rs, run fstep t ops = Ok (t', rs) /\ mtrace lt dd (stored t) (map fst ops) rs (stored t')) \/
    (exists pre o post t' rs, ops = pre ++ o :: post /\ run fstep t pre = Ok (t', rs) /\ mtrace lt dd (stored t) (map fst pre) rs (stored t') /\
       needs_nonempty (fst o) = true /\ stored t' = []).
  Proof.
    induction ops as [|[o b] ops IH]; intros t Hh.
    - left. exists t, []. split; [reflexivity|constructor].
    - destruct (catch_step t o b Hh) as [Hn|(t1 & r & Hq & Hh1 & Hm)].
      + right. exists [], (o, b), ops, t, []. split; auto. split; [reflexivity|]. split; [constructor|exact Hn].
      + destruct (IH t1 Hh1) as [(t' & rs & Hr & Ht)|(pre & o' & post & t' & rs & -> & Hr & Ht & Hw)].
        * left. exists t', (r :: rs). cbn [run]. rewrite Hq. cbn [bind]. rewrite Hr. split; [reflexivity|]. cbn [map fst]. econstructor; eauto.
        * right. exists ((o, b) :: pre), o', post, t', (r :: rs). split; [reflexivity|]. cbn [run]. rewrite Hq. cbn [bind]. rewrite Hr. split; [reflexivity|]. split; auto.
          cbn [map fst]. econstructor; eauto.
  Qed.
  Lemma new_heaped : heaped (hm_new E) /\ stored (hm_new E) = [].
  Proof. assert (Hh : holds (hm_new E) []) by apply ct_new_holds. split; [|now apply stored_holds]. exists []. split; auto. intros i Hi. cbn in Hi. lia. Qed.
End HeapAlloc.
