From Coq Require Import List Arith Bool Lia.
From Verif.Base Require Import Res Arr.
From Verif.Spec Require Import Seq.
From Verif.ComTree Require Import Model Proofs Debug.
From Verif.TourTree Require Import Debug DebugProofs.
Import ListNotations.

Section Proofs.
  Context {E : Type}.
  Implicit Types (t : comtree E) (l : list E).

  (** [holds] and, where there is an array, a capacity *)
  Definition sound t l : Prop := holds t l /\ (ct_arr t <> None -> ct_cap t <> 0).

  Lemma sound_valid t l : sound t l -> ct_isValid t = true.
  Proof.
    intros ((Hl & Hc & Ha) & Hn). unfold ct_isValid. destruct (ct_arr t) as [a|].
    - apply andb_true_intro. split; [|apply Nat.leb_le; lia]. apply negb_true_iff, Nat.eqb_neq, Hn. discriminate.
    - rewrite Ha. apply Nat.eqb_eq. lia.
  Qed.
  Lemma new_sound c : sound (ct_new c) (@nil E).
  Proof.
    split; [apply ct_new_holds|]. unfold ct_new; cbn [ct_arr ct_cap]. destruct (Nat.ltb_spec 0 c); [lia|congruence].
  Qed.
  Lemma set_arr t n v t' : ct_set t n v = Ok t' -> (ct_arr t' <> None -> ct_arr t <> None) /\ ct_cap t' = ct_cap t.
  Proof.
    unfold ct_set. destruct (ct_arr t) as [a|]; [|discriminate]. destruct n; [discriminate|]. destruct (vset a n (Some v)); try discriminate.
    cbn [bind]. intros H. injection H as <-. split; auto. intros _; discriminate.
  Qed.
  Lemma sound_cap t l c : holds t l -> ct_cap t = c -> c <> 0 -> sound t l.
  Proof. intros H <- Hc. split; auto. Qed.

  Lemma grow_same t l : sound t l -> ct_increaseCapacity_d t = ct_increaseCapacity t.
  Proof.
    intros Hs. pose proof Hs as (Hh & Hn). pose proof Hh as (Hl & Hc & Ha). unfold ct_increaseCapacity_d, ct_increaseCapacity.
    rewrite check_ok by (eapply sound_valid; eauto). cbn [bind]. unfold ct_new_d. rewrite check_ok by (eapply sound_valid; apply new_sound). cbn [bind].
    set (c := if Nat.eqb (ct_cap t) 0 then 16 else ct_cap t * 2).
    assert (Hcap : length l <= c). { unfold c. destruct (Nat.eqb_spec (ct_cap t) 0); lia. }
    assert (Hc0 : c <> 0). { unfold c. destruct (Nat.eqb_spec (ct_cap t) 0); lia. }
    destruct (ct_copy_loop_holds (ct_last t) t l (ct_new c) 1) as (t' & -> & Hht & Hct); auto; try lia.
    { apply ct_new_holds. }
    cbn [bind]. rewrite check_ok by (eapply sound_valid, sound_cap; eauto). cbn [bind].
    rewrite check_ok.
    2:{ apply sound_valid with l. apply sound_cap with c; auto. destruct Hht as (Hl' & Hc' & Ha'). repeat split; cbn [ct_last ct_cap ct_arr]; auto; lia. }
    cbn [bind]. unfold ct_destroy_d. rewrite check_ok; auto. apply sound_valid with l. destruct Hht as (Hl' & _). split; auto.
    repeat split; cbn [ct_last ct_cap ct_arr]; auto.
  Qed.
  Lemma grow_sound t l : sound t l -> exists t', ct_increaseCapacity t = Ok t' /\ sound t' l.
  Proof.
    intros (Hh & _). destruct (ct_increaseCapacity_holds t l Hh) as (t' & H1 & H2 & H3). exists t'. split; auto.
    eapply sound_cap; eauto. destruct (Nat.eqb_spec (ct_cap t) 0); lia.
  Qed.
  Lemma push_sound t l v : sound t l -> exists t', ct_pushBack t v = Ok t' /\ sound t' (l ++ [v]).
  Proof.
    intros (Hh & Hn). destruct (ct_pushBack_holds t l v Hh) as (t' & H1 & H2). exists t'. split; auto. split; auto. intros _.
    destruct H2 as (_ & H2 & _). rewrite app_length in H2. cbn [length] in H2. lia.
  Qed.

  Lemma assign_cap fuel t : forall new i t', ct_assign_loop fuel t new i = Ok t' -> ct_cap t' = ct_cap new.
  Proof.
    induction fuel as [|f IH]; intros new i t' H; cbn [ct_assign_loop] in H; destruct (i <=? ct_last t); try discriminate; try congruence.
    destruct (ct_get t i) as [v| | |]; try discriminate. cbn [bind] in H. destruct (ct_set new i v) as [n1| | |] eqn:H1; try discriminate.
    cbn [bind] in H. apply IH in H. rewrite H. now apply set_arr in H1 as [_ ->].
  Qed.
  Lemma copy_cap t m t' : ct_copy t m = Ok t' -> ct_arr t' <> None -> ct_cap t' <> 0.
  Proof.
    unfold ct_copy. destruct (Nat.eqb_spec (if m <? ct_size t then ct_size t else m) 0) as [Hz|Hz]; intros H.
    - injection H as <-. cbn [ct_arr]. congruence.
    - apply assign_cap in H. cbn [ct_cap] in H. now rewrite H.
  Qed.

  Lemma step_sound t l o l' r : sound t l -> seq_step l o = Some (l', r) -> exists t', ct_step_d t o = Ok (t', r) /\ ct_step t o = Ok (t', r) /\ sound t' l'.
  Proof.
    intros Hs Hq. pose proof Hs as (Hh & Hn). destruct (ct_step_holds t l o l' r Hh Hq) as (t' & Ht & Hh'). exists t'.
    destruct o as [v| |n v|n| | |m|]; cbn [ct_step_d].
    - injection Hq as <- <-. unfold ct_pushBack_d. cbn [ct_step] in Ht. destruct (push_sound t l v Hs) as (t1 & H1 & H2).
      rewrite H1 in Ht. injection Ht as <-. cbn [ct_step]. rewrite (grow_same t l Hs). fold (ct_pushBack t v). rewrite H1. auto.
    - assert (Hne : l <> []) by (intros ->; discriminate). unfold ct_popBack_d.
      rewrite check_ok by (apply Nat.leb_le; destruct Hh as (-> & _); destruct l; cbn [length]; [congruence|lia]). cbn [bind].
      change (ct_step t CPopBack = Ok (t', r) /\ ct_step t CPopBack = Ok (t', r) /\ sound t' l'). split; auto. split; auto. split; auto.
      cbn [ct_step] in Ht. unfold ct_popBack in Ht. destruct (ct_last t); try discriminate. injection Ht as <- <-. cbn [ct_arr ct_cap]. auto.
    - split; auto. split; auto. split; auto. cbn [ct_step] in Ht. destruct (ct_set t n v) as [t1| | |] eqn:H1; try discriminate. injection Ht as <- <-.
      apply set_arr in H1 as [H1 ->]. auto.
    - split; auto. split; auto. split; auto. cbn [ct_step] in Ht. destruct (ct_get t n); try discriminate. injection Ht as <- <-. auto.
    - split; auto. split; auto. split; auto. injection Ht as <- <-. cbn [ct_clear ct_arr ct_cap]. auto.
    - injection Hq as <- <-. destruct (grow_sound t l Hs) as (t1 & H1 & H2). cbn [ct_step] in Ht. rewrite H1 in Ht. injection Ht as <-.
      rewrite (grow_same t l Hs), H1. cbn [ct_step]. rewrite H1. auto.
    - injection Hq as <- <-. cbn [ct_step] in *. destruct (ct_copy t m) as [t1| | |] eqn:H1; try discriminate. injection Ht as <-. unfold ct_copy_d.
      rewrite H1. cbn [bind].
      assert (Hs1 : sound t1 l).
      { split; auto. eapply copy_cap; eauto. }
      rewrite check_ok by (eapply sound_valid; eauto). cbn [bind]. unfold ct_destroy_d. rewrite check_ok by (eapply sound_valid; eauto). auto.
    - split; auto. split; auto. split; auto. injection Ht as <- <-. auto.
  Qed.

  Lemma run_sound ops : forall t l l' rs, sound t l -> seq_run l ops = Some (l', rs) ->
    exists t', run ct_step_d t ops = Ok (t', rs) /\ run ct_step t ops = Ok (t', rs) /\ sound t' l'.
  Proof.
    induction ops as [|o ops IH]; intros t l l' rs Hs Hq; cbn [seq_run] in Hq.
    - injection Hq as <- <-. exists t; auto.
    - destruct (seq_step l o) as [[l1 r]|] eqn:H1; [|discriminate]. destruct (seq_run l1 ops) as [[l2 rs2]|] eqn:H2; [|discriminate]. injection Hq as <- <-.
      destruct (step_sound t l o l1 r Hs H1) as (t1 & Hd & Ht & Hs1). destruct (IH t1 l1 l2 rs2 Hs1 H2) as (t2 & Hd2 & Ht2 & Hs2).
      exists t2. cbn [run]. rewrite Hd, Ht. cbn [bind]. rewrite Hd2, Ht2. auto.
  Qed.

  Lemma ct_no_assertion c ops l rs : seq_run [] ops = Some (l, rs) ->
    exists t, (let* t0 := ct_new_d c in run ct_step_d t0 ops) = Ok (t, rs) /\ run ct_step (ct_new c) ops = Ok (t, rs) /\
      ct_destroy_d t = Ok tt /\
      (forall v, ct_size t < ct_capacity t -> ct_pushBackWithCapacity_d t v = ct_pushBackWithCapacity t v).
  Proof.
    intros Hq. destruct (run_sound ops (ct_new c) [] l rs (new_sound c) Hq) as (t & Hd & Ht & Hs). exists t. split; [|split; [|split]]; auto.
    - unfold ct_new_d. rewrite check_ok by (eapply sound_valid; apply new_sound). exact Hd.
    - apply check_ok. eapply sound_valid; eauto.
    - intros v Hv. unfold ct_pushBackWithCapacity_d. rewrite check_ok; auto. apply negb_true_iff, Nat.eqb_neq. unfold ct_size, ct_capacity in Hv. lia.
  Qed.
  Lemma ct_swap_no_assertion c1 c2 ops1 ops2 l1 l2 rs1 rs2 t1 t2 :
    seq_run [] ops1 = Some (l1, rs1) -> run ct_step (ct_new c1) ops1 = Ok (t1, rs1) ->
    seq_run [] ops2 = Some (l2, rs2) -> run ct_step (ct_new c2) ops2 = Ok (t2, rs2) ->
    ct_swap_d t1 t2 = Ok (ct_swap t1 t2).
  Proof.
    intros H1 R1 H2 R2. destruct (run_sound ops1 (ct_new c1) [] l1 rs1 (new_sound c1) H1) as (t1' & _ & R1' & S1).
    destruct (run_sound ops2 (ct_new c2) [] l2 rs2 (new_sound c2) H2) as (t2' & _ & R2' & S2).
    assert (t1' = t1) as -> by congruence. assert (t2' = t2) as -> by congruence. apply sound_valid in S1, S2.
    unfold ct_swap_d, ct_swap. rewrite !check_ok; auto.
  Qed.
  Lemma ct_move_assertions c ops l rs t : seq_run [] ops = Some (l, rs) -> run ct_step (ct_new c) ops = Ok (t, rs) -> ct_capacity t <> 0 ->
    ct_destroy_d (fst (ct_move t)) = UB /\ ct_destroy_d (snd (ct_move t)) = UB.
  Proof.
    intros H1 R1 Hc. destruct (run_sound ops (ct_new c) [] l rs (new_sound c) H1) as (t' & _ & R & ((Hl & Hc' & Ha) & Hn)).
    assert (t' = t) as -> by congruence. unfold ct_capacity in Hc. destruct (ct_arr t) as [a|] eqn:He; [|congruence].
    unfold ct_move, ct_destroy_d, ct_isValid. cbn [fst snd ct_arr ct_cap ct_last]. rewrite He. split; auto.
    apply Nat.eqb_neq in Hc. rewrite Hc. reflexivity.
  Qed.
End Proofs.
