(** Heap on the array of ComTree does what Heap on the list of its entries does, and how large the array gets (C80). *)
From Coq Require Import List Arith Bool Lia.
From Verif.Base Require Import Res Arr Order.
From Verif.Spec Require Import PQ PQFacts.
From Verif.ComTree Require Import Model Proofs.
From Verif.Heap Require Import Model Proofs.
From Verif.HeapMem Require Import Model.
Import ListNotations.

(** When [r] ends well, so does [r'], with related results. *)
Definition sim {A B} (P : A -> B -> Prop) (r : res A) (r' : res B) : Prop := forall a, r = Ok a -> exists b, r' = Ok b /\ P a b.
Lemma sim_ok {A B} (P : A -> B -> Prop) a b : P a b -> sim P (Ok a) (Ok b).
Proof. intros H a' Ha. injection Ha as <-. eauto. Qed.
Lemma sim_bind {A B C D} (P : A -> B -> Prop) (Q : C -> D -> Prop) r r' k k' : sim P r r' -> (forall a b, P a b -> sim Q (k a) (k' b)) -> sim Q (bind r k) (bind r' k').
Proof.
  intros Hr Hk c Hc. destruct r as [a| | |]; try discriminate. destruct (Hr a eq_refl) as (b & -> & Hab). cbn [bind] in *. exact (Hk a b Hab c Hc).
Qed.
Lemma sim_ub {A B} (P : A -> B -> Prop) r' : sim P UB r'.
Proof. intros a H; discriminate. Qed.
Lemma sim_nofuel {A B} (P : A -> B -> Prop) r' : sim P NoFuel r'.
Proof. intros a H; discriminate. Qed.

Section HeapMem.
  Context {E : Type}.
  Variable lt : E -> E -> bool.
  Variable eqv : E -> E -> bool.
  Variable supportDedup : bool.
  Variable dedup : E -> E -> E.
  Implicit Types (t : comtree E) (l : list E).

  (** The tree holds [l] in an array of [c] entries. *)
  Definition H (c : nat) l t : Prop := holds t l /\ ct_cap t = c.
  Definition H1 c (a : list E * nat) (b : comtree E * nat) : Prop := H c (fst a) (fst b) /\ snd a = snd b.
  Lemma H_last c l t : H c l t -> ct_last t = length l.
  Proof. intros [(Hl & _) _]. exact Hl. Qed.
  Lemma sim_get c l t n : H c l t -> sim eq (tget l n) (ct_get t n).
  Proof.
    intros [Hh _] v Hv. destruct n as [|k]; [discriminate|]. exists v; split; auto. apply (ct_get_holds t l); auto; [lia|].
    unfold tget, vget in Hv. replace (S k - 1) with k by lia. destruct (nth_error l k); [|discriminate]. cbn [of_option] in Hv. congruence.
  Qed.
  Lemma sim_set c l t n v : H c l t -> sim (H c) (tset l n v) (ct_set t n v).
  Proof.
    intros [Hh Hc] l' Hl. destruct n as [|k]; [discriminate|]. unfold tset, vset in Hl. destruct (Nat.ltb_spec k (length l)) as [Hk|Hk]; [|discriminate]. injection Hl as <-.
    destruct (ct_set_holds t l (S k) v Hh) as (t' & Ht & Hh' & Hc'); [lia|]. exists t'. split; auto. replace (S k - 1) with k in Hh' by lia. split; [exact Hh'|congruence].
  Qed.
  Lemma sim_popBack c l t : H c l t -> l <> [] -> exists t', ct_popBack t = Ok t' /\ H c (removelast l) t'.
  Proof.
    intros [Hh Hc] Hn. destruct (ct_popBack_holds t l Hh Hn) as (t' & Ht & Hh'). exists t'. split; auto. split; auto.
    unfold ct_popBack in Ht. destruct (ct_last t); [discriminate|]. injection Ht as <-. exact Hc.
  Qed.
  Lemma sim_hole_loop c fuel : forall l t hole fw, H c l t -> sim (H1 c) (hole_loop E lt fuel l hole fw) (hm_hole_loop E lt fuel t hole fw).
  Proof.
    induction fuel as [|f IH]; intros l t hole fw Hh; cbn [hole_loop hm_hole_loop]; destruct (hole <? fw); try apply sim_nofuel; try (apply sim_ok; split; auto; fail).
    eapply sim_bind; [eapply sim_get; exact Hh|intros a ? <-]. eapply sim_bind; [eapply sim_get; exact Hh|intros b ? <-].
    cbv zeta. eapply sim_bind; [eapply sim_get; exact Hh|intros v ? <-]. eapply sim_bind; [eapply sim_set; exact Hh|]. intros l' t' Hh'. apply IH. exact Hh'.
  Qed.
  Lemma sim_moveHoleDown c l t hole : H c l t -> sim (H1 c) (moveHoleDown E lt l hole) (hm_moveHoleDown E lt t hole).
  Proof.
    intros Hh. unfold moveHoleDown, hm_moveHoleDown. rewrite (H_last c l t Hh). cbv zeta. eapply sim_bind; [apply sim_hole_loop; exact Hh|].
    intros [l1 h1] [t1 h1'] [Hh1 He]. cbn [fst snd] in *. subst h1'. rewrite (H_last c l1 t1 Hh1). destruct (_ && _).
    - eapply sim_bind; [eapply sim_get; exact Hh1|intros v ? <-]. eapply sim_bind; [eapply sim_set; exact Hh1|]. intros l2 t2 Hh2. apply sim_ok. split; auto.
    - apply sim_ok. split; auto.
  Qed.
  Lemma sim_up_loop c fuel : forall l t pos value, H c l t ->
    sim (fun a b => H1 c (fst a) (fst b) /\ snd a = snd b) (up_loop E lt eqv supportDedup fuel l pos value) (hm_up_loop E lt eqv supportDedup fuel t pos value).
  Proof.
    assert (Hok : forall l t (pos : nat) (b : bool), H c l t -> sim (fun a b => H1 c (fst a) (fst b) /\ snd a = snd b) (Ok (l, pos, b)) (Ok (t, pos, b))).
    { intros. apply sim_ok. repeat split; auto; apply H0. }
    induction fuel as [|f IH]; intros l t pos value Hh; cbn [up_loop hm_up_loop]; destruct (pos =? 1); auto; try apply sim_nofuel.
    cbv zeta. eapply sim_bind; [eapply sim_get; exact Hh|intros u ? <-]. destruct (lt u value).
    - eapply sim_bind; [eapply sim_set; exact Hh|]. intros l' t' Hh'. apply IH. exact Hh'.
    - destruct (supportDedup && eqv u value); auto.
  Qed.
  Lemma sim_back_loop c fuel : forall l t p pos tmp, H c l t -> sim (H c) (back_loop E fuel l p pos tmp) (hm_back_loop E fuel t p pos tmp).
  Proof.
    induction fuel as [|f IH]; intros l t p pos tmp Hh; cbn [back_loop hm_back_loop]; destruct (p =? pos); auto using sim_ok; try apply sim_nofuel.
    eapply sim_bind; [eapply sim_get; exact Hh|intros q ? <-]. eapply sim_bind; [eapply sim_set; exact Hh|]. intros l' t' Hh'. apply IH. exact Hh'.
  Qed.
  Lemma tget_nonempty l n v : tget l n = Ok v -> l <> [].
  Proof. intros Hv ->. destruct n as [|[|]]; discriminate. Qed.
  Lemma sim_moveValueUp c fuel : forall l t pos value, H c l t ->
    sim (H c) (moveValueUp E lt eqv supportDedup dedup fuel l pos value) (hm_moveValueUp E lt eqv supportDedup dedup fuel t pos value).
  Proof.
    induction fuel as [|f IH]; intros l t pos value Hh; cbn [moveValueUp hm_moveValueUp]; [apply sim_nofuel|].
    eapply sim_bind; [apply sim_up_loop; exact Hh|]. intros [[l1 p1] d1] [[t1 p1'] d1'] [[Hh1 Hp] Hd]. cbn [fst snd] in *. subst p1' d1'. destruct d1; [|eapply sim_set; exact Hh1].
    cbv zeta. eapply sim_bind; [eapply sim_get; exact Hh1|intros u ? <-]. eapply sim_bind; [eapply sim_set; exact Hh1|]. intros l2 t2 Hh2.
    eapply sim_bind with (P := H c).
    { destruct (p1 =? pos); [apply sim_ok; auto|]. eapply sim_bind; [eapply sim_get; exact Hh2|intros tmp ? <-]. now apply sim_back_loop. }
    intros l3 t3 Hh3. rewrite (H_last c l3 t3 Hh3). intros l' Hl'. destruct (tget l3 (length l3)) as [v| | |] eqn:Ev; try discriminate.
    destruct (sim_get c l3 t3 (length l3) Hh3 v Ev) as (? & -> & <-). cbn [bind] in *.
    destruct (sim_popBack c l3 t3 Hh3 (tget_nonempty _ _ _ Ev)) as (t4 & -> & Hh4). cbn [bind]. rewrite (H_last _ _ _ Hh4).
    destruct (pos =? length (removelast l3) + 1). { injection Hl' as <-. eauto. } exact (IH _ _ _ _ Hh4 l' Hl').
  Qed.
  (** How pushBack changes the size of the array: ComTree.h:202-207, 316-326. *)
  Definition grown (c n : nat) : nat := if Nat.eqb n c then (if Nat.eqb c 0 then 16 else c * 2) else c.
  Lemma pushBack_holds c l t v : H c l t -> exists t', ct_pushBack t v = Ok t' /\ H (grown c (length l)) (l ++ [v]) t'.
  Proof.
    intros [Hh Hc]. unfold ct_pushBack, grown. rewrite (proj1 Hh), Hc. destruct (Nat.eqb_spec (length l) c) as [He|He].
    - destruct (ct_increaseCapacity_holds t l Hh) as (t1 & -> & Hh1 & Hc1). cbn [bind]. rewrite Hc in Hc1.
      destruct (ct_pushBackWithCapacity_holds t1 l v Hh1) as (t2 & H2 & Hh2 & Hc2). { rewrite Hc1. destruct (Nat.eqb_spec c 0); lia. }
      exists t2; split; [exact H2|]. split; [exact Hh2|congruence].
    - cbn [bind]. destruct (ct_pushBackWithCapacity_holds t l v Hh) as (t2 & H2 & Hh2 & Hc2). { destruct Hh as (_ & ? & _). lia. }
      exists t2; split; [exact H2|]. split; [exact Hh2|congruence].
  Qed.
  Lemma sim_push c l t x : H c l t -> sim (H (grown c (length l))) (heap_push E lt eqv supportDedup dedup l x) (hm_push E lt eqv supportDedup dedup t x).
  Proof.
    intros Hh. unfold heap_push, hm_push. destruct (pushBack_holds c l t x Hh) as (t1 & -> & Hh1). cbn [bind]. rewrite (H_last _ _ _ Hh1). now apply sim_moveValueUp.
  Qed.
  (** The array sizes that occur. *)
  Definition steps (c : nat) : Prop := c = 0 \/ exists k, c = 16 * 2 ^ k.
  (** The size of the array lies between the old one and what the entries held during the call need. *)
  Definition cap_ok (c n c' : nat) : Prop := c <= c' /\ c' <= Nat.max c (Nat.max 16 (2 * n)) /\ (steps c -> steps c').
  Lemma cap_ok_refl c n : cap_ok c n c.
  Proof. unfold cap_ok. split; [lia|]. split; [lia|auto]. Qed.
  Lemma cap_ok_trans c n n' c1 c2 : n <= n' -> cap_ok c n c1 -> cap_ok c1 n' c2 -> cap_ok c n' c2.
  Proof. unfold cap_ok. intros Hn (A1 & A2 & A3) (B1 & B2 & B3). split; [lia|]. split; [lia|auto]. Qed.
  Lemma grown_ok c k n : k < n -> cap_ok c n (grown c k).
  Proof.
    intros Hn. unfold grown. destruct (Nat.eqb_spec k c); [|apply cap_ok_refl]. destruct (Nat.eqb_spec c 0) as [->|]; unfold cap_ok.
    - split; [lia|]. split; [lia|]. right. exists 0. reflexivity.
    - split; [lia|]. split; [lia|]. intros [?|[j Hj]]; [lia|]. right. exists (S j). rewrite Nat.pow_succ_r'. lia.
  Qed.
  Lemma tset_length l n v l' : tset l n v = Ok l' -> length l' = length l.
  Proof. destruct n as [|k]; [discriminate|]. unfold tset, vset. destruct (_ <? _); [|discriminate]. intros [= <-]. apply upd_length. Qed.
  Ltac inv_bind Hx := match type of Hx with bind ?r _ = Ok _ => let E0 := fresh "E" in destruct r eqn:E0; try discriminate; cbn [bind] in Hx end.
  Lemma up_loop_length fuel : forall l pos v l' p d, up_loop E lt eqv supportDedup fuel l pos v = Ok (l', p, d) -> length l' = length l.
  Proof.
    induction fuel as [|f IH]; intros l pos v l' p d; cbn [up_loop]; destruct (pos =? 1); try discriminate; try (intros [= <- _ _]; reflexivity).
    cbv zeta. intros Hx. inv_bind Hx. destruct (lt a v).
    - inv_bind Hx. apply IH in Hx. apply tset_length in E1. congruence.
    - destruct (_ && _); injection Hx as <- _ _; reflexivity.
  Qed.
  Lemma back_loop_length fuel : forall l p pos tmp l', back_loop E fuel l p pos tmp = Ok l' -> length l' = length l.
  Proof.
    induction fuel as [|f IH]; intros l p pos tmp l'; cbn [back_loop]; destruct (p =? pos); try discriminate; try (intros [= <-]; reflexivity).
    intros Hx. inv_bind Hx. inv_bind Hx. apply IH in Hx. apply tset_length in E1. congruence.
  Qed.
  Lemma moveValueUp_length fuel : forall l pos v l', moveValueUp E lt eqv supportDedup dedup fuel l pos v = Ok l' -> length l' <= length l.
  Proof.
    induction fuel as [|f IH]; intros l pos v l'; cbn [moveValueUp]; [discriminate|]. intros Hx. inv_bind Hx. destruct a as [[l1 p1] d]. apply up_loop_length in E0. destruct d.
    - cbv zeta in Hx. inv_bind Hx. inv_bind Hx. inv_bind Hx. apply tset_length in E2.
      assert (length a1 = length a0). { destruct (p1 =? pos); [congruence|]. inv_bind E3. now apply back_loop_length in E3. }
      clear E3. inv_bind Hx. pose proof (removelast_length a1). destruct (pos =? _). { injection Hx as <-. lia. } apply IH in Hx. lia.
    - apply tset_length in Hx. lia.
  Qed.
  Lemma heap_push_length l x l' : heap_push E lt eqv supportDedup dedup l x = Ok l' -> length l' <= S (length l).
  Proof. unfold heap_push. intros Hx. apply moveValueUp_length in Hx. rewrite app_length in Hx. cbn [length] in Hx. lia. Qed.
  Definition Hk c n l t : Prop := holds t l /\ cap_ok c n (ct_cap t).
  Lemma sim_push_range xs : forall c l t, H c l t ->
    sim (Hk c (length l + length xs)) (heap_push_range E lt eqv supportDedup dedup l xs) (hm_push_range E lt eqv supportDedup dedup t xs).
  Proof.
    induction xs as [|x xs IH]; intros c l t Hh; cbn [heap_push_range hm_push_range].
    - apply sim_ok. destruct Hh as [Hh <-]. split; auto. apply cap_ok_refl.
    - intros l' Hl'. inv_bind Hl'. destruct (sim_push c l t x Hh a E0) as (t1 & -> & Hh1). cbn [bind]. destruct (IH _ _ _ Hh1 l' Hl') as (t2 & -> & Hh2 & Hc2).
      exists t2. split; auto. split; auto. apply heap_push_length in E0. cbn [length]. destruct Hc2 as (A1 & A2 & A3).
      pose proof (grown_ok c (length l) (length l + S (length xs)) ltac:(lia)) as (B1 & B2 & B3). unfold cap_ok. split; [lia|]. split; [lia|auto].
  Qed.
  Lemma sim_pop c l t : H c l t -> sim (fun a b => H c (fst a) (fst b) /\ snd a = snd b) (heap_pop E lt eqv supportDedup dedup l) (hm_pop E lt eqv supportDedup dedup t).
  Proof.
    intros Hh. unfold heap_pop, hm_pop. rewrite (H_last _ _ _ Hh). eapply sim_bind; [eapply sim_get; exact Hh|intros top ? <-]. intros r Hr. inv_bind Hr.
    destruct (sim_get c l t (length l) Hh a E0) as (? & -> & <-). cbn [bind]. destruct (sim_popBack c l t Hh (tget_nonempty _ _ _ E0)) as (t1 & -> & Hh1). cbn [bind].
    unfold ct_empty. rewrite (H_last _ _ _ Hh1). cbv zeta in Hr. revert r Hr. destruct (removelast l) as [|y l1]; cbn [length Nat.eqb].
    - apply sim_ok. auto.
    - eapply sim_bind; [apply sim_moveHoleDown; exact Hh1|]. intros [l2 h] [t2 h'] [Hh2 He]. cbn [fst snd] in *. subst h'. rewrite (H_last _ _ _ Hh2).
      eapply sim_bind; [apply sim_moveValueUp; exact Hh2|]. intros l3 t3 Hh3. apply sim_ok. auto.
  Qed.
  Lemma sim_decreaseTop c l t x : H c l t -> sim (H c) (heap_decreaseTop E lt eqv supportDedup dedup l x) (hm_decreaseTop E lt eqv supportDedup dedup t x).
  Proof.
    intros Hh. unfold heap_decreaseTop, hm_decreaseTop. eapply sim_bind; [apply sim_moveHoleDown; exact Hh|]. intros [l2 h] [t2 h'] [Hh2 He]. cbn [fst snd] in *. subst h'.
    rewrite (H_last _ _ _ Hh2). now apply sim_moveValueUp.
  Qed.
  Lemma forAll_loop_holds c l t : H c l t -> forall suffix it, 1 <= it -> skipn (it - 1) l = suffix -> it <= length l + 1 -> hm_forAll_loop E (length suffix) t it = Ok suffix.
  Proof.
    intros Hh. induction suffix as [|x s IH]; intros it Hi Hs Hle; cbn [hm_forAll_loop length]; rewrite (H_last _ _ _ Hh).
    - destruct (Nat.eqb_spec it (length l + 1)); auto. pose proof (skipn_length (it - 1) l) as Hx. rewrite Hs in Hx. cbn in Hx. lia.
    - assert (Hx : nth_error l (it - 1) = Some x /\ skipn it l = s).
      { destruct it as [|k]; [lia|]. replace (S k - 1) with k in Hs by lia. replace (S k - 1) with k by lia. clear - Hs. revert l Hs. induction k as [|k IH]; intros [|y l] Hs; cbn [skipn nth_error] in *; try discriminate.
        - inversion Hs. auto. - apply IH; auto. }
      destruct Hx as [Hx Hs2]. pose proof (nth_error_some_lt _ _ _ Hx). destruct (Nat.eqb_spec it (length l + 1)); [lia|].
      rewrite (ct_get_holds t l it x); auto; [|apply Hh]. cbn [bind]. rewrite IH; auto; try lia. now replace (S it - 1) with it by lia.
  Qed.
  Lemma forAll_holds c l t : H c l t -> hm_forAll E t = Ok l.
  Proof. intros Hh. unfold hm_forAll. rewrite (H_last _ _ _ Hh). apply (forAll_loop_holds c l t Hh); auto; lia. Qed.
  Lemma sim_step c l t o : H c l t ->
    sim (fun a b => Hk c (length l + length (pushed [o])) (fst a) (fst b) /\ snd a = snd b) (heap_step E lt eqv supportDedup dedup l o) (hm_step E lt eqv supportDedup dedup t o).
  Proof.
    intros Hh. assert (Hstay : forall n l' t', H c l' t' -> Hk c n l' t'). { intros n l' t' [A <-]. split; auto. apply cap_ok_refl. }
    destruct o; cbn [heap_step hm_step].
    - eapply sim_bind; [apply sim_push; exact Hh|]. intros l' t' [Hh' Hc']. apply sim_ok. cbn [fst snd pushed length]. split; auto. split; auto. rewrite Hc'. apply grown_ok. lia.
    - eapply sim_bind; [apply sim_push_range; exact Hh|]. intros l' t' Hh'. apply sim_ok. cbn [fst snd pushed]. rewrite app_nil_r. auto.
    - eapply sim_bind; [apply sim_pop; exact Hh|]. intros [l' x] [t' x'] [Hh' Hx]. cbn [fst snd] in *. subst x'. apply sim_ok. auto.
    - eapply sim_bind; [eapply sim_get; exact Hh|intros x ? <-]. apply sim_ok. auto.
    - eapply sim_bind; [apply sim_decreaseTop; exact Hh|]. intros l' t' Hh'. apply sim_ok. auto.
    - apply sim_ok. cbn [fst snd]. split; auto. apply Hstay. split; [|apply Hh]. apply (ct_clear_holds t l). apply Hh.
    - apply sim_ok. cbn [fst snd]. split; auto. unfold ct_size, heap_size. now rewrite (H_last _ _ _ Hh).
    - apply sim_ok. cbn [fst snd]. split; auto. unfold ct_empty, heap_empty. rewrite (H_last _ _ _ Hh). now destruct l.
    - rewrite (forAll_holds _ _ _ Hh). apply sim_ok. auto.
  Qed.
  Lemma sim_run ops : forall l t, holds t l -> sim (fun a b => holds (fst b) (fst a) /\ snd a = snd b)
    (run (heap_step E lt eqv supportDedup dedup) l ops) (run (hm_step E lt eqv supportDedup dedup) t ops).
  Proof.
    induction ops as [|o ops IH]; intros l t Hh; cbn [run].
    - apply sim_ok. auto.
    - eapply sim_bind. { apply (sim_step (ct_cap t)). split; auto. } intros [l1 r1] [t1 r1'] [Hh1 Hr]. cbn [fst snd] in *. subst r1'.
      eapply sim_bind; [apply IH; exact (proj1 Hh1)|]. intros [l2 rs] [t2 rs'] [Hh2 He]. cbn [fst snd] in *. subst. apply sim_ok. auto.
  Qed.
End HeapMem.
