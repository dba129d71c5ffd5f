(** How much memory the heap and the tournament tree take, and what it costs to grow (C80). *)
From Coq Require Import List Arith Bool Lia Permutation.
From Verif.Base Require Import Res Arr Order.
From Verif.Spec Require Import PQ PQFacts.
From Verif.ComTree Require Import Model Proofs.
From Verif.Heap Require Import Model Proofs.
From Verif.TourTree Require Import Model Proofs.
From Verif.HeapMem Require Import Model Proofs.
Import ListNotations.

(** The entries of a tree, read off its array. *)
Definition stored {E} (t : comtree E) : list E :=
  match ct_arr t with None => [] | Some a => flat_map (fun o => match o with Some x => [x] | None => [] end) (firstn (ct_last t) a) end.
Lemma stored_holds {E} (t : comtree E) l : holds t l -> stored t = l.
Proof.
  intros (Hl & Hc & Ha). unfold stored. destruct (ct_arr t) as [a|].
  - destruct Ha as [_ Hf]. rewrite Hl, Hf. clear. induction l as [|x l IH]; cbn [map flat_map app]; congruence.
  - destruct l; cbn in *; [auto|lia].
Qed.
(** During the history [ops] of a queue at most [n] entries are held, counting those being pushed, and no call needs an entry that is not there. *)
Definition within {St E} (step : St -> op E -> res (St * out E)) (init : St) (abs : St -> list E) (n : nat) (ops : list (op E)) : Prop :=
  forall pre o post s rs, ops = pre ++ o :: post -> run step init pre = Ok (s, rs) ->
    (needs_nonempty o = true -> abs s <> []) /\ length (abs s) + length (pushed [o]) <= n.
Lemma within_snoc {St E} (step : St -> op E -> res (St * out E)) init abs n ops o : within step init abs n (ops ++ [o]) -> within step init abs n ops.
Proof. intros Hw pre o' post s rs He Hr. apply (Hw pre o' (post ++ [o]) s rs); auto. rewrite He, <- app_assoc. reflexivity. Qed.

(** A test for [within]. *)
Fixpoint withinb {St E} (step : St -> op E -> res (St * out E)) (s : St) (abs : St -> list E) (n : nat) (ops : list (op E)) : bool :=
  match ops with
  | [] => true
  | o :: ops' => (negb (needs_nonempty o) || negb (length (abs s) =? 0)) && (length (abs s) + length (pushed [o]) <=? n) &&
                 match step s o with Ok (s', _) => withinb step s' abs n ops' | _ => true end
  end.
Lemma withinb_sound {St E} (step : St -> op E -> res (St * out E)) abs n ops : forall s, withinb step s abs n ops = true -> within step s abs n ops.
Proof.
  induction ops as [|o ops IH]; intros s Hb pre o' post s' rs He Hr; [destruct pre; discriminate|]. cbn [withinb] in Hb. apply andb_prop in Hb as [Hb Hs]. apply andb_prop in Hb as [Hn Hl].
  destruct pre as [|o1 pre]; cbn [app run] in *.
  - injection He as <- <-. injection Hr as <- _. split; [|now apply Nat.leb_le]. intros Hx. rewrite Hx in Hn. cbn in Hn. intros Ha. rewrite Ha in Hn. discriminate.
  - injection He as <- ->. destruct (step s o) as [[s1 r1]| | |]; try discriminate. cbn [bind] in Hr. destruct (run step s1 pre) as [[s2 rs2]| | |] eqn:E2; try discriminate. injection Hr as <- _.
    exact (IH s1 Hs pre o' post s2 rs2 eq_refl E2).
Qed.

Section Heaps.
  Context {E : Type}.
  Variable lt : E -> E -> bool.
  Variable eqv : E -> E -> bool.
  Variable supportDedup : bool.
  Variable dedup : E -> E -> E.
  Hypothesis sw : strict_weak lt.
  Hypothesis duty : supportDedup = true -> forall a b, lt a b = false -> eqv a b = true -> equivalent lt (dedup a b) a.
  Notation lstep := (heap_step E lt eqv supportDedup dedup).
  Notation step := (hm_step E lt eqv supportDedup dedup).
  Notation dd := (dedup_dd supportDedup eqv dedup).

  Lemma hm_total ops : (exists t rs, run step (hm_new E) ops = Ok (t, rs) /\ trace lt dd [] ops rs (stored t)) \/
    (exists pre o post t rs, ops = pre ++ o :: post /\ needs_nonempty o = true /\ run step (hm_new E) pre = Ok (t, rs) /\ stored t = [] /\ trace lt dd [] pre rs []).
  Proof.
    pose proof (heap_pq_correct lt eqv supportDedup dedup sw duty ops) as Hc. rewrite (proj2 (forallb_forall _ ops)) in Hc by auto. specialize (Hc eq_refl).
    destruct (run lstep [] ops) as [[l rs]| | |] eqn:Er; try tauto.
    - left. destruct (sim_run lt eqv supportDedup dedup ops [] (hm_new E) (ct_new_holds 0) _ Er) as ([t rs'] & Hr & Hh & He). cbn [fst snd] in *. subst rs'.
      exists t, rs. split; auto. now rewrite (stored_holds t l Hh).
    - right. destruct Hc as (pre & o & post & l & rs & He & Hn & Hr & Hl & Ht). subst l.
      destruct (sim_run lt eqv supportDedup dedup pre [] (hm_new E) (ct_new_holds 0) _ Hr) as ([t rs'] & Hr' & Hh & Hrs). cbn [fst snd] in *. subst rs'.
      exists pre, o, post, t, rs. repeat split; auto. now apply stored_holds.
  Qed.
  (** A history without misuse runs on the list of entries as well, which the array holds. *)
  Lemma hm_within n ops : within step (hm_new E) stored n ops ->
    exists l t rs, run lstep [] ops = Ok (l, rs) /\ run step (hm_new E) ops = Ok (t, rs) /\ holds t l /\ cap_ok 0 n (ct_cap t).
  Proof.
    induction ops as [|o ops IH] using rev_ind; intros Hw.
    - exists [], (hm_new E), []. repeat split; auto; try apply ct_new_holds; try apply cap_ok_refl.
    - destruct (IH (within_snoc _ _ _ _ _ _ Hw)) as (l & t & rs & Hr & Hm & Hh & Hc). destruct (Hw ops o [] t rs eq_refl Hm) as [Hne Hlen]. rewrite (stored_holds t l Hh) in *.
      pose proof (heap_pq_correct lt eqv supportDedup dedup sw duty (ops ++ [o])) as Hq. rewrite (proj2 (forallb_forall _ (ops ++ [o]))) in Hq by auto. specialize (Hq eq_refl).
      rewrite run_app, Hr in Hq. cbn [bind run] in Hq. rewrite !run_app, Hr, Hm. cbn [bind run].
      destruct (lstep l o) as [[l1 r1]| | |] eqn:Es; cbn [bind] in Hq |- *; try tauto.
      + destruct (sim_step lt eqv supportDedup dedup (ct_cap t) l t o (conj Hh eq_refl) _ Es) as ([t1 r1'] & Hs & [Hh1 Hc1] & He). cbn [fst snd] in *. subst r1'. rewrite Hs. cbn [bind].
        exists l1, t1, (rs ++ [r1]). repeat split; auto; try apply Hh1; try apply Hc1.
        * lia.
        * destruct Hc as (_ & A & _), Hc1 as (_ & B & _). lia.
        * intros _. apply Hc1, Hc. now left.
      + exfalso. destruct Hq as (pre & o' & post & l' & rs' & He & Hn & Hr' & Hl' & _). subst l'.
        destruct post as [|o2 post] using rev_ind.
        * apply app_inj_tail in He as [<- <-]. rewrite Hr in Hr'. injection Hr' as -> _. now apply Hne.
        * clear IHpost. rewrite app_comm_cons, app_assoc in He. apply app_inj_tail in He as [-> ->].
          rewrite run_app, Hr' in Hr. cbn [bind run] in Hr.
          destruct (run step (hm_new E) pre) as [[t2 rs2]| | |] eqn:Em; [|rewrite run_app, Em in Hm; discriminate|rewrite run_app, Em in Hm; discriminate|rewrite run_app, Em in Hm; discriminate].
          destruct (sim_run lt eqv supportDedup dedup pre [] (hm_new E) (ct_new_holds 0) _ Hr') as ([t3 rs3] & Hr3 & Hh3 & _). rewrite Em in Hr3. injection Hr3 as -> ->. cbn [fst] in Hh3.
          destruct (Hw pre o' (post ++ [o2]) t3 rs3) as [Hx _]; auto. { now rewrite <- app_assoc. } apply Hx; auto. now apply stored_holds.
  Qed.
  Lemma within_app n ops1 ops2 : within step (hm_new E) stored n (ops1 ++ ops2) -> within step (hm_new E) stored n ops1.
  Proof.
    intros Hw pre o post s rs He Hr. apply (Hw pre o (post ++ ops2) s rs); auto. rewrite He, <- app_assoc. reflexivity.
  Qed.
  Lemma hm_kept n ops2 : forall ops1 s t rs rs', within step (hm_new E) stored n (ops1 ++ ops2) -> run step (hm_new E) ops1 = Ok (s, rs) ->
    run step (hm_new E) (ops1 ++ ops2) = Ok (t, rs') -> ct_cap s <= ct_cap t.
  Proof.
    induction ops2 as [|o ops2 IH]; intros ops1 s t rs rs' Hw H1 H2.
    - rewrite app_nil_r, H1 in H2. injection H2 as -> _. auto.
    - destruct (hm_within n ops1 (within_app n ops1 (o :: ops2) Hw)) as (l & t0 & rs0 & Hr & Hm & Hh & _). rewrite H1 in Hm. injection Hm as <- <-.
      replace (ops1 ++ o :: ops2) with ((ops1 ++ [o]) ++ ops2) in * by now rewrite <- app_assoc.
      destruct (hm_within n (ops1 ++ [o]) (within_app n _ _ Hw)) as (l1 & t1 & rs1 & Hr1 & Hm1 & _ & _).
      transitivity (ct_cap t1); [|eapply IH; eauto]. rewrite run_app, Hr in Hr1. rewrite run_app, H1 in Hm1. cbn [bind run] in Hr1, Hm1.
      destruct (lstep l o) as [[l2 r2]| | |] eqn:Es; try discriminate. destruct (sim_step lt eqv supportDedup dedup (ct_cap s) l s o (conj Hh eq_refl) _ Es) as ([t2 r3] & Hs & [_ Hc] & _).
      cbn [fst] in *. rewrite Hs in Hm1. cbn [bind] in Hm1. injection Hm1 as -> _. apply Hc.
  Qed.
End Heaps.

Section Tours.
  Context {E : Type}.
  Variable lt : E -> E -> bool.
  Hypothesis sw : strict_weak lt.
  Implicit Types s : tourtree E.
  Definition tcap_ok (c n c' : nat) : Prop := c <= c' /\ c' <= Nat.max c (4 * n) /\ (steps c -> steps c').
  Definition paired s : Prop := tt_pcap s = tt_cap s / 2 + 2.
  Ltac inv_bind Hx := match type of Hx with bind ?r _ = Ok _ => let E0 := fresh "E" in destruct r eqn:E0; try discriminate; cbn [bind] in Hx end.
  Lemma tree_push_cap s p s' : tree_push E s p = Ok s' -> tt_cap s' = tt_cap s /\ tt_pcap s' = tt_pcap s.
  Proof. unfold tree_push. destruct (_ <? _); [|discriminate]. intros [= <-]. auto. Qed.
  Lemma players_push_cap s p s' : players_push E s p = Ok s' -> tt_cap s' = tt_cap s /\ tt_pcap s' = tt_pcap s.
  Proof. unfold players_push. destruct (_ <? _); [|discriminate]. intros [= <-]. auto. Qed.
  Lemma tt_push_cap s x s' : tt_push E lt s x = Ok s' ->
    let s1 := if 2 <=? tt_cap s - length (tt_tree s) then s else tt_reallocate E s in tt_cap s' = tt_cap s1 /\ tt_pcap s' = tt_pcap s1.
  Proof.
    unfold tt_push. cbv zeta. generalize (if 2 <=? tt_cap s - length (tt_tree s) then s else tt_reallocate E s). intros s1 Hx. destruct (tt_empty E s1).
    - inv_bind Hx. apply players_push_cap in E0. apply tree_push_cap in Hx. split; [destruct E0, Hx; congruence|destruct E0, Hx; congruence].
    - inv_bind Hx. inv_bind Hx. inv_bind Hx. inv_bind Hx. inv_bind Hx. inv_bind Hx. injection Hx as <-. cbn [tt_cap tt_pcap].
      apply tree_push_cap in E1, E4. apply players_push_cap in E3. cbn [tt_cap tt_pcap] in *. destruct E1, E3, E4. split; congruence.
  Qed.
  Lemma tt_pop_cap s s' x : tt_pop E lt s = Ok (s', x) -> tt_cap s' = tt_cap s /\ tt_pcap s' = tt_pcap s.
  Proof.
    unfold tt_pop. intros Hx. inv_bind Hx. inv_bind Hx. cbv zeta in Hx. destruct (_ =? 1); [injection Hx as <- _; auto|].
    inv_bind Hx. inv_bind Hx. inv_bind Hx. inv_bind Hx. destruct a4. inv_bind Hx. inv_bind Hx. inv_bind Hx. destruct (negb _); [discriminate|]. inv_bind Hx. inv_bind Hx. inv_bind Hx. injection Hx as <- _. auto.
  Qed.
  Lemma tt_decreaseTop_cap s s' x : tt_decreaseTop E lt s x = Ok s' -> tt_cap s' = tt_cap s /\ tt_pcap s' = tt_pcap s.
  Proof. unfold tt_decreaseTop. intros Hx. inv_bind Hx. inv_bind Hx. inv_bind Hx. inv_bind Hx. injection Hx as <-. auto. Qed.
  Lemma inv_nodes s : inv lt s -> length (tt_tree s) + 1 <= Nat.max 1 (2 * length (contents s)) /\ 16 <= tt_cap s /\ length (tt_tree s) <= tt_cap s.
  Proof.
    intros ([A B] & _ & [[H1 H2]|(_ & Hs & _)]); unfold contents; rewrite map_length.
    - rewrite H1, H2 in *. cbn. lia.
    - pose proof (sh_len _ _ Hs) as Hl. rewrite map_length in Hl. lia.
  Qed.
  Lemma tt_push_grows s x s' n : inv lt s -> paired s -> length (contents s) < n -> tt_push E lt s x = Ok s' -> paired s' /\ tcap_ok (tt_cap s) n (tt_cap s').
  Proof.
    intros Hi Hp Hn Hx. apply tt_push_cap in Hx. cbv zeta in Hx. destruct (inv_nodes s Hi) as (A & B & C).
    destruct (Nat.leb_spec 2 (tt_cap s - length (tt_tree s))); destruct Hx as [Hc Hpc]; unfold paired, tcap_ok in *; rewrite Hpc, Hc.
    - split; [auto|]. split; [lia|]. split; [lia|auto].
    - unfold tt_reallocate. cbn [tt_cap tt_pcap]. destruct (Nat.eqb_spec (tt_cap s) 0); [lia|]. rewrite Hp. split.
      + rewrite Nat.div_mul by lia. pose proof (Nat.div_le_upper_bound (tt_cap s) 2 (tt_cap s) ltac:(lia) ltac:(lia)). lia.
      + split; [lia|]. split; [lia|]. intros [?|[k Hk]]; [lia|]. right. exists (S k). rewrite Nat.pow_succ_r'. lia.
  Qed.
  Lemma tt_range_grows xs : forall s s' n, inv lt s -> paired s -> length (contents s) + length xs <= n -> tt_push_range E lt s xs = Ok s' -> paired s' /\ tcap_ok (tt_cap s) n (tt_cap s').
  Proof.
    induction xs as [|x xs IH]; intros s s' n Hi Hp Hn Hx; cbn [tt_push_range length] in *.
    - injection Hx as <-. split; auto. unfold tcap_ok. split; [lia|]. split; [lia|auto].
    - destruct (push_spec lt sw s x Hi) as (s1 & Hs & Hi1 & Hperm & _). rewrite Hs in Hx. cbn [bind] in Hx.
      destruct (tt_push_grows s x s1 n Hi Hp ltac:(lia) Hs) as [Hp1 (A1 & A2 & A3)]. apply Permutation_length in Hperm. cbn [length] in Hperm.
      destruct (IH s1 s' n Hi1 Hp1 ltac:(lia) Hx) as [Hp2 (B1 & B2 & B3)]. split; auto. unfold tcap_ok. split; [lia|]. split; [lia|auto].
  Qed.
  Lemma tt_step_grows s o s' r n : inv lt s -> paired s -> length (contents s) + length (pushed [o]) <= n -> tt_step E lt s o = Ok (s', r) -> paired s' /\ tcap_ok (tt_cap s) n (tt_cap s').
  Proof.
    intros Hi Hp Hn Hx. assert (Hsame : forall s', tt_cap s' = tt_cap s /\ tt_pcap s' = tt_pcap s -> paired s' /\ tcap_ok (tt_cap s) n (tt_cap s')).
    { intros s2 [A B]. unfold paired, tcap_ok in *. rewrite A, B. split; [auto|]. split; [lia|]. split; [lia|auto]. }
    destruct o; cbn [tt_step] in Hx.
    - inv_bind Hx. injection Hx as <- _. eapply tt_push_grows; eauto. cbn [pushed length] in Hn. lia.
    - inv_bind Hx. injection Hx as <- _. cbn [pushed] in Hn. rewrite app_nil_r in Hn. eapply tt_range_grows; eauto.
    - inv_bind Hx. destruct a. injection Hx as <- _. apply Hsame. eapply tt_pop_cap; eauto.
    - inv_bind Hx. injection Hx as <- _. auto.
    - inv_bind Hx. injection Hx as <- _. apply Hsame. eapply tt_decreaseTop_cap; eauto.
    - injection Hx as <- _. apply Hsame. auto.
    - discriminate || (injection Hx as <- _; auto).
    - injection Hx as <- _. auto.
    - injection Hx as <- _. auto.
  Qed.
  Lemma tt_reached n ops : forall s rs, forallb (tt_api E) ops = true -> within (tt_step E lt) (tt_new E) contents n ops -> run (tt_step E lt) (tt_new E) ops = Ok (s, rs) ->
    inv lt s /\ paired s /\ tcap_ok 16 n (tt_cap s).
  Proof.
    induction ops as [|o ops IH] using rev_ind; intros s rs Ha Hw Hr.
    - injection Hr as <- _. split; [apply tt_new_inv|]. split; [reflexivity|]. unfold tcap_ok. change (tt_cap (tt_new E)) with 16. split; [lia|]. split; [lia|auto].
    - rewrite forallb_app in Ha. apply andb_prop in Ha as [Ha Ho]. cbn [forallb] in Ho. rewrite andb_true_r in Ho. rewrite run_app in Hr.
      destruct (run (tt_step E lt) (tt_new E) ops) as [[s0 rs0]| | |] eqn:E0; try discriminate. cbn [bind run] in Hr.
      destruct (tt_step E lt s0 o) as [[s1 r1]| | |] eqn:E1; try discriminate. injection Hr as <- _.
      destruct (IH s0 rs0 Ha (within_snoc _ _ _ _ _ _ Hw) eq_refl) as (Hi & Hp & A1 & A2 & A3). destruct (Hw ops o [] s0 rs0 eq_refl E0) as [_ Hn].
      destruct (tt_step_grows s0 o s1 r1 n Hi Hp Hn E1) as [Hp1 (B1 & B2 & B3)]. split; [|split; [auto|unfold tcap_ok; split; [lia|split; [lia|auto]]]].
      pose proof (tt_step_correct lt sw s0 o Hi Ho) as Hc. rewrite E1 in Hc. apply Hc.
  Qed.
End Tours.

Section Growth.
  Context {E : Type}.
  Implicit Types t : comtree E.
  (** Calls that can be made through a queue: all but growing and copying the tree by hand. *)
  Definition ordinary (o : ct_op E) : bool := match o with CGrow | CCopy _ => false | _ => true end.
  (** All entries that the history copies into new arrays, and how many entries it pushes. *)
  Fixpoint copies (t : comtree E) (ops : list (ct_op E)) : nat :=
    match ops with
    | [] => 0
    | o :: ops' => match ct_step t o with Ok (t', _) => match o with CPushBack _ => push_copies E t | _ => 0 end + copies t' ops' | _ => 0 end
    end.
  Fixpoint pushes (ops : list (ct_op E)) : nat := match ops with [] => 0 | CPushBack _ :: ops' => S (pushes ops') | _ :: ops' => pushes ops' end.

  Lemma ct_set_same t n v t' : ct_set t n v = Ok t' -> ct_last t' = ct_last t /\ ct_cap t' = ct_cap t.
  Proof. unfold ct_set. destruct (ct_arr t), n; try discriminate. destruct (vset _ _ _); try discriminate. intros [= <-]. auto. Qed.
  Lemma ct_copy_loop_cap fuel : forall t new i t', ct_copy_loop fuel t new i = Ok t' -> ct_cap t' = ct_cap new.
  Proof.
    induction fuel as [|f IH]; intros t new i t'; cbn [ct_copy_loop]; destruct (i <=? ct_last t); try discriminate; try (intros [= <-]; reflexivity).
    destruct (ct_get t i); try discriminate. cbn [bind]. destruct (_ =? _); [discriminate|]. destruct (ct_pushBackWithCapacity new a) as [n1| | |] eqn:E1; try discriminate. cbn [bind].
    intros Hx. apply IH in Hx. apply ct_set_same in E1. cbn [ct_cap] in E1. destruct E1. congruence.
  Qed.
  Lemma ct_pushBack_cap t v t' : ct_pushBack t v = Ok t' -> ct_last t' = S (ct_last t) /\ ct_cap t' = grown (ct_cap t) (ct_last t).
  Proof.
    unfold ct_pushBack, grown, ct_increaseCapacity. destruct (ct_last t =? ct_cap t).
    - destruct (ct_copy_loop (ct_last t) t _ 1) as [n1| | |] eqn:E1; try discriminate. cbn [bind]. intros Hx. apply ct_set_same in Hx. apply ct_copy_loop_cap in E1. cbn [ct_last ct_cap ct_arr] in *. destruct Hx. split; [auto|]. rewrite H0, E1. reflexivity.
    - cbn [bind]. intros Hx. apply ct_set_same in Hx. exact Hx.
  Qed.
  (** What has been copied so far fits in the array, and the array is at most twice what was pushed, or of the first size. *)
  Definition paid t (copied pushed : nat) : Prop :=
    ct_last t <= pushed /\ copied <= ct_cap t - 16 /\ (ct_cap t = 0 \/ 16 <= ct_cap t) /\ ct_cap t <= Nat.max 16 (2 * pushed).
  Lemma step_paid t o t' r c p : ordinary o = true -> paid t c p -> ct_step t o = Ok (t', r) ->
    paid t' (c + match o with CPushBack _ => push_copies E t | _ => 0 end) (match o with CPushBack _ => S p | _ => p end).
  Proof.
    intros Ho (A1 & A2 & A3 & A4) Hx. destruct o; try discriminate; cbn [ct_step] in Hx; rewrite ?Nat.add_0_r.
    - destruct (ct_pushBack t v) as [t1| | |] eqn:E1; try discriminate. injection Hx as <- _. apply ct_pushBack_cap in E1 as [B1 B2]. unfold paid, push_copies, grown in *. rewrite B1, B2.
      destruct (Nat.eqb_spec (ct_last t) (ct_cap t)); [|lia]. destruct (Nat.eqb_spec (ct_cap t) 0); lia.
    - unfold ct_popBack in Hx. destruct (ct_last t) eqn:El; [discriminate|]. injection Hx as <- _. unfold paid. cbn [ct_last ct_cap]. lia.
    - destruct (ct_set t n v) as [t1| | |] eqn:E1; try discriminate. injection Hx as <- _. apply ct_set_same in E1 as [B1 B2]. unfold paid. rewrite B1, B2. lia.
    - destruct (ct_get t n); try discriminate. injection Hx as <- _. unfold paid. lia.
    - injection Hx as <- _. unfold paid, ct_clear. cbn [ct_last ct_cap]. lia.
    - injection Hx as <- _. unfold paid. lia.
  Qed.
  Lemma copies_paid ops : forall t c p, forallb ordinary ops = true -> paid t c p -> c + copies t ops <= 2 * (p + pushes ops).
  Proof.
    induction ops as [|o ops IH]; intros t c p Ho Hp; cbn [copies pushes forallb] in *.
    - destruct Hp as (A1 & A2 & A3 & A4). lia.
    - apply andb_prop in Ho as [Ho Hos]. destruct (ct_step t o) as [[t' r]| | |] eqn:Es.
      + pose proof (IH t' _ _ Hos (step_paid t o t' r c p Ho Hp Es)) as H. destruct o; cbn iota in *; lia.
      + destruct Hp as (A1 & A2 & A3 & A4). destruct o; lia.
      + destruct Hp as (A1 & A2 & A3 & A4). destruct o; lia.
      + destruct Hp as (A1 & A2 & A3 & A4). destruct o; lia.
  Qed.
End Growth.
