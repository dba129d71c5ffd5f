(** Every queue of the simulation serves pushes and pops like a set of values. *)
From Coq Require Import List Arith NArith Bool Permutation Lia.
From Verif.Base Require Import Res Order.
From Verif.Spec Require Import PQ PQFacts PQState PQStateFacts.
From Verif.Heap Require Import Model Proofs Stateful StatefulProofs.
From Verif.TourTree Require Import Model Proofs.
From Verif.StlSet Require Import Model Proofs.
From Verif.Geobucket Require Import Model Proofs.
From Verif.PqSim Require Import Model ClientProofs.
Import ListNotations.
Local Open Scope N_scope.
Local Notation length := List.length.

(** [R s live n]: the queue holds the set of values [live], in at most [n] copies. *)
Definition subject_ok (m : subject) : Prop :=
  exists R : m_state m -> list N -> nat -> Prop,
    R (m_new m) [] 0%nat /\
    (forall s live n xs, R s live n -> xs <> [] -> non_increasing N.ltb xs = true ->
       exists s', m_push m s xs = Ok s' /\ R s' (xs ++ live) (length xs + n)%nat) /\
    (forall s live n fuel, R s live n -> live <> [] -> (2 * n <= fuel)%nat ->
       exists s' v, m_pop m fuel s = Ok (s', v) /\ In v live /\ (forall z, In z live -> z <= v) /\
         R s' (filter (fun z => negb (z =? v)) live) n) /\
    (forall s live live' n, R s live n -> (forall z, In z live <-> In z live') -> R s live' n) /\
    (forall s n, R s [] n -> R s [] 0%nat).

Lemma filter_ne v l z : In z (filter (fun z => negb (z =? v)) l) <-> In z l /\ z <> v.
Proof. rewrite filter_In, negb_true_iff, N.eqb_neq. tauto. Qed.

(** ** Steps without a state of the configuration *)
Definition flat_dd {E P : Type} (d : E -> E -> E -> Prop) : P -> E -> E -> E -> P -> Prop := fun p a b c p' => d a b c /\ p' = p.

Lemma smerges_lift {E P} (d : E -> E -> E -> Prop) (p : P) l l' : merges d l l' -> smerges (flat_dd d) p l p l'.
Proof.
  induction 1 as [l l' Hp|l a b c m l' Hp Hd H IH]; [now constructor|]. eapply sm_dd; eauto. split; auto.
Qed.

Lemma pstep_lift {E P} lt (d : E -> E -> E -> Prop) (p : P) l o r l' : sstep lt d l o r l' -> pstep lt (flat_dd d) p l o r p l'.
Proof.
  intros H. inversion H; subst; econstructor; eauto using smerges_lift.
Qed.

Lemma with_pending_ok {E St} lt (d : E -> E -> E -> Prop) (step : St -> op E -> res (St * out E)) (inv : St -> Prop) (abs : St -> list E) (api : op E -> bool) :
  (forall s o, inv s -> api o = true ->
    match step s o with
    | Ok (s', r) => inv s' /\ sstep lt d (abs s) o r (abs s')
    | UB => abs s = [] /\ needs_nonempty o = true
    | Throw _ => False
    | NoFuel => False
    end) ->
  forall s p o, inv s -> api o = true ->
    match with_pending step (s, p) o with
    | Ok ((s', p'), r) => inv s' /\ pstep lt (flat_dd d) p (abs s) o r p' (abs s')
    | UB => abs s = [] /\ needs_nonempty o = true
    | Throw _ => False
    | NoFuel => False
    end.
Proof.
  intros H s p o Hi Ha. unfold with_pending. cbn [fst snd]. specialize (H s o Hi Ha).
  destruct (step s o) as [[s' r]| | |]; cbn [bind]; auto. destruct H; split; auto. now apply pstep_lift.
Qed.

(** ** Values *)
Section Values.
  Variable St : Type.
  Variable step : St * list N -> op N -> res ((St * list N) * out N).
  Variable inv : St -> Prop.
  Variable abs : St -> list N.
  Variable api : op N -> bool.
  Variable dd : list N -> N -> N -> N -> list N -> Prop.
  Hypothesis Hdd : forall p a b c p', dd p a b c p' -> c = a /\ a = b /\ p' = p.
  Hypothesis Hapi : (forall x, api (Push x) = true) /\ api Pop = true /\ api Top = true /\ api Empty = true.
  Hypothesis Hrange : forall x xs, non_increasing N.ltb (x :: xs) = true -> api (PushRange (x :: xs)) = true.
  Hypothesis Hstep : forall s p o, inv s -> api o = true ->
    match step (s, p) o with
    | Ok ((s', p'), r) => inv s' /\ pstep N.ltb dd p (abs s) o r p' (abs s')
    | UB => abs s = [] /\ needs_nonempty o = true
    | Throw _ => False
    | NoFuel => False
    end.

  Notation key := (fun x : N => x).
  Notation vs := (fun x : N => [x]).
  Notation nexts := (fun _ : N => @nil N).
  Notation good := (fun _ : N => True).

  Lemma v1 : forall x, good x -> vs x = key x :: flat_map vs (nexts x). Proof. reflexivity. Qed.
  Lemma v2 : forall x, good x -> Forall good (nexts x). Proof. constructor. Qed.
  Lemma v3 : forall x z, good x -> In z (vs x) -> z <= key x. Proof. intros x z _ [->|[]]. lia. Qed.
  Lemma v4 : forall x, (length (nexts x) <= 1)%nat. Proof. intros; simpl; lia. Qed.
  Lemma vdd : forall p a b c p', dd p a b c p' -> c = a /\ key a = key b /\ p' = p ++ nexts b.
  Proof. intros p a b c p' H. apply Hdd in H as (-> & -> & ->). rewrite app_nil_r. auto. Qed.
  Lemma vnp : true = true -> forall p a b c p', dd p a b c p' -> p' = p.
  Proof. intros _ p a b c p' H. now apply Hdd in H as (_ & _ & ->). Qed.

  Notation J := (J key vs good true St inv abs).
  Notation V := (V vs St abs).
  Notation T := (T vs St abs).
  Definition Rv (sp : St * list N) (live : list N) (n : nat) : Prop :=
    J sp /\ (T sp <= n)%nat /\ forall z, In z (V sp) <-> In z live.

  Lemma body_value_ok n : body_ok key vs good true St inv abs (body_value St step) n.
  Proof.
    intros s p v HJ Ht Hn. unfold body_value.
    assert (Hne : abs s <> []). { destruct Ht as [(x & Hx & _) _]. intros H0; rewrite H0 in Hx; destruct Hx. }
    destruct (pop_ok key dd St step inv abs api Hapi Hstep s p (proj1 HJ) Hne) as (s' & p' & x & p1 & m & Hq & Hi' & H1 & Hmax & H2).
    rewrite Hq. cbn [bind].
    assert (Hkx : x = v).
    { apply (top_unique key St abs s); auto. apply (max_top_is key St abs s x (x :: m)); auto.
      intros k. apply (smerges_keys key nexts dd vdd _ _ _ _ H1). }
    destruct (pass_ok key vs nexts good v1 v2 v4 dd vdd true vnp St inv abs api Hapi s p v x p1 m s' p') as (Hg & Hgp & Hn0 & HT & HV1 & HV2); auto.
    exists s', p'. split; auto. split; auto. rewrite (Hn0 eq_refl). repeat split; auto. intros z [].
  Qed.

  Lemma on_values_ok new : inv new -> abs new = [] -> subject_ok (on_values St step new).
  Proof.
    intros Hi Ha. exists Rv. cbn [on_values m_state m_new m_push m_pop]. split; [|split; [|split; [|split]]].
    - repeat split; unfold ClientProofs.V, ClientProofs.T, total, held; cbn [fst snd]; rewrite ?Ha; simpl; auto; try (intros z []); try lia; try tauto.
    - intros [s p] live n xs (HJ & HT & HV) Hne Hs. destruct xs as [|x xs]; [congruence|]. unfold q_range.
      destruct HJ as (Hi1 & Hl & Hp & Hc & Hn).
      pose proof (Hstep s p (PushRange (x :: xs)) Hi1 (Hrange x xs Hs)) as H.
      destruct (step (s, p) (PushRange (x :: xs))) as [[[s' p'] r]| | |]; try tauto; [|destruct H; discriminate].
      destruct H as [Hi' Hst]. inversion Hst as [|? ? ? Hm| | | | | | |]; subst. cbn [bind]. exists (s', p'). split; auto.
      assert (Hall : Forall good ((x :: xs) ++ abs s)) by (apply Forall_forall; auto).
      rewrite (Hn eq_refl) in Hm.
      assert (Hp' : p' = []) by (apply (smerges_np dd true vnp _ _ _ _ eq_refl Hm)).
      pose proof (smerges_held key vs nexts good v1 v2 dd vdd _ _ _ _ Hm Hall (Forall_nil _)) as HV'.
      destruct (smerges_total key vs nexts good v1 v4 dd vdd _ _ _ _ Hm Hall) as [_ HT'].
      split; [|split].
      + repeat split; auto; try (apply Forall_forall; auto). rewrite Hp'. intros z [].
      + unfold ClientProofs.T in *; cbn [fst snd] in *. rewrite (Hn eq_refl) in HT.
        unfold total, held in *. rewrite flat_map_app, !app_length in *. 
        assert (Hlen : length (flat_map vs (x :: xs)) = length (x :: xs)) by (clear; induction (x :: xs); simpl; auto). lia.
      + intros z. unfold ClientProofs.V in *; cbn [fst snd] in *. rewrite HV'. specialize (HV z). rewrite (Hn eq_refl) in HV.
        unfold held in *. rewrite flat_map_app, !in_app_iff in *.
        assert (Hin : In z (flat_map vs (x :: xs)) <-> In z (x :: xs)).
        { rewrite in_flat_map. split; [intros (y & Hy & [->|[]]); auto|intros Hz; exists z; split; [auto|now left]]. }
        rewrite Hin. tauto.
    - intros [s p] live n fuel (HJ & HT & HV) Hne Hf. unfold pop_value.
      assert (Hane : abs s <> []).
      { apply (live_nonempty key vs good true St inv abs s p HJ). destruct live as [|z live]; [congruence|]. intros H0.
        specialize (HV z). rewrite H0 in HV. simpl in HV. destruct HV as [_ HV]. apply HV. auto. }
      destruct (top_ok key dd St step inv abs api Hapi Hstep s p (proj1 HJ) Hane) as (s1 & p1 & x & -> & Hi1 & Hm1 & Hmax & _). cbn [bind].
      destruct (J_smerges key vs nexts good v1 v2 v3 v4 dd vdd true vnp St inv abs s p s1 p1 HJ Hi1 Hm1) as (HJ1 & HV1 & HT1 & Hk1).
      assert (Htop : top_is key St abs s1 x) by (apply (max_top_is key St abs s1 x (abs s1)); auto; tauto).
      destruct (do_loop_ok key vs nexts good v1 v2 v3 v4 dd vdd true vnp St step inv abs api Hapi Hstep _ _ (body_value_ok n) fuel s1 p1 x HJ1 Htop)
        as (s2 & p2 & -> & HJ2 & HT2 & HV2); try lia. cbn [bind].
      exists (s2, p2), x. destruct (top_max key vs nexts good v1 v3 true St inv abs s1 p1 x HJ1 Htop) as [Hin Hle].
      split; auto. split; [apply HV, HV1; auto|]. split; [intros z Hz; apply Hle, HV1, HV; auto|].
      split; [auto|]. split; [lia|]. intros z. rewrite HV2, HV1, HV, filter_ne. tauto.
    - intros [s p] live live' n (HJ & HT & HV) Heq. split; auto. split; auto. intros z. rewrite HV. auto.
    - intros [s p] n (HJ & HT & HV). split; auto. split; auto. unfold ClientProofs.T, total.
      change (held vs (abs (fst (s, p))) (snd (s, p))) with (V (s, p)). destruct (V (s, p)) as [|z l]; auto.
      exfalso. apply (HV z). now left.
  Qed.
End Values.

(** ** Items *)
Definition i_nexts (i : item) : list item :=
  match to_next i with Ok n => if at_end n then [] else [n] | _ => [] end.
Definition i_good (i : item) : Prop :=
  match i_rest i with [] => False | v :: r => v = i_value i /\ non_increasing N.ltb (v :: r) = true end.

Lemma desc_head v r : non_increasing N.ltb (v :: r) = true -> forall z, In z (v :: r) -> z <= v.
Proof.
  revert v. induction r as [|w r IH]; intros v H z [->|Hz]; try lia; [destruct Hz|].
  cbn [non_increasing] in H. apply andb_true_iff in H as [H1 H2]. apply negb_true_iff, N.ltb_ge in H1.
  specialize (IH w H2 z Hz). lia.
Qed.

Lemma good_next x : i_good x ->
  exists v l, i_value x = v /\ i_rest x = v :: l /\ (forall z, In z l -> z <= v) /\
    match l with [] => to_next x = Ok (mk_item v []) | w :: r => to_next x = Ok (mk_item w l) /\ i_good (mk_item w l) end.
Proof.
  destruct x as [v l]. unfold i_good, to_next. simpl. destruct l as [|a [|b r]]; [intros []| |]; intros [-> H]; exists v.
  - exists []. repeat split. intros z [].
  - exists (b :: r). split; auto. split; auto. split; [intros z Hz; apply (desc_head v (b :: r) H); now right|].
    cbn [non_increasing] in H. apply andb_true_iff in H as [H1 H2]. apply negb_true_iff, N.ltb_ge, N.leb_le in H1. rewrite H1. auto.
Qed.
Lemma i1 : forall x, i_good x -> i_rest x = i_value x :: flat_map i_rest (i_nexts x).
Proof.
  intros x H. unfold i_nexts. destruct (good_next x H) as (v & l & -> & -> & _ & Hn). destruct l as [|w r]; [now rewrite Hn|].
  destruct Hn as [-> _]. simpl. now rewrite app_nil_r.
Qed.
Lemma i2 : forall x, i_good x -> Forall i_good (i_nexts x).
Proof.
  intros x H. unfold i_nexts. destruct (good_next x H) as (v & l & _ & _ & _ & Hn). destruct l as [|w r]; [rewrite Hn; constructor|].
  destruct Hn as [-> Hg]. constructor; auto.
Qed.
Lemma i3 : forall x z, i_good x -> In z (i_rest x) -> z <= i_value x.
Proof.
  intros x z H Hz. destruct (good_next x H) as (v & l & -> & Hr & Hl & _). rewrite Hr in Hz. destruct Hz as [->|Hz]; [lia|auto].
Qed.
Lemma i4 : forall x, (length (i_nexts x) <= 1)%nat.
Proof. intros x. unfold i_nexts. destruct (to_next x) as [n| | |]; simpl; try lia. destruct (at_end n); simpl; lia. Qed.

Lemma to_next_good x : i_good x -> exists n, to_next x = Ok n /\ i_nexts x = if at_end n then [] else [n].
Proof.
  intros H. unfold i_nexts. destruct (good_next x H) as (v & l & _ & _ & _ & Hn). destruct l as [|w r].
  - rewrite Hn. eauto.
  - destruct Hn as [-> _]. eauto.
Qed.

Lemma item_of_good l : l <> [] -> non_increasing N.ltb l = true -> i_good (item_of l) /\ i_rest (item_of l) = l.
Proof. intros Hne H. destruct l as [|v r]; [congruence|]. split; [split; auto|reflexivity]. Qed.

(** The calls of deduplicate on items keep to the values. *)
Definition i_dd (dd : list item -> item -> item -> item -> list item -> Prop) : Prop :=
  forall p a b c p', dd p a b c p' -> c = a /\ i_value a = i_value b /\ p' = p ++ i_nexts b.

Section Items.
  Variable St : Type.
  Variable step : St * list item -> op item -> res ((St * list item) * out item).
  Variable dedup useDecreaseTop : bool.
  Variable inv : St -> Prop.
  Variable abs : St -> list item.
  Variable api : op item -> bool.
  Variable dd : list item -> item -> item -> item -> list item -> Prop.
  Hypothesis Hdd : i_dd dd.
  Hypothesis Hnd : dedup = false -> forall p a b c p', dd p a b c p' -> p' = p.
  Hypothesis Hapi : (forall x, api (Push x) = true) /\ api Pop = true /\ api Top = true /\ api Empty = true.
  Hypothesis Hstep : forall s p o, inv s -> api o = true ->
    match step (s, p) o with
    | Ok ((s', p'), r) => inv s' /\ pstep item_lt dd p (abs s) o r p' (abs s')
    | UB => abs s = [] /\ needs_nonempty o = true
    | Throw _ => False
    | NoFuel => False
    end.
  (** decreaseTop and pop act on the entry that top shows. *)
  Hypothesis Hcons : useDecreaseTop = true -> forall s p s1 p1 x, inv s -> step (s, p) Top = Ok ((s1, p1), OEntry x) ->
    exists m, Permutation (abs s1) (x :: m) /\
      (forall y, exists s2 p2, step (s1, p1) (DecreaseTop y) = Ok ((s2, p2), ONone) /\ inv s2 /\ smerges dd p1 (y :: m) p2 (abs s2)) /\
      (exists s2 p2, step (s1, p1) Pop = Ok ((s2, p2), OEntry x) /\ inv s2 /\ smerges dd p1 m p2 (abs s2)).

  Notation np := (negb dedup).
  Lemma inp : np = true -> forall p a b c p', dd p a b c p' -> p' = p.
  Proof. intros H. apply negb_true_iff in H. exact (Hnd H). Qed.

  Notation J := (J i_value i_rest i_good np St inv abs).
  Notation V := (V i_rest St abs).
  Notation T := (T i_rest St abs).
  Definition Ri (sp : St * list item) (live : list N) (n : nat) : Prop :=
    J sp /\ (T sp <= n)%nat /\ forall z, In z (V sp) <-> In z live.

  (** The end of a pass: everything pending is pushed, or nothing is pending. *)
  Lemma finish s2 p2 n fuel : inv s2 -> Forall i_good (abs s2) -> Forall i_good p2 -> (np = true -> p2 = []) ->
    (T (s2, p2) <= n)%nat -> (2 * n <= fuel)%nat ->
    exists s' p', (if dedup then flush St item step fuel (s2, p2) else match snd (s2, p2) with [] => Ok (s2, p2) | _ => UB end) = Ok (s', p') /\
      J (s', p') /\ (T (s', p') <= T (s2, p2))%nat /\ forall z, In z (V (s', p')) <-> In z (V (s2, p2)).
  Proof.
    intros Hi Hl Hp Hn HT Hf. destruct (bool_dec dedup true) as [Hd|Hd].
    - destruct (flush_ok i_value i_rest i_nexts i_good i1 i2 i4 dd Hdd St step inv abs api Hapi Hstep fuel s2 p2) as (s' & Hfl & Hi' & Hg' & HT' & HV'); auto.
      { pose proof (goods_count i_value i_rest i_nexts i_good i1 p2 Hp). unfold ClientProofs.T, total, held in *; cbn [fst snd] in *. rewrite app_length in *. lia. }
      exists s', []. rewrite Hd, Hfl. split; auto. split; [|split; auto]. repeat split; auto. intros z [].
    - apply not_true_is_false in Hd. assert (Hp2 : p2 = []) by (apply Hn; now rewrite Hd).
      exists s2, p2. rewrite Hd. cbn [snd]. subst p2. split; auto. repeat split; auto; try tauto. intros z [].
  Qed.

  Lemma body_pop_ok n fuel : (2 * n <= fuel)%nat -> body_ok i_value i_rest i_good np St inv abs (body_pop St step dedup fuel) n.
  Proof.
    intros Hf s p v HJ Ht HTn. unfold body_pop.
    assert (Hne : abs s <> []). { destruct Ht as [(x & Hx & _) _]. intros H0; rewrite H0 in Hx; destruct Hx. }
    destruct (pop_ok i_value dd St step inv abs api Hapi Hstep s p (proj1 HJ) Hne) as (s' & p' & x & p1 & m & Hq & Hi' & H1 & Hmax & H2).
    rewrite Hq. cbn [bind].
    assert (Hkx : i_value x = v).
    { apply (top_unique i_value St abs s); auto. apply (max_top_is i_value St abs s x (x :: m)); auto.
      intros k. apply (smerges_keys i_value i_nexts dd Hdd _ _ _ _ H1). }
    pose proof HJ as (Hi & Hl & Hp & Hc & Hn).
    destruct (smerges_goods i_value i_nexts i_good i2 dd Hdd _ _ _ _ H1 Hl Hp) as [Hxm Hp1]. inversion Hxm as [|? ? Hx Hm]; subst.
    destruct (to_next_good x Hx) as (nx & -> & Hnx). cbn [bind].
    assert (Hs2 : exists s2 p2, (if at_end nx then Ok (s', p') else q_push St item step (s', p') nx) = Ok (s2, p2) /\ inv s2 /\
              smerges dd p1 (i_nexts x ++ m) p2 (abs s2)).
    { rewrite Hnx. destruct (at_end nx).
      - exists s', p'. auto.
      - destruct (push_ok i_value dd St step inv abs api Hapi Hstep s' p' nx Hi') as (s2 & p2 & H3 & Hi2 & Hm2).
        exists s2, p2. split; auto. split; auto. eapply smerges_trans; [|exact Hm2].
        apply (smerges_app_l dd p1 m p' (abs s') [nx]). auto. }
    destruct Hs2 as (s2 & p2 & -> & Hi2 & Hm2). cbn [bind].
    destruct (pass_ok i_value i_rest i_nexts i_good i1 i2 i4 dd Hdd np inp St inv abs api Hapi s p (i_value x) x p1 m s2 p2) as (Hg & Hgp & Hn0 & HT & HV1 & HV2); auto.
    destruct (finish s2 p2 n fuel) as (s3 & p3 & -> & HJ3 & HT3 & HV3); auto; try lia.
    exists s3, p3. split; auto. split; auto. split; [lia|]. split.
    - intros z Hz. apply HV1, HV3; auto.
    - intros z Hz. destruct (HV2 z Hz); auto. right. now apply HV3.
  Qed.

  Lemma body_dec_ok n fuel : useDecreaseTop = true -> (2 * n <= fuel)%nat ->
    body_ok i_value i_rest i_good np St inv abs (body_dec St step dedup fuel) n.
  Proof.
    intros Hu Hf s p v HJ Ht HTn. unfold body_dec.
    assert (Hne : abs s <> []). { destruct Ht as [(x & Hx & _) _]. intros H0; rewrite H0 in Hx; destruct Hx. }
    destruct (top_ok i_value dd St step inv abs api Hapi Hstep s p (proj1 HJ) Hne) as (s1 & p1 & x & -> & Hi1 & Hm1 & Hmax & Htop). cbn [bind].
    destruct (Hcons Hu s p s1 p1 x (proj1 HJ) Htop) as (m & Hperm & Hdec & Hpop). clear Hu.
    assert (Hkx : i_value x = v).
    { apply (top_unique i_value St abs s); auto. apply (max_top_is i_value St abs s x (abs s1)); auto.
      intros k. apply (smerges_keys i_value i_nexts dd Hdd _ _ _ _ Hm1). }
    pose proof HJ as (Hi & Hl & Hp & Hc & Hn).
    assert (Hm1' : smerges dd p (abs s) p1 (x :: m)) by (eapply smerges_perm_r; [exact Hm1|exact Hperm]).
    destruct (smerges_goods i_value i_nexts i_good i2 dd Hdd _ _ _ _ Hm1' Hl Hp) as [Hxm Hp1]. inversion Hxm as [|? ? Hx Hm]; subst.
    destruct (to_next_good x Hx) as (nx & -> & Hnx). cbn [bind].
    assert (Hs2 : exists s2 p2, (if at_end nx then let* (s2, _) := q_pop St item step (s1, p1) in Ok s2 else q_dec St item step (s1, p1) nx) = Ok (s2, p2) /\
              inv s2 /\ smerges dd p1 (i_nexts x ++ m) p2 (abs s2)).
    { rewrite Hnx. destruct (at_end nx).
      - destruct Hpop as (s2 & p2 & H3 & Hi2 & Hm2). unfold q_pop. rewrite H3. cbn [bind]. exists s2, p2. auto.
      - destruct (Hdec nx) as (s2 & p2 & H3 & Hi2 & Hm2). unfold q_dec. rewrite H3. cbn [bind]. exists s2, p2. auto. }
    destruct Hs2 as (s2 & p2 & -> & Hi2 & Hm2). cbn [bind].
    destruct (pass_ok i_value i_rest i_nexts i_good i1 i2 i4 dd Hdd np inp St inv abs api Hapi s p (i_value x) x p1 m s2 p2) as (Hg & Hgp & Hn0 & HT & HV1 & HV2); auto.
    destruct (finish s2 p2 n fuel) as (s3 & p3 & -> & HJ3 & HT3 & HV3); auto; try lia.
    exists s3, p3. split; auto. split; auto. split; [lia|]. split.
    - intros z Hz. apply HV1, HV3; auto.
    - intros z Hz. destruct (HV2 z Hz); auto. right. now apply HV3.
  Qed.

  Lemma np_guard p (A : Type) (k : res A) : (np = true -> p = @nil item) ->
    (if negb dedup && negb (match p with [] => true | _ => false end) then UB else k) = k.
  Proof. intros H. destruct dedup; simpl in *; auto. now rewrite H. Qed.

  Lemma on_spans_ok new : inv new -> abs new = [] -> subject_ok (on_spans St step dedup useDecreaseTop new).
  Proof.
    intros Hi Ha. exists Ri. cbn [on_spans m_state m_new m_push m_pop]. split; [|split; [|split; [|split]]].
    - repeat split; unfold ClientProofs.V, ClientProofs.T, total, held; cbn [fst snd]; rewrite ?Ha; simpl; auto; try (intros z []); try lia; try tauto.
    - intros [s p] live n xs (HJ & HT & HV) Hne Hs. unfold push_span. destruct (item_of_good xs Hne Hs) as [Hg Hr].
      destruct HJ as (Hi1 & Hl & Hp & Hc & Hn).
      destruct (push_ok i_value dd St step inv abs api Hapi Hstep s p (item_of xs) Hi1) as (s' & p' & -> & Hi' & Hm).
      exists (s', p'). split; auto.
      assert (Hall : Forall i_good (item_of xs :: abs s)) by now constructor.
      destruct (smerges_goods i_value i_nexts i_good i2 dd Hdd _ _ _ _ Hm Hall Hp) as [Hl' Hp'].
      pose proof (smerges_held i_value i_rest i_nexts i_good i1 i2 dd Hdd _ _ _ _ Hm Hall Hp) as HV'.
      destruct (smerges_total i_value i_rest i_nexts i_good i1 i4 dd Hdd _ _ _ _ Hm Hall) as [_ HT'].
      split; [|split].
      + repeat split; auto.
        * apply (smerges_covered i_value i_rest i_nexts i_good i1 i3 dd Hdd _ _ _ _ Hm Hall). intros z Hz.
          destruct (Hc z Hz) as (y & Hy & Hle). exists y. split; auto. now right.
        * intros H. rewrite (smerges_np dd np inp _ _ _ _ H Hm). auto.
      + unfold ClientProofs.T in *; cbn [fst snd] in *. unfold total, held in *. cbn [flat_map] in HT'. rewrite Hr, !app_length in *. lia.
      + intros z. unfold ClientProofs.V in *; cbn [fst snd] in *. rewrite HV'. specialize (HV z).
        unfold held in *. cbn [flat_map]. rewrite Hr, !in_app_iff in *. tauto.
    - intros [s p] live n fuel (HJ & HT & HV) Hne Hf. unfold pop_span. cbn [snd].
      pose proof HJ as (Hi1 & _ & _ & _ & Hn1). rewrite np_guard by exact Hn1.
      assert (Hane : abs s <> []).
      { apply (live_nonempty i_value i_rest i_good np St inv abs s p HJ). destruct live as [|z live]; [congruence|]. intros H0.
        specialize (HV z). rewrite H0 in HV. simpl in HV. destruct HV as [_ HV]. apply HV. auto. }
      destruct (top_ok i_value dd St step inv abs api Hapi Hstep s p Hi1 Hane) as (s1 & p1 & x & -> & Hi1' & Hm1 & Hmax & _). cbn [bind].
      destruct (J_smerges i_value i_rest i_nexts i_good i1 i2 i3 i4 dd Hdd np inp St inv abs s p s1 p1 HJ Hi1' Hm1) as (HJ1 & HV1 & HT1 & Hk1).
      assert (Htop : top_is i_value St abs s1 (i_value x)) by (apply (max_top_is i_value St abs s1 x (abs s1)); auto; tauto).
      assert (Hbody : body_ok i_value i_rest i_good np St inv abs (if useDecreaseTop then body_dec St step dedup fuel else body_pop St step dedup fuel) n).
      { destruct (bool_dec useDecreaseTop true) as [Hu|Hu].
        - pose proof (body_dec_ok n fuel Hu Hf) as Hb. now rewrite Hu.
        - apply not_true_is_false in Hu. rewrite Hu. now apply body_pop_ok. }
      destruct (do_loop_ok i_value i_rest i_nexts i_good i1 i2 i3 i4 dd Hdd np inp St step inv abs api Hapi Hstep _ _ Hbody fuel s1 p1 (i_value x) HJ1 Htop)
        as (s2 & p2 & -> & HJ2 & HT2 & HV2); try lia. cbn [bind snd].
      pose proof HJ2 as (_ & _ & _ & _ & Hn2). rewrite np_guard by exact Hn2.
      exists (s2, p2), (i_value x). destruct (top_max i_value i_rest i_nexts i_good i1 i3 np St inv abs s1 p1 (i_value x) HJ1 Htop) as [Hin Hle].
      split; auto. split; [apply HV, HV1; auto|]. split; [intros z Hz; apply Hle, HV1, HV; auto|].
      split; [auto|]. split; [lia|]. intros z. rewrite HV2, HV1, HV, filter_ne. tauto.
    - intros [s p] live live' n (HJ & HT & HV) Heq. split; auto. split; auto. intros z. rewrite HV. auto.
    - intros [s p] n (HJ & HT & HV). split; auto. split; auto. unfold ClientProofs.T, total.
      change (held i_rest (abs (fst (s, p))) (snd (s, p))) with (V (s, p)). destruct (V (s, p)) as [|z l]; auto.
      exfalso. apply (HV z). now left.
  Qed.
End Items.
