(** How many comparisons a history of calls of a geobucket makes. *)
From Coq Require Import List Arith Bool Lia Permutation.
From Verif.Base Require Import Res Arr Order Count.
From Verif.Spec Require Import PQ PQFacts.
From Verif.Geobucket Require Import Model Counted CountedProofs FrontProofs Proofs CostProofs.
From Verif.GeoMem Require Import MemProofs Areas SizeProofs.
Import ListNotations.

(** The allowance of a call, for a geobucket with at most [L] buckets *)
Definition allowance {E : Type} (C : config) (L : nat) (o : op E) : nat :=
  match o with
  | Push _ => one C L
  | PushRange xs => many C L (length xs)
  | Pop | Top => L
  | DecreaseTop _ => L + one C L
  | _ => 0
  end.

Section CostRun.
  Context {E : Type}.
  Variable lt eqv : E -> E -> bool.
  Variable dedup : E -> E -> E.
  Variable C : config.
  Hypothesis Hlt : strict_weak lt.
  Hypothesis Heq : supportDeduplication C = true -> forall a b, lt a b = false -> eqv a b = true -> equivalent lt a b.
  Hypothesis Hdd : supportDeduplication C = true -> forall a b, (eqv a b || eqv b a) = true -> equivalent lt (dedup a b) a.
  Hypothesis Hg : 2 <= geoBase C.
  Hypothesis Hm : 1 <= minBucketSize C.
  Hypothesis Hi : 1 <= insertFactor C.
  Notation geobucket := (geobucket E).
  Notation flat := (flat_map (@b_ents E)).
  Notation Inv := (Inv lt C).
  Notation w := (S (geoBase C)).
  Notation api := (range_calls lt (negb (trackFront C))).
  Notation dd := (dedup_dd (supportDeduplication C) (fun a b => eqv a b || eqv b a) dedup).

  Lemma inv_geo g : Inv g -> geo C (g_bs g).
  Proof. intros [[W _ _] _] i b H. apply (wf_cap _ _ _ W _ _ H). Qed.
  Lemma inv_fit g : Inv g -> forall b, nth_error (g_bs g) 0 = Some b -> length (b_ents b) <= b_cap b.
  Proof. intros [[W _ _] _] b H. apply (wf_good _ _ _ W _ _ H). Qed.
  Lemma inv_fn g : Inv g -> fn (g_front g) <= length (g_bs g).
  Proof.
    intros [[_ _ F] _]. destruct (g_front g) as [m|a slots n toks]; cbn [fn]; [lia|]. destruct F as (_ & F & R & Ht & _).
    rewrite (r_n _ _ _ _ _ R), <- Ht. rewrite <- (seq_length (length toks) 0). apply NoDup_incl_length; [apply R|].
    intros i Hin. apply in_seq. pose proof (r_bound _ _ _ _ _ R i Hin). lia.
  Qed.
  Lemma step_inv g o g' r : Inv g -> api o = true -> gb_step E lt eqv dedup C g o = Ok (g', r) ->
    Inv g' /\ sstep lt dd (gb_forAll E g) o r (gb_forAll E g').
  Proof. intros I Ha H. pose proof (gb_step_ok lt eqv dedup C Hlt Heq Hdd Hg Hm Hi g o I Ha) as S. now rewrite H in S. Qed.
  Lemma step_mono g o g' r : Inv g -> api o = true -> gb_step E lt eqv dedup C g o = Ok (g', r) -> length (g_bs g) <= length (g_bs g').
  Proof. intros I Ha H. apply (step_grown lt eqv dedup C Hlt Heq Hdd Hg Hm Hi) in H; auto. destruct H as [H|[H _]]; lia. Qed.
  Lemma run_mono : forall ops g g' rs, Inv g -> forallb api ops = true -> run (gb_step E lt eqv dedup C) g ops = Ok (g', rs) ->
    length (g_bs g) <= length (g_bs g') /\ Inv g'.
  Proof.
    induction ops as [|o ops IH]; intros g g' rs I Ha H; cbn [run] in H; [injection H as <- <-; auto|].
    cbn [forallb] in Ha. apply andb_true_iff in Ha as [Ho Ha]. binv H. destruct a as [g1 r]. binv H. destruct a as [g2 rs']. injection H as <- <-.
    pose proof (step_mono _ _ _ _ I Ho Eb). destruct (step_inv _ _ _ _ I Ho Eb) as [I1 _]. destruct (IH _ _ _ I1 Ha Eb0). split; [lia|auto].
  Qed.

  Lemma call_cost L g o g' r c : Inv g -> api o = true -> fs (g_front g) <= L -> length (g_bs g') <= L ->
    gb_call_c E lt eqv dedup C g o = Ok (g', r, c) -> c + w * pot L (g_bs g') <= w * pot L (g_bs g) + allowance C L o /\ fs (g_front g') <= L.
  Proof.
    intros I Ha Hs HL H. assert (Hst : gb_step E lt eqv dedup C g o = Ok (g', r)) by (rewrite <- call_forget; unfold forget; now rewrite H).
    pose proof (step_mono _ _ _ _ I Ha Hst) as Hmo. destruct (step_inv _ _ _ _ I Ha Hst) as [I' _].
    pose proof (inv_fn _ I') as Hn. pose proof (inv_fn _ I) as Hn0. pose proof (inv_geo _ I) as G.
    assert (le : forall a b, a <= b -> w * a <= w * b) by (intros; now apply Nat.mul_le_mono_l).
    destruct o as [x|xs| | |x| | | |]; cbn [gb_call_c allowance] in *.
    - cinv H. apply free_ok in H as [H ->]. injection H as <- <-. apply (push_cost lt eqv dedup C Hg Hm L) in Ec; auto; [lia|now apply inv_fit|lia].
    - cinv H. apply free_ok in H as [H ->]. injection H as <- <-. apply (pushRange_cost lt eqv dedup C Hg Hm L) in Ec; auto; [lia| |lia].
      apply (wf_ne _ _ _ (i_wf _ _ _ _ (proj1 I))).
    - cinv H. destruct x as [g1 x]. apply free_ok in H as [H ->]. injection H as <- <-. apply (pop_cost lt eqv dedup C Hg Hm L) in Ec as (A & B & D); [|lia|lia].
      specialize (le _ _ B). lia.
    - cinv H. destruct x as [g1 x]. apply free_ok in H as [H ->]. injection H as <- <-. unfold gb_top_c in Ec. cinv Ec. destruct x0 as [g2 i]. cinv Ec.
      apply free_ok in Ec as [Ec ->]. injection Ec as <- <-. apply (getMax_cost lt eqv dedup C Hg Hm L) in Ec0 as (A & B & D). specialize (le _ _ B). lia.
    - cinv H. apply free_ok in H as [H ->]. injection H as <- <-. unfold gb_decreaseTop_c in Ec. cinv Ec. destruct x1 as [g1 y].
      assert (Hp : gb_step E lt eqv dedup C g Pop = Ok (g1, OEntry y)).
      { cbn [gb_step]. rewrite <- pop_forget. unfold forget. now rewrite Ec0. }
      destruct (step_inv g Pop _ _ I eq_refl Hp) as [I1 _].
      apply (pop_cost lt eqv dedup C Hg Hm L) in Ec0 as (A & B & D); [|lia|lia].
      apply (push_cost lt eqv dedup C Hg Hm L) in Ec; auto; [|now apply inv_geo|now apply inv_fit|lia|lia]. specialize (le _ _ B). lia.
    - apply free_ok in H as [H ->]. injection H as <- <-. unfold gb_clear. cbn [g_bs g_front]. rewrite pot_clear.
      split; [lia|]. destruct (g_front g); cbn [f_clear fs] in *; auto.
    - apply free_ok in H as [H ->]. injection H as <- <-. lia.
    - apply free_ok in H as [H ->]. injection H as <- <-. lia.
    - apply free_ok in H as [H ->]. injection H as <- <-. lia.
  Qed.

  Lemma run_cost L : forall ops g n g' n' rs, Inv g -> forallb api ops = true -> fs (g_front g) <= L -> length (g_bs g') <= L ->
    run (gb_step_c E lt eqv dedup C) (g, n) ops = Ok (g', n', rs) ->
    n' + w * pot L (g_bs g') <= n + w * pot L (g_bs g) + list_sum (map (allowance C L) ops).
  Proof.
    induction ops as [|o ops IH]; intros g n g' n' rs I Ha Hs HL H; cbn [run] in H. { injection H as <- <- <-. simpl. lia. }
    cbn [forallb] in Ha. apply andb_true_iff in Ha as [Ho Ha]. binv H. destruct a as [[g1 n1] r]. binv H. destruct a as [[g2 n2] rs']. injection H as <- <- <-.
    unfold gb_step_c in Eb. cbn [fst snd] in Eb. binv Eb. destruct a as [[g1' r'] c]. injection Eb as <- <- <-.
    assert (Hst : gb_step E lt eqv dedup C g o = Ok (g1', r')) by (rewrite <- call_forget; unfold forget; now rewrite Eb1).
    destruct (step_inv _ _ _ _ I Ho Hst) as [I1 _].
    assert (Hr : run (gb_step E lt eqv dedup C) g1' ops = Ok (g2, rs')) by (rewrite <- (run_forget lt eqv dedup C ops g1' (n + c)), Eb0; reflexivity).
    destruct (run_mono _ _ _ _ I1 Ha Hr) as [Hmo _].
    apply (call_cost L) in Eb1 as [P F]; auto; [|lia]. specialize (IH _ _ _ _ _ I1 Ha F HL Eb0). cbn [map list_sum fold_right]. unfold list_sum in IH. lia.
  Qed.

  (** * The number of buckets *)
  Lemma sstep_len l o r l' : sstep lt dd l o r l' -> length l' <= length l + length (pushed [o]).
  Proof.
    assert (M : forall a b, merges dd a b -> length b <= length a) by (intros; eapply merges_le; eauto).
    intros H; inversion H as [x ? M1|xs ? M1|x m ? M1 _ M2|x ? M1 _|x t m ? M1 _ M2| |? P|? P|xs ? P _]; subst; cbn [pushed length];
      try apply M in M1; try apply M in M2; try apply Permutation_length in P; rewrite ?app_nil_r; try rewrite app_length in M1; cbn [length] in *; lia.
  Qed.
  Lemma pushed_app (a b : list (op E)) : pushed (a ++ b) = pushed a ++ pushed b.
  Proof. induction a as [|o a IH]; auto. destruct o; cbn [app pushed]; rewrite IH; auto. now rewrite app_assoc. Qed.
  Lemma run_held : forall ops g g' rs, Inv g -> forallb api ops = true -> run (gb_step E lt eqv dedup C) g ops = Ok (g', rs) ->
    length (gb_forAll E g') <= length (gb_forAll E g) + length (pushed ops).
  Proof.
    induction ops as [|o ops IH]; intros g g' rs I Ha H; cbn [run] in H. { injection H as <- <-. lia. }
    cbn [forallb] in Ha. apply andb_true_iff in Ha as [Ho Ha]. binv H. destruct a as [g1 r]. binv H. destruct a as [g2 rs']. injection H as <- <-.
    destruct (step_inv _ _ _ _ I Ho Eb) as [I1 S]. apply sstep_len in S. specialize (IH _ _ _ I1 Ha Eb0).
    change (o :: ops) with ([o] ++ ops). rewrite pushed_app, app_length. lia.
  Qed.
  Lemma buckets ops g rs : forallb api ops = true -> run (gb_step E lt eqv dedup C) (gb_new E C) ops = Ok (g, rs) ->
    length (g_bs g) <= 2 + Nat.log2 (insertFactor C * length (pushed ops)).
  Proof.
    intros Ha H. set (N := insertFactor C * length (pushed ops)).
    assert (G : grown C (N + 1) (gb_new E C) g).
    { eapply (run_grown lt eqv dedup C Hlt Heq Hdd Hg Hm Hi); eauto; [apply gb_new_inv; auto|].
      intros pre o post s rs' He Hp. rewrite He, forallb_app in Ha. apply andb_true_iff in Ha as [Ha _].
      apply run_held in Hp; auto; [|apply gb_new_inv; auto]. cbn [gb_forAll gb_new g_bs flat_map app length b_ents] in Hp.
      unfold N. rewrite He, pushed_app, app_length. unfold demand.
      assert (A : length (pushed pre) * 1 <= length (pushed pre) * insertFactor C) by (now apply Nat.mul_le_mono_l).
      assert (B : length (pushed (o :: post)) = length (pushed [o]) + length (pushed post)) by (change (o :: post) with ([o] ++ post); now rewrite pushed_app, app_length).
      assert (D : match o with Push _ | DecreaseTop _ => 1 | PushRange xs => length xs * insertFactor C | _ => 0 end <= length (pushed [o]) * insertFactor C + 1).
      { destruct o; cbn [pushed length]; rewrite ?app_nil_r; lia. }
      rewrite B. nia. }
    destruct G as [->|[G1 G2]]; [simpl; lia|]. cbv beta in G2.
    enough (length (g_bs g) - 2 <= Nat.log2 N) by lia. destruct (Nat.eq_dec N 0) as [HN|HN].
    - rewrite HN in G2. assert (1 <= geoBase C ^ (length (g_bs g) - 2)) by (pose proof (Nat.pow_nonzero (geoBase C) (length (g_bs g) - 2)); lia). nia.
    - apply Nat.log2_le_pow2; [lia|]. assert (2 ^ (length (g_bs g) - 2) <= geoBase C ^ (length (g_bs g) - 2)) by (apply Nat.pow_le_mono_l; lia). nia.
  Qed.

  Lemma history_cost ops g n rs : forallb api ops = true -> run (gb_step_c E lt eqv dedup C) (gb_new E C, 0) ops = Ok (g, n, rs) ->
    n <= list_sum (map (allowance C (2 + Nat.log2 (insertFactor C * length (pushed ops)))) ops).
  Proof.
    intros Ha H. assert (Hr : run (gb_step E lt eqv dedup C) (gb_new E C) ops = Ok (g, rs)) by (rewrite <- (run_forget lt eqv dedup C ops (gb_new E C) 0), H; reflexivity).
    pose proof (buckets _ _ _ Ha Hr) as HL. apply (run_cost (2 + Nat.log2 (insertFactor C * length (pushed ops)))) in H; auto.
    - cbn [gb_new g_bs pot b_ents length Nat.mul] in H. lia.
    - apply gb_new_inv; auto.
    - cbn [gb_new g_front]. destruct (trackFront C); cbn [fs length]; lia.
  Qed.

  Lemma sorting_cost : supportDeduplication C = false -> forall xs, exists g n rs,
    run (gb_step_c E lt eqv dedup C) (gb_new E C, 0) (map Push xs ++ repeat Pop (length xs)) = Ok (g, n, rs) /\
    n <= length xs * (minBucketSize C + geoBase C + (geoBase C + 4) * (2 + Nat.log2 (insertFactor C * length xs))).
  Proof.
    intros Hs xs.
    destruct (pq_correct_sorts lt _ _ _ _ (gb_pq_correct_nodedup lt eqv dedup C Hlt Heq Hdd Hg Hm Hi Hs) (fun _ => eq_refl) eq_refl xs) as (s & ys & H & _).
    rewrite <- (run_forget lt eqv dedup C _ _ 0) in H. binv H. destruct a as [[g n] rs]. exists g, n, rs. split; [reflexivity|].
    apply history_cost in Eb.
    - replace (length (pushed (map Push xs ++ repeat Pop (length xs)))) with (length xs) in Eb.
      + rewrite map_app, list_sum_app, map_map in Eb. revert Eb. set (L := 2 + _). intros Eb.
        assert (A : forall c (l : list E), list_sum (map (fun _ => c) l) = length l * c) by (induction l; simpl; auto).
        assert (B : forall k, list_sum (map (allowance C L) (repeat (@Pop E) k)) = k * L) by (induction k; simpl; auto).
        cbn [allowance] in Eb. rewrite A, B in Eb. unfold one in Eb. nia.
      + rewrite pushed_app, app_length. assert (A : forall l : list E, length (pushed (map Push l)) = length l) by (induction l; simpl; auto).
        assert (B : forall k, length (pushed (repeat (@Pop E) k)) = 0) by (induction k; simpl; auto). rewrite A, B. lia.
    - rewrite forallb_app. apply andb_true_iff. split; apply forallb_forall; intros o Ho.
      + apply in_map_iff in Ho as (x & <- & _). reflexivity.
      + apply repeat_spec in Ho as ->. reflexivity.
  Qed.
End CostRun.
