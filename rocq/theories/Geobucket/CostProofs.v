(** How many comparisons a geobucket makes: every entry pays for the buckets that it can still go up. *)
From Coq Require Import List Arith Bool Lia Permutation.
From Verif.Base Require Import Res Arr Order Count.
From Verif.Spec Require Import PQ PQFacts.
From Verif.Geobucket Require Import Model Counted CountedProofs Proofs.
From Verif.GeoMem Require Import MemProofs SizeProofs.
Import ListNotations.

Ltac cinv H :=
  match type of H with
  | cbind (free _) _ = Ok _ =>
      let a := fresh "x" in let c := fresh "c" in let d := fresh "d" in let E := fresh "Ef" in let H' := fresh "H" in let Hn := fresh "Hn" in
      apply cbind_ok in H; destruct H as (a & c & d & E & H' & Hn); apply free_ok in E; destruct E as [E ->];
      rename H' into H; cbv beta iota in H; rewrite Nat.add_0_l in Hn; subst d
  | cbind (compare _ _ _ _ _) _ = Ok _ =>
      let a := fresh "x" in let c := fresh "c" in let d := fresh "d" in let E := fresh "Ec" in let H' := fresh "H" in let Hn := fresh "Hn" in
      apply cbind_ok in H; destruct H as (a & c & d & E & H' & Hn); unfold compare in E; injection E as <- <-;
      rename H' into H; cbv beta iota in H
  | cbind _ _ = Ok _ =>
      let a := fresh "x" in let c := fresh "c" in let d := fresh "d" in let E := fresh "Ec" in let H' := fresh "H" in let Hn := fresh "Hn" in
      apply cbind_ok in H; destruct H as (a & c & d & E & H' & Hn); rename H' into H; cbv beta iota in H
  end.

Section Cost.
  Context {E : Type}.
  Variable lt eqv : E -> E -> bool.
  Variable dedup : E -> E -> E.
  Variable C : config.
  Hypothesis Hg : 2 <= geoBase C.
  Hypothesis Hm : 1 <= minBucketSize C.
  Notation bucket := (bucket E).
  Notation geobucket := (geobucket E).
  Notation ents := (fun b : bucket => length (b_ents b)).
  Notation cap := (fun i => minBucketSize C * geoBase C ^ i).

  (** * The potential *)
  (** Every entry counts for the number of buckets from its own to the [L]-th *)
  Fixpoint pot (L : nat) (bs : list bucket) : nat :=
    match bs with [] => 0 | b :: bs' => length (b_ents b) * L + pot (L - 1) bs' end.
  Lemma pot_upd : forall bs L i b b', nth_error bs i = Some b -> pot L (upd bs i b') + ents b * (L - i) = pot L bs + ents b' * (L - i).
  Proof.
    induction bs as [|c bs IH]; intros L [|i] b b' H; try discriminate; cbn [upd pot] in *.
    - injection H as ->. rewrite Nat.sub_0_r. lia.
    - specialize (IH (L - 1) i b b' H). replace (L - S i) with (L - 1 - i) by lia. lia.
  Qed.
  Lemma pot_app : forall bs L e, Forall (fun b => b_ents b = []) e -> pot L (bs ++ e) = pot L bs.
  Proof.
    induction bs as [|c bs IH]; intros L e He; cbn [app pot].
    - revert L. induction He as [|b e Hb He IH]; intros L; cbn [pot]; auto. now rewrite Hb, IH.
    - now rewrite IH.
  Qed.
  Lemma pot_clear : forall bs L, pot L (map (bk_clear E) bs) = 0.
  Proof. induction bs as [|b bs IH]; intros L; cbn [map pot]; auto. now rewrite IH. Qed.

  Definition geo (bs : list bucket) : Prop := forall i b, nth_error bs i = Some b -> b_cap b = cap i.
  Lemma geo_upd bs i b b' : geo bs -> nth_error bs i = Some b -> b_cap b' = b_cap b -> geo (upd bs i b').
  Proof.
    intros H Hb Hc j c Hj. destruct (Nat.eq_dec j i) as [->|Hne].
    - rewrite nth_upd_same in Hj by (now apply nth_error_some_lt in Hb). injection Hj as <-. rewrite Hc. now apply H.
    - rewrite nth_upd_other in Hj by auto. now apply H.
  Qed.

  (** * The front *)
  Definition fs (f : front) : nat := match f with FCache _ => 0 | FOrder _ slots _ _ => length slots end.
  Definition fn (f : front) : nat := match f with FCache _ => 0 | FOrder _ _ n _ => n end.

  Lemma vset_inv {A} (l : list A) i x l' : vset l i x = Ok l' -> i < length l /\ l' = upd l i x.
  Proof. unfold vset. destruct (Nat.ltb_spec i (length l)); [|discriminate]. intros H1. injection H1 as <-. auto. Qed.
  Lemma vget_inv {A} (l : list A) i x : vget l i = Ok x -> nth_error l i = Some x.
  Proof. unfold vget. destruct (nth_error l i); simpl; [|discriminate]. intros H. now injection H as ->. Qed.

  Lemma ki_cost bs a b : forall pos slots toks slots' toks' c, ki_loop_c E lt eqv C bs a slots toks b pos = Ok (slots', toks', c) ->
    c <= pos /\ pos < length slots /\ length slots' = length slots.
  Proof.
    induction pos as [|p IH]; intros slots toks slots' toks' c H; cbn [ki_loop_c] in H.
    - apply free_ok in H as [H ->]. do 2 binv H. injection H as <- <-. apply vset_inv in Eb as [? ->]. rewrite upd_length. lia.
    - do 3 cinv H. cinv H. destruct (lt _ _).
      + do 2 cinv H. apply IH in H. apply vset_inv in Ef2 as [? ->]. rewrite upd_length in H. lia.
      + apply free_ok in H as [H ->]. do 2 binv H. injection H as <- <-. apply vset_inv in Eb as [? ->]. rewrite upd_length. lia.
  Qed.
  Lemma keyIncreased_cost bs f b f' c : f_keyIncreased_c E lt eqv C bs f b = Ok (f', c) -> c <= fs f /\ fs f' = fs f /\ fn f' = fn f.
  Proof.
    destruct f as [m|a slots n toks]; cbn [f_keyIncreased_c]; intros H.
    - apply free_ok in H as [H ->]. injection H as <-. auto.
    - do 2 cinv H. cinv H. destruct x1 as [slots' toks']. apply free_ok in H as [H ->]. injection H as <-. apply ki_cost in Ec. cbn [fs fn]. lia.
  Qed.
  Lemma reserve_len a slots n toks k a' slots' toks' : fo_reserve a slots n toks k = Ok (a', slots', toks') -> n <= Nat.max 1 k /\ length slots' <= Nat.max 1 k.
  Proof.
    unfold fo_reserve. intros H. destruct (Nat.ltb_spec (if k =? 0 then 1 else k) n) as [|Hle]; [discriminate|]. binv H. injection H as _ <- _.
    rewrite app_length, firstn_length, repeat_length. destruct (Nat.eqb_spec k 0); lia.
  Qed.
  Lemma f_insert_cost L bs f b f' c : fs f <= L -> fn f' <= L -> f_insert_c E lt eqv C bs f b = Ok (f', c) -> c <= L /\ fs f' <= L.
  Proof.
    destruct f as [m|a slots n toks]; cbn [f_insert_c]; intros Hs Hn H.
    - apply free_ok in H as [H ->]. injection H as <-. simpl. lia.
    - cinv H. destruct x as [[a1 slots1] toks1]. do 2 cinv H. apply keyIncreased_cost in H as (Hc & H1 & H2). cbn [fs fn] in *.
      apply vset_inv in Ef0 as [Hl ->]. rewrite upd_length in *.
      enough (length slots1 <= L) by lia. destruct (Nat.eqb_spec n (length slots)); [apply reserve_len in Ef; lia|]. injection Ef as _ <- _. auto.
  Qed.
  Lemma rm_len : forall k a slots toks i slots' toks', rm_loop k a slots toks i = Ok (slots', toks') -> length slots' = length slots.
  Proof.
    induction k as [|k IH]; intros a slots toks i slots' toks' H; cbn [rm_loop] in H; [injection H as <- <-; auto|].
    do 3 binv H. apply IH in H. apply vset_inv in Eb0 as [_ ->]. now rewrite upd_length in H.
  Qed.
  Lemma fo_remove_len a slots n toks b f : fo_remove a slots n toks b = Ok f -> fs f = length slots /\ fn f <= n.
  Proof.
    unfold fo_remove. intros H. do 2 binv H. destruct (_ <=? _); [discriminate|]. binv H. destruct a2 as [s t]. binv H. injection H as <-.
    apply rm_len in Eb1. simpl. lia.
  Qed.
  Lemma f_remove_len f b f' : f_remove f b = Ok f' -> fs f' = fs f.
  Proof. destruct f; simpl; intros H; [now injection H as <-|]. now apply fo_remove_len in H. Qed.
  Lemma write_len a slots t b slots' : write_through a slots t b = Ok slots' -> length slots' = length slots.
  Proof.
    unfold write_through. destruct t as [t|]; intros H; [|now injection H as <-]. binv H. apply vset_inv in H as [_ ->]. apply upd_length.
  Qed.
  Lemma swap_len f x y f' : f_swapKeys f x y = Ok f' -> fs f' = fs f.
  Proof.
    destruct f; simpl; intros H; [now injection H as <-|]. do 6 binv H. injection H as <-. simpl.
    repeat match goal with A : write_through _ _ _ _ = Ok _ |- _ => apply write_len in A end. congruence.
  Qed.

  (** * Moving entries *)
  Lemma hold_ok fits b l b' : bk_hold E fits b l = Ok b' -> b_ents b' = l /\ b_cap b' = b_cap b.
  Proof. unfold bk_hold. destruct (_ <=? _); [|discriminate]. intros H. now injection H as <-. Qed.
  Lemma merging_cost l1 l2 r k c : merging E lt eqv dedup C l1 l2 = Ok (r, k, c) -> c <= length l1 + length l2 /\ length r <= length l1 + length l2.
  Proof. unfold merging. intros H. injection H as H. apply merge_count in H. lia. Qed.

  Lemma mergeRange_cost g i l b g' c : nth_error (g_bs g) i = Some b -> gb_mergeRange_c E lt eqv dedup C g i l = Ok (g', c) ->
    c <= length l + ents b + fs (g_front g) /\ fs (g_front g') = fs (g_front g) /\
    exists b', g_bs g' = upd (g_bs g) i b' /\ b_cap b' = b_cap b /\ ents b' <= length l + ents b.
  Proof.
    intros Hb H. unfold gb_mergeRange_c in H. cinv H. apply vget_inv in Ef. rewrite Hb in Ef. injection Ef as <-.
    cinv H. destruct x as [r k]. cinv H. match type of H with (if ?b then _ else _) = _ => destruct b; [discriminate|] end.
    do 2 cinv H. cinv H. apply free_ok in H as [H ->]. injection H as <-.
    apply hold_ok in Ef0 as [He Hcap]. apply vset_inv in Ef1 as [_ ->]. apply keyIncreased_cost in Ec0 as (K1 & K2 & _).
    assert (M : c0 <= length l + ents b /\ length r <= length l + ents b).
    { destruct (bucketStorage C); apply merging_cost in Ec; lia. }
    cbn [g_bs g_front]. split; [lia|]. split; auto. exists x0. rewrite He. split; auto. split; auto. lia.
  Qed.

  Lemma mergeToNonEmpty_cost g to from bt bf g' c : to <> from -> nth_error (g_bs g) to = Some bt -> nth_error (g_bs g) from = Some bf ->
    gb_mergeToNonEmpty_c E lt eqv dedup C g to from = Ok (g', c) ->
    c <= ents bf + ents bt + fs (g_front g) /\ fs (g_front g') = fs (g_front g) /\
    exists bt' bf', g_bs g' = upd (upd (g_bs g) to bt') from bf' /\ b_cap bt' = b_cap bt /\ b_cap bf' = b_cap bf /\
      ents bt' <= ents bf + ents bt /\ b_ents bf' = [].
  Proof.
    intros Hne Ht Hf H. unfold gb_mergeToNonEmpty_c in H. do 3 cinv H. apply vget_inv in Ef1. rewrite Hf in Ef1. injection Ef1 as <-.
    cinv H. do 3 cinv H. apply free_ok in H as [H ->]. injection H as <-.
    destruct (mergeRange_cost (mk_gb (g_bs g) (g_count g) x0) to (b_ents bf) bt _ _ Ht Ec) as (C1 & C2 & bt' & B1 & B2 & B3). cbn [g_bs g_front] in *.
    apply f_remove_len in Ef3. apply vget_inv in Ef1. apply vset_inv in Ef2 as [_ ->].
    assert (Hsw : fs x0 = fs (g_front g)) by (destruct x; [now apply swap_len in Ef0|now injection Ef0 as <-]).
    rewrite B1, nth_upd_other in Ef1 by auto. rewrite Hf in Ef1. injection Ef1 as <-.
    split; [lia|]. split; [congruence|]. exists bt', (bk_clear E bf). rewrite B1. auto.
  Qed.
  Lemma mergeToEmpty_cost g to from l bt bf g' c : to <> from -> nth_error (g_bs g) to = Some bt -> nth_error (g_bs g) from = Some bf ->
    gb_mergeToEmpty_c E lt eqv dedup C g to from l = Ok (g', c) ->
    c <= length l + ents bf + fs (g_front g) /\ fs (g_front g') = fs (g_front g) /\
    exists bt' bf', g_bs g' = upd (upd (g_bs g) to bt') from bf' /\ ents bt' <= length l + ents bf /\ b_ents bf' = [].
  Proof.
    intros Hne Ht Hf H. unfold gb_mergeToEmpty_c in H. do 2 cinv H. apply vget_inv in Ef, Ef0. rewrite Ht in Ef. rewrite Hf in Ef0.
    injection Ef as <-. injection Ef0 as <-. cinv H. destruct x as [r k]. do 5 cinv H. cinv H. apply free_ok in H as [H ->]. injection H as <-.
    apply merging_cost in Ec as [M1 M2]. apply hold_ok in Ef0 as [He _]. apply vset_inv in Ef1 as [_ ->]. apply vset_inv in Ef2 as [_ ->].
    apply swap_len in Ef3. apply keyIncreased_cost in Ec0 as (K1 & K2 & _). cbn [g_bs g_front].
    split; [lia|]. split; [congruence|]. exists x0, (bk_clear E bf). rewrite He. auto.
  Qed.
  Lemma assign_cost L g i l b g' c : nth_error (g_bs g) i = Some b -> fs (g_front g) <= L -> fn (g_front g') <= L ->
    gb_assign_c E lt eqv C g i l = Ok (g', c) ->
    c <= L /\ fs (g_front g') <= L /\ exists b', g_bs g' = upd (g_bs g) i b' /\ b_ents b' = l.
  Proof.
    intros Hb Hs Hn H. unfold gb_assign_c in H. cinv H. apply vget_inv in Ef. rewrite Hb in Ef. injection Ef as <-. do 2 cinv H. cinv H.
    apply free_ok in H as [H ->]. injection H as <-. cbn [g_front g_bs] in *. apply hold_ok in Ef as [He _]. apply vset_inv in Ef0 as [_ ->].
    apply (f_insert_cost L) in Ec; auto. split; [lia|]. split; [lia|]. eauto.
  Qed.
  Lemma moveToEmpty_spec g to from bt bf g' : to <> from -> nth_error (g_bs g) to = Some bt -> nth_error (g_bs g) from = Some bf ->
    gb_moveToEmpty E C g to from = Ok g' -> fs (g_front g') = fs (g_front g) /\
    exists bt' bf', g_bs g' = upd (upd (g_bs g) to bt') from bf' /\ b_cap bt' = b_cap bt /\ b_cap bf' = b_cap bf /\
      b_ents bt' = b_ents bf /\ b_ents bf' = [].
  Proof.
    intros Hne Ht Hf H. unfold gb_moveToEmpty in H. do 2 binv H. apply vget_inv in Eb, Eb0. rewrite Ht in Eb. rewrite Hf in Eb0.
    injection Eb as <-. injection Eb0 as <-. do 4 binv H. injection H as <-. apply hold_ok in Eb as [He Hc]. apply vset_inv in Eb0 as [_ ->].
    apply vset_inv in Eb1 as [_ ->]. apply swap_len in Eb2. cbn [g_bs g_front]. split; auto. exists a, (bk_clear E bf). auto.
  Qed.

  (** * Overflowing buckets *)
  Notation w := (S (geoBase C)).
  Lemma cap_S i : cap (S i) = geoBase C * cap i.
  Proof. cbv beta. rewrite Nat.pow_succ_r'. ring. Qed.
  Lemma pay P2 n Q c e : P2 + n <= Q -> c <= w * n + e -> c + w * P2 <= w * Q + e.
  Proof. intros H1 H2. assert (w * (P2 + n) <= w * Q) by (now apply Nat.mul_le_mono_l). lia. Qed.
  (** [l] is in hand, to be put into bucket [b] *)
  Definition paid (L b : nat) (l : list E) (g g' : geobucket) (c extra : nat) : Prop :=
    c + w * pot L (g_bs g') <= w * (pot L (g_bs g) + length l * (L - b)) + extra /\ fs (g_front g') <= L /\ length (g_bs g') = length (g_bs g).

  Lemma mergeRange_paid L g b l cur g' c e : length (g_bs g) <= L -> fs (g_front g) <= L -> nth_error (g_bs g) b = Some cur ->
    length l + ents cur <= e -> gb_mergeRange_c E lt eqv dedup C g b l = Ok (g', c) -> paid L b l g g' c (e + L).
  Proof.
    intros HL Hs Hb He H. destruct (mergeRange_cost g b l cur _ _ Hb H) as (C1 & C2 & b' & B1 & B2 & B3).
    unfold paid. rewrite B1, upd_length. split; [|split; auto; lia]. pose proof (pot_upd (g_bs g) L b cur b' Hb) as P.
    apply pay with (n := 0); [|lia]. assert (ents b' * (L - b) <= (length l + ents cur) * (L - b)) by (now apply Nat.mul_le_mono_r). cbv beta in *. lia.
  Qed.
  Lemma assign_paid L g b l g' c : fs (g_front g) <= L -> fn (g_front g') <= L -> b < length (g_bs g) ->
    gb_assign_c E lt eqv C g b l = Ok (g', c) -> paid L b l g g' c L.
  Proof.
    intros Hs Hn Hb H. destruct (nth_error_lt _ _ Hb) as [cur Hc]. destruct (assign_cost L g b l cur _ _ Hc Hs Hn H) as (C1 & C2 & b' & B1 & B2).
    unfold paid. rewrite B1, upd_length. split; [|auto]. pose proof (pot_upd (g_bs g) L b cur b' Hc) as P. cbv beta in P. rewrite B2 in P.
    apply pay with (n := 0); [|lia]. rewrite Nat.add_0_r, <- P. apply Nat.le_add_r.
  Qed.

  Lemma carry_cost L go_on g b l cur g' c :
    (forall g1 b1 l1 g2 c, geo (g_bs g1) -> length (g_bs g1) <= L -> fs (g_front g1) <= L -> b1 < length (g_bs g1) ->
       go_on g1 b1 l1 = Ok (g2, c) -> paid L b1 l1 g1 g2 c (cap b1 + L)) ->
    geo (g_bs g) -> length (g_bs g) <= L -> fs (g_front g) <= L -> nth_error (g_bs g) b = Some cur -> cap b < length l + ents cur ->
    carry_c E lt eqv dedup C go_on g b l = Ok (g', c) -> paid L b l g g' c L.
  Proof.
    intros Hgo G HL Hs Hb Hc H. unfold carry_c in H. do 2 cinv H. apply vget_inv in Ef, Ef0. rewrite Hb in Ef. injection Ef as <-.
    pose proof (nth_error_some_lt _ _ _ Ef0) as Hl. rename x0 into nx. assert (Hne : S b <> b) by lia.
    set (n := length l + ents cur) in *. cbv beta in *. replace (L - b) with (S (L - S b)) in * by lia. set (X := L - S b) in *.
    destruct (b_empty_spec nx) as [He|_].
    - destruct (mergeToEmpty_cost g (S b) b l nx cur _ _ Hne Ef0 Hb H) as (C1 & C2 & bt' & bf' & B1 & B2 & B3).
      unfold paid. rewrite B1, !upd_length. split; [|split; auto; lia].
      pose proof (pot_upd (g_bs g) L (S b) nx bt' Ef0) as P1.
      assert (Hb1 : nth_error (upd (g_bs g) (S b) bt') b = Some cur) by (rewrite nth_upd_other by auto; exact Hb).
      pose proof (pot_upd _ L b cur bf' Hb1) as P2. cbv beta in *. rewrite He in P1. rewrite B3 in P2. cbn [length Nat.mul] in P1, P2.
      replace (L - b) with (S X) in * by (unfold X; lia). fold X in P1.
      assert (length (b_ents bt') * X <= n * X) by (now apply Nat.mul_le_mono_r). unfold n in *.
      apply pay with (n := n); unfold n; nia.
    - cinv H. destruct x as [r k]. cinv H. match type of H with (if ?b then _ else _) = _ => destruct b; [discriminate|] end.
      do 2 cinv H. apply merging_cost in Ec as [M1 M2]. apply vset_inv in Ef1 as [_ ->]. apply f_remove_len in Ef2.
      apply Hgo in H; cbn [g_bs g_front] in *; rewrite ?upd_length; auto; [| |lia].
      2: { eapply geo_upd; eauto. }
      destruct H as (P & F & Len). cbn [g_bs g_front] in *. rewrite upd_length in Len. unfold paid. split; [|auto].
      pose proof (pot_upd (g_bs g) L b cur (bk_clear E cur) Hb) as P1. cbv beta in P1. cbn [bk_clear b_ents length Nat.mul] in P1.
      fold X in P. replace (L - b) with (S X) in * by (unfold X; lia). pose proof (cap_S b) as HS. cbv beta in HS. rewrite HS in P.
      assert (length r * X <= n * X) by (now apply Nat.mul_le_mono_r).
      assert (geoBase C * (minBucketSize C * geoBase C ^ b) <= geoBase C * n) by (apply Nat.mul_le_mono_l; lia).
      set (P0 := pot L (g_bs g)) in *. set (PP := pot L (upd (g_bs g) b (bk_clear E cur))) in *.
      assert (A : PP + length r * X + n <= P0 + length l * S X) by (unfold n in *; nia).
      assert (A' : w * (PP + length r * X + n) <= w * (P0 + length l * S X)) by (now apply Nat.mul_le_mono_l).
      fold n in M1. lia.
  Qed.
  Lemma carry_loop_cost L : forall fuel g b l g' c, geo (g_bs g) -> length (g_bs g) <= L -> fs (g_front g) <= L -> b < length (g_bs g) ->
    carry_loop_c E lt eqv dedup C fuel g b l = Ok (g', c) -> paid L b l g g' c (cap b + L).
  Proof.
    induction fuel as [|fuel IH]; intros g b l g' c G HL Hs Hb H; cbn [carry_loop_c] in H; [discriminate|].
    cinv H. apply vget_inv in Ef. pose proof (G _ _ Ef) as Hcap. unfold b_size in H. destruct (Nat.leb_spec (length l + length (b_ents x)) (b_cap x)).
    - eapply mergeRange_paid; eauto. cbv beta in *. lia.
    - apply (carry_cost L (carry_loop_c E lt eqv dedup C fuel) g b l x) in H; auto. 2: { cbv beta in *. lia. }
      destruct H as (P & F & Len). unfold paid. split; [lia|auto].
  Qed.

  (** * Adding buckets *)
  Record extended (g g' : geobucket) : Prop := {
    ex_bs : exists e, g_bs g' = g_bs g ++ e /\ Forall (fun b => b_ents b = []) e;
    ex_geo : geo (g_bs g');
    ex_fs : fs (g_front g') <= Nat.max (fs (g_front g)) (length (g_bs g'))
  }.
  Lemma ext_refl g : geo (g_bs g) -> extended g g.
  Proof. intros G. split; auto; [|lia]. exists []. rewrite app_nil_r. auto. Qed.
  Lemma ext_len g g' : extended g g' -> length (g_bs g) <= length (g_bs g').
  Proof. intros [(e & -> & _) _ _]. rewrite app_length. lia. Qed.
  Lemma ext_trans g g1 g' : extended g g1 -> extended g1 g' -> extended g g'.
  Proof.
    intros X Y. pose proof (ext_len _ _ Y) as L2. destruct X as [(e & He & Fe) G1 S1], Y as [(e' & He' & Fe') G2 S2]. split; auto; [|lia].
    exists (e ++ e'). rewrite He', He, app_assoc. split; auto. apply Forall_app; auto.
  Qed.
  Lemma ext_nth g g' i b : extended g g' -> nth_error (g_bs g) i = Some b -> nth_error (g_bs g') i = Some b.
  Proof. intros [(e & -> & _) _ _] H. rewrite nth_error_app1; auto. now apply nth_error_some_lt in H. Qed.
  Lemma ext_pot L g g' : extended g g' -> pot L (g_bs g') = pot L (g_bs g).
  Proof. intros [(e & -> & F) _ _]. now apply pot_app. Qed.
  Lemma geo_largest bs : geo bs -> bs <> [] -> largest E bs = cap (length bs - 1).
  Proof.
    intros G Hne. destruct (exists_last Hne) as (bs' & b & ->). rewrite largest_snoc. rewrite app_length. cbn [length].
    replace (length bs' + 1 - 1) with (length bs') by lia. apply G. rewrite nth_error_app2 by auto. now rewrite Nat.sub_diag.
  Qed.
  Lemma addBucket_ext g g' : geo (g_bs g) -> g_bs g <> [] -> gb_addBucket E C g = Ok g' -> extended g g' /\ length (g_bs g') = S (length (g_bs g)).
  Proof.
    intros G Hne H. unfold gb_addBucket in H.
    set (nb := mk_b (match g_bs g with [] => minBucketSize C | _ :: _ => largest E (g_bs g) * geoBase C end) [] None) in *.
    assert (Hc : b_cap nb = cap (length (g_bs g))).
    { unfold nb. cbn [b_cap]. pose proof (geo_largest _ G Hne) as Hl. destruct (g_bs g) as [|b0 r] eqn:Hb; [congruence|]. rewrite Hl.
      replace (length (b0 :: r)) with (S (length (b0 :: r) - 1)) at 2 by (simpl; lia). rewrite cap_S. cbv beta. ring. }
    assert (G' : geo (g_bs g ++ [nb])).
    { intros i b Hi. destruct (Nat.lt_ge_cases i (length (g_bs g))) as [Hl|Hl].
      - rewrite nth_error_app1 in Hi by auto. now apply G.
      - rewrite nth_error_app2 in Hi by auto. assert (i - length (g_bs g) = 0).
        { destruct (i - length (g_bs g)) as [|[|k]]; auto; discriminate. }
        rewrite H0 in Hi. injection Hi as <-. replace i with (length (g_bs g)) by lia. exact Hc. }
    destruct (g_front g) as [m|a slots n toks] eqn:Hf.
    - injection H as <-. cbn [g_bs]. split; [|rewrite app_length; simpl; lia]. split; cbn [g_bs g_front fs]; auto; [|lia]. exists [nb]. auto.
    - binv H. destruct a0 as [[a' s'] t']. injection H as <-. cbn [g_bs]. split; [|rewrite app_length; simpl; lia].
      split; cbn [g_bs g_front fs]; auto; [exists [nb]; auto|]. apply reserve_len in Eb as [_ Hr]. rewrite app_length in *. cbn [length] in *. lia.
  Qed.
  Lemma grow_ext : forall fuel g i acc g', geo (g_bs g) -> g_bs g <> [] -> grow_loop E C fuel g i acc = Ok g' -> extended g g'.
  Proof.
    induction fuel as [|fuel IH]; intros g i acc g' G Hne H; cbn [grow_loop] in H; [discriminate|].
    binv H. assert (X : extended g a).
    { destruct (i =? length (g_bs g)); [now apply addBucket_ext in Eb|]. injection Eb as <-. now apply ext_refl. }
    binv H. destruct (_ <=? _); [injection H as <-; auto|]. apply IH in H; [eapply ext_trans; eauto|apply X|].
    destruct X as [(e & -> & _) _ _]. destruct (g_bs g); [congruence|discriminate].
  Qed.
  Lemma add_ext adj : forall fuel g g', geo (g_bs g) -> g_bs g <> [] -> add_loop E C fuel g adj = Ok g' -> extended g g'.
  Proof.
    induction fuel as [|fuel IH]; intros g g' G Hne H; cbn [add_loop] in H; [discriminate|].
    destruct (_ <? _); [|injection H as <-; now apply ext_refl]. binv H. apply addBucket_ext in Eb as [X _]; auto.
    apply IH in H; [eapply ext_trans; eauto|apply X|]. destruct X as [(e & -> & _) _ _]. destruct (g_bs g); [congruence|discriminate].
  Qed.

  (** Inserting [l] into bucket [b] *)
  Definition inserted (L b : nat) (l : list E) (g g' : geobucket) (c : nat) : Prop :=
    c + w * pot L (g_bs g') <= w * (pot L (g_bs g) + length l * (L - b)) + cap b + geoBase C * length l + 2 * L /\ fs (g_front g') <= L.

  Lemma nopremerge_cost L g b l g' c : geo (g_bs g) -> fs (g_front g) <= L -> length (g_bs g') <= L -> fn (g_front g') <= L ->
    gb_insert_nopremerge_c E lt eqv dedup C g b l = Ok (g', c) -> inserted L b l g g' c.
  Proof.
    intros G Hs HL Hn H. unfold gb_insert_nopremerge_c in H. cinv H. apply vget_inv in Ef. pose proof (nth_error_some_lt _ _ _ Ef) as Hb.
    destruct (b_empty E x).
    { apply (assign_paid L) in H; auto. destruct H as (P & F & _). unfold inserted. split; auto. lia. }
    unfold b_size in H. destruct (Nat.leb_spec (length (b_ents x) + length l) (b_cap x)) as [Hle|Hgt].
    { pose proof (mergeRange_cost g b l x _ _ Ef H) as (_ & _ & b' & B & _). rewrite B, upd_length in HL.
      apply (mergeRange_paid L g b l x _ _ (cap b)) in H; auto. 2: { rewrite (G _ _ Ef) in Hle. cbv beta in *. lia. }
      destruct H as (P & F & _). split; auto. cbv beta in *. lia. }
    cinv H. assert (Hne : g_bs g <> []) by (intros Hz; rewrite Hz in Hb; simpl in Hb; lia).
    pose proof (grow_ext _ _ _ _ _ G Hne Ef0) as X. pose proof (ext_nth _ _ _ _ X Ef) as Hx. rename x0 into g1.
    assert (Hlen : length (g_bs g1) <= L).
    { assert (Hfg : carry E lt eqv dedup C (carry_loop E lt eqv dedup C (length (g_bs g1))) g1 b l = Ok g').
      { rewrite <- (carry_forget lt eqv dedup C (carry_loop_c E lt eqv dedup C (length (g_bs g1)))) by (intros; apply carry_loop_forget). unfold forget. now rewrite H. }
      apply carry_len in Hfg; [unfold same in Hfg; lia|]. intros *. apply carry_loop_len. }
    apply (carry_cost L (carry_loop_c E lt eqv dedup C (length (g_bs g1))) g1 b l x) in H; auto.
    - destruct H as (P & F & _). rewrite (ext_pot L _ _ X) in P. split; auto. lia.
    - intros *. apply carry_loop_cost.
    - apply X.
    - pose proof (ex_fs _ _ X). lia.
    - rewrite (G _ _ Ef) in Hgt. cbv beta in *. lia.
  Qed.

  Lemma pre_range_ext : forall fuel g r inc g' r', geo (g_bs g) -> pre_range E C fuel g r inc = Ok (g', r') ->
    extended g g' /\ r <= r' /\ exists rb, nth_error (g_bs g') r' = Some rb /\
    (r' = r -> ents rb + inc <= cap r) /\
    (r < r' -> exists pb prev, nth_error (g_bs g') (r' - 1) = Some pb /\ (b_ents rb = [] \/ ents rb + ents pb <= cap r') /\
       cap (r' - 1) < ents pb + prev /\
       (r' - 1 = r /\ prev = inc \/ r < r' - 1 /\ exists qb, nth_error (g_bs g') (r' - 2) = Some qb /\ prev = ents qb)).
  Proof.
    induction fuel as [|fuel IH]; intros g r inc g' r' G H; cbn [pre_range] in H; [discriminate|].
    binv H. apply vget_inv in Eb. rename a into b. pose proof (G _ _ Eb) as Hcap. unfold b_size in H.
    destruct (Nat.leb_spec (length (b_ents b) + inc) (b_cap b)) as [Hle|Hgt].
    { injection H as <- <-. split; [now apply ext_refl|]. split; auto. exists b. split; auto. split; [intros _; cbv beta in *; lia|lia]. }
    destruct (Nat.eqb_spec (S r) (length (g_bs g))) as [Hl|Hl].
    { binv H. injection H as <- <-. rename a into g1. apply addBucket_ext in Eb0 as [X Hlen]; auto. 2: { intros Hz. rewrite Hz in Eb. destruct r; discriminate. }
      split; auto. split; [lia|]. destruct X as [(e & He & Fe) G1 S1]. rewrite He, app_length in Hlen.
      destruct e as [|nb [|? ?]]; cbn [length] in Hlen; try lia. exists nb. rewrite He. split; [rewrite Hl, nth_error_app2, Nat.sub_diag by auto; auto|].
      split; [lia|]. intros _. exists b, inc. replace (S r - 1) with r by lia. split; [|split; [|split]].
      - rewrite nth_error_app1; auto. lia.
      - left. now inversion Fe.
      - cbv beta in *. lia.
      - auto. }
    apply IH in H as (X & Hr & rb & Hrb & H1 & H2); auto. split; auto. split; [lia|]. exists rb. split; auto. split; [lia|]. intros _.
    pose proof (ext_nth _ _ _ _ X Eb) as Hb'. destruct (Nat.eq_dec r' (S r)) as [->|Hne].
    - exists b, inc. replace (S r - 1) with r by lia. split; auto. split; [right; now apply H1|]. split; [cbv beta in *; lia|auto].
    - destruct (H2 ltac:(lia)) as (pb & prev & P1 & P2 & P3 & P4). exists pb, prev. split; auto. split; auto. split; auto. right.
      destruct P4 as [[P4 P5]|(P4 & qb & P5 & P6)]; [|split; [lia|eauto]]. split; [lia|]. exists b. replace (r' - 2) with r by lia. auto.
  Qed.

  Lemma move_pot L bs to from bt bf bt' bf' : from < to -> nth_error bs to = Some bt -> nth_error bs from = Some bf ->
    ents bt' <= ents bf + ents bt -> b_ents bf' = [] ->
    pot L (upd (upd bs to bt') from bf') + ents bf * (L - from) <= pot L bs + ents bf * (L - to).
  Proof.
    intros Hlt Ht Hf He Hn. pose proof (pot_upd bs L to bt bt' Ht) as P1.
    assert (Hf1 : nth_error (upd bs to bt') from = Some bf) by (rewrite nth_upd_other by lia; exact Hf).
    pose proof (pot_upd _ L from bf bf' Hf1) as P2. cbv beta in *. rewrite Hn in P2. cbn [length Nat.mul] in P2.
    assert (length (b_ents bt') * (L - to) <= (length (b_ents bf) + length (b_ents bt)) * (L - to)) by (now apply Nat.mul_le_mono_r). lia.
  Qed.
  Lemma step_pot (A P n X : nat) : A + n * S X <= P + n * X -> A + n <= P.
  Proof. lia. Qed.

  Lemma pre_moves_cost L : forall k g rit g', k <= rit -> rit < length (g_bs g) -> length (g_bs g) <= L -> pre_moves E C k g rit = Ok g' ->
    pot L (g_bs g') <= pot L (g_bs g) /\ fs (g_front g') = fs (g_front g) /\ length (g_bs g') = length (g_bs g) /\
    (1 <= k -> (exists b, nth_error (g_bs g') (rit - k) = Some b /\ b_ents b = []) /\
               forall bf, nth_error (g_bs g) (rit - 1) = Some bf -> pot L (g_bs g') + ents bf <= pot L (g_bs g)).
  Proof.
    induction k as [|k IH]; intros g rit g' Hk Hr HL H; cbn [pre_moves] in H.
    { injection H as <-. split; auto. split; auto. split; auto. lia. }
    binv H. rename a into g1. destruct (nth_error_lt (g_bs g) rit Hr) as [bt Ht]. destruct (nth_error_lt (g_bs g) (rit - 1)) as [bf Hf]; [lia|].
    destruct (moveToEmpty_spec g rit (rit - 1) bt bf g1) as (S1 & bt' & bf' & B1 & _ & _ & B4 & B5); auto; [lia|].
    assert (Hlen : length (g_bs g1) = length (g_bs g)) by (rewrite B1, !upd_length; auto).
    assert (P : pot L (g_bs g1) + ents bf <= pot L (g_bs g)).
    { pose proof (move_pot L (g_bs g) rit (rit - 1) bt bf bt' bf') as P. rewrite <- B1 in P. replace (L - (rit - 1)) with (S (L - rit)) in P by lia.
      eapply step_pot. apply P; auto; [lia|]. cbv beta. rewrite B4. lia. }
    destruct (IH g1 (rit - 1) g') as (I1 & I2 & I3 & I4); auto; try lia. cbv beta in *. split; [lia|]. split; [congruence|]. split; [congruence|].
    intros _. split.
    - destruct k as [|k].
      + cbn [pre_moves] in H. injection H as <-. exists bf'. split; auto. rewrite B1. 
        apply nth_upd_same. rewrite upd_length. lia.
      + destruct (I4 ltac:(lia)) as ((b & Hb & He) & _). exists b. replace (rit - S (S k)) with (rit - 1 - S k) by lia. auto.
    - intros bf0 Hbf0. rewrite Hf in Hbf0. injection Hbf0 as <-. lia.
  Qed.

  Lemma mergeRange_len_c g b l g' c : gb_mergeRange_c E lt eqv dedup C g b l = Ok (g', c) -> length (g_bs g') = length (g_bs g).
  Proof. intros H. apply (mergeRange_len lt eqv dedup C g b l). rewrite <- mergeRange_forget. unfold forget. now rewrite H. Qed.
  Lemma assign_len_c g b l g' c : gb_assign_c E lt eqv C g b l = Ok (g', c) -> length (g_bs g') = length (g_bs g).
  Proof. intros H. apply (assign_len lt C g b l). rewrite <- (assign_forget lt eqv). unfold forget. now rewrite H. Qed.

  Lemma premerge_cost L g b l g' c : geo (g_bs g) -> fs (g_front g) <= L -> length (g_bs g') <= L -> fn (g_front g') <= L ->
    gb_insert_premerge_c E lt eqv dedup C g b l = Ok (g', c) -> inserted L b l g g' c.
  Proof.
    intros G Hs HL Hn H. unfold gb_insert_premerge_c in H. cinv H. destruct x as [g1 r].
    apply pre_range_ext in Ef as (X & Hr & rb & Hrb & H1 & H2); auto.
    cinv H. rename x into g2. cinv H. apply vget_inv in Ef. rename x into bb.
    assert (Hl2 : length (g_bs g2) <= L).
    { destruct (b_empty E bb); [apply assign_len_c in H|apply mergeRange_len_c in H]; lia. }
    pose proof (nth_error_some_lt _ _ _ Hrb) as Hrl. pose proof (ex_fs _ _ X) as Hfs.
    destruct (Nat.eqb_spec b r) as [<-|Hne].
    { apply free_ok in Ec as [Ec ->]. injection Ec as <-. assert (fs (g_front g1) <= L) by lia. rewrite Hrb in Ef. injection Ef as <-.
      destruct (b_empty E rb).
      - apply (assign_paid L) in H; auto. destruct H as (P & F & _). rewrite (ext_pot L _ _ X) in P. split; auto. lia.
      - apply (mergeRange_paid L g1 b l rb _ _ (cap b)) in H; auto. 2: { specialize (H1 eq_refl). cbv beta in *. lia. }
        destruct H as (P & F & _). rewrite (ext_pot L _ _ X) in P. split; auto. cbv beta in *. lia. }
    destruct (H2 ltac:(lia)) as (pb & prev & P1 & P2 & P3 & P4). clear H1 H2.
    cinv Ec. apply vget_inv in Ef0. rewrite Hrb in Ef0. injection Ef0 as <-.
    destruct (b_empty_spec rb) as [Hrbe|Hrbe].
    - apply free_ok in Ec as [Ec ->].
      assert (Hl1 : length (g_bs g1) <= L).
      { apply pre_moves_len in Ec. unfold same in Ec. lia. }
      apply (pre_moves_cost L) in Ec as (M1 & M2 & M3 & M4); auto; [|lia].
      destruct (M4 ltac:(lia)) as ((b' & Hb' & He') & _). replace (r - (r - b)) with b in Hb' by lia. rewrite Ef in Hb'. injection Hb' as <-.
      destruct (b_empty_spec bb) as [_|Hbb]; [|congruence]. apply (assign_paid L) in H; auto; [|lia|now apply nth_error_some_lt in Ef].
      destruct H as (P & F & _). rewrite (ext_pot L _ _ X) in M1. split; auto.
      assert (w * (pot L (g_bs g2) + length l * (L - b)) <= w * (pot L (g_bs g) + length l * (L - b))) by (apply Nat.mul_le_mono_l; lia). lia.
    - destruct P2 as [P2|P2]; [congruence|]. cinv Ec. rename x into g3. apply free_ok in Ec as [Ec ->].
      destruct (mergeToNonEmpty_cost g1 r (r - 1) rb pb g3 c1) as (C1 & C2 & bt' & bf' & B1 & _ & _ & B4 & B5); auto; [lia|].
      assert (Hl3 : length (g_bs g3) = length (g_bs g1)) by (rewrite B1, !upd_length; auto).
      pose proof Ec as Hlen2. apply pre_moves_len in Hlen2. unfold same in Hlen2.
      assert (D1 : pot L (g_bs g3) + ents pb <= pot L (g_bs g1)).
      { pose proof (move_pot L (g_bs g1) r (r - 1) rb pb bt' bf') as P. rewrite <- B1 in P. replace (L - (r - 1)) with (S (L - r)) in P by lia.
        eapply step_pot. apply P; auto. lia. }
      rewrite (ext_pot L _ _ X) in D1.
      assert (Hcap : cap r <= geoBase C * (ents pb + prev)).
      { replace r with (S (r - 1)) by lia. rewrite cap_S. apply Nat.mul_le_mono_l. cbv beta in *. lia. }
      assert (Hfs1 : fs (g_front g1) <= L) by lia.
      destruct P4 as [[P4 ->]|(P4 & qb & P5 & ->)].
      + replace (r - 1 - b) with 0 in Ec by lia. cbn [pre_moves] in Ec. injection Ec as <-.
        rewrite B1, P4, nth_upd_same in Ef by (rewrite upd_length; lia). injection Ef as <-.
        destruct (b_empty_spec bf') as [_|Hbb]; [|congruence]. apply (assign_paid L) in H; auto; [|lia|lia].
        destruct H as (P & F & _). split; auto. cbv beta in *.
        assert (w * (pot L (g_bs g3) + length (b_ents pb) + length l * (L - b)) <= w * (pot L (g_bs g) + length l * (L - b))) by (apply Nat.mul_le_mono_l; lia).
        lia.
      + apply (pre_moves_cost L) in Ec as (M1 & M2 & M3 & M4); [|lia|lia|lia].
        destruct (M4 ltac:(lia)) as ((b' & Hb' & He') & D2). replace (r - 1 - (r - 1 - b)) with b in Hb' by lia. rewrite Ef in Hb'. injection Hb' as <-.
        specialize (D2 qb). replace (r - 1 - 1) with (r - 2) in D2 by lia. rewrite B1 in D2 at 1. rewrite !nth_upd_other in D2 by lia. specialize (D2 P5).
        destruct (b_empty_spec bb) as [_|Hbb]; [|congruence]. apply (assign_paid L) in H; auto; [|lia|now apply nth_error_some_lt in Ef].
        destruct H as (P & F & _). split; auto. cbv beta in *.
        assert (w * (pot L (g_bs g2) + length (b_ents qb) + length (b_ents pb) + length l * (L - b)) <= w * (pot L (g_bs g) + length l * (L - b)))
          by (apply Nat.mul_le_mono_l; lia).
        lia.
  Qed.
  Lemma insert_cost L g b l g' c : geo (g_bs g) -> fs (g_front g) <= L -> length (g_bs g') <= L -> fn (g_front g') <= L ->
    gb_insert_c E lt eqv dedup C g b l = Ok (g', c) -> inserted L b l g g' c.
  Proof. unfold gb_insert_c. destruct (premerge C); [apply premerge_cost|apply nopremerge_cost]. Qed.

  (** * The calls *)
  Lemma bin_cost l x : forall fuel b r pl c, bin_search_c E lt eqv C fuel l x b r = Ok (pl, c) -> c <= r.
  Proof.
    induction fuel as [|fuel IH]; intros b r pl c H; cbn [bin_search_c] in H; [discriminate|].
    destruct (Nat.eqb_spec r 0) as [->|Hr]. { apply free_ok in H as [_ ->]. lia. }
    assert (Hd : r / 2 < r) by (apply Nat.div_lt; lia).
    cinv H. cinv H. destruct (lt _ _); [apply IH in H; lia|]. destruct (_ || _); [apply IH in H; lia|]. apply free_ok in H as [_ ->]. lia.
  Qed.
  Lemma lin_cost x : forall l pos pl c, lin_search_c E lt eqv C l x pos = Ok (pl, c) -> c <= length l.
  Proof.
    induction l as [|y l IH]; intros pos pl c H; cbn [lin_search_c] in H. { apply free_ok in H as [_ ->]. lia. }
    cinv H. cbn [length]. destruct (lt _ _). { apply free_ok in H as [_ ->]. lia. }
    destruct (_ && _). { apply free_ok in H as [_ ->]. lia. } apply IH in H. lia.
  Qed.
  Lemma push_back_ok fits b x b' : bk_push_back E C fits b x = Ok b' -> b_ents b' = b_ents b ++ [x].
  Proof. unfold bk_push_back. destruct (_ <? _); [|discriminate]. intros H. now injection H as <-. Qed.
  Lemma insertAt_ok fits b i x b' : bk_insertAtNotEnd E fits b i x = Ok b' -> ents b' = S (ents b).
  Proof.
    unfold bk_insertAtNotEnd, b_size. destruct (Nat.ltb_spec i (length (b_ents b))); [|discriminate]. destruct (_ <? _); [|discriminate]. cbn [andb].
    intros H1. injection H1 as <-. cbn [b_ents]. rewrite app_length. cbn [length]. rewrite firstn_length, skipn_length. lia.
  Qed.
  Lemma setEntry_ok b i x b' : bk_setEntry E C b i x = Ok b' -> ents b' = ents b /\ b_cap b' = b_cap b.
  Proof. unfold bk_setEntry. intros H. binv H. injection H as <-. apply vset_inv in Eb as [_ ->]. cbn [b_ents b_cap]. now rewrite upd_length. Qed.
  Lemma pop_back_ok b b' : bk_pop_back E C b = Ok b' -> ents b' <= ents b.
  Proof.
    unfold bk_pop_back. destruct (b_empty E b); [discriminate|]. intros H. injection H as <-. cbn [b_ents]. rewrite removelast_length. lia.
  Qed.
  Lemma pot_le L bs i b b' : nth_error bs i = Some b -> ents b' <= ents b -> pot L (upd bs i b') <= pot L bs.
  Proof.
    intros Hb He. pose proof (pot_upd bs L i b b' Hb) as P. assert (ents b' * (L - i) <= ents b * (L - i)) by (now apply Nat.mul_le_mono_r). cbv beta in *. lia.
  Qed.

  (** What a single entry costs *)
  Definition one (L : nat) : nat := minBucketSize C + geoBase C + (geoBase C + 3) * L.
  Lemma push_cost L g x g' c : geo (g_bs g) -> (forall b, nth_error (g_bs g) 0 = Some b -> ents b <= b_cap b) ->
    fs (g_front g) <= L -> length (g_bs g') <= L -> fn (g_front g') <= L ->
    gb_push_c E lt eqv dedup C g x = Ok (g', c) -> c + w * pot L (g_bs g') <= w * pot L (g_bs g) + one L /\ fs (g_front g') <= L.
  Proof.
    intros G Hfit Hs HL Hn H. unfold gb_push_c in H. cinv H. apply vget_inv in Ef. rename x0 into b. specialize (Hfit _ Ef). rewrite (G _ _ Ef) in Hfit.
    cbn [Nat.pow] in Hfit. rewrite Nat.mul_1_r in Hfit. unfold one.
    assert (add : forall b', ents b' <= S (ents b) -> w * pot L (upd (g_bs g) 0 b') <= w * pot L (g_bs g) + w * L).
    { intros b' Hb'. pose proof (pot_upd (g_bs g) L 0 b b' Ef) as P. rewrite Nat.sub_0_r in P. rewrite <- Nat.mul_add_distr_l. apply Nat.mul_le_mono_l.
      assert (ents b' * L <= S (ents b) * L) by (now apply Nat.mul_le_mono_r). cbv beta in *. lia. }
    destruct (_ =? _).
    { apply (insert_cost L) in H; cbn [g_bs g_front] in *; auto. destruct H as [P F]. cbn [g_bs g_front length Nat.pow] in *. split; auto. lia. }
    destruct (b_empty E b).
    { do 2 cinv H. cinv H. apply free_ok in H as [H ->]. injection H as <-. cbn [g_bs g_front] in *. apply (f_insert_cost L) in Ec; auto.
      apply vset_inv in Ef1 as [_ ->]. apply push_back_ok in Ef0. specialize (add x0). rewrite Ef0, app_length in add. cbn [length] in add. specialize (add ltac:(lia)). lia. }
    cinv H. assert (Hc0 : c0 <= minBucketSize C).
    { destruct (minBucketBinarySearch C); [apply bin_cost in Ec|apply lin_cost in Ec]; unfold b_size in *; lia. }
    destruct x0 as [i| |i].
    - apply free_ok in H as [H ->]. do 2 binv H. injection H as <-. cbn [g_bs g_front] in *. apply vset_inv in Eb0 as [_ ->]. apply insertAt_ok in Eb.
      specialize (add a). cbv beta in *. specialize (add ltac:(lia)). lia.
    - do 2 cinv H. cinv H. apply free_ok in H as [H ->]. injection H as <-. cbn [g_bs g_front] in *. apply keyIncreased_cost in Ec0 as (K1 & K2 & _).
      apply vset_inv in Ef1 as [_ ->]. apply push_back_ok in Ef0. specialize (add x0). rewrite Ef0, app_length in add. cbn [length] in add. specialize (add ltac:(lia)). lia.
    - apply free_ok in H as [H ->]. do 4 binv H. injection H as <-. cbn [g_bs g_front] in *. apply vset_inv in Eb1 as [_ ->]. apply setEntry_ok in Eb0 as [Eb0 _].
      specialize (add a0). cbv beta in *. specialize (add ltac:(lia)). lia.
  Qed.

  Lemma find_spec adj : forall (bs : list bucket) i r, find_bucket E bs adj i = Ok r -> i <= r /\
    forall k b, i + k < r -> nth_error bs k = Some b -> b_cap b < adj.
  Proof.
    induction bs as [|b bs IH]; intros i r H; cbn [find_bucket] in H; [discriminate|].
    destruct (Nat.leb_spec adj (b_cap b)); [injection H as <-; split; [auto|intros; lia]|].
    apply IH in H as [H1 H2]. split; [lia|]. intros [|k] c Hk Hc; cbn in Hc; [injection Hc as <-; auto|]. apply (H2 k); auto. lia.
  Qed.
  Lemma find_lt adj : forall (bs : list bucket) i r, find_bucket E bs adj i = Ok r -> r < i + length bs.
  Proof.
    induction bs as [|b bs IH]; intros i r H; cbn [find_bucket] in H; [discriminate|].
    destruct (adj <=? b_cap b); [injection H as <-; simpl; lia|]. apply IH in H. simpl. lia.
  Qed.
  (** What a range of [k] entries costs *)
  Definition many (L k : nat) : nat :=
    Nat.max (minBucketSize C) (geoBase C * (k * insertFactor C)) + geoBase C * k + (geoBase C + 1) * k * L + 2 * L.
  Lemma pushRange_cost L g xs g' c : geo (g_bs g) -> g_bs g <> [] -> fs (g_front g) <= L -> length (g_bs g') <= L -> fn (g_front g') <= L ->
    gb_pushRange_c E lt eqv dedup C g xs = Ok (g', c) -> c + w * pot L (g_bs g') <= w * pot L (g_bs g) + many L (length xs) /\ fs (g_front g') <= L.
  Proof.
    intros G Hne Hs HL Hn H. unfold gb_pushRange_c in H. do 2 cinv H. rename x into g1, x0 into b. apply add_ext in Ef; cbn [g_bs]; auto.
    assert (Hlen : length (g_bs g1) <= L).
    { assert (Hfg : gb_insert E lt eqv dedup C g1 b (rev xs) = Ok g') by (rewrite <- insert_forget; unfold forget; now rewrite H).
      enough (length (g_bs g1) <= length (g_bs g')) by lia. clear - Hfg Hg Hm Ef. unfold gb_insert in Hfg. destruct (premerge C).
      - unfold gb_insert_premerge in Hfg. binv Hfg. destruct a as [g2 r]. apply pre_range_ext in Eb as (X & _); [|apply Ef]. apply ext_len in X.
        binv Hfg. binv Hfg. assert (L2 : length (g_bs a) = length (g_bs g2)).
        { destruct (b =? r); [now injection Eb as <-|]. binv Eb. destruct (b_empty E _).
          - now apply pre_moves_len in Eb.
          - binv Eb. apply mergeToNonEmpty_len in Eb2. apply pre_moves_len in Eb. unfold same in *. congruence. }
        destruct (b_empty E _); [apply assign_len in Hfg|apply mergeRange_len in Hfg]; unfold same in *; lia.
      - unfold gb_insert_nopremerge in Hfg. binv Hfg. destruct (b_empty E _); [apply assign_len in Hfg; unfold same in *; lia|].
        destruct (_ <=? _); [apply mergeRange_len in Hfg; unfold same in *; lia|]. binv Hfg. apply grow_ext in Eb0; [|apply Ef|].
        + apply ext_len in Eb0. apply carry_len in Hfg; [unfold same in *; lia|]. intros *. apply carry_loop_len.
        + apply vget_inv in Eb. intros Hz. rewrite Hz in Eb. destruct b; discriminate. }
    apply (insert_cost L) in H; auto; [|apply Ef|pose proof (ex_fs _ _ Ef) as Hx; cbn [g_front] in Hx; lia].
    destruct H as [P F]. split; auto. rewrite (ext_pot L _ _ Ef) in P. cbn [g_bs] in P. rewrite rev_length in P. unfold many.
    assert (Hcap : cap b <= Nat.max (minBucketSize C) (geoBase C * (length xs * insertFactor C))).
    { destruct b as [|b]; [cbn; lia|]. rewrite cap_S. pose proof (find_lt _ _ _ _ Ef0) as Hbl. apply find_spec in Ef0 as [_ Hsm].
      destruct (nth_error_lt (g_bs g1) b) as [cb Hcb]; [lia|]. specialize (Hsm b cb ltac:(lia) Hcb). rewrite (ex_geo _ _ Ef _ _ Hcb) in Hsm.
      assert (geoBase C * (minBucketSize C * geoBase C ^ b) <= geoBase C * (length xs * insertFactor C)) by (apply Nat.mul_le_mono_l; lia). cbv beta. lia. }
    assert (length xs * (L - b) <= length xs * L) by (apply Nat.mul_le_mono_l; lia).
    assert (w * (pot L (g_bs g) + length xs * (L - b)) <= w * (pot L (g_bs g) + length xs * L)) by (apply Nat.mul_le_mono_l; lia).
    cbv beta in *. nia.
  Qed.

  Lemma kd_cost L a n b : forall k bs cnt slots toks pos bs' cnt' f' c,
    kd_loop_c E lt eqv dedup C k bs cnt a slots n toks b pos = Ok (bs', cnt', f', c) ->
    c <= k /\ pot L bs' <= pot L bs /\ fs f' = length slots.
  Proof.
    induction k as [|k IH]; intros bs cnt slots toks pos bs' cnt' f' c H; cbn [kd_loop_c] in H.
    { apply free_ok in H as [H ->]. do 2 binv H. injection H as <- <- <-. apply vset_inv in Eb as [_ ->]. cbn [fs]. now rewrite upd_length. }
    do 3 cinv H. cinv H. destruct (lt _ _).
    { do 2 cinv H. apply IH in H. apply vset_inv in Ef2 as [_ ->]. rewrite upd_length in H. lia. }
    destruct (_ || _).
    { apply free_ok in H as [H ->]. do 2 binv H. injection H as <- <- <-. apply vset_inv in Eb as [_ ->]. cbn [fs]. rewrite upd_length. lia. }
    do 7 cinv H.
    match goal with A : bk_setEntry _ _ _ _ _ = Ok ?ob', B : vget bs _ = Ok ?ob, V : vset bs _ ?ob' = Ok ?bs1, D : vget ?bs1 b = Ok ?bb,
      P : bk_pop_back _ _ ?bb = Ok ?bb', W : vset ?bs1 b ?bb' = Ok ?bs2 |- _ =>
      assert (Q : pot L bs2 <= pot L bs);
      [apply vget_inv in B; apply vget_inv in D; apply vset_inv in V as [_ V]; apply vset_inv in W as [_ ->]; apply setEntry_ok in A as [A _]; apply pop_back_ok in P;
       eapply Nat.le_trans; [eapply pot_le; eauto|]; rewrite V; eapply pot_le; [exact B|rewrite A; auto]|]
    end.
    destruct (b_empty E _).
    - apply free_ok in H as [H ->]. do 2 binv H. injection H as <- <- <-. apply fo_remove_len in Eb0 as [Eb0 _]. lia.
    - do 2 cinv H. apply IH in H.
      match goal with V : vset slots pos _ = Ok ?s' |- _ => apply vset_inv in V as [_ ->] end. rewrite upd_length in H. lia.
  Qed.
  Lemma keyDecreased_cost L bs cnt f b bs' cnt' f' c : f_keyDecreased_c E lt eqv dedup C bs cnt f b = Ok (bs', cnt', f', c) ->
    c <= fn f /\ pot L bs' <= pot L bs /\ fs f' = fs f.
  Proof.
    destruct f as [m|a slots n toks]; cbn [f_keyDecreased_c]; intros H.
    { apply free_ok in H as [H ->]. injection H as <- <- <-. auto. }
    cinv H. destruct (b_empty E _).
    { apply free_ok in H as [H ->]. binv H. injection H as <- <- <-. apply fo_remove_len in Eb as [Eb _]. cbn [fs fn]. split; [lia|auto]. }
    do 2 cinv H. destruct (_ <=? _); [discriminate|]. apply (kd_cost L) in H. cbn [fs fn]. lia.
  Qed.
  Lemma cm_cost L : forall k bs cnt mx it bs' cnt' i' c, cm_loop_c E lt eqv dedup C k bs cnt mx it = Ok (bs', cnt', i', c) ->
    c <= k /\ pot L bs' <= pot L bs.
  Proof.
    induction k as [|k IH]; intros bs cnt mx it bs' cnt' i' c H; cbn [cm_loop_c] in H.
    { apply free_ok in H as [H ->]. injection H as <- <- <-. auto. }
    cinv H. destruct (b_empty E _); [apply IH in H; lia|]. do 2 cinv H. cinv H. destruct (lt _ _); [apply IH in H; lia|].
    destruct (_ && _); [|apply IH in H; lia]. do 7 cinv H. apply IH in H.
    match goal with A : bk_setEntry _ _ _ _ _ = Ok ?ob', B : vget bs mx = Ok ?ob, V : vset bs mx ?ob' = Ok ?bs1, D : vget ?bs1 it = Ok ?bb,
      P : bk_pop_back _ _ ?bb = Ok ?bb', W : vset ?bs1 it ?bb' = Ok ?bs2 |- _ =>
      assert (Q : pot L bs2 <= pot L bs);
      [apply vget_inv in B; apply vget_inv in D; apply vset_inv in V as [_ V]; apply vset_inv in W as [_ ->]; apply setEntry_ok in A as [A _]; apply pop_back_ok in P;
       eapply Nat.le_trans; [eapply pot_le; eauto|]; rewrite V; eapply pot_le; [exact B|rewrite A; auto]|]
    end. lia.
  Qed.
  (** getMax compares only if the front is not tracked, keyDecreased only if it is *)
  Lemma getMax_cost L g g' i c : gb_getMax_c E lt eqv dedup C g = Ok (g', i, c) ->
    c + fn (g_front g') <= Nat.max (length (g_bs g)) (fn (g_front g)) /\ pot L (g_bs g') <= pot L (g_bs g) /\ fs (g_front g') = fs (g_front g).
  Proof.
    unfold gb_getMax_c. intros H. destruct (g_front g) as [[m|]|a slots n toks] eqn:Hf.
    - apply free_ok in H as [H ->]. injection H as <- <-. rewrite Hf. cbn [fn fs]. split; [lia|auto].
    - cinv H. cinv H. destruct x0 as [[bs cnt] m']. apply free_ok in H as [H ->]. injection H as <- <-. apply (cm_cost L) in Ec. cbn [g_bs g_front fn fs]. lia.
    - apply free_ok in H as [H ->]. destruct (n =? 0); [discriminate|]. binv H. injection H as <- <-. rewrite Hf. cbn [fn fs]. split; [lia|auto].
  Qed.
  Lemma pop_cost L g g' x c : length (g_bs g) <= L -> fn (g_front g) <= L -> gb_pop_c E lt eqv dedup C g = Ok (g', x, c) ->
    c <= L /\ pot L (g_bs g') <= pot L (g_bs g) /\ fs (g_front g') = fs (g_front g).
  Proof.
    intros HL Hn H. unfold gb_pop_c in H. cinv H. destruct x0 as [g1 i]. do 5 cinv H. cinv H. match type of Ec0 with _ = Ok (?y, _) => destruct y as [[bs cnt] f] end. apply free_ok in H as [H ->].
    injection H as <- _. apply (getMax_cost L) in Ec as (A1 & A2 & A3). apply (keyDecreased_cost L) in Ec0 as (B1 & B2 & B3). cbn [g_bs g_front].
    apply vget_inv in Ef. apply pop_back_ok in Ef1. apply vset_inv in Ef2 as [_ ->]. pose proof (pot_le L _ _ _ _ Ef Ef1). split; [lia|]. split; [lia|congruence].
  Qed.
End Cost.
