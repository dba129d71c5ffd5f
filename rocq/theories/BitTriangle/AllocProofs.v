(** Proofs about BitTriangle/Alloc.v. *)
From Coq Require Import List Arith Bool Lia.
From Verif.Base Require Import Res Arr Fault.
From Verif.BitTriangle Require Import Model Alloc Proofs.
From Verif.Spec Require Import Triangle TriangleHurt.
Import ListNotations.

(** The columns are those of [g], but hurt columns are empty. *)
Definition wounded (u : list nat) (g t : triangle) : Prop :=
  length t = length g /\ (forall c, ~ In c u -> nth_error t c = nth_error g c) /\ (forall c, In c u -> nth_error t c = Some [] /\ 0 < c < length t).
Definition hurt_inv (h : list bt_op) (u : list nat) (t : triangle) : Prop := exists g, bt_inv h g /\ wounded u g t.

Lemma in_dec_nat (c : nat) u : In c u \/ ~ In c u.
Proof. destruct (in_dec Nat.eq_dec c u); auto. Qed.
Lemma wounded_bit u g t c r : wounded u g t -> ~ In c u -> bt_bit t c r = bt_bit g c r.
Proof. intros (_ & H & _) Hc. unfold bt_bit, vget. now rewrite H. Qed.
Lemma wounded_set u g t c r v g' : wounded u g t -> ~ In c u -> bt_setBit g c r v = Ok g' -> exists t', bt_setBit t c r v = Ok t' /\ wounded u g' t'.
Proof.
  intros (Hl & H & Hu) Hc Hg. unfold bt_setBit, vget in *. rewrite (H c Hc). destruct (nth_error g c) as [col|] eqn:Ec; [|discriminate]. cbn [of_option bind] in *.
  destruct (vset col r v) as [col'| | |]; try discriminate. cbn [bind] in *. unfold vset in *. rewrite Hl. destruct (Nat.ltb_spec c (length g)); [|discriminate]. injection Hg as <-.
  eexists; split; [reflexivity|]. split; [now rewrite !upd_length|]. split.
  - intros c' Hc'. destruct (Nat.eq_dec c' c) as [->|Hn]; [rewrite !nth_upd_same by lia; auto|]. rewrite !nth_upd_other by auto. auto.
  - intros c' Hc'. destruct (Hu c' Hc') as [Hx Hy]. rewrite upd_length. split; [|lia]. rewrite nth_upd_other; auto. intros ->. contradiction.
Qed.
Lemma wounded_bit_ub u g t c r : wounded u g t -> In c u -> bt_bit t c r = UB.
Proof. intros (_ & _ & H) Hc. destruct (H c Hc) as [Hx _]. unfold bt_bit, vget. rewrite Hx. cbn. now destruct r. Qed.
Lemma wounded_set_ub u g t c r v : wounded u g t -> In c u -> bt_setBit t c r v = UB.
Proof. intros (_ & _ & H) Hc. destruct (H c Hc) as [Hx _]. unfold bt_setBit, vget. rewrite Hx. reflexivity. Qed.
Lemma wounded_set_bad u g t c r v : wounded u g t -> bt_setBit g c r v = UB -> bt_setBit t c r v = UB.
Proof.
  intros Hw Hg. destruct (in_dec_nat c u) as [Hc|Hc]; [now apply (wounded_set_ub u g)|]. destruct Hw as (Hl & H & _). unfold bt_setBit, vget in *. rewrite (H c Hc).
  destruct (nth_error g c) as [col|]; auto. cbn [of_option bind] in *. destruct (vset col r v); auto. cbn [bind] in *. unfold vset in *. rewrite Hl. now destruct (_ <? _).
Qed.
Lemma wounded_bit_bad u g t c r : wounded u g t -> bt_bit g c r = UB -> bt_bit t c r = UB.
Proof. intros Hw Hg. destruct (in_dec_nat c u) as [Hc|Hc]; [now apply (wounded_bit_ub u g)|]. now rewrite (wounded_bit u g t c r Hw Hc). Qed.

Lemma add_wounded u g t : wounded u g t -> wounded u (bt_addColumn g) (bt_addColumn t).
Proof.
  intros (Hl & H & Hu). unfold bt_addColumn. split; [now rewrite !app_length, Hl|]. split.
  - intros c Hc. destruct (Nat.lt_ge_cases c (length t)).
    + rewrite !nth_error_app1 by lia. auto.
    + rewrite !nth_error_app2 by lia. now rewrite Hl.
  - intros c Hc. destruct (Hu c Hc) as [Hx Hy]. rewrite nth_error_app1 by lia. split; auto. rewrite app_length. lia.
Qed.
Lemma half_wounded u g t : 0 < length t -> wounded u g t -> wounded (length t :: u) (bt_addColumn g) (t ++ [[]]).
Proof.
  intros H0 (Hl & H & Hu). unfold bt_addColumn. split; [rewrite !app_length; cbn; lia|]. split.
  - intros c Hc. cbn [In] in Hc. destruct (Nat.lt_ge_cases c (length t)).
    + rewrite !nth_error_app1 by lia. apply H. tauto.
    + rewrite !nth_error_app2 by lia. destruct (c - length t) eqn:Ed; [lia|]. destruct (c - length g) eqn:Eg; [lia|]. cbn. now destruct n, n0.
  - intros c [<-|Hc].
    + rewrite nth_error_app2, Nat.sub_diag by lia. split; auto. rewrite app_length. cbn. lia.
    + destruct (Hu c Hc) as [Hx Hy]. rewrite nth_error_app1 by lia. split; auto. rewrite app_length. lia.
Qed.

Lemma hurt_step h u t o : hurt_inv h u t -> o <> BAddColumn -> usable h u o -> exists t', bt_step t o = Ok (t', answer h o) /\ hurt_inv (o :: h) u t'.
Proof.
  intros (g & Hi & Hw) Ho [Ha Hn]. destruct (bt_step_ok h g o Hi Ha) as (g' & Hg & Hi'). destruct o as [|c r v|x y v|c r|x y| |]; try (now destruct Ho); cbn [bt_step touches] in *.
  - destruct (bt_setBit g c r v) as [g1| | |] eqn:Eg; try discriminate. injection Hg as <-. destruct (wounded_set u g t c r v g1 Hw (Hn c eq_refl) Eg) as (t' & -> & Hw').
    exists t'. split; [reflexivity|]. exists g1; auto.
  - unfold bt_setBitUnordered in *. rewrite swap_max_min in *. destruct (bt_setBit g _ _ v) as [g1| | |] eqn:Eg; try discriminate. injection Hg as <-.
    destruct (wounded_set u g t _ _ v g1 Hw (Hn _ eq_refl) Eg) as (t' & -> & Hw'). exists t'. split; [reflexivity|]. exists g1; auto.
  - rewrite (wounded_bit u g t c r Hw (Hn c eq_refl)). destruct (bt_bit g c r) as [q| | |]; try discriminate. cbn [bind answer] in *. assert (Hq := f_equal (fun z => match z with Ok (_, BBool q) => q | _ => q end) Hg). cbn in Hq. injection Hg as Hg _. subst g'.
    exists t. split; [congruence|]. exists g; auto.
  - unfold bt_bitUnordered in *. rewrite swap_max_min in *. rewrite (wounded_bit u g t _ _ Hw (Hn _ eq_refl)). destruct (bt_bit g _ _) as [q| | |]; try discriminate. cbn [bind answer] in *.
    assert (Hq := f_equal (fun z => match z with Ok (_, BBool q) => q | _ => q end) Hg). cbn in Hq. injection Hg as Hg _. subst g'. exists t. split; [congruence|]. exists g; auto.
  - injection Hg as <- Hg. exists t. unfold bt_columnCount in *. rewrite (proj1 Hw), Hg. split; [reflexivity|]. exists g; auto.
  - injection Hg as <- Hg. exists t. split; [|exists g; auto]. f_equal. f_equal. cbn [answer]. rewrite <- Hg. f_equal. destruct Hw as [Hl _]. destruct t, g; try discriminate; reflexivity.
Qed.
Lemma hurt_step_ub h u t o : hurt_inv h u t -> ~ usable h u o -> bt_step t o = UB.
Proof.
  intros (g & Hi & Hw) Hn. destruct (allowed_dec h o) as [Ha|Ha].
  - assert (Hc : exists c, touches o = Some c /\ In c u).
    { destruct (touches o) as [c|] eqn:Et.
      - exists c. split; auto. destruct (in_dec_nat c u); auto. exfalso. apply Hn. split; auto. intros c' E'. rewrite Et in E'. injection E' as <-. auto.
      - exfalso. apply Hn. split; auto. intros c' E'. rewrite Et in E'. discriminate. }
    destruct Hc as (c & Hc & Hu). destruct o as [|c' r v|x y v|c' r|x y| |]; try discriminate; injection Hc as <-; cbn [bt_step].
    + now rewrite (wounded_set_ub u g).
    + unfold bt_setBitUnordered. rewrite swap_max_min. now rewrite (wounded_set_ub u g).
    + now rewrite (wounded_bit_ub u g).
    + unfold bt_bitUnordered. rewrite swap_max_min. now rewrite (wounded_bit_ub u g).
  - destruct o as [|c r v|x y v|c r|x y| |]; cbn [bt_step allowed] in *; try tauto.
    + rewrite (wounded_set_bad u g); auto. now apply (bt_set_ub h).
    + unfold bt_setBitUnordered. rewrite swap_max_min. rewrite (wounded_set_bad u g); auto. apply (bt_set_ub h); auto. lia.
    + rewrite (wounded_bit_bad u g); auto. now apply (bt_bit_ub h).
    + unfold bt_bitUnordered. rewrite swap_max_min. rewrite (wounded_bit_bad u g); auto. apply (bt_bit_ub h); auto. lia.
Qed.
Lemma usable_dec h u o : usable h u o \/ ~ usable h u o.
Proof.
  destruct (allowed_dec h o) as [Ha|Ha]; [|right; intros [? _]; auto]. destruct (touches o) as [c|] eqn:Et.
  - destruct (in_dec_nat c u) as [Hc|Hc]; [right; intros [_ Hx]; exact (Hx c Et Hc)|]. left. split; auto. intros c' E'. rewrite Et in E'. injection E' as <-. auto.
  - left. split; auto. intros c' E'. rewrite Et in E'. discriminate.
Qed.
Lemma catch_other t o p : o <> BAddColumn -> bt_catch t (o, p) = (let* (t', r) := bt_step t o in Ok (t', Some r)).
Proof. destruct o; try reflexivity. intros H; now destruct H. Qed.

Lemma hurt_run ops : forall h u t, hurt_inv h u t ->
  (exists t' rs h' u', run bt_catch t ops = Ok (t', rs) /\ htrace h u (map fst ops) rs h' u' /\ hurt_inv h' u' t') \/
  (exists pre o post t' rs h' u', ops = pre ++ o :: post /\ run bt_catch t pre = Ok (t', rs) /\ htrace h u (map fst pre) rs h' u' /\ ~ usable h' u' (fst o) /\ bt_catch t' o = UB).
Proof.
  induction ops as [|[o p] ops IH]; intros h u t Hi.
  - left. exists t, [], h, u. split; [reflexivity|]. split; [constructor|exact Hi].
  - assert (Hgo : forall h1 u1 t1 r, bt_catch t (o, p) = Ok (t1, r) -> hurt_inv h1 u1 t1 ->
      (forall ops' rs h' u', htrace h1 u1 ops' rs h' u' -> htrace h u (o :: ops') (r :: rs) h' u') ->
      (exists t' rs h' u', run bt_catch t ((o, p) :: ops) = Ok (t', rs) /\ htrace h u (map fst ((o, p) :: ops)) rs h' u' /\ hurt_inv h' u' t') \/
      (exists pre o' post t' rs h' u', (o, p) :: ops = pre ++ o' :: post /\ run bt_catch t pre = Ok (t', rs) /\ htrace h u (map fst pre) rs h' u' /\ ~ usable h' u' (fst o') /\ bt_catch t' o' = UB)).
    { intros h1 u1 t1 r Hq Hi1 Hx. destruct (IH h1 u1 t1 Hi1) as [(t' & rs & h' & u' & Hr & Ht & Hi')|(pre & o' & post & t' & rs & h' & u' & -> & Hr & Ht & Hw)].
      - left. exists t', (r :: rs), h', u'. cbn [run]. rewrite Hq. cbn [bind]. rewrite Hr. split; [reflexivity|]. split; [cbn [map fst]; auto|auto].
      - right. exists ((o, p) :: pre), o', post, t', (r :: rs), h', u'. split; [reflexivity|]. cbn [run]. rewrite Hq. cbn [bind]. rewrite Hr. split; [reflexivity|]. split; [cbn [map fst]; auto|auto]. }
    assert (Ho : o = BAddColumn \/ o <> BAddColumn) by (destruct o; auto; right; discriminate). destruct Ho as [->|Ho].
    + assert (Hadd : hurt_inv (BAddColumn :: h) u (bt_addColumn t)).
      { destruct Hi as (g & Hi & Hw). exists (bt_addColumn g). split; [|now apply add_wounded]. destruct (bt_step_ok h g BAddColumn Hi I) as (g' & Hg & Hi'). injection Hg as <-. exact Hi'. }
      assert (Hok : forall ops' rs h' u', htrace (BAddColumn :: h) u ops' rs h' u' -> htrace h u (BAddColumn :: ops') (Some BNone :: rs) h' u').
      { intros ops' rs h' u' Hx. apply (ht_ok h u BAddColumn); auto. split; [exact I|discriminate]. }
      assert (Hcol : length t = columns h). { destruct Hi as (g & Hi & Hw). rewrite (proj1 Hw). apply Hi. }
      assert (Hhalf : 0 < length t -> hurt_inv (BAddColumn :: h) (columns h :: u) (t ++ [[]])).
      { intros H0. destruct Hi as (g & Hi & Hw). exists (bt_addColumn g). rewrite <- Hcol. split; [|now apply half_wounded].
        destruct (bt_step_ok h g BAddColumn Hi I) as (g' & Hg & Hi'). injection Hg as <-. exact Hi'. }
      assert (Hb : forall b, exists t' r, (let* q := (if length t =? 0 then Ok (Fine b (bt_addColumn t)) else client b (t ++ [[]]) (fun b => Ok (Fine b (bt_addColumn t)))) in
          match q with Fine _ t' => Ok (t', Some BNone) | Left t' => Ok (t', None) end) = Ok (t', r) /\
          (t' = bt_addColumn t /\ r = Some BNone \/ t' = t ++ [[]] /\ r = None /\ 0 < length t)).
      { intros b. destruct (Nat.eqb_spec (length t) 0); [exists (bt_addColumn t), (Some BNone); auto|]. destruct b; cbn [client bind].
        - exists (t ++ [[]]), None. split; auto. right. repeat split; auto. lia.
        - exists (bt_addColumn t), (Some BNone). auto. }
      destruct p as [b full]. destruct full; [destruct b as [|b]|].
      * apply (Hgo h u t None); auto. intros; now apply ht_same.
      * destruct (Hb b) as (t' & r & Hq & Hc). destruct Hc as [[-> ->]|(-> & -> & H0)]; [apply (Hgo _ _ _ _ Hq Hadd); auto|].
        apply (Hgo _ _ _ _ Hq (Hhalf H0)). intros; apply ht_hurt; auto. lia.
      * destruct (Hb b) as (t' & r & Hq & Hc). destruct Hc as [[-> ->]|(-> & -> & H0)]; [apply (Hgo _ _ _ _ Hq Hadd); auto|].
        apply (Hgo _ _ _ _ Hq (Hhalf H0)). intros; apply ht_hurt; auto. lia.
    + destruct (usable_dec h u o) as [Hu|Hu].
      * destruct (hurt_step h u t o Hi Ho Hu) as (t' & Ht & Hi'). apply (Hgo (o :: h) u t' (Some (answer h o))); auto.
        -- rewrite catch_other by auto. now rewrite Ht.
        -- intros; now constructor.
      * right. exists [], (o, p), ops, t, [], h, u. split; auto. split; [reflexivity|]. split; [constructor|]. split; auto. rewrite catch_other by auto. now rewrite (hurt_step_ub h u).
Qed.
Lemma hurt_new : hurt_inv [] [] [].
Proof.
  exists []. split.
  - split; [reflexivity|]. split; [reflexivity|]. intros c Hc. cbn in Hc. lia.
  - split; [reflexivity|]. split; [auto|]. intros c [].
Qed.
