(** Property theorems about the depth of the KD trees (C92). *)
From Coq Require Import List Arith Bool ZArith NArith Lia Permutation.
From Verif.Base Require Import Res Arr ResList StdAlg Order Sort.
From Verif.DivMask Require Import Model.
From Verif.Spec Require Import Reach DivFinder.
From Verif.DivList Require Import Properties.
From Verif.KD Require Import EntryArray Tree Model Legal ArrayProofs TreeProofs Proofs Properties CountedProofs Depth DepthProofs.
Import ListNotations.
Local Notation length := List.length.

(** The exponents of the entries [l] lie between [lo] and [hi]. *)
Definition within {M} (C : kconf M) (lo hi : nat -> Z) (l : list M) : Prop :=
  forall w, w < c_nvars C -> forall e, In e l -> (lo w <= c_ex C e w <= hi w)%Z.
(** The entries that the calls [ops] insert, and how many there are *)
Definition inserted_by {M} (ops : list (dop M)) : list M := flat_map (fun o => match o with DInsert e => [e] | _ => [] end) ops.
(** The sum over all variables *)
Definition over_variables {M} (C : kconf M) (f : nat -> nat) : nat := list_sum (map f (seq 0 (c_nvars C))).
(** How often a range of exponents has to be halved until one is left *)
Definition log_range (lo hi : nat -> Z) (w : nat) : nat := Z.to_nat (Z.log2_up (hi w - lo w + 1)).

Lemma kreached_hist {M} (C : kconf M) packed valid ops s rs : kreached C packed valid ops s rs ->
  exists s0, construct C = Ok s0 /\ reached (step C packed) (fun s o => kpre C valid packed false (kcontents s) o = true) s0 ops s rs.
Proof. intros (s0 & H0 & Hr). exists s0. split; [exact H0|exact Hr]. Qed.
Lemma inserts_length {M} (ops : list (dop M)) : inserts ops = length (inserted_by ops).
Proof. unfold inserts, inserted_by. induction ops as [|o ops IH]; auto. cbn [filter flat_map]. destruct o; cbn [length app]; auto. Qed.

(** C92.  After a rebuild, called for or automatic, no way from the root to a leaf splits a variable more often than the range of its exponents
    can be halved.  So the depth depends on the ranges of the exponents only, not on the number of entries. *)
Theorem C92_rebuilt_depth : forall (M : Type) (C : kconf M) packed valid, klegal C valid ->
  forall ops s rs, kreached C packed valid ops s rs ->
  forall o s' r, tree_pre C valid (kcontents s) o = true -> step C packed s o = Ok (s', r) -> o = DRebuild \/ k_rebuilds s' <> k_rebuilds s ->
  forall lo hi, within C lo hi (kcontents s') ->
  (forall w, w < c_nvars C -> kdepth_in w s' <= log_range lo hi w) /\ kdepth s' <= over_variables C (log_range lo hi).
Proof.
  intros M C packed valid HL ops s rs Hr o s' r Hp Hs Ho lo hi Hb. apply kreached_hist in Hr as (s0 & H0 & Hr).
  destruct (hist_inv C valid HL packed _ _ _ _ H0 Hr) as [Hi _].
  assert (Hm : remade C valid s s').
  { destruct Ho as [->|Ho].
    - cbn [step] in Hs. destruct (rebuild_kd C packed s) as [s2| | |] eqn:Hb2; cbn [bind] in Hs; try discriminate. injection Hs as -> <-.
      apply rebuild_remade with (valid := valid) in Hb2; auto; [exact (i_root _ _ _ _ Hi)|exact (i_size _ _ _ _ Hi)].
    - destruct (step_nodes C valid HL packed s o s' r Hi Hp Hs) as [H|[(H & _)|(e & root & _ & _ & _ & H & _)]]; auto; now contradict Ho. }
  pose proof (remade_depth C valid HL lo hi s s' Hm Hb) as Hd. split; [exact Hd|].
  destruct (step_ok C valid HL packed false (fun E => False_ind _ (diff_false_true E)) s o Hi Hp) as (s2 & r2 & E & Hi' & _). rewrite E in Hs. injection Hs as -> ->.
  etransitivity; [apply (kdepth_sum C valid _ Hi')|]. now apply sum_le.
Qed.
Print Assumptions C92_rebuilt_depth.

(** C92.  In every state a way splits a variable at most as often as there are gaps between the least and the greatest exponent ever inserted. *)
Theorem C92_depth_bounded : forall (M : Type) (C : kconf M) packed valid, klegal C valid ->
  forall ops s rs, kreached C packed valid ops s rs ->
  forall lo hi, within C lo hi (inserted_by ops) -> (forall w, w < c_nvars C -> (lo w <= hi w)%Z) ->
  (forall w, w < c_nvars C -> kdepth_in w s <= Z.to_nat (hi w - lo w)) /\ kdepth s <= over_variables C (fun w => Z.to_nat (hi w - lo w)).
Proof.
  intros M C packed valid HL ops s rs Hr lo hi Hb Hw. apply kreached_hist in Hr as (s0 & H0 & Hr).
  destruct (hist_inv C valid HL packed _ _ _ _ H0 Hr) as [Hi _].
  assert (Hd : forall w, w < c_nvars C -> kdepth_in w s <= Z.to_nat (hi w - lo w)).
  { intros w Hlt. rewrite kdepth_in_skeleton. apply framed_depth; [now apply Hw|]. eapply hist_framed; eauto. }
  split; [exact Hd|]. etransitivity; [apply (kdepth_sum C valid _ Hi)|]. now apply sum_le.
Qed.
Print Assumptions C92_depth_bounded.

(** C92.  Between rebuilds an insertion adds at most one level and no other call changes the depth. *)
Theorem C92_one_level : forall (M : Type) (C : kconf M) packed valid, klegal C valid ->
  forall ops s rs, kreached C packed valid ops s rs ->
  forall o s' r, tree_pre C valid (kcontents s) o = true -> step C packed s o = Ok (s', r) -> k_rebuilds s' = k_rebuilds s ->
  kdepth s' <= kdepth s + length (inserted_by [o]) /\ (inserted_by [o] = [] -> kdepth s' = kdepth s).
Proof.
  intros M C packed valid HL ops s rs Hr o s' r Hp Hs Hk. apply kreached_hist in Hr as (s0 & H0 & Hr).
  destruct (hist_inv C valid HL packed _ _ _ _ H0 Hr) as [Hi _].
  destruct (step_depth C valid HL packed s o s' r Hi Hp Hs Hk) as [[H1 H2]|[(e & ->) H2]].
  - assert (E : inserted_by [o] = []) by (destruct o; auto; exfalso; eapply H1; reflexivity). rewrite E. cbn [length]. split; [lia|auto].
  - cbn. split; [lia|discriminate].
Qed.
Print Assumptions C92_one_level.

(** C92.  With automatic rebuilds the depth therefore exceeds that of a rebuilt tree by no more than the number of changes between two rebuilds;
    [n] is the size at the last one. *)
Theorem C92_automatic_depth : forall (M : Type) (C : kconf M) packed valid, klegal C valid -> c_auto C = true ->
  forall ops s rs, kreached C packed valid ops s rs -> forall lo hi, within C lo hi (inserted_by ops) ->
  exists n, n <= length (inserted_by ops) /\ kdepth s <= over_variables C (log_range lo hi) + Nat.max (c_ratio C n) (c_min C).
Proof.
  intros M C packed valid HL Ha ops s rs Hr lo hi Hb. apply kreached_hist in Hr as (s0 & H0 & Hr).
  destruct (hist_auto C valid HL packed lo hi s0 ops s rs Ha H0 Hr Hb) as (n & m & H1 & H2 & H3). exists n. split; [rewrite <- inserts_length; exact H1|].
  unfold over_variables. change (fun w => halvings (lo w) (hi w)) with (log_range lo hi) in H2. lia.
Qed.
Print Assumptions C92_automatic_depth.

(** C92, the logarithmic bound without rebuilds: false.  If the entries come in ascending order then every insertion into a tree with one entry per
    leaf adds a level; here 16 exponents lead to a depth of 15, which a rebuild reduces to 4. *)
Definition plain_tree : kconf mono := mono_tree false false 1 true false false false.
Definition ascending : list (dop mono) := map (fun i => DInsert (Z.of_nat i, 3)%Z) (seq 0 16).
Definition least (w : nat) : Z := match w with 0 => 0 | _ => 3 end.
Definition greatest (w : nat) : Z := match w with 0 => 15 | _ => 3 end.
Theorem C92_ascending_refuted : forall packed, exists s rs, kreached plain_tree packed int_mono ascending s rs /\
  within plain_tree least greatest (inserted_by ascending) /\ kdepth s = 15 /\
  over_variables plain_tree (log_range least greatest) = 4 /\
  exists s', step plain_tree packed s DRebuild = Ok (s', DONone) /\ kdepth s' = 4.
Proof.
  intros packed. destruct packed; do 2 eexists; (split; [eapply kreached_run; [vm_compute; reflexivity|vm_compute; reflexivity|vm_compute; repeat split]|]);
    (split; [intros w Hw e He; destruct w as [|[|w]]; cbn in Hw; [| |lia]; vm_compute in He; repeat (destruct He as [<-|He]; [vm_compute; split; discriminate|]); destruct He|]);
    (split; [vm_compute; reflexivity|]); (split; [vm_compute; reflexivity|]); eexists; split; vm_compute; reflexivity.
Qed.
Print Assumptions C92_ascending_refuted.

(** A tree with automatic rebuilds, in which the twelfth insertion adds a level and the thirteenth leads to a rebuild, which removes two. *)
Definition busy_tree : kconf mono := mono_tree true true 1 true true true true.
Example C92_nonvacuous :
  klegal plain_tree int_mono /\ klegal busy_tree int_mono /\
  (exists s rs s', kreached busy_tree true int_mono (firstn 11 ascending) s rs /\ kdepth s = 5 /\
     step busy_tree true s (DInsert (11, 3)%Z) = Ok (s', DONone) /\ kdepth s' = 6 /\ k_rebuilds s' = k_rebuilds s) /\
  (exists s rs s', kreached busy_tree true int_mono (firstn 12 ascending) s rs /\ kdepth s = 6 /\
     step busy_tree true s (DInsert (12, 3)%Z) = Ok (s', DONone) /\ kdepth s' = 4 /\ k_rebuilds s' = S (k_rebuilds s)).
Proof.
  split; [apply mono_tree_legal; auto; discriminate|]. split; [apply mono_tree_legal; auto|].
  split; do 3 eexists; (split; [eapply kreached_run; [vm_compute; reflexivity|vm_compute; reflexivity|vm_compute; repeat split]|]); repeat apply conj; vm_compute; reflexivity.
Qed.
