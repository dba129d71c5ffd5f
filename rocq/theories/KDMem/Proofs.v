(** A KD tree in memory does what the KD tree that is a value does. *)
From Coq Require Import List Arith Bool ZArith NArith String Lia Permutation.
From Verif.Base Require Import Res Arr ResList StdAlg Lists.
From Verif.DivMask Require Import Model.
From Verif.Spec Require Import Reach DivFinder DivFinderFacts.
From Verif.KD Require Import EntryArray Tree Model Legal Proofs.
From Verif.KDMem Require Import Arena Binary Packed Model Faithful.
Import ListNotations.
Local Notation length := List.length.

Lemma if_true (b : bool) {A} (x y : A) : b = true -> (if b then x else y) = x.
Proof. now intros ->. Qed.
Lemma if_false (b : bool) {A} (x y : A) : b = false -> (if b then x else y) = y.
Proof. now intros ->. Qed.

Section KDTree.
  Context {M : Type}.
  Variable C : kconf M.
  Variable packed : bool.
  Notation I := (kd_impl C packed).
  Variable R : i_state I -> option (tree M) -> Prop.
  Variable P : i_state I -> nat * nat -> place -> Prop.
  Hypothesis HF : faithful C packed I R P.

  Definition same_cache (T : i_state I) (c : option (nat * nat)) (c0 : option place) : Prop :=
    c_cache C = true -> match c, c0 with Some q, Some pl => P T q pl | None, None => True | _, _ => False end.
  Record krel (s : mkd I) (s0 : kd M) : Prop := mk_krel {
    r_tree : R (m_tree s) (k_tree s0); r_bits : m_bits s = k_bits s0; r_size : m_size s = k_size s0; r_left : m_left s = k_left s0;
    r_rebuilds : m_rebuilds s = k_rebuilds s0; r_cache : same_cache (m_tree s) (m_cache s) (k_cache s0) }.
  (** All but the cache, which is about to be cleared *)
  Definition near (s : mkd I) (s0 : kd M) : Prop :=
    R (m_tree s) (k_tree s0) /\ m_bits s = k_bits s0 /\ m_size s = k_size s0 /\ m_left s = k_left s0 /\ m_rebuilds s = k_rebuilds s0.
  Lemma krel_near s s0 : krel s s0 -> near s s0.
  Proof. intros []. repeat split; auto. Qed.
  Lemma reset_changes_rel s s0 : near s s0 -> krel (m_reset_changes C packed s) (reset_changes C s0).
  Proof.
    intros (H1 & H2 & H3 & H4 & H5). unfold m_reset_changes, reset_changes. destruct (negb (c_auto C)); split; cbn; auto; try (now rewrite H3);
      intros Hc; cbn; rewrite Hc; auto.
  Qed.
  Lemma construct_rel s0 : construct C = Ok s0 -> exists s, m_construct C packed = Ok s /\ krel s s0.
  Proof.
    unfold construct, m_construct. destruct (kcalc C []) as [bits| | |]; cbn [bind]; try discriminate. intros [= <-]. eexists. split; [reflexivity|].
    apply reset_changes_rel. repeat split. apply (f_empty _ _ _ _ _ HF).
  Qed.
  Lemma rebuild_rel s s0 s0' : near s s0 -> rebuild_kd C packed s0 = Ok s0' -> exists s', m_rebuild C packed s = Ok s' /\ krel s' s0'.
  Proof.
    intros (H1 & H2 & H3 & H4 & H5). unfold rebuild_kd, m_rebuild. destruct (tree_for_all C packed (k_tree s0) recorder) as [l| | |] eqn:E; cbn [bind]; try discriminate.
    rewrite (f_for_all _ _ _ _ _ HF _ _ _ _ H1 E). cbn [bind]. destruct (kcalc C l) as [bits| | |]; cbn [bind]; try discriminate.
    destruct (tree_reset C l bits) as [root'| | |] eqn:Er; cbn [bind]; try discriminate. destruct (f_reset _ _ _ _ _ HF _ _ _ _ _ H1 Er) as (T' & -> & HT). cbn [bind].
    intros [= <-]. eexists. split; [reflexivity|]. apply reset_changes_rel. repeat split; cbn; auto.
  Qed.
  Lemma report_rel s s0 a r s0' : near s s0 -> (a + r = 0 -> same_cache (m_tree s) (m_cache s) (k_cache s0)) -> report_changes C packed s0 a r = Ok s0' ->
    exists s', m_report C packed s a r = Ok s' /\ krel s' s0'.
  Proof.
    intros (H1 & H2 & H3 & H4 & H5) Hc. unfold report_changes, m_report. rewrite H3, H4. destruct (k_size s0 + a <? r); [discriminate|].
    assert (Hc' : same_cache (m_tree s) (if c_cache C && negb (a + r =? 0) then None else m_cache s) (if c_cache C && negb (a + r =? 0) then None else k_cache s0)).
    { destruct (Nat.eqb_spec (a + r) 0) as [Hz|Hz]; cbn [negb]; rewrite ?andb_false_r, ?andb_true_r; [auto|]. intros Hcc. rewrite Hcc. exact Logic.I. }
    destruct (negb (c_auto C)); [intros [= <-]; eexists; split; [reflexivity|]; now split|].
    destruct (a + r <? k_left s0); [intros [= <-]; eexists; split; [reflexivity|]; now split|].
    apply rebuild_rel. repeat split; cbn; auto.
  Qed.
  Lemma insert_rel s s0 e s0' : krel s s0 -> insert C packed s0 e = Ok s0' -> exists s', m_insert C packed s e = Ok s' /\ krel s' s0'.
  Proof.
    intros H. unfold insert, m_insert. rewrite (r_bits _ _ H). assert (Hi := f_insert _ _ _ _ _ HF _ _ (kext C (k_bits s0) e) (r_tree _ _ H)).
    destruct (tree_insert C packed (k_tree s0) (kext C (k_bits s0) e)) as [root'| | |]; cbn [bind]; try discriminate. destruct Hi as (T' & -> & HT). cbn [bind].
    apply report_rel; [|discriminate]. destruct H. repeat split; auto.
  Qed.
  Lemma remove_multiples_rel s s0 m s0' b out : krel s s0 -> remove_multiples C packed s0 m = Ok (s0', b, out) ->
    exists s', m_remove_multiples C packed s m = Ok (s', b, out) /\ krel s' s0'.
  Proof.
    intros H. unfold remove_multiples, m_remove_multiples. destruct (negb (c_removals C)); [discriminate|]. rewrite (r_bits _ _ H).
    destruct (tree_remove C packed (k_tree s0) (kext C (k_bits s0) m)) as [[[root' o] k]| | |] eqn:E; cbn [bind]; try discriminate.
    destruct (f_remove _ _ _ _ _ HF _ _ _ _ _ _ (r_tree _ _ H) E) as (T' & -> & HT & Hk). cbn [bind].
    destruct (report_changes C packed _ 0 k) as [s1| | |] eqn:Er; cbn [bind]; try discriminate. intros [= <- <- <-].
    edestruct (report_rel (mk_mkd T' (m_bits s) (m_size s) (m_left s) (m_cache s) (m_rebuilds s))) as (s' & E' & Hs'); [| |exact Er|].
    - destruct H. repeat split; auto.
    - intros _ Hc. assert (Hca := r_cache _ _ H Hc). cbn [m_tree m_cache k_cache]. destruct (m_cache s), (k_cache s0); auto.
    - rewrite (r_bits _ _ H) in E'. rewrite E'. cbn [bind]. eauto.
  Qed.
  Lemma remove_element_rel s s0 m s0' b : packed = true -> krel s s0 -> remove_element C s0 m = Ok (s0', b) ->
    exists s', m_remove_element C packed s m = Ok (s', b) /\ krel s' s0'.
  Proof.
    intros Hp H. unfold remove_element, m_remove_element. destruct (negb (c_removals C)); [discriminate|].
    destruct (tree_remove_element C (k_tree s0) m) as [[root' b']| | |] eqn:E; cbn [bind]; try discriminate.
    destruct (f_remove_element _ _ _ _ _ HF Hp _ _ _ _ _ (r_tree _ _ H) E) as (T' & -> & HT & Hk). cbn [bind]. intros [= <- <-]. eexists. split; [reflexivity|].
    destruct H. split; auto. intros Hc. cbn [m_tree m_cache k_cache]. specialize (r_cache0 Hc). destruct (m_cache s), (k_cache s0); auto.
  Qed.
  Lemma at_rel s s0 q pl e : krel s s0 -> P (m_tree s) q pl -> entry_at s0 pl = Ok e -> i_at I (m_tree s) q = Ok e.
  Proof.
    intros H Hp. unfold entry_at. assert (Ht := r_tree _ _ H). destruct (k_tree s0) as [t|]; [|discriminate]. intros He. eapply (f_at _ _ _ _ _ HF); eauto.
  Qed.
  Lemma find_divisor_rel s s0 m s0' r : krel s s0 -> find_divisor C s0 m = Ok (s0', r) ->
    exists s' r', m_find_divisor C packed s m = Ok (s', r') /\ krel s' s0' /\ match r, r' with Some pl, Some q => P (m_tree s') q pl | None, None => True | _, _ => False end.
  Proof.
    intros H.
    assert (Hsearch : (let* r := tree_find C (k_tree s0) (kext C (k_bits s0) m) in
        Ok (match r with Some _ => if c_cache C then mk_kd (k_tree s0) (k_bits s0) (k_size s0) (k_left s0) r (k_rebuilds s0) else s0 | None => s0 end, r)) = Ok (s0', r) ->
      exists s' r', (let* r := i_find I (m_tree s) (kext C (m_bits s) m) in
        Ok (match r with Some _ => if c_cache C then mk_mkd (m_tree s) (m_bits s) (m_size s) (m_left s) r (m_rebuilds s) else s | None => s end, r)) = Ok (s', r') /\
        krel s' s0' /\ match r, r' with Some pl, Some q => P (m_tree s') q pl | None, None => True | _, _ => False end).
    { destruct (tree_find C (k_tree s0) (kext C (k_bits s0) m)) as [r0| | |] eqn:E; cbn [bind]; try discriminate. intros [= <- <-].
      destruct (f_find _ _ _ _ _ HF _ _ _ _ (r_tree _ _ H) E) as (r' & E' & Hr). rewrite (r_bits _ _ H), E'. cbn [bind]. do 2 eexists. split; [reflexivity|].
      destruct r0 as [pl|], r' as [q|]; try contradiction; auto. split.
      - destruct (c_cache C) eqn:Ec; auto. destruct H. split; cbn; auto. intros _. exact Hr.
      - destruct (c_cache C); auto. }
    unfold find_divisor, m_find_divisor. assert (Hc := r_cache _ _ H). unfold same_cache in Hc. destruct (c_cache C) eqn:Ec; [|exact Hsearch].
    specialize (Hc eq_refl). destruct (k_cache s0) as [pl|] eqn:Ek, (m_cache s) as [q|] eqn:Em; try contradiction; [|exact Hsearch].
    destruct (entry_at s0 pl) as [e| | |] eqn:Ee; cbn [bind]; try discriminate. rewrite (at_rel _ _ _ _ _ H Hc Ee). cbn [bind].
    destruct (c_divides C e m); [|exact Hsearch]. intros [= <- <-]. exists s, (Some q). auto.
  Qed.
  Lemma step_rel s s0 o s0' r : krel s s0 -> step C packed s0 o = Ok (s0', r) -> exists s', m_step C packed s o = Ok (s', r) /\ krel s' s0'.
  Proof.
    intros H. assert (Hb := r_bits _ _ H). assert (Ht := r_tree _ _ H). destruct o as [e|es|m|m|m|m cb|m cb|cb|m| |]; cbn [step m_step]; try discriminate.
    - destruct (insert C packed s0 e) as [s1| | |] eqn:E; cbn [bind]; try discriminate. intros [= <- <-].
      destruct (insert_rel _ _ _ _ H E) as (s' & -> & Hs). cbn [bind]. eauto.
    - destruct (remove_multiples C packed s0 m) as [[[s1 b] out]| | |] eqn:E; cbn [bind]; try discriminate. intros [= <- <-].
      destruct (remove_multiples_rel _ _ _ _ _ _ H E) as (s' & -> & Hs). cbn [bind]. eauto.
    - assert (Hgo : packed = true -> (let* (s', b) := remove_element C s0 m in Ok (s', DOBool b)) = Ok (s0', r) ->
        exists s', (let* (s', b) := m_remove_element C packed s m in Ok (s', DOBool b)) = Ok (s', r) /\ krel s' s0').
      { intros Hp. destruct (remove_element C s0 m) as [[s1 b]| | |] eqn:E; cbn [bind]; try discriminate. intros [= <- <-].
        destruct (remove_element_rel _ _ _ _ _ Hp H E) as (s' & -> & Hs). cbn [bind]. eauto. }
      destruct (bool_dec packed true) as [Hp|Hp].
      + rewrite !(if_true packed _ _ Hp). auto.
      + apply not_true_is_false in Hp. rewrite (if_false packed _ _ Hp). discriminate.
    - destruct (find_divisor C s0 m) as [[s1 r1]| | |] eqn:E; cbn [bind]; try discriminate.
      destruct (find_divisor_rel _ _ _ _ _ H E) as (s' & r' & -> & Hs & Hr). cbn [bind]. destruct r1 as [pl|], r' as [q|]; try contradiction.
      + destruct (entry_at s1 pl) as [e| | |] eqn:Ee; cbn [bind]; try discriminate. intros [= <- <-]. rewrite (at_rel _ _ _ _ _ Hs Hr Ee). cbn [bind]. eauto.
      + intros [= <- <-]. eauto.
    - destruct (tree_divisors C (k_tree s0) (kext C (k_bits s0) m) cb) as [xs| | |] eqn:E; cbn [bind]; try discriminate. intros [= <- <-].
      rewrite Hb, (f_divisors _ _ _ _ _ HF _ _ _ _ _ Ht E). cbn [bind]. eauto.
    - destruct (tree_multiples C packed (k_tree s0) (kext C (k_bits s0) m) cb) as [xs| | |] eqn:E; cbn [bind]; try discriminate. intros [= <- <-].
      rewrite Hb, (f_multiples _ _ _ _ _ HF _ _ _ _ _ Ht E). cbn [bind]. eauto.
    - destruct (tree_for_all C packed (k_tree s0) cb) as [xs| | |] eqn:E; cbn [bind]; try discriminate. intros [= <- <-].
      rewrite (f_for_all _ _ _ _ _ HF _ _ _ _ Ht E). cbn [bind]. eauto.
    - destruct (rebuild_kd C packed s0) as [s1| | |] eqn:E; cbn [bind]; try discriminate. intros [= <- <-].
      destruct (rebuild_rel _ _ _ (krel_near _ _ H) E) as (s' & -> & Hs). cbn [bind]. eauto.
    - intros [= <- <-]. rewrite (r_size _ _ H). eauto.
  Qed.
  Lemma run_rel ops : forall s s0 s0' rs, krel s s0 -> run (step C packed) s0 ops = Ok (s0', rs) -> exists s', run (m_step C packed) s ops = Ok (s', rs) /\ krel s' s0'.
  Proof.
    induction ops as [|o ops IH]; intros s s0 s0' rs H; cbn [run]. { intros [= <- <-]. eauto. }
    destruct (step C packed s0 o) as [[s1 r]| | |] eqn:E; cbn [bind]; try discriminate. destruct (step_rel _ _ _ _ _ H E) as (s2 & -> & H2). cbn [bind].
    destruct (run (step C packed) s1 ops) as [[s3 rs']| | |] eqn:Er; cbn [bind]; try discriminate. intros [= <- <-]. destruct (IH _ _ _ _ H2 Er) as (s4 & -> & H4). cbn [bind]. eauto.
  Qed.
  Lemma destroy_rel s s0 : krel s s0 -> exists gone, m_destroy C packed s = Ok gone /\ Permutation (map x_t gone) (kcontents s0).
  Proof.
    intros H. destruct (f_clear _ _ _ _ _ HF _ _ (r_tree _ _ H)) as (T' & gone & E & _ & Hg). unfold m_destroy. rewrite E. cbn [bind]. exists gone. split; auto.
    unfold kcontents. destruct (k_tree s0); [now apply Permutation_map|]. apply Permutation_sym, Permutation_nil in Hg. now subst.
  Qed.

  (** With exceptions *)
  Lemma catching_rel valid elem s s0 o s0' r : klegal C valid -> (elem = true -> c_cache C = false) -> krel s s0 -> inv C valid elem s0 -> kpre_catch valid packed elem o = true ->
    catching C packed s0 o = Ok (s0', r) -> exists s', m_catching C packed s o = Ok (s', r) /\ krel s' s0'.
  Proof.
    intros HL He H Hi Hp. unfold catching, m_catching. destruct (step C packed s0 o) as [[s1 r1]| |x|] eqn:E; try discriminate.
    { destruct (step_rel _ _ _ _ _ H E) as (s' & -> & Hs). intros [= <- <-]. eauto. }
    intros Hr. destruct (kpre C valid packed elem (kcontents s0) o) eqn:Hk.
    { destruct (step_ok C valid HL packed elem He s0 o Hi Hk) as (s1 & r1 & E1 & _). congruence. }
    destruct o as [e|es|m|m|m|m cb|m cb|cb|m| |]; cbn [kpre kpre_catch] in Hk, Hp; try congruence.
    - injection Hr as <- <-. assert (Hx : m_step C packed s (DInsert e) = Throw ArrayProofs.duplicate).
      { cbn [m_step]. unfold m_insert. rewrite (r_bits _ _ H).
        assert (Ht := TreeProofs.tree_insert_ok C valid HL packed (k_bits s0) (kext C (k_bits s0) e) (k_tree s0) (ArrayProofs.kext_is_ext C (k_bits s0) e) Hp (i_root _ _ _ _ Hi)).
        rewrite Hp in Hk. cbn [andb] in Hk. rewrite kcontents_root in Hk. rewrite ArrayProofs.x_t_kext in Ht. rewrite Hk in Ht. destruct Ht as (Ht & _).
        assert (Hi' := f_insert _ _ _ _ _ HF _ _ (kext C (k_bits s0) e) (r_tree _ _ H)). rewrite Ht in Hi'. rewrite Hi'. reflexivity. }
      rewrite Hx. unfold m_abandoned. rewrite (r_bits _ _ H).
      destruct (f_abandoned _ _ _ _ _ HF _ _ (kext C (k_bits s0) e) (r_tree _ _ H)) as (T' & -> & HT & Hkeep). cbn [bind]. eexists. split; [reflexivity|].
      destruct H. split; cbn; auto. intros Hc. specialize (r_cache0 Hc). cbn. destruct (m_cache s), (k_cache s0); auto.
    - injection Hr as <- <-. cbn [m_step]. unfold m_remove_multiples. rewrite Hk. cbn [negb bind]. eauto.
    - injection Hr as <- <-. cbn [m_step]. apply andb_prop in Hp as [-> Hpk]. cbn [andb] in Hk. rewrite Hpk in Hk. cbn [andb] in Hk. rewrite (if_true packed _ _ Hpk).
      unfold m_remove_element. rewrite Hk. cbn [negb bind]. eauto.
  Qed.
End KDTree.

(** The relation for the tree that the configuration selects *)
Lemma kd_faithful {M} (C : kconf M) packed : exists R P, faithful C packed (kd_impl C packed) R P.
Proof. destruct packed; [exists (PackedInsert.prel C), pplaced; apply packed_faithful|exists BinaryInsert.brel, bplaced; apply binary_faithful]. Qed.

(** ** The specification looks at contents up to their order *)
Section Spec.
  Context {M : Type}.
  Variable divides same : M -> M -> bool.
  Lemma filter_perm (f : M -> bool) l l' : Permutation l l' -> Permutation (filter f l) (filter f l').
  Proof.
    induction 1; cbn [filter]; auto.
    - destruct (f x); auto.
    - destruct (f x), (f y); auto. apply perm_swap.
    - eapply perm_trans; eauto.
  Qed.
  Lemma reported_perm (cb : callback M) all all' xs : Permutation all all' -> reported cb all xs -> reported cb all' xs.
  Proof. intros Hp (rest & H1 & H2). exists rest. split; auto. now rewrite H1. Qed.
  Lemma is_divisor_perm m l l' r : Permutation l l' -> is_divisor divides m l r -> is_divisor divides m l' r.
  Proof.
    intros Hp. destruct r as [e|]; cbn [is_divisor].
    - intros [H1 H2]. split; auto. eapply Permutation_in; eauto.
    - intros H e He. apply H. eapply Permutation_in; [apply Permutation_sym; exact Hp|exact He].
  Qed.
  Lemma dstep_perm l1 l2 o r l1' l2' : Permutation l1 l2 -> Permutation l1' l2' -> dstep divides same l1 o r l1' -> dstep divides same l2 o r l2'.
  Proof.
    intros H H'. assert (Hs := Permutation_sym H'). destruct 1.
    - constructor. rewrite Hs, H0. now constructor.
    - constructor. rewrite Hs, H0. now apply Permutation_app_head.
    - constructor; [rewrite H0; now apply filter_perm|rewrite Hs, H1; now apply filter_perm].
    - econstructor; [|exact H1]. rewrite <- H, H0. now constructor.
    - constructor; [now rewrite Hs, H0|]. intros e He. apply H1. eapply Permutation_in; [apply Permutation_sym; exact H|exact He].
    - constructor; [eapply is_divisor_perm; eauto|]. now rewrite Hs, H1.
    - constructor; [|now rewrite Hs, H1]. eapply reported_perm; [|exact H0]. now apply filter_perm.
    - constructor; [|now rewrite Hs, H1]. eapply reported_perm; [|exact H0]. now apply filter_perm.
    - constructor; [|now rewrite Hs, H1]. eapply reported_perm; eauto.
    - constructor; [eapply is_divisor_perm; eauto|]. now rewrite Hs, H1.
    - constructor. now rewrite Hs, H0.
    - rewrite (Permutation_length H). constructor. now rewrite Hs, H0.
  Qed.

  (** An implementation that simulates a correct one is correct *)
  Lemma df_steps_by_rel {A B} (stepA : A -> dop M -> res (A * dout M)) (stepB : B -> dop M -> res (B * dout M)) (initA : res A) (initB : res B)
      (absA : A -> list M) (absB : B -> list M) (pre : list M -> dop M -> bool) (rel : A -> B -> Prop) :
    (forall l l' o, Permutation l l' -> pre l o = pre l' o) -> (forall a b, rel a b -> Permutation (absA a) (absB b)) ->
    (forall b, initB = Ok b -> exists a, initA = Ok a /\ rel a b) ->
    (forall a b o b' r, rel a b -> stepB b o = Ok (b', r) -> exists a', stepA a o = Ok (a', r) /\ rel a' b') ->
    df_steps divides same stepB initB absB pre -> df_steps divides same stepA initA absA pre.
  Proof.
    intros Hpre Habs Hinit Hstep (b0 & Hb0 & Hz & HB). destruct (Hinit b0 Hb0) as (a0 & Ha0 & Hr0). exists a0. split; auto.
    split. { apply Habs in Hr0. rewrite Hz in Hr0. now apply Permutation_sym, Permutation_nil in Hr0. }
    assert (Hreach : forall ops a rs, reached stepA (fun a o => pre (absA a) o = true) a0 ops a rs ->
      exists b, reached stepB (fun b o => pre (absB b) o = true) b0 ops b rs /\ rel a b).
    { induction 1 as [|ops a rs o a' r Hr (b & IH & Hab) Hp Hs]; [exists b0; split; [constructor|auto]|].
      rewrite (Hpre _ _ o (Habs _ _ Hab)) in Hp. destruct (HB _ _ _ IH o Hp) as (b' & r' & Hs' & _). destruct (Hstep _ _ _ _ _ Hab Hs') as (a1 & Hs1 & Hab').
      rewrite Hs in Hs1. injection Hs1 as <- <-. exists b'. split; auto. econstructor; eauto. }
    intros ops a rs Hr o Hp. destruct (Hreach _ _ _ Hr) as (b & Hb & Hab). rewrite (Hpre _ _ o (Habs _ _ Hab)) in Hp.
    destruct (HB _ _ _ Hb o Hp) as (b' & r & Hs & Hd). destruct (Hstep _ _ _ _ _ Hab Hs) as (a' & Hs' & Hab'). exists a', r. split; auto.
    eapply dstep_perm; [| |exact Hd]; apply Permutation_sym; auto.
  Qed.
End Spec.
