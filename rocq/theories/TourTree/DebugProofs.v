From Coq Require Import List Arith Bool Lia String Permutation.
From Verif.Base Require Import Res Arr Order.
From Verif.Spec Require Import PQ PQFacts.
From Verif.Heap Require Import Model Proofs.
From Verif.TourTree Require Import Model Proofs Faults FaultsProofs PartialProofs Debug.
From Verif.Geobucket Require Import Debug.
From Verif.Queues Require Import InPlace.
Import ListNotations.
Local Notation length := List.length.

Lemma check_ok b : b = true -> check b = Ok tt.
Proof. now intros ->. Qed.
Lemma check_all_ok f l : (forall i, In i l -> f i = Ok tt) -> check_all f l = Ok tt.
Proof.
  induction l as [|i l IH]; intros H; auto. cbn [check_all]. rewrite H by now left. cbn [bind]. apply IH. intros; apply H; now right.
Qed.

Section Proofs.
  Context {E : Type}.
  Variable lt : E -> E -> bool.
  Hypothesis Hsw : strict_weak lt.
  Variable ltd : E -> E -> res bool.
  Notation tourtree := (tourtree E).
  Notation inv := (inv lt).
  Notation agreed l := (agree (fun e : E => e) lt ltd l).

  Lemma agree_incl l l' : incl l l' -> agreed l' -> agreed l.
  Proof. intros Hi Ha a b H1 H2. apply Ha; auto. Qed.

  Lemma isValid_ok (s : tourtree) : inv s -> agreed (contents s) -> tt_isValid_d E ltd s = Ok tt.
  Proof.
    intros Hi Ha. pose proof (inv_isValid lt s Hi) as Hv. unfold tt_isValid in Hv. rewrite !andb_true_iff in Hv.
    destruct Hv as [[[H1 H2] H3] H4]. unfold tt_isValid_d. rewrite (check_ok _ H1), (check_ok _ H2). cbn [bind].
    rewrite forallb_forall in H3, H4.
    rewrite check_all_ok.
    2:{ intros i Hin. specialize (H3 i Hin). destruct (tget (tt_tree s) i); try discriminate. now apply check_ok. }
    cbn [bind]. apply check_all_ok. intros pos Hin. specialize (H4 pos Hin). destruct (_ <=? 2 * pos).
    - apply andb_true_iff in H4. destruct H4 as [H4 H5]. rewrite (check_ok _ H4). cbn [bind].
      destruct (tget (tt_tree s) pos) as [i| | |]; try discriminate. cbn [bind].
      destruct (vget (tt_players s) i); try discriminate. now apply check_ok.
    - apply andb_true_iff in H4. destruct H4 as [H4 H5]. rewrite (check_ok _ H4). cbn [bind].
      destruct (tget (tt_tree s) pos) as [i| | |]; try discriminate. cbn [bind].
      destruct (tget (tt_tree s) (2 * pos)) as [l| | |]; try discriminate. cbn [bind].
      destruct (tget (tt_tree s) (2 * pos + 1)) as [r| | |]; try discriminate. cbn [bind].
      rewrite !andb_true_iff in H5. destruct H5 as [[H5 H6] H7]. rewrite (check_ok _ H5), (check_ok _ H6). cbn [bind].
      destruct (vget (tt_players s) i) as [pi| | |] eqn:Hpi; try discriminate. cbn [bind].
      destruct (vget (tt_players s) l) as [pl| | |] eqn:Hpl; try discriminate. cbn [bind].
      destruct (vget (tt_players s) r) as [pr| | |] eqn:Hpr; try discriminate. cbn [bind].
      apply vget_in in Hpi, Hpl, Hpr. rewrite (Ha _ _ Hpi Hpl), (Ha _ _ Hpi Hpr). cbn [bind].
      apply andb_true_iff in H7. destruct H7 as [H7 H8]. rewrite (check_ok _ H7). cbn [bind]. now apply check_ok.
  Qed.

  Lemma validated_ok {A} (s : tourtree) (a : A) : inv s -> agreed (contents s) -> validated E ltd s a = Ok a.
  Proof. intros Hi Ha. unfold validated. now rewrite isValid_ok. Qed.

  Lemma inv_realloc (s : tourtree) : inv s -> inv (tt_reallocate E s).
  Proof.
    intros (Hc & Hp & H). unfold tt_reallocate. split; [|split].
    - simpl. destruct (Nat.eqb_spec (tt_cap s) 0); lia.
    - simpl. destruct (Nat.eqb_spec (tt_cap s) 0); lia.
    - exact H.
  Qed.
  Lemma realloc_ok (s : tourtree) : inv s -> agreed (contents s) -> tt_reallocate_d E ltd s = Ok (tt_reallocate E s).
  Proof.
    intros Hi Ha. unfold tt_reallocate_d. rewrite isValid_ok by auto. cbn [bind]. apply validated_ok; [now apply inv_realloc|exact Ha].
  Qed.

  Lemma new_ok : tt_new_d E ltd = Ok (tt_new E).
  Proof. reflexivity. Qed.

  Lemma tt_empty_iff (s : tourtree) : tt_players s <> [] -> inv s -> negb (tt_empty E s) = true.
  Proof. intros Hne Hi. unfold tt_empty. destruct (tt_tree s) eqn:Ht; auto. elim Hne. now apply (inv_nil lt s Hi). Qed.

  Lemma push_loop_d_ok ps : agreed (map entry ps) -> forall fuel tree pos tree', pos <> 1 ->
    push_loop E lt fuel tree ps pos = Ok tree' -> push_loop_d E ltd fuel tree ps pos (pos / 2) = Ok tree'.
  Proof.
    intros Ha. induction fuel as [|f IH]; intros tree pos tree' Hpos; [discriminate|]. cbn [push_loop push_loop_d].
    rewrite (check_ok (negb (pos =? 1))) by (apply negb_true_iff, Nat.eqb_neq; auto).
    rewrite (check_ok (pos / 2 =? pos / 2)) by apply Nat.eqb_refl. cbn [bind].
    destruct (tget tree (pos / 2)) as [a| | |]; cbn [bind]; try discriminate.
    destruct (tget tree pos) as [b| | |]; cbn [bind]; try discriminate.
    destruct (vget ps a) as [pa| | |] eqn:Hpa; cbn [bind]; try discriminate.
    destruct (vget ps b) as [pb| | |] eqn:Hpb; cbn [bind]; try discriminate.
    rewrite Ha by (eapply vget_in; eauto). cbn [bind]. destruct (lt (entry pa) (entry pb)); auto.
    destruct (tset tree (pos / 2) b) as [t| | |]; cbn [bind]; try discriminate.
    destruct (Nat.eqb_spec (pos / 2) 1); auto.
  Qed.

  Lemma tree_push_tree (s s' : tourtree) p : tree_push E s p = Ok s' -> tt_tree s' = tt_tree s ++ [p] /\ tt_players s' = tt_players s.
  Proof. unfold tree_push. destruct (_ <? _); [|discriminate]. intros H. injection H as <-. auto. Qed.
  Lemma players_push_tree (s s' : tourtree) p : players_push E s p = Ok s' -> tt_tree s' = tt_tree s.
  Proof. unfold players_push. destruct (_ <? _); [|discriminate]. intros H. injection H as <-. auto. Qed.

  Lemma push_d_ok (s : tourtree) x s' : inv s -> tt_push E lt s x = Ok s' -> agreed (contents s') -> tt_push_d E ltd s x = Ok s'.
  Proof.
    intros Hi Hpush Ha. destruct (push_spec lt Hsw s x Hi) as (s'' & Hps & Hi' & Hperm & _). rewrite Hpush in Hps. injection Hps as <-.
    assert (Has : agreed (contents s)).
    { eapply agree_incl; [|exact Ha]. intros e He. eapply Permutation_in; [symmetry; exact Hperm|]. now right. }
    unfold tt_push_d. rewrite isValid_ok by auto. cbn [bind]. unfold tt_push in Hpush.
    set (s1 := if 2 <=? tt_cap s - length (tt_tree s) then s else tt_reallocate E s) in *.
    replace (if 2 <=? tt_cap s - length (tt_tree s) then Ok s else tt_reallocate_d E ltd s) with (Ok s1)
      by (subst s1; destruct (2 <=? _); auto; now rewrite realloc_ok).
    assert (Hi1 : inv s1) by (subst s1; destruct (2 <=? _); auto; now apply inv_realloc).
    clearbody s1. cbn [bind]. destruct (tt_empty E s1) eqn:He.
    - destruct (players_push E s1 _) as [s2| | |]; cbn [bind] in *; try discriminate.
      rewrite Hpush. cbn [bind]. now apply validated_ok.
    - assert (Hodd : exists k, length (tt_tree s1) = 2 * k + 1).
      { destruct Hi1 as (_ & _ & [[Ht _]|(Hne & Hs & _)]).
        - unfold tt_empty in He. rewrite Ht in He. discriminate.
        - pose proof (sh_len _ _ Hs) as Hlen. rewrite map_length in Hlen. exists (length (tt_players s1) - 1).
          destruct (tt_players s1); [congruence|]. simpl in *. lia. }
      destruct Hodd as [k Hk].
      destruct (tget (tt_tree s1) _) as [md| | |]; cbn [bind] in *; try discriminate.
      destruct (tree_push E s1 md) as [s2| | |] eqn:H2; cbn [bind] in *; try discriminate.
      destruct (set_leaf E (tt_players s2) _ _) as [ps| | |]; cbn [bind tt_tree] in *; try discriminate.
      destruct (tree_push_tree _ _ _ H2) as [Ht2 _].
      rewrite check_ok.
      2:{ rewrite Ht2, app_length, Hk. cbn [length]. apply Nat.even_spec. exists (k + 1). lia. }
      cbn [bind].
      destruct (players_push E _ _) as [s3| | |] eqn:H3; cbn [bind] in *; try discriminate.
      pose proof (players_push_tree _ _ _ H3) as Ht3. cbn [tt_tree] in Ht3.
      destruct (tree_push E s3 _) as [s4| | |] eqn:H4; cbn [bind] in *; try discriminate.
      destruct (tree_push_tree _ _ _ H4) as [Ht4 _].
      assert (Hl4 : length (tt_tree s4) = length (tt_tree s1) + 2) by (rewrite Ht4, Ht3, Ht2, !app_length; simpl; lia).
      rewrite check_ok.
      2:{ rewrite Hl4, Hk. apply Nat.odd_spec. exists (k + 1). lia. }
      cbn [bind].
      destruct (push_loop E lt _ _ _ _) as [tree'| | |] eqn:Hl; cbn [bind] in Hpush; try discriminate. injection Hpush as <-.
      replace ((length (tt_tree s1) + 1) / 2) with (length (tt_tree s4) / 2).
      2:{ rewrite Hl4, Hk. replace (2 * k + 1 + 2) with (1 + (k + 1) * 2) by lia. replace (2 * k + 1 + 1) with ((k + 1) * 2) by lia.
          rewrite Nat.div_add, Nat.div_mul by lia. reflexivity. }
      rewrite (push_loop_d_ok _ Ha _ _ _ tree'); [|rewrite Hl4; lia|exact Hl]. cbn [bind].
      now apply validated_ok.
  Qed.

  Lemma top_d_ok (s : tourtree) : inv s -> tt_players s <> [] -> tt_top_d E s = tt_top E s.
  Proof. intros Hi Hne. unfold tt_top_d. now rewrite check_ok by now apply tt_empty_iff. Qed.
  Lemma clear_d_ok (s : tourtree) : inv s -> agreed (contents s) -> tt_clear_d E ltd s = Ok (tt_clear E s).
  Proof.
    intros Hi Ha. unfold tt_clear_d. rewrite isValid_ok by auto. cbn [bind]. apply validated_ok.
    - destruct Hi as (H1 & H2 & _). split; [simpl; lia|]. split; [simpl; auto|]. left; auto.
    - intros a b H. destruct H.
  Qed.

  (** The top entry may have been changed in place, to one that compare is not defined for. *)
  Lemma change_empty (s sc : tourtree) c : tt_change s c = Ok sc -> tt_empty E sc = tt_empty E s.
  Proof.
    unfold tt_change. destruct (tget _ _) as [i| | |]; try discriminate. cbn [bind]. destruct (set_entry E _ _ _); try discriminate. cbn [bind].
    intros H. injection H as <-. reflexivity.
  Qed.
  Lemma pop_d_changed (s : tourtree) c : inv s -> tt_players s <> [] -> exists sc s' t,
    tt_change s c = Ok sc /\ tt_pop E lt s = Ok (s', t) /\ (agreed (contents s') -> tt_pop_d E ltd sc = Ok (s', c)).
  Proof.
    intros Hi Hne. destruct (pop_changed lt Hsw ltd s c Hi Hne) as (sc & s' & t & Hc & Hp & _ & H). exists sc, s', t. repeat split; auto.
    intros Ha. unfold tt_pop_d. rewrite check_ok. 2:{ rewrite (change_empty _ _ _ Hc). now apply tt_empty_iff. }
    rewrite H by exact Ha. cbn [bind quiet]. apply validated_ok; auto.
    destruct (pop_spec lt Hsw s Hi Hne) as (s'' & t' & Hp' & Hi' & _). rewrite Hp in Hp'. now injection Hp' as -> ->.
  Qed.
  Lemma decreaseTop_d_changed (s : tourtree) c x : inv s -> tt_players s <> [] -> exists sc s',
    tt_change s c = Ok sc /\ tt_decreaseTop E lt s x = Ok s' /\ (agreed (contents s') -> tt_decreaseTop_d E ltd sc x = Ok s').
  Proof.
    intros Hi Hne. destruct (decreaseTop_changed lt Hsw ltd s c x Hi Hne) as (sc & s' & Hc & Hp & H). exists sc, s'. repeat split; auto.
    intros Ha. unfold tt_decreaseTop_d. rewrite check_ok. 2:{ rewrite (change_empty _ _ _ Hc). now apply tt_empty_iff. }
    rewrite H by exact Ha. cbn [bind quiet]. apply validated_ok; auto.
    destruct (decreaseTop_spec lt Hsw s x Hi Hne) as (s'' & t' & m & Hp' & Hi' & _). rewrite Hp in Hp'. now injection Hp' as ->.
  Qed.
End Proofs.

(** * compare without assertions of its own *)
Section Total.
  Context {E : Type}.
  Variable lt : E -> E -> bool.
  Hypothesis Hsw : strict_weak lt.
  Notation ltd := (fun a b : E => Ok (lt a b)).
  Notation inv := (TourTree.Proofs.inv lt).

  Lemma total_agree l : agree (fun e : E => e) lt ltd l.
  Proof. intros a b _ _. reflexivity. Qed.

  Lemma push_range_d_ok xs : forall s, inv s -> tt_push_range_d E ltd s xs = tt_push_range E lt s xs.
  Proof.
    induction xs as [|x xs IH]; intros s Hi; cbn [tt_push_range tt_push_range_d]; auto.
    destruct (push_spec lt Hsw s x Hi) as (s1 & H1 & Hi1 & _). rewrite H1.
    rewrite (push_d_ok lt Hsw ltd s x s1 Hi H1 (total_agree _)). cbn [bind]. auto.
  Qed.

  Lemma step_d_ok s o : inv s -> tt_step_d E ltd s o = tt_step E lt s o.
  Proof.
    intros Hi. destruct o as [x|xs| | |x| | | |]; cbn [tt_step tt_step_d]; auto.
    - destruct (push_spec lt Hsw s x Hi) as (s1 & H1 & Hi1 & _). rewrite H1. now rewrite (push_d_ok lt Hsw ltd s x s1 Hi H1 (total_agree _)).
    - now rewrite push_range_d_ok.
    - destruct (list_eq_nil_dec (tt_players s)) as [He|Hne].
      + unfold tt_pop, tt_pop_d, tt_empty. rewrite tget_tat, (proj2 (inv_nil lt s Hi) He). reflexivity.
      + destruct (pop_spec lt Hsw s Hi Hne) as (s1 & t & Hp & Hi1 & _). rewrite Hp. cbn [bind]. unfold tt_pop_d.
        rewrite check_ok by (eapply tt_empty_iff; eauto). cbn [bind].
        pose proof (pop_partial (fun e => e) lt ltd s s1 t Hp (total_agree _)) as Hf. rewrite !map_tt_id in Hf. rewrite Hf. cbn [bind quiet].
        now rewrite (validated_ok lt ltd s1 _ Hi1 (total_agree _)).
    - destruct (list_eq_nil_dec (tt_players s)) as [He|Hne].
      + unfold tt_top, tt_top_d, tt_empty. rewrite tget_tat, (proj2 (inv_nil lt s Hi) He). reflexivity.
      + now rewrite (top_d_ok lt s Hi Hne).
    - destruct (list_eq_nil_dec (tt_players s)) as [He|Hne].
      + unfold tt_decreaseTop, tt_decreaseTop_d, tt_empty. rewrite tget_tat, (proj2 (inv_nil lt s Hi) He). reflexivity.
      + destruct (decreaseTop_spec lt Hsw s x Hi Hne) as (s1 & t & m & Hp & Hi1 & _). rewrite Hp. cbn [bind]. unfold tt_decreaseTop_d.
        rewrite check_ok by (eapply tt_empty_iff; eauto). cbn [bind].
        pose proof (decreaseTop_partial (fun e => e) lt ltd s x s1 Hp (total_agree _)) as Hf. rewrite !map_tt_id in Hf. rewrite Hf. cbn [bind quiet].
        now rewrite (validated_ok lt ltd s1 _ Hi1 (total_agree _)).
    - now rewrite (clear_d_ok lt ltd s Hi (total_agree _)).
  Qed.

  Lemma run_d_ok ops : forall s, inv s -> forallb (tt_api E) ops = true -> run (tt_step_d E ltd) s ops = run (tt_step E lt) s ops.
  Proof.
    induction ops as [|o ops IH]; intros s Hi Ha; cbn [run]; auto.
    cbn [forallb] in Ha. apply andb_true_iff in Ha. destruct Ha as [Ha1 Ha2].
    pose proof (tt_step_correct lt Hsw s o Hi Ha1) as Hc. rewrite (step_d_ok s o Hi).
    destruct (tt_step E lt s o) as [[s1 r]| | |]; cbn [bind]; auto. now rewrite (IH s1 (proj1 Hc) Ha2).
  Qed.
  Lemma run_new ops : forallb (tt_api E) ops = true ->
    (let* s := tt_new_d E ltd in run (tt_step_d E ltd) s ops) = run (tt_step E lt) (tt_new E) ops.
  Proof. intros Ha. cbn [tt_new_d bind]. apply run_d_ok; auto. apply tt_new_inv. Qed.
End Total.
