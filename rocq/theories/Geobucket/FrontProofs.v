(** The front array of GeoFront<true> represents a list of buckets. *)
From Coq Require Import List Arith Bool Lia Permutation.
From Verif.Base Require Import Res Arr Order.
From Verif.Geobucket Require Import Model.
Import ListNotations.

Section Front.
  Context {E : Type}.
  Variable lt eqv : E -> E -> bool.
  Variable dedup : E -> E -> E.
  Variable C : config.

  Notation bucket := (bucket E).
  Notation key := (key E C).

  Definition tok_good (a : nat) (F : list nat) (i : nat) (t : token) : Prop :=
    match t with None => ~ In i F | Some (a', p) => a' = a /\ nth_error F p = Some i end.

  (** The array holds the list [F] and every token is right. *)
  Record rep (a : nat) (slots : list (option nat)) (n : nat) (toks : list token) (F : list nat) : Prop := {
    r_slots : exists rest, slots = map Some F ++ rest;
    r_n : n = length F;
    r_nodup : NoDup F;
    r_tok : forall i t, nth_error toks i = Some t -> tok_good a F i t;
    r_bound : forall i, In i F -> i < length toks
  }.

  (** The same with [b] in place of the slot after [pre], which may hold anything, and with [b]'s token unknown. *)
  Record hole (a : nat) (slots : list (option nat)) (toks : list token) (b : nat) (pre post : list nat) : Prop := {
    h_slots : exists x rest, slots = map Some pre ++ x :: map Some post ++ rest;
    h_nodup : NoDup (pre ++ b :: post);
    h_tok : forall i t, i <> b -> nth_error toks i = Some t -> tok_good a (pre ++ b :: post) i t;
    h_bound : forall i, In i (pre ++ b :: post) -> i < length toks
  }.

  Lemma nth_middle {A} (l : list A) x r : nth_error (l ++ x :: r) (length l) = Some x.
  Proof. rewrite nth_error_app2 by auto. now rewrite Nat.sub_diag. Qed.

  Lemma upd_middle {A} (l : list A) x r v : upd (l ++ x :: r) (length l) v = l ++ v :: r.
  Proof. rewrite upd_app_r by auto. now rewrite Nat.sub_diag. Qed.

  Lemma NoDup_pos {A} (l : list A) p q x : NoDup l -> nth_error l p = Some x -> nth_error l q = Some x -> p = q.
  Proof.
    intros Hn Hp Hq. eapply NoDup_nth_error; eauto; [now apply nth_error_some_lt in Hp|congruence].
  Qed.

  Lemma rep_tok a slots n toks F p i : rep a slots n toks F -> nth_error F p = Some i -> nth_error toks i = Some (Some (a, p)).
  Proof.
    intros [Hs Hn Hd Ht Hb] Hp. pose proof (nth_error_In _ _ Hp) as Hin.
    destruct (nth_error_lt toks i (Hb i Hin)) as [t Hti]. specialize (Ht i t Hti). rewrite Hti. f_equal.
    destruct t as [[a' q]|]; simpl in Ht; [|contradiction]. destruct Ht as [-> Hq]. repeat f_equal. eapply NoDup_pos; eauto.
  Qed.

  Lemma rep_not_in a slots n toks F i : rep a slots n toks F -> i < length toks -> ~ In i F -> nth_error toks i = Some None.
  Proof.
    intros [_ _ _ Ht _] Hl Hi. destruct (nth_error_lt toks i Hl) as [t Hti]. specialize (Ht i t Hti). rewrite Hti.
    destruct t as [[a' q]|]; auto. simpl in Ht. destruct Ht as [_ Hq]. now apply nth_error_In in Hq.
  Qed.

  Lemma rep_slot a slots n toks F p i : rep a slots n toks F -> nth_error F p = Some i -> slot slots p = Ok i.
  Proof.
    intros [[rest ->] _ _ _ _] Hp. unfold slot, vget. rewrite nth_error_app1.
    - rewrite nth_error_map, Hp. reflexivity.
    - rewrite map_length. now apply nth_error_some_lt in Hp.
  Qed.

  Lemma rep_hole a slots n toks pre b post : rep a slots n toks (pre ++ b :: post) -> hole a slots toks b pre post.
  Proof.
    intros [[rest ->] Hn Hd Ht Hb]. split; auto. exists (Some b), rest. rewrite map_app. simpl. now rewrite <- app_assoc.
  Qed.

  Lemma tok_good_upd a F toks b v : b < length toks -> tok_good a F b v ->
    (forall i t, i <> b -> nth_error toks i = Some t -> tok_good a F i t) ->
    forall i t, nth_error (upd toks b v) i = Some t -> tok_good a F i t.
  Proof.
    intros Hb Hv Ho i t Hi. destruct (Nat.eq_dec i b) as [->|Hne].
    - rewrite nth_upd_same in Hi by auto. congruence.
    - rewrite nth_upd_other in Hi by auto. auto.
  Qed.

  Lemma hole_put a slots toks b pre post n : hole a slots toks b pre post -> n = length (pre ++ b :: post) ->
    exists slots', vset slots (length pre) (Some b) = Ok slots' /\
      vset toks b (Some (a, length pre)) = Ok (upd toks b (Some (a, length pre))) /\
      rep a slots' n (upd toks b (Some (a, length pre))) (pre ++ b :: post).
  Proof.
    intros [(x & rest & ->) Hd Ht Hb] Hn.
    assert (Hbt : b < length toks) by (apply Hb; apply in_or_app; right; now left).
    eexists. split; [apply vset_ok; rewrite app_length, map_length; simpl; lia|]. split; [now apply vset_ok|].
    split; auto.
    - exists rest. rewrite <- (map_length Some pre) at 1. rewrite upd_middle, map_app, <- app_assoc. reflexivity.
    - apply tok_good_upd; auto. split; auto. apply nth_middle.
    - intros i Hi. rewrite upd_length. auto.
  Qed.

  Lemma hole_up a slots toks b pre o post : hole a slots toks b (pre ++ [o]) post ->
    slot slots (length pre) = Ok o /\
    exists slots', vset slots (S (length pre)) (Some o) = Ok slots' /\
      vset toks o (Some (a, S (length pre))) = Ok (upd toks o (Some (a, S (length pre)))) /\
      hole a slots' (upd toks o (Some (a, S (length pre)))) b pre (o :: post) /\ length slots' = length slots.
  Proof.
    intros [(x & rest & ->) Hd Ht Hb]. rewrite <- !app_assoc in *. simpl in *.
    assert (Ho : o < length toks) by (apply Hb; apply in_or_app; right; now left).
    assert (Hob : o <> b).
    { intros ->. apply NoDup_remove_2 in Hd. apply Hd. apply in_or_app. right. now left. }
    split.
    { unfold slot, vget. rewrite map_app, <- app_assoc. rewrite <- (map_length Some pre). simpl. rewrite nth_middle. reflexivity. }
    eexists. split; [apply vset_ok; rewrite app_length, !map_length, app_length; simpl; lia|]. split; [now apply vset_ok|].
    split.
    - split.
      + exists (Some o), rest. rewrite map_app. simpl.
        assert (Hl : S (length pre) = length (map Some pre ++ [Some o])) by (rewrite app_length, map_length; simpl; lia).
        rewrite Hl, upd_middle, <- app_assoc. reflexivity.
      + eapply Permutation_NoDup; [|exact Hd]. apply Permutation_app_head. apply perm_swap.
      + intros i t Hi. assert (Hgood : forall i t, tok_good a (pre ++ o :: b :: post) i t -> i <> o -> i <> b -> tok_good a (pre ++ b :: o :: post) i t).
        { intros j [[a' p]|]; simpl.
          - intros [-> Hp] Hjo Hjb. split; auto. destruct (lt_dec p (length pre)) as [Hlt|Hge].
            + rewrite nth_error_app1 in * by auto. auto.
            + rewrite nth_error_app2 in * by lia. destruct (p - length pre) as [|[|q]]; simpl in *; congruence.
          - intros Hn _ _ Hin. apply Hn. eapply Permutation_in; [|exact Hin]. apply Permutation_app_head. apply perm_swap. }
        destruct (Nat.eq_dec i o) as [->|Hio].
        * rewrite nth_upd_same by auto. intros H. injection H as <-. split; auto.
          replace (S (length pre)) with (length (pre ++ [b])) by (rewrite app_length; simpl; lia).
          change (pre ++ b :: o :: post) with (pre ++ [b] ++ o :: post). rewrite app_assoc. apply nth_middle.
        * rewrite nth_upd_other by auto. intros H. apply Hgood; auto.
      + intros i Hi. rewrite upd_length. apply Hb. eapply Permutation_in; [|exact Hi]. apply Permutation_app_head. apply perm_swap.
    - now rewrite upd_length.
  Qed.

  Lemma hole_down a slots toks b pre o post : hole a slots toks b pre (o :: post) ->
    slot slots (S (length pre)) = Ok o /\
    exists slots', vset slots (length pre) (Some o) = Ok slots' /\
      vset toks o (Some (a, length pre)) = Ok (upd toks o (Some (a, length pre))) /\
      hole a slots' (upd toks o (Some (a, length pre))) b (pre ++ [o]) post /\ length slots' = length slots.
  Proof.
    intros [(x & rest & ->) Hd Ht Hb].
    assert (Ho : o < length toks) by (apply Hb; apply in_or_app; right; right; now left).
    assert (Hob : o <> b).
    { intros ->. apply NoDup_remove_2 in Hd. apply Hd. apply in_or_app. right. now left. }
    assert (Hperm : forall i, In i ((pre ++ [o]) ++ b :: post) -> In i (pre ++ b :: o :: post)).
    { intros i Hi. rewrite <- app_assoc in Hi. simpl in Hi. eapply Permutation_in; [|exact Hi]. apply Permutation_app_head. apply perm_swap. }
    assert (Hperm' : forall i, In i (pre ++ b :: o :: post) -> In i ((pre ++ [o]) ++ b :: post)).
    { intros i Hi. rewrite <- app_assoc. simpl. eapply Permutation_in; [|exact Hi]. apply Permutation_app_head. apply perm_swap. }
    split.
    { unfold slot, vget. simpl map.
      change (map Some pre ++ x :: (Some o :: map Some post) ++ rest) with (map Some pre ++ [x] ++ Some o :: map Some post ++ rest).
      rewrite app_assoc. assert (Hl : S (length pre) = length (map Some pre ++ [x])) by (rewrite app_length, map_length; simpl; lia).
      rewrite Hl, nth_middle. reflexivity. }
    eexists. split; [apply vset_ok; rewrite app_length, !map_length; simpl; lia|]. split; [now apply vset_ok|].
    split.
    - split.
      + exists (Some o), rest. rewrite map_app. simpl. rewrite <- (map_length Some pre) at 1. rewrite upd_middle, <- app_assoc. reflexivity.
      + rewrite <- app_assoc. simpl. eapply Permutation_NoDup; [|exact Hd]. apply Permutation_app_head. apply perm_swap.
      + intros i t Hi.
        assert (Hgood : forall i t, tok_good a (pre ++ b :: o :: post) i t -> i <> o -> i <> b -> tok_good a ((pre ++ [o]) ++ b :: post) i t).
        { intros j [[a' p]|]; cbn [tok_good].
          - intros [-> Hp] Hjo Hjb. split; auto. rewrite <- app_assoc. simpl. destruct (lt_dec p (length pre)) as [Hlt|Hge].
            + rewrite nth_error_app1 in * by auto. auto.
            + rewrite nth_error_app2 in * by lia. destruct (p - length pre) as [|[|q]]; simpl in *; congruence.
          - intros Hn _ _ Hin. apply Hn. auto. }
        destruct (Nat.eq_dec i o) as [->|Hio].
        * rewrite nth_upd_same by auto. intros H. injection H as <-. split; auto. rewrite <- app_assoc. apply nth_middle.
        * rewrite nth_upd_other by auto. intros H. apply Hgood; auto.
      + intros i Hi. rewrite upd_length. auto.
    - now rewrite upd_length.
  Qed.

  (** * keyIncreased *)
  Lemma ki_loop_spec bs a b (K : nat -> E) : forall pre post slots toks,
    hole a slots toks b pre post -> (forall i, In i (b :: pre) -> key bs i = Ok (K i)) ->
    exists pre1 pre2 slots' toks', pre = pre1 ++ pre2 /\
      ki_loop E lt C bs a slots toks b (length pre) = Ok (slots', toks') /\
      rep a slots' (length (pre ++ b :: post)) toks' (pre1 ++ b :: pre2 ++ post) /\ length toks' = length toks /\
      (forall x, In x pre2 -> lt (K x) (K b) = true) /\ (forall y p, pre1 = p ++ [y] -> lt (K y) (K b) = false).
  Proof.
    intros pre. induction pre as [|o pre IH] using rev_ind; intros post slots toks Hh HK.
    - destruct (hole_put _ _ _ _ _ _ _ Hh eq_refl) as (slots' & Hs & Ht & Hr). cbn [length] in *.
      exists [], [], slots', (upd toks b (Some (a, 0))). split; auto. unfold ki_loop. rewrite Hs. cbn [bind]. rewrite Ht. cbn [bind].
      split; auto. split; auto. split; [now rewrite upd_length|]. split; [intros x []|]. intros y p H. now destruct p.
    - destruct (hole_up _ _ _ _ _ _ _ Hh) as (Hslot & slots' & Hs & Ht & Hh' & _).
      assert (Hlen : length (pre ++ [o]) = S (length pre)) by (rewrite app_length; simpl; lia).
      rewrite Hlen. cbn [ki_loop]. rewrite Hslot. cbn [bind]. rewrite (HK o) by (right; apply in_or_app; right; now left).
      rewrite (HK b) by now left. cbn [bind]. destruct (lt (K o) (K b)) eqn:Hlt.
      + rewrite Hs. cbn [bind]. rewrite Ht. cbn [bind].
        destruct (IH (o :: post) slots' _ Hh') as (pre1 & pre2 & slots2 & toks2 & -> & Hl & Hr & Hlt2 & H1 & H2).
        { intros i [Hi|Hi]; apply HK; [left; auto|right; apply in_or_app; now left]. }
        exists pre1, (pre2 ++ [o]), slots2, toks2. split; [now rewrite app_assoc|]. split; auto. split.
        * rewrite <- !app_assoc in *. simpl in *. destruct Hr as [R1 R2 R3 R4 R5]. split; auto. rewrite !app_length in *. simpl in *. rewrite app_length in *. simpl in *. lia.
        * split; [rewrite Hlt2; apply upd_length|]. split; auto. intros x Hx. apply in_app_or in Hx as [Hx|[<-|[]]]; auto.
      + destruct (hole_put _ _ _ _ _ _ _ Hh eq_refl) as (slots2 & Hs2 & Ht2 & Hr2). rewrite Hlen in Hs2, Ht2, Hr2.
        rewrite Hs2. cbn [bind]. rewrite Ht2. cbn [bind].
        exists (pre ++ [o]), [], slots2, (upd toks b (Some (a, S (length pre)))). split; [now rewrite app_nil_r|]. split; auto. split; auto.
        split; [now rewrite upd_length|]. split; [intros x []|]. intros y p Hp. apply app_inj_tail in Hp as [_ <-]. auto.
  Qed.

  (** * remove *)
  Lemma rm_loop_spec a b : forall post pre slots toks, hole a slots toks b pre post ->
    exists slots' toks', rm_loop (length post) a slots toks (S (length pre)) = Ok (slots', toks') /\
      hole a slots' toks' b (pre ++ post) [] /\ length toks' = length toks.
  Proof.
    induction post as [|o post IH]; intros pre slots toks Hh.
    - exists slots, toks. rewrite app_nil_r. auto.
    - destruct (hole_down _ _ _ _ _ _ _ Hh) as (Hslot & slots' & Hs & Ht & Hh' & _).
      cbn [length rm_loop]. rewrite Hslot. cbn [bind]. replace (S (length pre) - 1) with (length pre) by lia.
      rewrite Hs. cbn [bind]. rewrite Ht. cbn [bind].
      destruct (IH _ _ _ Hh') as (s2 & t2 & Hr & Hh2 & Hl). exists s2, t2.
      rewrite app_length in Hr. simpl in Hr. rewrite Nat.add_1_r in Hr. split; auto. rewrite <- app_assoc in Hh2. split; auto.
      now rewrite upd_length in Hl.
  Qed.

  (** [fo_remove] when only [b]'s slot and token matter: the slot may hold anything, the token must point to it. *)
  Lemma fo_remove_hole a slots toks b pre post : hole a slots toks b pre post -> nth_error toks b = Some (Some (a, length pre)) ->
    exists f, fo_remove a slots (length (pre ++ b :: post)) toks b = Ok f /\
      exists slots' toks', f = FOrder a slots' (length (pre ++ post)) toks' /\ rep a slots' (length (pre ++ post)) toks' (pre ++ post) /\
        length toks' = length toks.
  Proof.
    intros Hh Htok. unfold fo_remove, vget. rewrite Htok. cbn [of_option bind tok_pos]. rewrite Nat.eqb_refl. cbn [bind].
    rewrite app_length. cbn [length]. destruct (Nat.leb_spec (length pre + S (length post)) (length pre)); [lia|].
    replace (length pre + S (length post) - 1 - length pre) with (length post) by lia.
    destruct (rm_loop_spec a b post pre slots toks Hh) as (s' & t' & -> & Hh' & Hl). cbn [bind].
    assert (Hbt : b < length t') by (apply (h_bound _ _ _ _ _ _ Hh'); apply in_or_app; right; now left).
    rewrite vset_ok by auto. cbn [bind]. eexists. split; [reflexivity|].
    replace (length pre + S (length post) - 1) with (length (pre ++ post)) by (rewrite app_length; lia).
    eexists; eexists; split; [reflexivity|]. split; [|rewrite upd_length; auto].
    destruct Hh' as [(x & rest & ->) Hd Ht Hb]. simpl map in *. split; auto.
    - exists (x :: rest). simpl. reflexivity.
    - apply NoDup_remove_1 in Hd. now rewrite app_nil_r in Hd.
    - apply tok_good_upd; auto.
      + simpl. intros Hin. apply NoDup_remove_2 in Hd. apply Hd. now rewrite app_nil_r.
      + intros i [[a' p]|] Hi Hti; specialize (Ht i _ Hi Hti); simpl in *.
        * destruct Ht as [-> Hp]. split; auto. destruct (lt_dec p (length (pre ++ post))) as [Hp2|Hp2].
          -- now rewrite nth_error_app1 in Hp by auto.
          -- rewrite nth_error_app2 in Hp by lia. destruct (p - length (pre ++ post)) as [|[|q]]; simpl in Hp; congruence.
        * intros Hin. apply Ht. apply in_or_app. now left.
    - intros i Hi. rewrite upd_length. apply Hb. apply in_or_app. now left.
  Qed.

  Lemma fo_remove_spec a slots n toks b pre post : rep a slots n toks (pre ++ b :: post) ->
    exists slots' toks', fo_remove a slots n toks b = Ok (FOrder a slots' (length (pre ++ post)) toks') /\
      rep a slots' (length (pre ++ post)) toks' (pre ++ post) /\ length toks' = length toks.
  Proof.
    intros Hr. pose proof (r_n _ _ _ _ _ Hr) as ->.
    destruct (fo_remove_hole _ _ _ _ _ _ (rep_hole _ _ _ _ _ _ _ Hr)) as (f & -> & slots' & toks' & -> & H1 & H2).
    - eapply rep_tok; eauto. apply nth_middle.
    - eauto.
  Qed.

  (** * swapKeys *)
  Definition sw (x y i : nat) : nat := if i =? x then y else if i =? y then x else i.
  Lemma sw_invol x y i : sw x y (sw x y i) = i.
  Proof.
    unfold sw. destruct (Nat.eqb_spec i x) as [->|H1].
    - destruct (Nat.eqb_spec y x); auto. now rewrite Nat.eqb_refl.
    - destruct (Nat.eqb_spec i y) as [->|H2]; [now rewrite Nat.eqb_refl|].
      destruct (Nat.eqb_spec i x); try congruence. destruct (Nat.eqb_spec i y); congruence.
  Qed.
  Lemma sw_inj x y i j : sw x y i = sw x y j -> i = j.
  Proof. intros H. rewrite <- (sw_invol x y i), H. apply sw_invol. Qed.
  Lemma sw_l x y : sw x y x = y.
  Proof. unfold sw. now rewrite Nat.eqb_refl. Qed.
  Lemma sw_r x y : sw x y y = x.
  Proof. unfold sw. destruct (Nat.eqb_spec y x); auto. now rewrite Nat.eqb_refl. Qed.
  Lemma sw_o x y i : i <> x -> i <> y -> sw x y i = i.
  Proof. unfold sw. intros. destruct (Nat.eqb_spec i x); try congruence. destruct (Nat.eqb_spec i y); congruence. Qed.

  Lemma map_sw_id x y l : ~ In x l -> ~ In y l -> map (sw x y) l = l.
  Proof.
    induction l as [|i l IH]; simpl; auto. intros Hx Hy. rewrite IH by tauto. f_equal. apply sw_o; intros ->; tauto.
  Qed.

  Lemma NoDup_map_inj {A B} (f : A -> B) l : (forall i j, f i = f j -> i = j) -> NoDup l -> NoDup (map f l).
  Proof.
    intros Hf. induction 1 as [|x l Hx Hl IH]; simpl; constructor; auto.
    intros Hin. apply in_map_iff in Hin as (y & Hy & Hin). apply Hf in Hy as ->. contradiction.
  Qed.

  Lemma tok_good_sw a F x y i t : tok_good a F i t -> tok_good a (map (sw x y) F) (sw x y i) t.
  Proof.
    destruct t as [[a' p]|]; simpl.
    - intros [-> Hp]. split; auto. now rewrite nth_error_map, Hp.
    - intros Hn Hin. apply in_map_iff in Hin as (j & Hj & Hin). apply sw_inj in Hj as ->. contradiction.
  Qed.


  Lemma swapKeys_spec a slots n toks F x y : rep a slots n toks F -> x <> y -> x < length toks -> y < length toks ->
    exists slots' toks', f_swapKeys (FOrder a slots n toks) x y = Ok (FOrder a slots' n toks') /\
      rep a slots' n toks' (map (sw x y) F) /\ length toks' = length toks.
  Proof.
    intros Hr Hxy Hx Hy. pose proof Hr as Hr0. destruct Hr as [[rest Hsl] Hn Hd Ht Hb].
    destruct (nth_error_lt toks x Hx) as [tx Htx]. destruct (nth_error_lt toks y Hy) as [ty Hty].
    unfold f_swapKeys, vget. rewrite Htx, Hty. cbn [of_option bind]. rewrite vset_ok by auto. cbn [bind].
    rewrite vset_ok by (now rewrite upd_length). cbn [bind].
    pose proof (Ht x tx Htx) as Gx. pose proof (Ht y ty Hty) as Gy.
    assert (W1 : exists s1, write_through a slots ty x = Ok s1 /\ length s1 = length slots /\
       forall p, nth_error s1 p = match ty with Some (_, q) => if p =? q then Some (Some x) else nth_error slots p | None => nth_error slots p end).
    { destruct ty as [[a' q]|]; simpl in *; [|exists slots; auto]. destruct Gy as [-> Gy]. rewrite Nat.eqb_refl. cbn [bind].
      assert (Hq : q < length slots) by (rewrite Hsl, app_length, map_length; apply nth_error_some_lt in Gy; lia).
      rewrite vset_ok by auto. eexists; split; [reflexivity|]. split; [apply upd_length|]. intros p.
      destruct (Nat.eqb_spec p q) as [->|Hpq]; [now apply nth_upd_same|apply nth_upd_other; auto]. }
    destruct W1 as (s1 & -> & Hl1 & Hs1). cbn [bind].
    assert (W2 : exists s2, write_through a s1 tx y = Ok s2 /\ length s2 = length slots /\
       forall p, nth_error s2 p = match tx with Some (_, q) => if p =? q then Some (Some y) else nth_error s1 p | None => nth_error s1 p end).
    { destruct tx as [[a' q]|]; simpl in *; [|exists s1; auto]. destruct Gx as [-> Gx]. rewrite Nat.eqb_refl. cbn [bind].
      assert (Hq : q < length s1) by (rewrite Hl1, Hsl, app_length, map_length; apply nth_error_some_lt in Gx; lia).
      rewrite vset_ok by auto. eexists; split; [reflexivity|]. split; [rewrite upd_length; auto|]. intros p.
      destruct (Nat.eqb_spec p q) as [->|Hpq]; [now apply nth_upd_same|apply nth_upd_other; auto]. }
    destruct W2 as (s2 & -> & Hl2 & Hs2). cbn [bind]. eexists; eexists; split; [reflexivity|]. split; [|now rewrite !upd_length].
    split.
    - exists rest. apply nth_error_ext. intros p. rewrite Hs2.
      assert (Hcases : nth_error (map Some (map (sw x y) F) ++ rest) p = match nth_error F p with Some i => Some (Some (sw x y i)) | None => nth_error slots p end).
      { rewrite Hsl. destruct (nth_error F p) as [i|] eqn:Hi.
        - rewrite nth_error_app1 by (rewrite !map_length; now apply nth_error_some_lt in Hi). now rewrite !nth_error_map, Hi.
        - apply nth_error_None in Hi. rewrite !nth_error_app2 by (rewrite ?map_length; auto). rewrite !map_length. auto. }
      rewrite Hcases, Hs1.
      assert (Hin : forall i, nth_error F p = Some i -> nth_error slots p = Some (Some i)).
      { intros i Hi. rewrite Hsl, nth_error_app1 by (rewrite map_length; now apply nth_error_some_lt in Hi). now rewrite nth_error_map, Hi. }
      destruct tx as [[ax px]|], ty as [[ay py]|]; simpl in Gx, Gy.
      + destruct Gx as [-> Gx], Gy as [-> Gy]. destruct (Nat.eqb_spec p px) as [->|H1]; [rewrite Gx, sw_l; auto|].
        destruct (Nat.eqb_spec p py) as [->|H2]; [rewrite Gy, sw_r; auto|].
        destruct (nth_error F p) as [i|] eqn:Hi; auto. rewrite (Hin i) by auto. rewrite sw_o; auto.
        * intros ->. apply H1. eapply NoDup_pos; eauto.
        * intros ->. apply H2. eapply NoDup_pos; eauto.
      + destruct Gx as [-> Gx]. destruct (Nat.eqb_spec p px) as [->|H1]; [rewrite Gx, sw_l; auto|].
        destruct (nth_error F p) as [i|] eqn:Hi; auto. rewrite (Hin i) by auto. rewrite sw_o; auto.
        * intros ->. apply H1. eapply NoDup_pos; eauto.
        * intros ->. apply Gy. eapply nth_error_In; eauto.
      + destruct Gy as [-> Gy]. destruct (Nat.eqb_spec p py) as [->|H1]; [rewrite Gy, sw_r; auto|].
        destruct (nth_error F p) as [i|] eqn:Hi; auto. rewrite (Hin i) by auto. rewrite sw_o; auto.
        * intros ->. apply Gx. eapply nth_error_In; eauto.
        * intros ->. apply H1. eapply NoDup_pos; eauto.
      + destruct (nth_error F p) as [i|] eqn:Hi; auto. rewrite (Hin i) by auto. rewrite sw_o; auto.
        * intros ->. apply Gx. eapply nth_error_In; eauto.
        * intros ->. apply Gy. eapply nth_error_In; eauto.
    - now rewrite map_length.
    - apply NoDup_map_inj; auto. intros i j. apply sw_inj.
    - intros i t Hi. destruct (Nat.eq_dec i y) as [->|Hiy].
      + rewrite nth_upd_same in Hi by (now rewrite upd_length). injection Hi as <-. rewrite <- (sw_l x y) at 2. now apply tok_good_sw.
      + rewrite nth_upd_other in Hi by auto. destruct (Nat.eq_dec i x) as [->|Hix].
        * rewrite nth_upd_same in Hi by auto. injection Hi as <-. rewrite <- (sw_r x y) at 2. now apply tok_good_sw.
        * rewrite nth_upd_other in Hi by auto. rewrite <- (sw_o x y i) by auto. now apply tok_good_sw; apply Ht.
    - intros i Hi. rewrite !upd_length. apply in_map_iff in Hi as (j & <- & Hj). unfold sw.
      destruct (j =? x); auto. destruct (j =? y); auto.
  Qed.

  (** * reserveCapacity *)
  Lemma rc_loop_spec a slots F : (forall p i, nth_error F p = Some i -> slot slots p = Ok i) -> NoDup F ->
    forall todo done (toks : list token), F = done ++ todo -> (forall i, In i F -> i < length toks) ->
    (forall i (t : token), nth_error toks i = Some t ->
       match t with None => ~ In i F | Some (a', p) => nth_error F p = Some i /\ a' = (if p <? length done then S a else a) end) ->
    exists toks', rc_loop (length todo) a (length done) slots toks = Ok toks' /\ length toks' = length toks /\
      forall i t, nth_error toks' i = Some t -> tok_good (S a) F i t.
  Proof.
    intros Hslot Hd. induction todo as [|b todo IH]; intros done toks HF Hb Ht; cbn [length rc_loop].
    - exists toks. split; auto. split; auto. intros i [[a' p]|] Hi; specialize (Ht i _ Hi); simpl in *; auto.
      destruct Ht as [Hp ->]. split; auto. apply nth_error_some_lt in Hp as Hlt. rewrite HF, app_nil_r in Hlt.
      apply Nat.ltb_lt in Hlt. now rewrite Hlt.
    - assert (Hp : nth_error F (length done) = Some b) by (rewrite HF; apply nth_middle).
      rewrite (Hslot _ _ Hp). cbn [bind].
      assert (Hbt : b < length toks) by (apply Hb; eapply nth_error_In; eauto).
      destruct (nth_error_lt toks b Hbt) as [t Htb]. specialize (Ht b t Htb) as Htg. unfold vget. rewrite Htb. cbn [of_option bind].
      destruct t as [[a' q]|]; [|exfalso; apply Htg; eapply nth_error_In; eauto]. destruct Htg as [Hq Ha'].
      assert (q = length done) as -> by (eapply NoDup_pos; eauto). rewrite Nat.ltb_irrefl in Ha'. subst a'.
      cbn [tok_pos]. rewrite Nat.eqb_refl. cbn [bind]. rewrite vset_ok by auto. cbn [bind].
      destruct (IH (done ++ [b]) (upd toks b (Some (S a, length done)))) as (toks' & Hrc & Hl & Hg).
      + now rewrite <- app_assoc.
      + intros i Hi. rewrite upd_length. auto.
      + intros i t Hi. rewrite app_length; cbn [length]. destruct (Nat.eq_dec i b) as [->|Hib].
        * rewrite nth_upd_same in Hi by auto. injection Hi as <-. split; auto.
          destruct (Nat.ltb_spec (length done) (length done + 1)); auto. lia.
        * rewrite nth_upd_other in Hi by auto. specialize (Ht i t Hi). destruct t as [[a' p]|]; auto. destruct Ht as [Hp2 ->].
          split; auto. destruct (Nat.ltb_spec p (length done)), (Nat.ltb_spec p (length done + 1)); auto; try lia.
          exfalso. assert (p = length done) as -> by lia. congruence.
      + rewrite app_length in Hrc. cbn [length] in Hrc. rewrite Nat.add_1_r in Hrc. exists toks'. split; auto. split; auto.
        now rewrite upd_length in Hl.
  Qed.

  Lemma reserve_spec a slots n toks F newCap : rep a slots n toks F -> n <= newCap ->
    exists slots' toks', fo_reserve a slots n toks newCap = Ok (S a, slots', toks') /\ rep (S a) slots' n toks' F /\
      length slots' = max 1 newCap /\ length toks' = length toks.
  Proof.
    intros [[rest ->] -> Hd Ht Hb] Hle. unfold fo_reserve.
    set (nc := if newCap =? 0 then 1 else newCap).
    assert (Hnc : nc = max 1 newCap) by (unfold nc; destruct (Nat.eqb_spec newCap 0); lia).
    destruct (Nat.ltb_spec nc (length F)); [lia|].
    assert (Hfn : firstn (length F) (map Some F ++ rest) = map Some F).
    { rewrite <- (map_length Some F), firstn_app, firstn_all, Nat.sub_diag. simpl. apply app_nil_r. }
    rewrite Hfn. set (slots' := map Some F ++ repeat None (nc - length F)).
    destruct (rc_loop_spec a slots' F) with (todo := F) (done := @nil nat) (toks := toks) as (toks' & Hrc & Hl & Hg); auto.
    - intros p i Hp. unfold slot, vget, slots'. rewrite nth_error_app1 by (rewrite map_length; now apply nth_error_some_lt in Hp).
      rewrite nth_error_map, Hp. reflexivity.
    - intros i [[a' p]|] Hi; specialize (Ht i _ Hi); simpl in *; auto. destruct Ht as [-> Hp]. auto.
    - cbn [length] in Hrc. rewrite Hrc. cbn [bind]. exists slots', toks'. split; auto. split; [|split; auto].
      + split; auto; [unfold slots'; eauto|]. intros i Hi. rewrite Hl. auto.
      + unfold slots'. rewrite app_length, map_length, repeat_length. lia.
  Qed.

  (** A new bucket is not in the front. *)
  Lemma rep_new a slots n toks F : rep a slots n toks F -> rep a slots n (toks ++ [None]) F.
  Proof.
    intros [Hs Hn Hd Ht Hb]. split; auto.
    - intros i t Hi. destruct (lt_dec i (length toks)) as [Hlt|Hge].
      + rewrite nth_error_app1 in Hi by auto. auto.
      + rewrite nth_error_app2 in Hi by lia. destruct (i - length toks) as [|[|k]] eqn:Hk; simpl in Hi; try discriminate.
        injection Hi as <-. simpl. intros Hin. specialize (Hb i Hin). lia.
    - intros i Hi. rewrite app_length. specialize (Hb i Hi). lia.
  Qed.

  Lemma rep_length a slots n toks F : rep a slots n toks F -> length F <= length toks.
  Proof.
    intros [_ _ Hd _ Hb]. rewrite <- (seq_length (length toks) 0). apply NoDup_incl_length; auto.
    intros i Hi. apply in_seq. specialize (Hb i Hi). lia.
  Qed.

  (** * insert and keyIncreased on the front *)
  Lemma keyIncreased_spec bs a slots n toks b pre post (K : nat -> E) : rep a slots n toks (pre ++ b :: post) ->
    (forall i, In i (b :: pre) -> key bs i = Ok (K i)) ->
    exists pre1 pre2 slots' toks', pre = pre1 ++ pre2 /\
      f_keyIncreased E lt C bs (FOrder a slots n toks) b = Ok (FOrder a slots' n toks') /\
      rep a slots' n toks' (pre1 ++ b :: pre2 ++ post) /\ length toks' = length toks /\
      (forall x, In x pre2 -> lt (K x) (K b) = true) /\ (forall y p, pre1 = p ++ [y] -> lt (K y) (K b) = false).
  Proof.
    intros Hr HK. unfold f_keyIncreased, vget. rewrite (rep_tok _ _ _ _ _ (length pre) b Hr (nth_middle _ _ _)). cbn [of_option bind tok_pos].
    rewrite Nat.eqb_refl. cbn [bind].
    destruct (ki_loop_spec bs a b K pre post slots toks (rep_hole _ _ _ _ _ _ _ Hr) HK) as (p1 & p2 & s' & t' & -> & -> & Hr' & Hl & H1 & H2).
    cbn [bind]. exists p1, p2, s', t'. rewrite (r_n _ _ _ _ _ Hr). auto 10.
  Qed.

  Lemma insert_spec bs a slots n toks F b (K : nat -> E) : rep a slots n toks F -> ~ In b F -> b < length toks ->
    (forall i, In i (b :: F) -> key bs i = Ok (K i)) ->
    exists pre1 pre2 a' slots' toks', F = pre1 ++ pre2 /\
      f_insert E lt C bs (FOrder a slots n toks) b = Ok (FOrder a' slots' (S n) toks') /\
      rep a' slots' (S n) toks' (pre1 ++ b :: pre2) /\ length toks' = length toks /\
      (forall x, In x pre2 -> lt (K x) (K b) = true) /\ (forall y p, pre1 = p ++ [y] -> lt (K y) (K b) = false).
  Proof.
    intros Hr Hni Hbt HK.
    assert (Hres : exists a1 s1 t1, (if n =? length slots then fo_reserve a slots n toks (n + 1) else Ok (a, slots, toks)) = Ok (a1, s1, t1) /\
              rep a1 s1 n t1 F /\ n < length s1 /\ length t1 = length toks).
    { pose proof (r_slots _ _ _ _ _ Hr) as [rest Hs]. pose proof (r_n _ _ _ _ _ Hr) as Hn.
      destruct (Nat.eqb_spec n (length slots)) as [He|He].
      - destruct (reserve_spec _ _ _ _ _ (n + 1) Hr) as (s1 & t1 & Hf & Hr1 & Hl1 & Hl2); [lia|].
        exists (S a), s1, t1. split; auto. split; auto. split; [lia|auto].
      - exists a, slots, toks. split; auto. split; auto. split; auto. rewrite Hs, app_length, map_length in *. lia. }
    destruct Hres as (a1 & s1 & t1 & Hres & Hr1 & Hls & Hlt). unfold f_insert. rewrite Hres. cbn [bind].
    rewrite vset_ok by auto. cbn [bind]. rewrite vset_ok by lia. cbn [bind].
    assert (Hr2 : rep a1 (upd s1 n (Some b)) (S n) (upd t1 b (Some (a1, n))) (F ++ [b])).
    { destruct Hr1 as [[rest Hs] Hn Hd Ht Hb]. split.
      - assert (Hrest : rest <> []) by (intros ->; rewrite Hs, app_nil_r, map_length in Hls; lia). destruct rest as [|x rest]; [congruence|].
        exists rest. rewrite Hs, Hn, <- (map_length Some F), upd_middle, map_app, <- app_assoc. reflexivity.
      - rewrite app_length; simpl; lia.
      - eapply Permutation_NoDup; [apply Permutation_cons_append|]. now constructor.
      - apply tok_good_upd; [lia| |].
        + split; auto. rewrite Hn. apply nth_middle.
        + intros i t Hi Hti. specialize (Ht i t Hti). destruct t as [[a' p]|]; simpl in *.
          * destruct Ht as [-> Hp]. split; auto. rewrite nth_error_app1; auto. now apply nth_error_some_lt in Hp.
          * intros Hin. apply in_app_or in Hin as [Hin|[Hin|[]]]; auto.
      - intros i Hi. rewrite upd_length. apply in_app_or in Hi as [Hi|[<-|[]]]; [auto|lia]. }
    destruct (keyIncreased_spec bs _ _ _ _ b F [] K Hr2) as (p1 & p2 & s' & t' & HF & Hk & Hr' & Hl & H1 & H2).
    { intros i Hi. apply HK. exact Hi. }
    exists p1, p2, a1, s', t'. split; auto. split; auto. rewrite app_nil_r in Hr'. split; auto. split; auto. rewrite Hl, upd_length. auto.
  Qed.
End Front.
